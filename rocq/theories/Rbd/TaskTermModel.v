(** Model of the task space cost terms: ct_rbd/include/ct/rbd/robot/costfunction/TermTaskspacePosition.hpp (P),
    TermTaskspacePose.hpp (T) and TermTaskspacePoseCG.hpp (CG), with the name and activation of
    ct_optcon/include/ct/optcon/costfunction/term/TermBase-impl.hpp (B).
    Scalars are exact reals.  The position and rotation of the end-effector in the world as functions of the state vector
    (setStateFromVector with Kinematics.h, modelled in Rbd/KinModel.v and Rbd/ArmKinModel.v) are parameters, as are CppAD's Jacobians.
    Hessians and configuration files are not modelled. *)
From Coq Require Import Reals List Bool Arith String.
From Verif Require Import Base.Outcome Rbd.ContactModel Rbd.KinModel Rbd.IkCostModel Core.JitModel.
Import ListNotations.
Local Open Scope R_scope.

Section Terms.
Variable eePos : list R -> vec3.
Variable eeRotW : list R -> m3.

Definition i3 : m3 := ((1, 0, 0), (0, 1, 0), (0, 0, 1)).
Definition subm (a b : m3) : m3 := (sub3 (row0 a) (row0 b), sub3 (row1 a) (row1 b), sub3 (row2 a) (row2 b)).
(** Eigen's squaredNorm of a matrix. *)
Definition squaredNorm (a : m3) : R := dot3 (row0 a) (row0 a) + dot3 (row1 a) (row1 a) + dot3 (row2 a) (row2 a).
(** x^T Q x, from the left. *)
Definition quad (Q : m3) (v : vec3) : R := dot3 (mulv (transp Q) v) v.

(** B 12-23: name and time activation; without an activation the factor is one (ActivationBase.hpp 34). *)
Record base := mkBase { name : string; activation : R -> R }.
Definition newBase (s : string) : base := mkBase s (fun _ => 1).

(** ** Position *)
Record positionTerm := mkPosition { p_base : base; p_Q : m3; pos_ref : vec3 }.
(** P 46-61 *)
Definition newPosition (Q : m3) (p : vec3) (s : string) : positionTerm := mkPosition (newBase s) Q p.
(** ct_optcon/costfunction/term/TermBase-impl.hpp 137-141 *)
Definition activatePosition (a : R -> R) (c : positionTerm) : positionTerm := mkPosition (mkBase (name (p_base c)) a) (p_Q c) (pos_ref c).
(** P 70-81: the base class is constructed by default. *)
Definition clonePosition (c : positionTerm) : positionTerm := mkPosition (newBase "Unnamed"%string) (p_Q c) (pos_ref c).
(** P 116-127 *)
Definition evaluatePosition (c : positionTerm) (x : list R) : R := quad (p_Q c) (sub3 (eePos x) (pos_ref c)).
(** B 32-38 *)
Definition evalPosition (c : positionTerm) (x : list R) (t : R) : R := activation (p_base c) t * evaluatePosition c x.

(** ** Pose *)
Record poseTerm := mkPoseTerm { t_base : base; t_Qpos : m3; t_Qrot : R; w_p_ref : vec3; w_R_ref : m3 }.
(** T 62-75 *)
Definition newPoseTerm (Qpos : m3) (Qrot : R) (p : vec3) (q : quat) (s : string) : poseTerm := mkPoseTerm (newBase s) Qpos Qrot p (qmat (qnormalized q)).
(** T 78-94 *)
Definition newPoseTermEuler (Qpos : m3) (Qrot : R) (p e : vec3) (s : string) : poseTerm :=
  newPoseTerm Qpos Qrot p (qmul (qmul (aaX (vx e)) (aaY (vy e))) (aaZ (vz e))) s.
(** T 104-121 *)
Definition clonePose (c : poseTerm) : poseTerm := mkPoseTerm (t_base c) (t_Qpos c) (t_Qrot c) (w_p_ref c) (w_R_ref c).
(** T 185-187 *)
Definition setRefPosition (p : vec3) (c : poseTerm) : poseTerm := mkPoseTerm (t_base c) (t_Qpos c) (t_Qrot c) p (w_R_ref c).
Definition setRefOrientation (r : m3) (c : poseTerm) : poseTerm := mkPoseTerm (t_base c) (t_Qpos c) (t_Qrot c) (w_p_ref c) r.
(** T 239-260 *)
Definition poseCost (Qpos : m3) (Qrot : R) (pref : vec3) (rref : m3) (x : list R) : R :=
  let xDiff := sub3 (eePos x) pref in
  let ee_rot_diff := mulm (transp rref) (eeRotW x) in
  quad Qpos xDiff + Qrot * squaredNorm (subm ee_rot_diff i3).
Definition evaluatePose (c : poseTerm) (x : list R) : R := poseCost (t_Qpos c) (t_Qrot c) (w_p_ref c) (w_R_ref c) x.

(** A program using a term. *)
Inductive poseOp := RefPosition (p : vec3) | RefOrientation (r : m3) | ClonePose.
Definition poseStep (c : poseTerm) (o : poseOp) : poseTerm :=
  match o with RefPosition p => setRefPosition p c | RefOrientation r => setRefOrientation r c | ClonePose => clonePose c end.

(** ** Pose, with compiled derivatives *)
Variable jacOf : func -> vec -> nat -> nat -> R.
Variable patternOf : func -> nat -> nat -> list (nat * nat).
Variables n m : nat.
(** CG 50: states, controls, position, rotation, time. *)
Definition AD_PARAMETER_DIM : nat := (n + m + 3 + 9 + 1)%nat.
Definition setSegment (off : nat) (l v : list R) : list R := firstn off v ++ l ++ skipn (off + List.length l) v.
(** CG 346-352: column by column. *)
Definition vectorized (r : m3) : list R :=
  [vx (row0 r); vx (row1 r); vx (row2 r); vy (row0 r); vy (row1 r); vy (row2 r); vz (row0 r); vz (row1 r); vz (row2 r)].
(** CG 381-404 *)
Definition extractPosition (v : list R) : vec3 := let o := (n + m)%nat in (nth o v 0, nth (o + 1) v 0, nth (o + 2) v 0).
Definition extractRotation (v : list R) : m3 :=
  let o := (n + m + 3)%nat in
  ((nth o v 0, nth (o + 3) v 0, nth (o + 6) v 0), (nth (o + 1) v 0, nth (o + 4) v 0, nth (o + 7) v 0), (nth (o + 2) v 0, nth (o + 5) v 0, nth (o + 8) v 0)).
(** CG 428-465 *)
Definition evalLocal (Qpos : m3) (Qrot : R) (v : vec) : vec := [poseCost Qpos Qrot (extractPosition v) (extractRotation v) (firstn n v)].
Record cgTerm := mkCG { cg_base : base; cg_Qpos : m3; cg_Qrot : R; cg_jit : jit; adParameterVector : list R; evalControlDerivatives : bool }.
(** CG 334-337, 346-358 *)
Definition cgSetPosition (p : vec3) (c : cgTerm) : cgTerm :=
  mkCG (cg_base c) (cg_Qpos c) (cg_Qrot c) (cg_jit c) (setSegment (n + m) [vx p; vy p; vz p] (adParameterVector c)) (evalControlDerivatives c).
Definition cgSetRotation (r : m3) (c : cgTerm) : cgTerm :=
  mkCG (cg_base c) (cg_Qpos c) (cg_Qrot c) (cg_jit c) (setSegment (n + m + 3) (vectorized r) (adParameterVector c)) (evalControlDerivatives c).
Definition cgSetQuaternion (q : quat) (c : cgTerm) : cgTerm := cgSetRotation (qmat (qnormalized q)) c.
(** CG 68-80 with setup (165-183); [junk] is the uninitialised parameter vector. *)
Definition newCG (Qpos : m3) (Qrot : R) (p : vec3) (q : quat) (s : string) (evalU : bool) (junk : list R) : outcome cgTerm :=
  let j := newJit (evalLocal Qpos Qrot) AD_PARAMETER_DIM 1 in
  let c := cgSetQuaternion q (cgSetPosition p (mkCG (newBase s) Qpos Qrot j junk evalU)) in
  do j' <- compileJIT patternOf true false j ;;
  Ok (mkCG (cg_base c) Qpos Qrot j' (adParameterVector c) evalU).
(** CG 143-162 *)
Definition cloneCG (c : cgTerm) : outcome cgTerm :=
  do j <- copyJit (cg_jit c) ;; Ok (mkCG (cg_base c) (cg_Qpos c) (cg_Qrot c) j (adParameterVector c) (evalControlDerivatives c)).
(** CG 186-193 *)
Definition cgSetCurrent (x u : list R) (t : R) (c : cgTerm) : cgTerm :=
  let v := setSegment 0 x (adParameterVector c) in let v := setSegment n u v in let v := setSegment (AD_PARAMETER_DIM - 1) [t] v in
  mkCG (cg_base c) (cg_Qpos c) (cg_Qrot c) (cg_jit c) v (evalControlDerivatives c).
(** CG 197-203 *)
Definition cgEvaluate (x u : list R) (t : R) (c : cgTerm) : outcome R * cgTerm :=
  let c' := cgSetCurrent x u t c in (do y <- forwardZero (cg_jit c') (adParameterVector c') ;; Ok (nth 0 y 0), c').
(** CG 207-214 *)
Definition cgStateDerivative (x u : list R) (t : R) (c : cgTerm) : outcome (list R) * cgTerm :=
  let c' := cgSetCurrent x u t c in
  (do J <- jacobian jacOf (cg_jit c') (adParameterVector c') ;; Ok (map (fun k => J 0%nat k) (seq 0 n)), c').
(** CG 217-229 *)
Definition cgControlDerivative (x u : list R) (t : R) (c : cgTerm) : outcome (list R) * cgTerm :=
  if evalControlDerivatives c then
    let c' := cgSetCurrent x u t c in
    (do J <- jacobian jacOf (cg_jit c') (adParameterVector c') ;; Ok (map (fun k => J 0%nat (n + k)%nat) (seq 0 m)), c')
  else (Ok (repeat 0 m), c).

(** A program using a term. *)
Inductive cgOp := SetPosition (p : vec3) | SetRotation (r : m3) | SetQuaternion (q : quat) | EvaluateAt (x u : list R) (t : R) | CloneTerm.
Definition cgStep (c : cgTerm) (o : cgOp) : outcome cgTerm :=
  match o with
  | SetPosition p => Ok (cgSetPosition p c)
  | SetRotation r => Ok (cgSetRotation r c)
  | SetQuaternion q => Ok (cgSetQuaternion q c)
  | EvaluateAt x u t => let '(y, c') := cgEvaluate x u t c in do _ <- y ;; Ok c'
  | CloneTerm => cloneCG c
  end.
Fixpoint cgExec (c : cgTerm) (l : list cgOp) : outcome cgTerm := match l with [] => Ok c | o :: r => do c' <- cgStep c o ;; cgExec c' r end.
End Terms.
