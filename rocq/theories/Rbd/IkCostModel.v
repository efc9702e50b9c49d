(** Model of the inverse kinematics cost: /repo/ct_rbd/include/ct/rbd/robot/costfunction/TermTaskspaceGeometricJacobian.hpp and
    robot/kinematics/ik_nlp/IKCostEvaluator.h 28-130, 157-183.  Scalars are exact reals.  Quaternions of Eigen are written out;
    the generated robot code (RobCoGen) is a parameter. *)
From Coq Require Import Reals List Bool.
From Verif Require Import Base.Outcome Rbd.ContactModel Rbd.KinModel.
Import ListNotations.
Local Open Scope R_scope.

(** ** Eigen *)

Definition trace3 (m : m3) : R := vx (row0 m) + vy (row1 m) + vz (row2 m).
(** Quaterniond(const Matrix3d&) *)
Definition quatOfMat (m : m3) : quat :=
  let '((m00, m01, m02), (m10, m11, m12), (m20, m21, m22)) := m in
  if Rlt_dec 0 (trace3 m) then
    let t := sqrt (trace3 m + 1) in let s := / 2 / t in (/ 2 * t, (m21 - m12) * s, (m02 - m20) * s, (m10 - m01) * s)
  else
    let i := if Rlt_dec m00 m11 then if Rlt_dec m11 m22 then 2%nat else 1%nat else if Rlt_dec m00 m22 then 2%nat else 0%nat in
    match i with
    | 0%nat => let t := sqrt (m00 - m11 - m22 + 1) in let s := / 2 / t in ((m21 - m12) * s, / 2 * t, (m10 + m01) * s, (m20 + m02) * s)
    | 1%nat => let t := sqrt (m11 - m22 - m00 + 1) in let s := / 2 / t in ((m02 - m20) * s, (m01 + m10) * s, / 2 * t, (m21 + m12) * s)
    | _ => let t := sqrt (m22 - m00 - m11 + 1) in let s := / 2 / t in ((m10 - m01) * s, (m02 + m20) * s, (m12 + m21) * s, / 2 * t)
    end.
Definition qnorm2 (q : quat) : R := let '(w, x, y, z) := q in w * w + x * x + y * y + z * z.
Definition qscale (c : R) (q : quat) : quat := let '(w, x, y, z) := q in (c * w, c * x, c * y, c * z).
(** Quaterniond::inverse(): zero for the zero quaternion *)
Definition qinv (q : quat) : quat := if Rlt_dec 0 (qnorm2 q) then qscale (/ qnorm2 q) (qconj q) else (0, 0, 0, 0).
(** Quaterniond::normalized(): unchanged if the squared norm is zero *)
Definition qnormalized (q : quat) : quat := if Rlt_dec 0 (qnorm2 q) then qscale (/ sqrt (qnorm2 q)) q else q.
(** atan2(y, x) for y > 0 and x >= 0 *)
Definition atan2pos (y x : R) : R := if Rlt_dec 0 x then atan (y / x) else PI / 2.
(** AngleAxis(const Quaternion&), as (angle, axis) *)
Definition angleAxis (q : quat) : R * vec3 :=
  let '(w, x, y, z) := q in
  let n := sqrt (x * x + y * y + z * z) in
  if Req_EM_T n 0 then (0, (1, 0, 0))
  else let n' := if Rlt_dec w 0 then - n else n in (2 * atan2pos n (Rabs w), (x / n', y / n', z / n')).

(** ** TermTaskspaceGeometricJacobian *)

(** The generated code: end-effector position and rotation in the base, and the geometric Jacobian as the list of its columns,
    each with rotational (top rows) and translational part (bottom rows). *)
Record kin := mkKin { eePosition : nat -> list R -> vec3; eeRot : nat -> list R -> m3; eeJac : nat -> list R -> list (vec3 * vec3) }.
(** 311-324 *)
Record term := mkTerm { eeInd : nat; Q_pos : m3; Q_rot : m3; x_ref : vec3; R_ref : m3 }.
(** 291, 295, 298-301 *)
Definition setReferencePosition (c : term) (p : vec3) : term := mkTerm (eeInd c) (Q_pos c) (Q_rot c) p (R_ref c).
Definition setReferenceRotation (c : term) (r : m3) : term := mkTerm (eeInd c) (Q_pos c) (Q_rot c) (x_ref c) r.
Definition setReferenceOrientation (c : term) (q : quat) : term := setReferenceRotation c (qmat (qnormalized q)).
(** 289, 293 *)
Definition getReferencePosition (c : term) : vec3 := x_ref c.
Definition getReferenceOrientation (c : term) : quat := quatOfMat (R_ref c).
(** 42-52 *)
Definition newTerm (ee : nat) (Qpos Qrot : m3) (p : vec3) (q : quat) : term :=
  setReferenceOrientation (setReferencePosition (mkTerm ee Qpos Qrot zero3 (zero3, zero3, zero3)) p) q.
(** 71-87, 265-268: from Euler angles *)
Definition newTermEuler (ee : nat) (Qpos Qrot : m3) (p e : vec3) : term :=
  newTerm ee Qpos Qrot p (qmul (qmul (aaX (vx e)) (aaY (vy e))) (aaZ (vz e))).
(** 90-100 *)
Definition newTermDummy (ee : nat) (Qpos Qrot : m3) : term := newTerm ee Qpos Qrot zero3 (0, 0, 0, 1).

Section Term.
Variables (k : kin) (n : nat).  (** n is NJOINTS *)

(** The base pose of a default RBDState (RigidBodyPose.h 51-56): Euler angles zero, position zero. *)
Definition basePose : pose := mkPose EULER (1, 0, 0, 0) zero3 zero3.
(** 135-140, 169-179 *)
Definition xDiff (c : term) (x : list R) : vec3 :=
  sub3 (getEEPositionInWorld (list R) (eePosition k) (eeInd c) basePose (firstn n x)) (x_ref c).
(** 146-153, 185-192 *)
Definition qDiff (c : term) (x : list R) : vec3 :=
  let orientation := quatOfMat (eeRot k (eeInd c) (firstn n x)) in
  let error := qmul orientation (qinv (quatOfMat (R_ref c))) in
  scale3 (fst (angleAxis error)) (snd (angleAxis error)).
(** 130-158; v^T Q v as (v^T Q) v *)
Definition quadForm (Q : m3) (v : vec3) : R := dot3 (mulv (transp Q) v) v.
Definition evaluate (c : term) (x : list R) : R := / 2 * quadForm (Q_pos c) (xDiff c x) + / 2 * quadForm (Q_rot c) (qDiff c x).
(** J^T w for the rotational and the translational rows *)
Definition rotT (J : list (vec3 * vec3)) (w : vec3) : list R := map (fun col => dot3 (fst col) w) J.
Definition posT (J : list (vec3 * vec3)) (w : vec3) : list R := map (fun col => dot3 (snd col) w) J.
Definition addl (a b : list R) : list R := map (fun p => fst p + snd p) (combine a b).
(** 162-197; m further states behind the joint positions *)
Definition stateDerivative (m : nat) (c : term) (x : list R) : list R :=
  let J := eeJac k (eeInd c) (firstn n x) in
  addl (posT J (mulv (Q_pos c) (xDiff c x))) (rotT J (mulv (Q_rot c) (qDiff c x))) ++ repeat 0 m.
(** 208-224; the entry (i, j) *)
Definition stateSecondDerivative (c : term) (x : list R) (i j : nat) : R :=
  let J := eeJac k (eeInd c) (firstn n x) in
  if (Nat.ltb i n && Nat.ltb j n)%bool then
    let a := nth i J (zero3, zero3) in let b := nth j J (zero3, zero3) in
    dot3 (snd a) (mulv (Q_pos c) (snd b)) + dot3 (fst a) (mulv (Q_rot c) (fst b))
  else 0.

(** ** IKCostEvaluator *)

(** The optional joint reference term (TermQuadratic, C42): its value and its derivatives. *)
Record joint_term := mkJointTerm { jt_eval : list R -> R; jt_grad : list R -> list R; jt_hess : list R -> nat -> nat -> R }.
(** 187-194 *)
Record evaluator := mkEvaluator { w_ : option (list R); goal : term; jointRef : option joint_term; regularizer : option (list R -> nat -> nat -> R) }.
(** 28-36 *)
Definition newEvaluator (ee : nat) (Qpos Qrot : m3) : evaluator := mkEvaluator None (newTermDummy ee Qpos Qrot) None None.
(** 68, 71 *)
Definition setOptVector (e : evaluator) (w : list R) : evaluator := mkEvaluator (Some w) (goal e) (jointRef e) (regularizer e).
Definition setRegularizer (e : evaluator) (r : option (list R -> nat -> nat -> R)) : evaluator := mkEvaluator (w_ e) (goal e) (jointRef e) r.
(** 76-80, 83-87 *)
Definition setTargetPose (e : evaluator) (p : vec3) (q : quat) : evaluator :=
  mkEvaluator (w_ e) (setReferenceOrientation (setReferencePosition (goal e) p) q) (jointRef e) (regularizer e).
(** 100-115 *)
Definition eval (e : evaluator) : outcome R :=
  match w_ e with
  | Some w => Ok (evaluate (goal e) w + match jointRef e with Some j => jt_eval j w | None => 0 end)
  | None => Throw
  end.
(** 118-133 *)
Definition evalGradient (e : evaluator) : outcome (list R) :=
  match w_ e with
  | Some w => let g := stateDerivative 0 (goal e) w in Ok (match jointRef e with Some j => addl g (jt_grad j w) | None => g end)
  | None => Throw
  end.
(** 158-183: the matrix that is multiplied by the objective factor (C81) *)
Definition evalHessian (e : evaluator) (i j : nat) : outcome R :=
  match w_ e with
  | Some w => Ok (stateSecondDerivative (goal e) w i j + match jointRef e with Some t => jt_hess t w i j | None => 0 end
                  + match regularizer e with Some r => r w i j | None => 0 end)
  | None => Throw
  end.
End Term.
