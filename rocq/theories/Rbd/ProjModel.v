(** Model of /repo/ct_rbd/include/ct/rbd/robot/ProjectedDynamics.h and of the functions of
    /repo/ct_rbd/include/ct/rbd/robot/Dynamics.h that use it.  Scalars are elements of an ordered field (exact arithmetic).
    Dynamically sized matrices and vectors are functions of their indices, whose content is arbitrary where the code leaves it
    uninitialised (the arguments called junk).  Accelerations are coordinate vectors, base (angular, linear) before joints. *)
From mathcomp Require Import all_ssreflect all_algebra.
From Verif Require Import Core.InverseModel Rbd.OpJacModel.
Set Implicit Arguments. Unset Strict Implicit. Unset Printing Implicit Defensive.
Import GRing.Theory Num.Theory.
Local Open Scope ring_scope.

Section Proj.
Variables (F : realFieldType) (NJOINTS NEE : nat) (state : Type).
Notation mat := (nat -> nat -> F).
Notation vec := (nat -> F).
Notation NDOF := (6 + NJOINTS)%N.

(** The generated robot code as functions of the state: jSim().update (204), the Coriolis and centrifugal terms (201), the
    gravity terms (216), base and joints stacked; the three rows of the floating base Jacobian of an end-effector and its time
    derivative (C69); x.toCoordinateVelocity(); x.baseLocalAngularVelocity(); getEEVelocityInBase. *)
Variables (jSim : state -> mat) (C_terms G_terms : state -> vec).
Variables (footJ footdJ : nat -> state -> mat).
Variables (coordinateVelocity baseLocalAngularVelocity : state -> vec) (eeVelocityInBase : nat -> state -> vec).
(** Eigen's LDLT solve of the operational Jacobian, and V diag(1 / s_i or 0) U^T of the singular value decomposition (234-238). *)
Variable ldltSolveIdentity : 'M[F]_(3 * NEE) -> 'M[F]_(3 * NEE).
Variable pinv : 'M[F]_(NDOF, NJOINTS) -> 'M[F]_(NJOINTS, NDOF).

(** Writing the h x w block of A with upper left corner (r, c); reading an entry; a function as matrix. *)
Definition set_block (A : mat) (r c h w : nat) (v : mat) : mat :=
  fun i j => if (r <= i < r + h)%N && (c <= j < c + w)%N then v (i - r)%N (j - c)%N else A i j.
Definition set_segment (a : vec) (r h : nat) (v : vec) : vec := fun i => if (r <= i < r + h)%N then v (i - r)%N else a i.
Definition at2 m n (A : 'M[F]_(m, n)) (i j : nat) : F :=
  match insub i, insub j with Some i', Some j' => A i' j' | _, _ => 0 end.
Definition cross (a b : vec) : vec := fun r =>
  match r with
  | 0 => a 1%N * b 2%N - a 2%N * b 1%N
  | 1 => a 2%N * b 0%N - a 0%N * b 2%N
  | _ => a 0%N * b 1%N - a 1%N * b 0%N
  end.

(** The fields neec_ (167), c_size_, ee_indices_, eeInContact_ of the constraint Jacobian (ConstraintJacobian.h 43-45). *)
Record contacts := mkContacts { neec : nat; c_size : nat; ee_indices : seq nat; eeInContact : nat -> bool }.
(** 174-178; [sized] is the number of contacts the matrices are sized for (None: empty). *)
Record mats := mkMats { sized : option nat; Jc_reduced : mat; dJcdt_reduced : mat; feet_crossproduct : vec;
                        MJTJ0 : mat; b_ : vec; qddlambda : vec }.
Record terms := mkTerms { M_ : mat; h_ : vec; f_ : vec }.
Record pd := mkPd { ee_in_contact : nat -> bool; cs : contacts; jac : opjac F (3 * NEE) NDOF state; ms : mats; tm : terms }.

(** ConstraintJacobian.h 73-154 (modelled in detail in Rbd/JacModel.v): the rows of the listed end-effectors. *)
Definition constraintRows (c : contacts) (foot : nat -> state -> mat) (x : state) : 'M[F]_(3 * NEE, NDOF) :=
  let A := foldl (fun A ee => if eeInContact c ee then set_block A (3 * ee) 0 3 NDOF (foot ee x) else A)
             (fun _ _ => 0) (ee_indices c) in
  \matrix_(i, j) A i j.

(** 278-296 *)
Definition ResetJacobianStructure (inContact : nat -> bool) (c : contacts) : contacts :=
  foldl (fun c ee => if inContact ee
                     then mkContacts (neec c).+1 (c_size c + 3) (rcons (ee_indices c) ee)
                            (fun e => if e == ee then inContact ee else eeInContact c e)
                     else c)
    (mkContacts 0 0 [::] (eeInContact c)) (iota 0 NEE).
(** 298-312: Eigen's resize keeps the content if the size stays the same; S_ is the constant below. *)
Definition setSizes (n : nat) (m : mats) (junkM : mat) (junkV : vec) : mats :=
  if sized m == Some n then mkMats (sized m) (Jc_reduced m) (dJcdt_reduced m) (feet_crossproduct m) (fun _ _ => 0) (b_ m) (qddlambda m)
  else mkMats (Some n) junkM junkM junkV (fun _ _ => 0) junkV junkV.
(** 310-311: the transpose of S_ *)
Definition St : 'M[F]_(NDOF, NJOINTS) := \matrix_(i, j) (if (i < 6)%N then 0 else ((i - 6)%N == j)%:R).
(** 67-72; 187-193: the constructor does the same with uninitialised members. *)
Definition setContactConfiguration (s : pd) (eeinc : nat -> bool) (junkM : mat) (junkV : vec) : pd :=
  let c := ResetJacobianStructure eeinc (cs s) in
  mkPd eeinc c (jac s) (setSizes (neec c) (ms s) junkM junkV) (tm s).

(** 195-208 and 210-222 *)
Definition updateDynamicsTermsNoGravity (x : state) (u : vec) : terms :=
  mkTerms (jSim x) (C_terms x) (fun i => if (i < 6)%N then 0 else u (i - 6)%N).
Definition updateDynamicsTerms (x : state) (u : vec) : terms :=
  let t := updateDynamicsTermsNoGravity x u in mkTerms (M_ t) (fun i => h_ t i + G_terms x i) (f_ t).

(** 252-264: the loop over the end-effectors. *)
Record gather := mkGather { rowCount : nat; g_jac : opjac F (3 * NEE) NDOF state; g_J : mat; g_dJ : mat; g_cross : vec }.
Definition gatherFoot (s : pd) (x : state) (g : gather) (ee : nat) : gather :=
  if ee_in_contact s ee then
    let (Jv, o1) := J (constraintRows (cs s) footJ) (g_jac g) in
    let (dJv, o2) := dJdt (constraintRows (cs s) footdJ) o1 in
    mkGather (rowCount g + 3) o2
      (set_block (g_J g) (rowCount g) 0 3 NDOF (fun i j => at2 Jv (3 * ee + i) j))
      (set_block (g_dJ g) (rowCount g) 0 3 NDOF (fun i j => at2 dJv (3 * ee + i) j))
      (set_segment (g_cross g) (rowCount g) 3 (cross (baseLocalAngularVelocity x) (eeVelocityInBase ee x)))
  else g.
(** 247-276 *)
Definition ProjectedForwardDynamicsCommon (s : pd) (x : state) (u : vec) (junkM : mat) (junkV : vec) : pd :=
  let m := ms s in
  let n := (3 * neec (cs s))%N in
  let g := foldl (gatherFoot s x)
             (mkGather 0 (updateState (jac s) x 1%:M) (Jc_reduced m) (dJcdt_reduced m) (feet_crossproduct m)) (iota 0 NEE) in
  let t := updateDynamicsTerms x u in
  let A := set_block (MJTJ0 m) 0 0 NDOF NDOF (M_ t) in
  let A := set_block A NDOF 0 n NDOF (fun i j => - g_J g i j) in
  let A := set_block A 0 NDOF NDOF n (fun i j => - g_J g j i) in
  let b := set_segment (b_ m) 0 NDOF (fun i => f_ t i - h_ t i) in
  let b := set_segment b NDOF n (fun i => \sum_(0 <= j < NDOF) g_dJ g i j * coordinateVelocity x j + g_cross g i) in
  let X := LDLTsolve (NDOF + n) 1 A (fun i _ => b i) junkV junkV junkM in
  mkPd (ee_in_contact s) (cs s) (g_jac g) (mkMats (sized m) (g_J g) (g_dJ g) (g_cross g) A b (fun i => X i 0%N)) t.
(** 86-91 *)
Definition ProjectedForwardDynamics (s : pd) (x : state) (u : vec) (junkM : mat) (junkV : vec) : vec * pd :=
  let s' := ProjectedForwardDynamicsCommon s x u junkM junkV in (qddlambda (ms s'), s').
(** 94-109: the force of every end-effector. *)
Definition getContactForcesInBase (s : pd) (lambda : nat -> vec) : nat -> vec :=
  (foldl (fun (p : nat * (nat -> vec)) ee =>
            if ee_in_contact s ee
            then ((p.1 + 3)%N, fun e => if e == ee then (fun r => qddlambda (ms s) (NDOF + p.1 + r)%N) else p.2 e)
            else (p.1, fun e => if e == ee then (fun _ => 0) else p.2 e))
     (0%N, lambda) (iota 0 NEE)).2.
(** 112-116 *)
Definition getContactForcesInBaseAt (s : pd) (x : state) (u : vec) (lambda : nat -> vec) (junkM : mat) (junkV : vec) : (nat -> vec) * pd :=
  let s' := ProjectedForwardDynamicsCommon s x u junkM junkV in (getContactForcesInBase s' lambda, s').
(** 224-245; [t] holds the terms computed before. *)
Definition ProjectedInverseDynamicsCommon (s : pd) (t : terms) (x : state) (qdd : vec) : vec * pd :=
  let (P, o) := P (constraintRows (cs s) footJ) ldltSolveIdentity (updateState (jac s) x 1%:M) in
  let Mqdd := \matrix_(i, j) M_ t i j *m (\col_(i < NDOF) qdd i) in
  let u := pinv (P *m St) *m P *m (Mqdd + \col_i h_ t i) in
  (fun i => at2 u i 0%N, mkPd (ee_in_contact s) (cs s) o (ms s) t).
(** 125-135; [u0] is the previous content of the result. *)
Definition ProjectedInverseDynamics (s : pd) (x : state) (qdd u0 : vec) : vec * pd :=
  ProjectedInverseDynamicsCommon s (updateDynamicsTerms x u0) x qdd.
Definition ProjectedInverseDynamicsNoGravity (s : pd) (x : state) (qdd u0 : vec) : vec * pd :=
  ProjectedInverseDynamicsCommon s (updateDynamicsTermsNoGravity x u0) x qdd.
End Proj.

(** Dynamics.h 307-320: the wrench of the base and the joint torques from the generated fully actuated inverse dynamics;
    [b_accel] is the uninitialised local variable of line 315. *)
Definition FloatingBaseFullyActuatedID (state accel joints forces wrench control : Type)
  (id_fully_actuated : state -> accel -> joints -> forces -> wrench * control)
  (x : state) (base_a : accel) (qdd : joints) (l_forces : forces) (b_accel : accel) : wrench * control :=
  id_fully_actuated x b_accel qdd l_forces.
