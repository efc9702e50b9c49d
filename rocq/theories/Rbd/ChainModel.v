(** Model of the generated dynamics of fixed base serial arms with revolute joints:
    ct_models/include/ct/models/{InvertedPendulum,DoubleInvertedPendulum,HyA}/generated/{forward_dynamics,inverse_dynamics,jsim}.impl.h
    and ct_rbd/test/models/testIrb4600/generated.  The files repeat one block of statements per link; the model is that block,
    applied to a list of links (line numbers below are those of DoubleInvertedPendulum, Link2 being the block of every link
    after the first).  Members that a call overwrites completely before reading them are not part of the state; the local IaB
    and the spare inertia start with arbitrary contents [G].  Scalars are real. *)
From Coq Require Import Reals List Bool Arith.
From Verif Require Import Base.RVec Rbd.SpatialModel.
Import ListNotations.
Local Open Scope R_scope.

Definition trans (M : mat) : mat := fun i j => M j i.
(** rbd.h 185. *)
Definition g : R := 981 / 100.

(** One link: transform from the previous link's coordinates, inertia, joint velocity, external force. *)
Record joint := mkJ { jX : mat; jI : mat; jqd : R; jf : rvec }.

(** ** Forward dynamics, forward_dynamics.impl.h *)
(** The members read before they are written: vcross, Ia_r and the velocity of the first link; constructor 8-20. *)
Record fdState := mkFd { fdV : mat; fdIa : mat; fdv1 : rvec }.
Definition newFd : fdState := mkFd (fun _ _ => 0) (fun _ _ => 0) (fun _ => 0).

(** After the first pass: transform, inertia, joint force, velocity product acceleration, bias force. *)
Record pass1 := mk1 { pX : mat; pI : mat; ptau : R; pc : rvec; pp : rvec }.
(** First pass of the links after the first, 47-57; the pair is a link with its joint force. *)
Fixpoint fdPass1 (vprev : rvec) (V : mat) (l : list (joint * R)) : list pass1 * mat :=
  match l with
  | [] => ([], V)
  | (j, tau) :: l' =>
      let v0 := rmv 6 (jX j) vprev in
      let v := rset v0 AZ (v0 AZ + jqd j) in
      let V1 := motionCross v V in
      let c := fun i => V1 i AZ * jqd j in
      let p := fun i => - jf j i + vxIv v (jI j) i in
      let '(r, V2) := fdPass1 v V1 l' in
      (mk1 (jX j) (jI j) tau c p :: r, V2)
  end.
(** After the second pass: transform, velocity product acceleration, U, D, u. *)
Record pass2 := mk2 { qX : mat; qc : rvec; qU : rvec; qD : R; qu : R }.
(** Second pass from the tip, 64-73: what the subtree adds to the articulated inertia and bias force of the link before. *)
Fixpoint fdPass2 (l : list pass1) (Ia G : mat) : list pass2 * (mat * rvec) * mat :=
  match l with
  | [] => ([], (fun _ _ => 0, fun _ => 0), Ia)
  | x :: l' =>
      let '(r, (AIadd, padd), Ia1) := fdPass2 l' Ia G in
      let AI := fun i j => pI x i j + AIadd i j in
      let p := fun i => pp x i + padd i in
      let u := ptau x - p AZ in
      let U := fun i => AI i AZ in
      let D := U AZ in
      let Ia2 := compute_Ia_revolute AI U D Ia1 in
      let pa := fun i => p i + rmv 6 Ia2 (pc x) i + U i * u / D in
      let IaB := ctransform_Ia_revolute Ia2 (pX x) G in
      (mk2 (pX x) (pc x) U D u :: r, (IaB, rmv 6 (trans (pX x)) pa), Ia2)
  end.
(** Third pass, 87-89. *)
Fixpoint fdPass3 (aprev : rvec) (l : list pass2) : list R :=
  match l with
  | [] => []
  | y :: l' =>
      let a0 := fun i => rmv 6 (qX y) aprev i + qc y i in
      let qdd := (qu y - rdot 6 (qU y) a0) / qD y in
      qdd :: fdPass3 (rset a0 AZ (a0 AZ + qdd)) l'
  end.
(** fd, 23-92: first link [j] with joint force [tau], the other links with theirs. *)
Definition fd (st : fdState) (G : mat) (j : joint) (tau : R) (rest : list (joint * R)) : list R * fdState :=
  let v1 := rset (fdv1 st) AZ (jqd j) in
  let p1 := fun i => - jf j i + vxIv_z (jqd j) (jI j) i in
  let '(l1, V) := fdPass1 v1 (fdV st) rest in
  let '(l2, (AIadd, padd), Ia) := fdPass2 l1 (fdIa st) G in
  let AI := fun a b => jI j a b + AIadd a b in
  let p := fun i => p1 i + padd i in
  let u := tau - p AZ in
  let U := fun i => AI i AZ in
  let D := U AZ in
  let a0 := fun i => jX j i LZ * g in
  let qdd := (u - rdot 6 U a0) / D in
  (qdd :: fdPass3 (rset a0 AZ (a0 AZ + qdd)) l2, mkFd V Ia v1).

(** ** Inverse dynamics, inverse_dynamics.impl.h *)
(** The members read before they are written; constructor 8-21. *)
Record idState := mkId { idV : mat; idv1 : rvec }.
Definition newId : idState := mkId (fun _ _ => 0) (fun _ => 0).
(** firstPass 78-87 and secondPass 94-96 of the links after the first, with joint accelerations; the joint forces and the
    force passed to the link before. *)
Fixpoint idPass (vprev aprev : rvec) (V : mat) (l : list (joint * R)) : list R * rvec * mat :=
  match l with
  | [] => ([], fun _ => 0, V)
  | (j, qdd) :: l' =>
      let v0 := rmv 6 (jX j) vprev in
      let v := rset v0 AZ (v0 AZ + jqd j) in
      let V1 := motionCross v V in
      let a0 := fun i => rmv 6 (jX j) aprev i + V1 i AZ * jqd j in
      let a := rset a0 AZ (a0 AZ + qdd) in
      let f0 := fun i => rmv 6 (jI j) a i + vxIv v (jI j) i - jf j i in
      let '(taus, fadd, V2) := idPass v a V1 l' in
      let f := fun i => f0 i + fadd i in
      (f AZ :: taus, rmv 6 (trans (jX j)) f, V2)
  end.
(** id 24-31, firstPass 69-89, secondPass 92-99. *)
Definition id (st : idState) (j : joint) (qdd : R) (rest : list (joint * R)) : list R * idState :=
  let a0 := fun i => jX j i LZ * g in
  let a := rset a0 AZ (a0 AZ + qdd) in
  let v1 := rset (idv1 st) AZ (jqd j) in
  let f0 := fun i => rmv 6 (jI j) a i + vxIv_z (jqd j) (jI j) i - jf j i in
  let '(taus, fadd, V) := idPass v1 a (idV st) rest in
  (f0 AZ + fadd AZ :: taus, mkId V v1).
(** G_terms, 34-44. *)
Fixpoint gPass (aprev : rvec) (l : list joint) : list R * rvec :=
  match l with
  | [] => ([], fun _ => 0)
  | j :: l' =>
      let a := rmv 6 (jX j) aprev in
      let '(taus, fadd) := gPass a l' in
      let f := fun i => rmv 6 (jI j) a i + fadd i in
      (f AZ :: taus, rmv 6 (trans (jX j)) f)
  end.
Definition G_terms (j : joint) (rest : list joint) : list R :=
  let a := fun i => jX j i LZ * g in
  let '(taus, fadd) := gPass a rest in
  rmv 6 (jI j) a AZ + fadd AZ :: taus.
(** C_terms, 47-66.  The block of the second link leaves out the product with the acceleration of the first, which is none. *)
Fixpoint cPass (vprev aprev : rvec) (V : mat) (l : list joint) : list R * rvec * mat :=
  match l with
  | [] => ([], fun _ => 0, V)
  | j :: l' =>
      let v0 := rmv 6 (jX j) vprev in
      let v := rset v0 AZ (v0 AZ + jqd j) in
      let V1 := motionCross v V in
      let a := fun i => rmv 6 (jX j) aprev i + V1 i AZ * jqd j in
      let '(taus, fadd, V2) := cPass v a V1 l' in
      let f := fun i => rmv 6 (jI j) a i + vxIv v (jI j) i + fadd i in
      (f AZ :: taus, rmv 6 (trans (jX j)) f, V2)
  end.
Definition C_terms (st : idState) (j : joint) (rest : list joint) : list R * idState :=
  let v1 := rset (idv1 st) AZ (jqd j) in
  let '(taus, fadd, V) := cPass v1 (fun _ => 0) (idV st) rest in
  (vxIv_z (jqd j) (jI j) AZ + fadd AZ :: taus, mkId V v1).
