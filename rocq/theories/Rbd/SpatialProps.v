(** C90: the spatial algebra under the generated rigid body dynamics. *)
From Coq Require Import Reals List Bool Arith Lia Lra.
From Verif Require Import Base.RVec Rbd.SpatialModel Rbd.SpatialProofs.
Import ListNotations.
Local Open Scope R_scope.

(** ** Specification.  A motion is (angular; linear), a force is (moment; force). *)
Definition cross (a b : rvec) : rvec := fun i => match i with
  | 0%nat => a 1%nat * b 2%nat - a 2%nat * b 1%nat
  | 1%nat => a 2%nat * b 0%nat - a 0%nat * b 2%nat
  | _ => a 0%nat * b 1%nat - a 1%nat * b 0%nat end.
Definition ang (v : rvec) : rvec := v.
Definition lin (v : rvec) : rvec := fun i => v (3 + i)%nat.
Definition pair6 (a l : rvec) : rvec := fun i => if (i <? 3)%nat then a i else l (i - 3)%nat.
(** Rate of change of a motion, respectively of a force, fixed in a frame moving with v. *)
Definition crossMotion (v m : rvec) : rvec :=
  pair6 (cross (ang v) (ang m)) (fun i => cross (lin v) (ang m) i + cross (ang v) (lin m) i).
Definition crossForce (v f : rvec) : rvec :=
  pair6 (fun i => cross (ang v) (ang f) i + cross (lin v) (lin f) i) (cross (ang v) (lin f)).
(** The momentum of a body of mass m, centre of mass c and rotational inertia T about the origin moving with v. *)
Definition momentum (m : R) (c : rvec) (T : mat) (v : rvec) : rvec :=
  pair6 (fun i => rmv 3 T (ang v) i + m * cross c (lin v) i) (fun i => m * (lin v i + cross (ang v) c i)).
Definition Body (M : mat) (m : R) (c : rvec) (T : mat) : Prop :=
  forall v i, (i < 6)%nat -> rmv 6 M v i = momentum m c T v i.
Definition sym3 (T : mat) : Prop := forall i j, (i < 3)%nat -> (j < 3)%nat -> T i j = T j i.
Definition sym6 (M : mat) : Prop := forall i j, (i < 6)%nat -> (j < 6)%nat -> M i j = M j i.
Definition tr (M : mat) : mat := fun i j => M j i.
Definition zeros : mat := fun _ _ => 0.
Definition det3 (E : mat) : R :=
  E 0%nat 0%nat * (E 1%nat 1%nat * E 2%nat 2%nat - E 1%nat 2%nat * E 2%nat 1%nat)
  - E 0%nat 1%nat * (E 1%nat 0%nat * E 2%nat 2%nat - E 1%nat 2%nat * E 2%nat 0%nat)
  + E 0%nat 2%nat * (E 1%nat 0%nat * E 2%nat 1%nat - E 1%nat 1%nat * E 2%nat 0%nat).
Definition rotation (E : mat) : Prop :=
  (forall i j, (i < 3)%nat -> (j < 3)%nat -> rsum 3 (fun k => E i k * E j k) = if (i =? j)%nat then 1 else 0) /\ det3 E = 1.
(** Coordinates B have rotation E and origin r relative to A. *)
Definition forceTransform (E : mat) (r : rvec) (XF : mat) : Prop := forall f i, (i < 6)%nat ->
  rmv 6 XF f i = pair6 (rmv 3 E (fun k => ang f k - cross r (lin f) k)) (rmv 3 E (lin f)) i.
Definition motionTransformBack (E : mat) (r : rvec) (XM : mat) : Prop := forall v i, (i < 6)%nat ->
  rmv 6 XM v i = pair6 (rmv 3 (tr E) (ang v)) (fun k => rmv 3 (tr E) (lin v) k + cross r (rmv 3 (tr E) (ang v)) k) i.
(** The inertia a point mass m at c has about the origin. *)
Definition steiner (m : R) (c : rvec) : mat := fun i j => m * ((if (i =? j)%nat then rdot 3 c c else 0) - c i * c j).

(** ** Entries from actions. *)
Lemma rmv_unit n M i j : (j < n)%nat -> rmv n M (runit j) i = M i j.
Proof.
  intros H. unfold rmv, runit. rewrite (rsum_ext _ _ (fun k => if (k =? j)%nat then M i k else 0)).
  - apply (rsum_delta n j (fun k => M i k) H).
  - intros k _. destruct (k =? j)%nat; ring.
Qed.
Definition inertia (m : R) (c : rvec) (T : mat) : mat := fun i j => momentum m c T (runit j) i.
Lemma Body_entry M m c T : Body M m c T -> forall i j, (i < 6)%nat -> (j < 6)%nat -> M i j = inertia m c T i j.
Proof. intros H i j Hi Hj. rewrite <- (rmv_unit 6 M i j Hj). apply H; exact Hi. Qed.

Ltac idx i := first [exfalso; lia | destruct i as [|i]; [|idx i]].
Ltac ev := cbv -[Rplus Rmult Rminus Ropp Rinv Rdiv IZR cos sin].

Lemma entry_Body M m c T : (forall i j, (i < 6)%nat -> (j < 6)%nat -> M i j = inertia m c T i j) -> Body M m c T.
Proof.
  intros H v i Hi. unfold rmv. rewrite (rsum_ext _ _ (fun j => inertia m c T i j * v j)) by (intros; rewrite H by lia; reflexivity).
  idx i; ev; ring.
Qed.

(** The 36 entries of a body's matrix as rewriting rules. *)
Ltac entries H e :=
  let K := fresh in pose proof (Body_entry _ _ _ _ H) as K;
  let go i j := (let L := fresh e in
     pose proof (K i j ltac:(lia) ltac:(lia)) as L; revert L; ev; intros L) in
  go 0%nat 0%nat; go 0%nat 1%nat; go 0%nat 2%nat; go 0%nat 3%nat; go 0%nat 4%nat; go 0%nat 5%nat;
  go 1%nat 0%nat; go 1%nat 1%nat; go 1%nat 2%nat; go 1%nat 3%nat; go 1%nat 4%nat; go 1%nat 5%nat;
  go 2%nat 0%nat; go 2%nat 1%nat; go 2%nat 2%nat; go 2%nat 3%nat; go 2%nat 4%nat; go 2%nat 5%nat;
  go 3%nat 0%nat; go 3%nat 1%nat; go 3%nat 2%nat; go 3%nat 3%nat; go 3%nat 4%nat; go 3%nat 5%nat;
  go 4%nat 0%nat; go 4%nat 1%nat; go 4%nat 2%nat; go 4%nat 3%nat; go 4%nat 4%nat; go 4%nat 5%nat;
  go 5%nat 0%nat; go 5%nat 1%nat; go 5%nat 2%nat; go 5%nat 3%nat; go 5%nat 4%nat; go 5%nat 5%nat;
  clear K.

(** ** Cross product operators *)
Theorem C90_cross_matrices : forall v m i, (i < 6)%nat ->
  rmv 6 (motionCross v zeros) m i = crossMotion v m i /\
  rmv 6 (fillMotionCross v) m i = crossMotion v m i /\
  rmv 6 (forceCross v zeros) m i = crossForce v m i /\
  rmv 6 (fillForceCross v) m i = crossForce v m i /\
  ((i < 3)%nat -> rmv 3 (crossMx v) m i = cross v m i) /\
  crossMotion v v i = 0 /\
  rdot 6 (crossMotion v m) v = - rdot 6 m (crossForce v v) /\
  (forall f, rdot 6 (crossMotion v m) f = - rdot 6 m (crossForce v f)).
Proof.
  intros v m i Hi. split; [|split; [|split; [|split; [|split; [|split; [|split]]]]]].
  - idx i; ev; ring.
  - idx i; ev; ring.
  - idx i; ev; ring.
  - idx i; ev; ring.
  - intros H3. idx i; ev; ring.
  - idx i; ev; ring.
  - ev; ring.
  - intros f. ev; ring.
Qed.

(** ** Bias force *)
Theorem C90_bias : forall I m c T v, Body I m c T -> sym3 T ->
  (forall i, (i < 6)%nat -> vxIv v I i = crossForce v (rmv 6 I v) i) /\
  rdot 6 v (vxIv v I) = 0.
Proof.
  intros I m c T v H S.
  assert (K : forall i, (i < 6)%nat -> vxIv v I i = crossForce v (momentum m c T v) i).
  { pose proof (Body_entry _ _ _ _ H) as B. intros i Hi. unfold vxIv. cbv zeta.
    rewrite !B by lia.
    pose proof (S 1%nat 0%nat ltac:(lia) ltac:(lia)) as S1. pose proof (S 2%nat 0%nat ltac:(lia) ltac:(lia)) as S2.
    pose proof (S 2%nat 1%nat ltac:(lia) ltac:(lia)) as S3.
    idx i; ev; rewrite ?S1, ?S2, ?S3; ring. }
  assert (X : forall i, (i < 6)%nat -> crossForce v (rmv 6 I v) i = crossForce v (momentum m c T v) i).
  { intros i Hi. unfold crossForce, pair6, cross, ang, lin. idx i; cbv iota beta delta [Nat.ltb Nat.leb Nat.sub Nat.add];
     rewrite !H by lia; reflexivity. }
  split.
  - intros i Hi. rewrite K, X by exact Hi. reflexivity.
  - unfold rdot. rewrite (rsum_ext _ _ (fun i => v i * crossForce v (momentum m c T v) i)) by (intros; rewrite K by lia; reflexivity).
    ev. ring.
Qed.

(** The overload for a rotation about z: five components are right. *)
Theorem C90_bias_z_partial : forall I m c T w i, Body I m c T -> sym3 T -> (i < 6)%nat -> i <> 1%nat ->
  vxIv_z w I i = crossForce (fun k => if (k =? 2)%nat then w else 0) (rmv 6 I (fun k => if (k =? 2)%nat then w else 0)) i.
Proof.
  intros I m c T w i H S Hi Hn.
  transitivity (crossForce (fun k => if (k =? 2)%nat then w else 0) (momentum m c T (fun k => if (k =? 2)%nat then w else 0)) i).
  - pose proof (Body_entry _ _ _ _ H) as B. unfold vxIv_z. cbv zeta. rewrite !B by lia.
    pose proof (S 1%nat 0%nat ltac:(lia) ltac:(lia)) as S1. pose proof (S 2%nat 0%nat ltac:(lia) ltac:(lia)) as S2.
    pose proof (S 2%nat 1%nat ltac:(lia) ltac:(lia)) as S3.
    idx i; try (exfalso; apply Hn; reflexivity); ev; rewrite ?S1, ?S2, ?S3; ring.
  - unfold crossForce, pair6, cross, ang, lin. idx i; cbv iota beta delta [Nat.ltb Nat.leb Nat.sub Nat.add];
     rewrite !H by lia; reflexivity.
Qed.

(** ... and the moment about y is wrong whenever the body turns and I_xy differs from I_xz. *)
Theorem C90_bias_z_refuted : forall I m c T w, Body I m c T -> sym3 T ->
  (vxIv_z w I 1%nat = crossForce (fun k => if (k =? 2)%nat then w else 0) (rmv 6 I (fun k => if (k =? 2)%nat then w else 0)) 1%nat
   <-> w = 0 \/ T 0%nat 1%nat = T 0%nat 2%nat).
Proof.
  intros I m c T w H S.
  assert (X : crossForce (fun k => if (k =? 2)%nat then w else 0) (rmv 6 I (fun k => if (k =? 2)%nat then w else 0)) 1%nat
            = T 0%nat 2%nat * (w * w)).
  { transitivity (crossForce (fun k => if (k =? 2)%nat then w else 0) (momentum m c T (fun k => if (k =? 2)%nat then w else 0)) 1%nat).
    - unfold crossForce, pair6, cross, ang, lin. cbv iota beta delta [Nat.ltb Nat.leb Nat.sub Nat.add];
      rewrite !H by lia; reflexivity.
    - ev. ring. }
  rewrite X. unfold vxIv_z. cbv zeta. rewrite (Body_entry _ _ _ _ H) by lia.
  replace (inertia m c T 0%nat 1%nat) with (T 0%nat 1%nat) by (ev; ring).
  split.
  - intros E. destruct (Req_dec w 0) as [W|W]; [left; exact W|right].
    apply (Rmult_eq_reg_r (w * w)); [exact E|]. intros Z. apply Rmult_integral in Z. tauto.
  - intros [W|W]; [subst w; ring|rewrite W; reflexivity].
Qed.

(** A uniform pair of rods in the plane x = y: positive definite, with I_xy different from I_xz. *)
Definition skewT : mat := fun i j => match i, j with 0%nat, 1%nat => 1 | 1%nat, 0%nat => 1 | 0%nat, 0%nat => 2 | 1%nat, 1%nat => 2 | 2%nat, 2%nat => 2 | _, _ => 0 end.
Example C90_bias_z_example : let I := newInertia 1 rzero skewT zeros in
  Body I 1 rzero skewT /\ sym3 skewT /\ vxIv_z 3 I 1%nat = 9 /\
  vxIv (fun k => if (k =? 2)%nat then 3 else 0) I 1%nat = 0 /\
  (forall w, w 0%nat <> 0 \/ w 1%nat <> 0 \/ w 2%nat <> 0 -> rquad 3 skewT w w > 0).
Proof.
  cbv zeta. split; [|split; [|split; [|split]]].
  - apply entry_Body. intros i j Hi Hj. idx i; idx j; ev; ring.
  - intros i j Hi Hj. idx i; idx j; reflexivity.
  - ev; ring.
  - ev; ring.
  - intros w H.
    replace (rquad 3 skewT w w) with ((w 0%nat + w 1%nat) * (w 0%nat + w 1%nat) + w 0%nat * w 0%nat + w 1%nat * w 1%nat + 2 * (w 2%nat * w 2%nat)) by (ev; ring).
    pose proof (Rle_0_sqr (w 0%nat + w 1%nat)). pose proof (Rle_0_sqr (w 0%nat)). pose proof (Rle_0_sqr (w 1%nat)). pose proof (Rle_0_sqr (w 2%nat)).
    unfold Rsqr in *. destruct H as [N|[N|N]].
    + pose proof (Rlt_0_sqr (w 0%nat) N). unfold Rsqr in *. lra.
    + pose proof (Rlt_0_sqr (w 1%nat) N). unfold Rsqr in *. lra.
    + pose proof (Rlt_0_sqr (w 2%nat) N). unfold Rsqr in *. lra.
Qed.

(** ** Change of coordinates *)
Definition mm (A B : mat) : mat := fun i j => rsum 6 (fun k => A i k * B k j).

Definition ofE (E : mat) : m33 :=
  mkM (E 0%nat 0%nat) (E 0%nat 1%nat) (E 0%nat 2%nat) (E 1%nat 0%nat) (E 1%nat 1%nat) (E 1%nat 2%nat) (E 2%nat 0%nat) (E 2%nat 1%nat) (E 2%nat 2%nat).
Lemma rotation_rot E : rotation E -> rotM (ofE E).
Proof.
  intros [H D]. unfold rotM, rot9, ofE, det3 in *. cbn [XX XY XZ YX YY YZ ZX ZY ZZ].
  pose proof (fun i j => H i j) as K. cbn [rsum] in K.
  repeat split; [..|lra].
  all: match goal with |- ?l = ?r => idtac end.
  - pose proof (K 0%nat 0%nat ltac:(lia) ltac:(lia)) as Q. cbn in Q. lra.
  - pose proof (K 1%nat 1%nat ltac:(lia) ltac:(lia)) as Q. cbn in Q. lra.
  - pose proof (K 2%nat 2%nat ltac:(lia) ltac:(lia)) as Q. cbn in Q. lra.
  - pose proof (K 0%nat 1%nat ltac:(lia) ltac:(lia)) as Q. cbn in Q. lra.
  - pose proof (K 0%nat 2%nat ltac:(lia) ltac:(lia)) as Q. cbn in Q. lra.
  - pose proof (K 1%nat 2%nat ltac:(lia) ltac:(lia)) as Q. cbn in Q. lra.
Qed.

Definition ftE (E : mat) (r : rvec) : mat := fun i j =>
  pair6 (rmv 3 E (fun k => ang (runit j) k - cross r (lin (runit j)) k)) (rmv 3 E (lin (runit j))) i.
Lemma ft_entry E r XF : forceTransform E r XF -> forall i j, (i < 6)%nat -> (j < 6)%nat -> XF i j = ftE E r i j.
Proof. intros H i j Hi Hj. rewrite <- (rmv_unit 6 XF i j Hj). apply H; exact Hi. Qed.

Lemma com_div m x : m <> 0 -> m * x / m = x. Proof. intros; field; auto. Qed.

Section TI.
Variables (E T : mat) (r c : rvec) (m : R) (I_A XF I_B : mat).
Hypothesis RE : rotation E.
Hypothesis HX : forceTransform E r XF.
Hypothesis HI : Body I_A m c T.
Hypothesis ST : sym3 T.
Hypothesis M0 : m <> 0.

Lemma ti_r : E 0%nat 1%nat * XF 0%nat 5%nat + E 1%nat 1%nat * XF 1%nat 5%nat + E 2%nat 1%nat * XF 2%nat 5%nat = r 0%nat /\
  E 0%nat 2%nat * XF 0%nat 3%nat + E 1%nat 2%nat * XF 1%nat 3%nat + E 2%nat 2%nat * XF 2%nat 3%nat = r 1%nat /\
  E 0%nat 0%nat * XF 0%nat 4%nat + E 1%nat 0%nat * XF 1%nat 4%nat + E 2%nat 0%nat * XF 2%nat 4%nat = r 2%nat.
Proof.
  pose proof (rotation_rot E RE) as H. unfold rotM, ofE in H. cbn [XX XY XZ YX YY YZ ZX ZY ZZ] in H.
  destruct (rot9_cols _ _ _ _ _ _ _ _ _ H) as (T1 & T2 & T3 & T4 & T5 & T6).
  rewrite !(ft_entry _ _ _ HX) by lia. ev.
  split; [|split].
  - transitivity (r 0%nat * (E 0%nat 1%nat * E 0%nat 1%nat + E 1%nat 1%nat * E 1%nat 1%nat + E 2%nat 1%nat * E 2%nat 1%nat)
      - r 1%nat * (E 0%nat 0%nat * E 0%nat 1%nat + E 1%nat 0%nat * E 1%nat 1%nat + E 2%nat 0%nat * E 2%nat 1%nat)); [ring|rewrite T2, T4; ring].
  - transitivity (r 1%nat * (E 0%nat 2%nat * E 0%nat 2%nat + E 1%nat 2%nat * E 1%nat 2%nat + E 2%nat 2%nat * E 2%nat 2%nat)
      - r 2%nat * (E 0%nat 1%nat * E 0%nat 2%nat + E 1%nat 1%nat * E 1%nat 2%nat + E 2%nat 1%nat * E 2%nat 2%nat)); [ring|rewrite T3, T6; ring].
  - transitivity (r 2%nat * (E 0%nat 0%nat * E 0%nat 0%nat + E 1%nat 0%nat * E 1%nat 0%nat + E 2%nat 0%nat * E 2%nat 0%nat)
      - r 0%nat * (E 0%nat 0%nat * E 0%nat 2%nat + E 1%nat 0%nat * E 1%nat 2%nat + E 2%nat 0%nat * E 2%nat 2%nat)); [ring|rewrite T1, T5; ring].
Qed.

Definition tiT : s33 :=
  let px := c 0%nat - r 0%nat in let py := c 1%nat - r 1%nat in let pz := c 2%nat - r 2%nat in
  mkS (T 0%nat 0%nat + m * (py * py + pz * pz - c 1%nat * c 1%nat - c 2%nat * c 2%nat))
      (T 0%nat 1%nat + m * (c 0%nat * c 1%nat - px * py))
      (T 0%nat 2%nat + m * (c 0%nat * c 2%nat - px * pz))
      (T 1%nat 1%nat + m * (px * px + pz * pz - c 0%nat * c 0%nat - c 2%nat * c 2%nat))
      (T 1%nat 2%nat + m * (c 1%nat * c 2%nat - py * pz))
      (T 2%nat 2%nat + m * (px * px + py * py - c 0%nat * c 0%nat - c 1%nat * c 1%nat)).

Lemma ti_val : transformInertia I_A XF I_B =
  fillInertia m (fun i => match i with
             | 0%nat => E 0%nat 0%nat * (c 0%nat - r 0%nat) + E 0%nat 1%nat * (c 1%nat - r 1%nat) + E 0%nat 2%nat * (c 2%nat - r 2%nat)
             | 1%nat => E 1%nat 0%nat * (c 0%nat - r 0%nat) + E 1%nat 1%nat * (c 1%nat - r 1%nat) + E 1%nat 2%nat * (c 2%nat - r 2%nat)
             | _ => E 2%nat 0%nat * (c 0%nat - r 0%nat) + E 2%nat 1%nat * (c 1%nat - r 1%nat) + E 2%nat 2%nat * (c 2%nat - r 2%nat) end)
    (rot_symmetric_EAET (ofE E) tiT) I_B.
Proof.
  assert (XE : forall i j, (i < 3)%nat -> (j < 3)%nat -> XF i j = E i j).
  { intros i j Hi Hj. rewrite (ft_entry _ _ _ HX) by lia. idx i; idx j; ev; ring. }
  destruct ti_r as (R1 & R2 & R3).
  pose proof (Body_entry _ _ _ _ HI) as B.
  unfold transformInertia, getMass. cbv zeta. cbn [XX XY XZ YX YY YZ ZX ZY ZZ].
  rewrite (XE 0%nat 0%nat), (XE 0%nat 1%nat), (XE 0%nat 2%nat), (XE 1%nat 0%nat), (XE 1%nat 1%nat), (XE 1%nat 2%nat), (XE 2%nat 0%nat), (XE 2%nat 1%nat), (XE 2%nat 2%nat) by lia. rewrite R1, R2, R3. rewrite !B by lia.
  replace (inertia m c T 3%nat 3%nat) with m by (ev; ring).
  replace (inertia m c T 2%nat 4%nat) with (m * c 0%nat) by (ev; ring).
  replace (inertia m c T 0%nat 5%nat) with (m * c 1%nat) by (ev; ring).
  replace (inertia m c T 1%nat 3%nat) with (m * c 2%nat) by (ev; ring).
  rewrite !(com_div m) by exact M0.
  replace (inertia m c T 0%nat 0%nat) with (T 0%nat 0%nat) by (ev; ring).
  replace (inertia m c T 0%nat 1%nat) with (T 0%nat 1%nat) by (ev; ring).
  replace (inertia m c T 0%nat 2%nat) with (T 0%nat 2%nat) by (ev; ring).
  replace (inertia m c T 1%nat 1%nat) with (T 1%nat 1%nat) by (ev; ring).
  replace (inertia m c T 1%nat 2%nat) with (T 1%nat 2%nat) by (ev; ring).
  replace (inertia m c T 2%nat 2%nat) with (T 2%nat 2%nat) by (ev; ring).
  reflexivity.
Qed.

Lemma ti_com : (fun i => match i with
             | 0%nat => E 0%nat 0%nat * (c 0%nat - r 0%nat) + E 0%nat 1%nat * (c 1%nat - r 1%nat) + E 0%nat 2%nat * (c 2%nat - r 2%nat)
             | 1%nat => E 1%nat 0%nat * (c 0%nat - r 0%nat) + E 1%nat 1%nat * (c 1%nat - r 1%nat) + E 1%nat 2%nat * (c 2%nat - r 2%nat)
             | _ => E 2%nat 0%nat * (c 0%nat - r 0%nat) + E 2%nat 1%nat * (c 1%nat - r 1%nat) + E 2%nat 2%nat * (c 2%nat - r 2%nat) end) 0%nat = 
   (E 1%nat 1%nat * E 2%nat 2%nat - E 1%nat 2%nat * E 2%nat 1%nat) * (c 0%nat - r 0%nat) +
   (E 1%nat 2%nat * E 2%nat 0%nat - E 1%nat 0%nat * E 2%nat 2%nat) * (c 1%nat - r 1%nat) +
   (E 1%nat 0%nat * E 2%nat 1%nat - E 1%nat 1%nat * E 2%nat 0%nat) * (c 2%nat - r 2%nat) /\
  E 1%nat 0%nat * (c 0%nat - r 0%nat) + E 1%nat 1%nat * (c 1%nat - r 1%nat) + E 1%nat 2%nat * (c 2%nat - r 2%nat) =
   (E 0%nat 2%nat * E 2%nat 1%nat - E 0%nat 1%nat * E 2%nat 2%nat) * (c 0%nat - r 0%nat) +
   (E 0%nat 0%nat * E 2%nat 2%nat - E 0%nat 2%nat * E 2%nat 0%nat) * (c 1%nat - r 1%nat) +
   (E 0%nat 1%nat * E 2%nat 0%nat - E 0%nat 0%nat * E 2%nat 1%nat) * (c 2%nat - r 2%nat) /\
  E 2%nat 0%nat * (c 0%nat - r 0%nat) + E 2%nat 1%nat * (c 1%nat - r 1%nat) + E 2%nat 2%nat * (c 2%nat - r 2%nat) =
   (E 0%nat 1%nat * E 1%nat 2%nat - E 0%nat 2%nat * E 1%nat 1%nat) * (c 0%nat - r 0%nat) +
   (E 0%nat 2%nat * E 1%nat 0%nat - E 0%nat 0%nat * E 1%nat 2%nat) * (c 1%nat - r 1%nat) +
   (E 0%nat 0%nat * E 1%nat 1%nat - E 0%nat 1%nat * E 1%nat 0%nat) * (c 2%nat - r 2%nat).
Proof.
  pose proof (rotation_rot E RE) as H. unfold rotM, ofE in H. cbn [XX XY XZ YX YY YZ ZX ZY ZZ] in H.
  destruct (rot9_cof _ _ _ _ _ _ _ _ _ H) as (K1 & K2 & K3 & K4 & K5 & K6 & K7 & K8 & K9).
  split; [|split].
  - rewrite K1, K2, K3. reflexivity.
  - rewrite K4, K5, K6. reflexivity.
  - rewrite K7, K8, K9. reflexivity.
Qed.
End TI.

(** The entries no write of the inertia class or of transformInertia touches, zero from the constructor on. *)
Definition fixedZero (M : mat) : Prop := forall i, (i < 3)%nat ->
  M i (3 + i)%nat = 0 /\ M (3 + i)%nat i = 0 /\ (forall j, (j < 3)%nat -> j <> i -> M (3 + i)%nat (3 + j)%nat = 0).
Lemma fixedZero_new G : fixedZero (newInertia0 G).
Proof. intros i Hi. split; [|split]; [idx i; reflexivity..|]. intros j Hj Hn. idx i; idx j; try reflexivity; exfalso; apply Hn; reflexivity. Qed.
Lemma fixedZero_body M m c T : Body M m c T -> fixedZero M.
Proof.
  intros H i Hi. pose proof (Body_entry _ _ _ _ H) as B.
  split; [|split].
  - rewrite B by lia. idx i; ev; ring.
  - rewrite B by lia. idx i; ev; ring.
  - intros j Hj Hn. rewrite B by lia. idx i; idx j; try (exfalso; apply Hn; reflexivity); ev; ring.
Qed.

Theorem C90_transformInertia : forall E T r c m I_A XF I_B,
  rotation E -> forceTransform E r XF -> Body I_A m c T -> sym3 T -> m <> 0 -> fixedZero I_B ->
  (forall i j, (i < 6)%nat -> (j < 6)%nat -> transformInertia I_A XF I_B i j = mm XF (mm I_A (tr XF)) i j) /\
  getMass (transformInertia I_A XF I_B) = m /\
  (forall i, (i < 3)%nat -> getCOM (transformInertia I_A XF I_B) i = rmv 3 E (fun k => c k - r k) i).
Proof.
  intros E T r c m I_A XF I_B RE HX HI ST M0 Z.
  rewrite (ti_val E T r c m I_A XF I_B RE HX HI M0).
  split; [|split].
  - intros i j Hi Hj.
    pose proof (Body_entry _ _ _ _ HI) as B. pose proof (ft_entry _ _ _ HX) as F.
    unfold mm, tr. cbn [rsum]. rewrite !B, !F by lia.
    rewrite (rot_symmetric_ok (ofE E) (tiT T r c m) (rotation_rot E RE)).
    destruct (ti_com E r c RE) as (C0 & C1 & C2). cbv beta iota in C0.
    pose proof (ST 1%nat 0%nat ltac:(lia) ltac:(lia)) as S1. pose proof (ST 2%nat 0%nat ltac:(lia) ltac:(lia)) as S2.
    pose proof (ST 2%nat 1%nat ltac:(lia) ltac:(lia)) as S3.
    destruct (Z 0%nat ltac:(lia)) as (Z1 & Z2 & Z3). destruct (Z 1%nat ltac:(lia)) as (Z4 & Z5 & Z6). destruct (Z 2%nat ltac:(lia)) as (Z7 & Z8 & Z9).
    pose proof (Z3 1%nat ltac:(lia) ltac:(discriminate)) as W1. pose proof (Z3 2%nat ltac:(lia) ltac:(discriminate)) as W2.
    pose proof (Z6 0%nat ltac:(lia) ltac:(discriminate)) as W3. pose proof (Z6 2%nat ltac:(lia) ltac:(discriminate)) as W4.
    pose proof (Z9 0%nat ltac:(lia) ltac:(discriminate)) as W5. pose proof (Z9 1%nat ltac:(lia) ltac:(discriminate)) as W6.
    clear Z3 Z6 Z9. cbn [Nat.add] in *.
    destruct (rotation_rot E RE) as (H1 & H2 & H3 & H4 & H5 & H6 & _). unfold ofE in H1, H2, H3, H4, H5, H6. cbn [XX XY XZ YX YY YZ ZX ZY ZZ] in *.
    idx i; idx j; ev; rewrite ?S1, ?S2, ?S3, ?C0, ?C1, ?C2; try (match goal with H : ?x = 0 |- ?x = _ => rewrite H end);
     try ring.
    all: apply Rminus_diag_uniq.
    all: first [ transitivity (m * (1 - (E 0%nat 0%nat * E 0%nat 0%nat + E 0%nat 1%nat * E 0%nat 1%nat + E 0%nat 2%nat * E 0%nat 2%nat))); [ring|rewrite H1; ring]
      | transitivity (m * (1 - (E 1%nat 0%nat * E 1%nat 0%nat + E 1%nat 1%nat * E 1%nat 1%nat + E 1%nat 2%nat * E 1%nat 2%nat))); [ring|rewrite H2; ring]
      | transitivity (m * (1 - (E 2%nat 0%nat * E 2%nat 0%nat + E 2%nat 1%nat * E 2%nat 1%nat + E 2%nat 2%nat * E 2%nat 2%nat))); [ring|rewrite H3; ring]
      | transitivity (- m * (E 0%nat 0%nat * E 1%nat 0%nat + E 0%nat 1%nat * E 1%nat 1%nat + E 0%nat 2%nat * E 1%nat 2%nat)); [ring|rewrite H4; ring]
      | transitivity (- m * (E 0%nat 0%nat * E 2%nat 0%nat + E 0%nat 1%nat * E 2%nat 1%nat + E 0%nat 2%nat * E 2%nat 2%nat)); [ring|rewrite H5; ring]
      | transitivity (- m * (E 1%nat 0%nat * E 2%nat 0%nat + E 1%nat 1%nat * E 2%nat 1%nat + E 1%nat 2%nat * E 2%nat 2%nat)); [ring|rewrite H6; ring] ].
  - reflexivity.
  - intros i Hi. idx i; ev; field; exact M0.
Qed.
Print Assumptions C90_cross_matrices.
Print Assumptions C90_bias.
Print Assumptions C90_bias_z_partial.
Print Assumptions C90_bias_z_refuted.
Print Assumptions C90_transformInertia.
