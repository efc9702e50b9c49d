(** C90: articulated inertias moved through a joint. *)
From Coq Require Import Reals List Bool Arith Lia Lra.
From Verif Require Import Base.RVec Rbd.SpatialModel Rbd.SpatialProofs Rbd.SpatialProps.
Import ListNotations.
Local Open Scope R_scope.

(** *** Articulated inertias through a joint *)
Definition mtE (E : mat) (r : rvec) : mat := fun i j =>
  pair6 (rmv 3 (tr E) (ang (runit j))) (fun k => rmv 3 (tr E) (lin (runit j)) k + cross r (rmv 3 (tr E) (ang (runit j))) k) i.
Lemma mt_entry E r XM : motionTransformBack E r XM -> forall i j, (i < 6)%nat -> (j < 6)%nat -> XM i j = mtE E r i j.
Proof. intros H i j Hi Hj. rewrite <- (rmv_unit 6 XM i j Hj). apply H; exact Hi. Qed.

Lemma mt_r E r XM : rotation E -> motionTransformBack E r XM ->
  E 0%nat 1%nat * XM 5%nat 0%nat + E 1%nat 1%nat * XM 5%nat 1%nat + E 2%nat 1%nat * XM 5%nat 2%nat = r 0%nat /\
  E 0%nat 2%nat * XM 3%nat 0%nat + E 1%nat 2%nat * XM 3%nat 1%nat + E 2%nat 2%nat * XM 3%nat 2%nat = r 1%nat /\
  E 0%nat 0%nat * XM 4%nat 0%nat + E 1%nat 0%nat * XM 4%nat 1%nat + E 2%nat 0%nat * XM 4%nat 2%nat = r 2%nat.
Proof.
  intros RE HX.
  pose proof (rotation_rot E RE) as H. unfold rotM, ofE in H. cbn [XX XY XZ YX YY YZ ZX ZY ZZ] in H.
  destruct (rot9_cols _ _ _ _ _ _ _ _ _ H) as (T1 & T2 & T3 & T4 & T5 & T6).
  rewrite !(mt_entry _ _ _ HX) by lia. ev.
  split; [|split].
  - transitivity (r 0%nat * (E 0%nat 1%nat * E 0%nat 1%nat + E 1%nat 1%nat * E 1%nat 1%nat + E 2%nat 1%nat * E 2%nat 1%nat)
      - r 1%nat * (E 0%nat 0%nat * E 0%nat 1%nat + E 1%nat 0%nat * E 1%nat 1%nat + E 2%nat 0%nat * E 2%nat 1%nat)); [ring|rewrite T2, T4; ring].
  - transitivity (r 1%nat * (E 0%nat 2%nat * E 0%nat 2%nat + E 1%nat 2%nat * E 1%nat 2%nat + E 2%nat 2%nat * E 2%nat 2%nat)
      - r 2%nat * (E 0%nat 1%nat * E 0%nat 2%nat + E 1%nat 1%nat * E 1%nat 2%nat + E 2%nat 1%nat * E 2%nat 2%nat)); [ring|rewrite T3, T6; ring].
  - transitivity (r 2%nat * (E 0%nat 0%nat * E 0%nat 0%nat + E 1%nat 0%nat * E 1%nat 0%nat + E 2%nat 0%nat * E 2%nat 0%nat)
      - r 0%nat * (E 0%nat 0%nat * E 0%nat 2%nat + E 1%nat 0%nat * E 1%nat 2%nat + E 2%nat 0%nat * E 2%nat 2%nat)); [ring|rewrite T1, T5; ring].
Qed.

(** The upper triangle, with row and column k zero. *)
Definition can (k : nat) (M : mat) : mat := fun i j =>
  if ((i =? k) || (j =? k))%nat then 0 else if (i <=? j)%nat then M i j else M j i.
Definition deadRow (k : nat) (M : mat) : Prop := forall i, (i < 6)%nat -> M i k = 0.
Lemma can_entry k M : (k < 6)%nat -> sym6 M -> deadRow k M -> forall i j, (i < 6)%nat -> (j < 6)%nat -> M i j = can k M i j.
Proof.
  intros Hk S D i j Hi Hj. unfold can.
  destruct (Nat.eqb_spec i k) as [->|Ni]; simpl.
  - rewrite S by assumption. apply D; assumption.
  - destruct (Nat.eqb_spec j k) as [->|Nj]; [apply D; assumption|].
    destruct (i <=? j)%nat; [reflexivity|apply S; assumption].
Qed.

Lemma mm_mt E r XM M k : motionTransformBack E r XM -> (k < 6)%nat -> sym6 M -> deadRow k M ->
  forall i j, (i < 6)%nat -> (j < 6)%nat -> mm (tr XM) (mm M XM) i j = mm (tr (mtE E r)) (mm (can k M) (mtE E r)) i j.
Proof.
  intros HX Hk S D i j Hi Hj. unfold mm, tr. apply rsum_ext. intros a Ha. rewrite (mt_entry _ _ _ HX) by assumption. f_equal.
  apply rsum_ext. intros b Hb. rewrite (mt_entry _ _ _ HX), <- (can_entry k M) by assumption. reflexivity.
Qed.

Theorem C90_ctransform_revolute : forall E r Ia XM garbage,
  rotation E -> motionTransformBack E r XM -> sym6 Ia -> deadRow AZ Ia ->
  forall i j, (i < 6)%nat -> (j < 6)%nat -> ctransform_Ia_revolute Ia XM garbage i j = mm (tr XM) (mm Ia XM) i j.
Proof.
  intros E r Ia XM G RE HX S D i j Hi Hj.
  rewrite (mm_mt E r XM Ia 2%nat HX ltac:(lia) S D) by assumption.
  assert (XE : forall i j, (i < 3)%nat -> (j < 3)%nat -> XM j i = E i j).
  { intros a b Ha Hb. rewrite (mt_entry _ _ _ HX) by lia. idx a; idx b; ev; ring. }
  destruct (mt_r E r XM RE HX) as (R1 & R2 & R3).
  unfold ctransform_Ia_revolute. cbv zeta. cbn [XX XY XZ YX YY YZ ZX ZY ZZ].
  rewrite (XE 0%nat 0%nat), (XE 0%nat 1%nat), (XE 0%nat 2%nat), (XE 1%nat 0%nat), (XE 1%nat 1%nat), (XE 1%nat 2%nat), (XE 2%nat 0%nat), (XE 2%nat 1%nat), (XE 2%nat 2%nat) by lia.
  rewrite R1, R2, R3. change (mkM (E 0%nat 0%nat) (E 0%nat 1%nat) (E 0%nat 2%nat) (E 1%nat 0%nat) (E 1%nat 1%nat) (E 1%nat 2%nat) (E 2%nat 0%nat) (E 2%nat 1%nat) (E 2%nat 2%nat)) with (ofE E).
  rewrite !(rot_symmetric_ok (ofE E)), (rot_EAET_ok (ofE E)) by (apply rotation_rot; exact RE).
  clear - Hi Hj. 
  idx i; idx j; ev; ring.
Qed.

Theorem C90_ctransform_prismatic : forall E r Ia XM garbage,
  rotation E -> motionTransformBack E r XM -> sym6 Ia -> deadRow LZ Ia ->
  forall i j, (i < 6)%nat -> (j < 6)%nat -> ctransform_Ia_prismatic Ia XM garbage i j = mm (tr XM) (mm Ia XM) i j.
Proof.
  intros E r Ia XM G RE HX S D i j Hi Hj.
  rewrite (mm_mt E r XM Ia 5%nat HX ltac:(lia) S D) by assumption.
  assert (XE : forall i j, (i < 3)%nat -> (j < 3)%nat -> XM j i = E i j).
  { intros a b Ha Hb. rewrite (mt_entry _ _ _ HX) by lia. idx a; idx b; ev; ring. }
  destruct (mt_r E r XM RE HX) as (R1 & R2 & R3).
  unfold ctransform_Ia_prismatic. cbv zeta. cbn [XX XY XZ YX YY YZ ZX ZY ZZ].
  rewrite (XE 0%nat 0%nat), (XE 0%nat 1%nat), (XE 0%nat 2%nat), (XE 1%nat 0%nat), (XE 1%nat 1%nat), (XE 1%nat 2%nat), (XE 2%nat 0%nat), (XE 2%nat 1%nat), (XE 2%nat 2%nat) by lia.
  rewrite R1, R2, R3. change (mkM (E 0%nat 0%nat) (E 0%nat 1%nat) (E 0%nat 2%nat) (E 1%nat 0%nat) (E 1%nat 1%nat) (E 1%nat 2%nat) (E 2%nat 0%nat) (E 2%nat 1%nat) (E 2%nat 2%nat)) with (ofE E).
  rewrite !(rot_symmetric_ok (ofE E)), (rot_EAET_ok (ofE E)) by (apply rotation_rot; exact RE).
  clear - Hi Hj. 
  idx i; idx j; ev; ring.
Qed.

(** The inertia felt across a joint that moves freely along direction k: the joint acceleration that leaves no
    force along k is taken out of the motion. *)
Definition seenThrough (k : nat) (IA : mat) (v : rvec) : rvec :=
  rmv 6 IA (fun j => v j - if (j =? k)%nat then rmv 6 IA v k / IA k k else 0).

Lemma sum_minus_unit n k A v x i : (k < n)%nat ->
  rmv n A (fun j => v j - if (j =? k)%nat then x else 0) i = rmv n A v i - A i k * x.
Proof.
  intros Hk. unfold rmv. rewrite (rsum_ext _ _ (fun j => A i j * v j - (if (j =? k)%nat then A i j * x else 0))).
  - rewrite rsum_minus, (rsum_delta n k (fun j => A i j * x) Hk). reflexivity.
  - intros j _. destruct (j =? k)%nat; ring.
Qed.

Definition across (k : nat) (f : mat -> rvec -> R -> mat -> mat) : Prop := forall IA U D Ia v,
  sym6 IA -> (forall i, (i < 6)%nat -> U i = IA i k) -> D = U k -> D <> 0 ->
  (forall i, (i < 6)%nat -> Ia i k = 0 /\ Ia k i = 0) ->
  (forall i, (i < 6)%nat -> rmv 6 (f IA U D Ia) v i = seenThrough k IA v i) /\
  rmv 6 (f IA U D Ia) v k = 0 /\
  sym6 (f IA U D Ia) /\ deadRow k (f IA U D Ia).

Lemma across_of k f : (k < 6)%nat ->
  (forall IA U D Ia i j, sym6 IA -> (forall i, (i < 6)%nat -> U i = IA i k) -> D = U k -> D <> 0 ->
     (forall i, (i < 6)%nat -> Ia i k = 0 /\ Ia k i = 0) -> (i < 6)%nat -> (j < 6)%nat ->
     f IA U D Ia i j = IA i j - IA i k * (IA j k / IA k k)) -> across k f.
Proof.
  intros Hk H IA U D Ia v S HU HD D0 Z.
  assert (K : IA k k <> 0) by (rewrite <- HU by exact Hk; rewrite <- HD; exact D0).
  assert (A : forall i, (i < 6)%nat -> rmv 6 (f IA U D Ia) v i = seenThrough k IA v i).
  { intros i Hi. unfold seenThrough. rewrite (sum_minus_unit 6 k IA v _ i Hk). unfold rmv.
    rewrite (rsum_ext _ _ (fun j => IA i j * v j - IA i k / IA k k * (IA k j * v j))).
    - rewrite rsum_minus, rsum_scal. field. exact K.
    - intros j Hj. rewrite H by assumption. rewrite (S j k Hj Hk). field. exact K. }
  split; [exact A|split; [|split]].
  - rewrite A by exact Hk. unfold seenThrough. rewrite (sum_minus_unit 6 k IA v _ k Hk). field. exact K.
  - intros i j Hi Hj. rewrite !H by assumption. rewrite (S i j Hi Hj). field. exact K.
  - intros i Hi. rewrite H by assumption. field. exact K.
Qed.

Theorem C90_compute_Ia : across AZ compute_Ia_revolute /\ across LZ compute_Ia_prismatic.
Proof.
  split; apply across_of; [lia| |lia|].
  all: intros IA U D Ia i j S HU HD D0 Z Hi Hj; subst D.
  - assert (e : forall a b, (a < 6)%nat -> (b < 6)%nat -> IA a b - U a * (U b / U 2%nat) = IA a b - IA a 2%nat * (IA b 2%nat / IA 2%nat 2%nat)).
    { intros a b Ha Hb. rewrite !HU by lia. reflexivity. }
    assert (K : IA 2%nat 2%nat <> 0) by (rewrite <- HU by lia; exact D0).
    unfold compute_Ia_revolute. cbv zeta. rewrite !e by lia.
    assert (Zr : forall a, (a < 6)%nat -> IA 2%nat a - IA 2%nat 2%nat * (IA a 2%nat / IA 2%nat 2%nat) = 0).
    { intros a Ha. rewrite (S a 2%nat) by lia. field. exact K. }
    assert (Zc : forall a, (a < 6)%nat -> IA a 2%nat - IA a 2%nat * (IA 2%nat 2%nat / IA 2%nat 2%nat) = 0).
    { intros a Ha. field. exact K. }
    destruct (Nat.eq_dec i 2) as [->|Ni]; [|destruct (Nat.eq_dec j 2) as [->|Nj]].
    + rewrite Zr by lia. idx j; cbn; apply (Z _); lia.
    + rewrite Zc by lia. idx i; cbn; apply (Z _); lia.
    + assert (Sw : forall a b, (a < 6)%nat -> (b < 6)%nat -> IA a b - IA a 2%nat * (IA b 2%nat / IA 2%nat 2%nat) = IA b a - IA b 2%nat * (IA a 2%nat / IA 2%nat 2%nat)).
      { intros a b Ha Hb. rewrite (S a b Ha Hb). field. exact K. }
      idx i; try (exfalso; apply Ni; reflexivity); idx j; try (exfalso; apply Nj; reflexivity); cbn; first [reflexivity | apply Sw; lia].
  - assert (e : forall a b, (a < 6)%nat -> (b < 6)%nat -> IA a b - U a * (U b / U 5%nat) = IA a b - IA a 5%nat * (IA b 5%nat / IA 5%nat 5%nat)).
    { intros a b Ha Hb. rewrite !HU by lia. reflexivity. }
    assert (K : IA 5%nat 5%nat <> 0) by (rewrite <- HU by lia; exact D0).
    unfold compute_Ia_prismatic. cbv zeta. rewrite !e by lia.
    assert (Zr : forall a, (a < 6)%nat -> IA 5%nat a - IA 5%nat 5%nat * (IA a 5%nat / IA 5%nat 5%nat) = 0).
    { intros a Ha. rewrite (S a 5%nat) by lia. field. exact K. }
    assert (Zc : forall a, (a < 6)%nat -> IA a 5%nat - IA a 5%nat * (IA 5%nat 5%nat / IA 5%nat 5%nat) = 0).
    { intros a Ha. field. exact K. }
    destruct (Nat.eq_dec i 5) as [->|Ni]; [|destruct (Nat.eq_dec j 5) as [->|Nj]].
    + rewrite Zr by lia. idx j; cbn; apply (Z _); lia.
    + rewrite Zc by lia. idx i; cbn; apply (Z _); lia.
    + assert (Sw : forall a b, (a < 6)%nat -> (b < 6)%nat -> IA a b - IA a 5%nat * (IA b 5%nat / IA 5%nat 5%nat) = IA b a - IA b 5%nat * (IA a 5%nat / IA 5%nat 5%nat)).
      { intros a b Ha Hb. rewrite (S a b Ha Hb). field. exact K. }
      idx i; try (exfalso; apply Ni; reflexivity); idx j; try (exfalso; apply Nj; reflexivity); cbn; first [reflexivity | apply Sw; lia].
Qed.

(** A link turned by a right angle about z and displaced. *)
Definition E90 : mat := fun i j => match i, j with 0%nat, 1%nat => 1 | 1%nat, 0%nat => - (1) | 2%nat, 2%nat => 1 | _, _ => 0 end.
Definition IA0 : mat := newInertia 2 (fun _ => 1) (fun i j => if (i =? j)%nat then 7 else 0) zeros.
Example C90_articulated_example : rotation E90 /\ motionTransformBack E90 (fun _ => 1) (mtE E90 (fun _ => 1)) /\
  forceTransform E90 (fun _ => 1) (ftE E90 (fun _ => 1)) /\ sym6 IA0 /\ IA0 2%nat 2%nat <> 0 /\
  (let Ia := compute_Ia_revolute IA0 (fun i => IA0 i 2%nat) 7 zeros in
   sym6 Ia /\ deadRow AZ Ia /\ Ia 0%nat 0%nat = 7 /\ Ia 3%nat 3%nat = 10 / 7).
Proof.
  split; [|split; [|split; [|split; [|split]]]].
  - split; [intros i j Hi Hj; idx i; idx j; ev; ring|ev; ring].
  - intros v i Hi. idx i; ev; ring.
  - intros v i Hi. idx i; ev; ring.
  - intros i j Hi Hj; idx i; idx j; ev; ring.
  - ev. lra.
  - cbv zeta. split; [|split; [|split]].
    + intros i j Hi Hj; idx i; idx j; ev; ring.
    + intros i Hi; idx i; ev; ring.
    + ev; field.
    + ev; field.
Qed.
Print Assumptions C90_ctransform_revolute.
Print Assumptions C90_ctransform_prismatic.
Print Assumptions C90_compute_Ia.
