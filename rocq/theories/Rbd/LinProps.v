(** C68: the analytical parts of the linearised rigid body dynamics. *)
From Coq Require Import Reals List Bool Arith Lra Lia.
From Coquelicot Require Import Coquelicot.
From Verif Require Import Base.RVec Core.NumDiffModel Core.NumDiffProps Rbd.LinModel.
Local Open Scope R_scope.

(** * Specification *)

(** The matrix of the cross product with [w]. *)
Definition skew (w : rvec) : rmat := mat3 0 (- w 2%nat) (w 1%nat) (w 2%nat) 0 (- w 0%nat) (- w 1%nat) (w 0%nat) 0.
(** [e] are the rates of the Euler angles of a body that turns with angular velocity [omega], expressed in the body: the rate
    of change of the rotation matrix along [e] is R [omega]x. *)
Definition euler_rate (theta omega e : rvec) : Prop := forall i j, (i < 3)%nat -> (j < 3)%nat ->
  rsum 3 (fun k => Derive (fun v => R_WB (rset theta k v) i j) (theta k) * e k) = rsum 3 (fun k => R_WB theta i k * skew omega k j).
(** The upper half of the dynamics of a floating base robot with Euler angles (nothing is said about the Euler angle rates at
    the singularity of the angles): state
    (angles, base position, joint positions, local angular velocity, local linear velocity, joint velocities). *)
Definition floating_kinematics (half : nat) (dyn : rvec -> R -> rvec -> rvec) : Prop := forall x t u,
  (cos (x 1%nat) <> 0 -> euler_rate (segm x 0) (segm x half) (dyn x t u)) /\
  (forall i, (i < 3)%nat -> dyn x t u (3 + i)%nat = rsum 3 (fun k => R_WB (segm x 0) i k * x (half + 3 + k)%nat)) /\
  (forall i, (6 <= i < half)%nat -> dyn x t u i = x (half + i)%nat).

(** * Lemmas *)
Ltac cases3 i := destruct i as [|[|[|i]]]; [| | |exfalso; lia].

(** The partial derivatives of the rotation matrix. *)
Definition dR (theta : rvec) (k : nat) : rmat :=
  match k with
  | 0%nat => mul3 (mul3 (mat3 0 0 0 0 (- sin (theta 0%nat)) (- cos (theta 0%nat)) 0 (cos (theta 0%nat)) (- sin (theta 0%nat))) (rotY (theta 1%nat))) (rotZ (theta 2%nat))
  | 1%nat => mul3 (mul3 (rotX (theta 0%nat)) (mat3 (- sin (theta 1%nat)) 0 (cos (theta 1%nat)) 0 0 0 (- cos (theta 1%nat)) 0 (- sin (theta 1%nat)))) (rotZ (theta 2%nat))
  | _ => mul3 (mul3 (rotX (theta 0%nat)) (rotY (theta 1%nat))) (mat3 (- sin (theta 2%nat)) (- cos (theta 2%nat)) 0 (cos (theta 2%nat)) (- sin (theta 2%nat)) 0 0 0 0)
  end.
Lemma dR_spec theta k i j : (k < 3)%nat -> (i < 3)%nat -> (j < 3)%nat ->
  is_derive (fun v => R_WB (rset theta k v) i j) (theta k) (dR theta k i j).
Proof.
  intros Hk Hi Hj. cases3 k; cases3 i; cases3 j; unfold R_WB, dR, mul3, rotX, rotY, rotZ, rset; simpl; auto_derive; auto; ring.
Qed.
Lemma sc a : sin a * sin a = 1 - cos a * cos a.
Proof. pose proof (sin2_cos2 a) as H. unfold Rsqr in H. lra. Qed.

Lemma euler_rate_iff theta omega e : cos (theta 1%nat) <> 0 ->
  (euler_rate theta omega e <-> forall i, (i < 3)%nat -> e i = rsum 3 (fun j => jacAngVel theta omega i (3 + j)%nat * omega j)).
Proof.
  intros C.
  assert (Q : euler_rate theta omega e <-> forall i j, (i < 3)%nat -> (j < 3)%nat ->
     rsum 3 (fun k => dR theta k i j * e k) = rsum 3 (fun k => R_WB theta i k * skew omega k j)).
  { unfold euler_rate. split; intros H i j Hi Hj; rewrite <- (H i j Hi Hj); apply rsum_ext; intros k Hk; f_equal;
      [symmetry|]; apply is_derive_unique; now apply dR_spec. }
  rewrite Q. clear Q.
  assert (A : (forall i, (i < 3)%nat -> e i = rsum 3 (fun j => jacAngVel theta omega i (3 + j)%nat * omega j)) <->
    e 0%nat = (cos (theta 2%nat) * omega 0%nat - sin (theta 2%nat) * omega 1%nat) / cos (theta 1%nat) /\
    e 1%nat = sin (theta 2%nat) * omega 0%nat + cos (theta 2%nat) * omega 1%nat /\
    e 2%nat = omega 2%nat - sin (theta 1%nat) * ((cos (theta 2%nat) * omega 0%nat - sin (theta 2%nat) * omega 1%nat) / cos (theta 1%nat))).
  { split.
    - intros H. rewrite (H 0%nat), (H 1%nat), (H 2%nat) by lia.
      unfold jacAngVel, jacobianOfAngularVelocityMapping, angularY, xAD; simpl. split; [|split]; try field; auto; ring.
    - intros (E0 & E1 & E2) i Hi. cases3 i; rewrite ?E0, ?E1, ?E2;
      unfold jacAngVel, jacobianOfAngularVelocityMapping, angularY, xAD; simpl; try field; auto; ring. }
  rewrite A. clear A.
  pose proof (sc (theta 0%nat)) as S0. pose proof (sc (theta 1%nat)) as S1. pose proof (sc (theta 2%nat)) as S2.
  unfold R_WB, dR, mul3, rotX, rotY, rotZ, skew. simpl.
  revert C S0 S1 S2. generalize (cos (theta 0%nat)) as c0, (sin (theta 0%nat)) as s0, (cos (theta 1%nat)) as c1, (sin (theta 1%nat)) as s1, (cos (theta 2%nat)) as c2, (sin (theta 2%nat)) as s2.
  generalize (e 0%nat) as e0, (e 1%nat) as e1, (e 2%nat) as e2, (omega 0%nat) as w0, (omega 1%nat) as w1, (omega 2%nat) as w2.
  intros e0 e1 e2 w0 w1 w2 c0 s0 c1 s1 c2 s2 C S0 S1 S2. split.
  - intros H.
    pose proof (H 0%nat 0%nat ltac:(lia) ltac:(lia)) as H00. pose proof (H 0%nat 1%nat ltac:(lia) ltac:(lia)) as H01. pose proof (H 0%nat 2%nat ltac:(lia) ltac:(lia)) as H02.
    pose proof (H 1%nat 0%nat ltac:(lia) ltac:(lia)) as H10. pose proof (H 1%nat 1%nat ltac:(lia) ltac:(lia)) as H11. pose proof (H 1%nat 2%nat ltac:(lia) ltac:(lia)) as H12.
    pose proof (H 2%nat 0%nat ltac:(lia) ltac:(lia)) as H20. pose proof (H 2%nat 1%nat ltac:(lia) ltac:(lia)) as H21. pose proof (H 2%nat 2%nat ltac:(lia) ltac:(lia)) as H22.
    clear H. cbn in H00, H01, H02, H10, H11, H12, H20, H21, H22.
    assert (W0 : w0 = c1 * c2 * e0 + s2 * e1).
    { match type of H01 with ?l01 = ?r01 => match type of H11 with ?l11 = ?r11 => match type of H21 with ?l21 = ?r21 =>
        transitivity (s1 * r01 + - s0 * c1 * r11 + c0 * c1 * r21);
        [ring [S0 S1 S2]|rewrite <- H01, <- H11, <- H21; ring [S0 S1 S2]] end end end. }
    assert (W1 : w1 = - c1 * s2 * e0 + c2 * e1).
    { match type of H02 with ?l02 = ?r02 => match type of H12 with ?l12 = ?r12 => match type of H22 with ?l22 = ?r22 =>
        transitivity (c1 * c2 * r02 + (c0 * s2 + s0 * s1 * c2) * r12 + (s0 * s2 - c0 * s1 * c2) * r22);
        [ring [S0 S1 S2]|rewrite <- H02, <- H12, <- H22; ring [S0 S1 S2]] end end end. }
    assert (W2 : w2 = s1 * e0 + e2).
    { match type of H00 with ?l00 = ?r00 => match type of H10 with ?l10 = ?r10 => match type of H20 with ?l20 = ?r20 =>
        transitivity (- c1 * s2 * r00 + (c0 * c2 - s0 * s1 * s2) * r10 + (s0 * c2 + c0 * s1 * s2) * r20);
        [ring [S0 S1 S2]|rewrite <- H00, <- H10, <- H20; ring [S0 S1 S2]] end end end. }
    clear H00 H01 H02 H10 H11 H12 H20 H21 H22.
    assert (E0 : e0 = (c2 * w0 - s2 * w1) / c1).
    { apply (Rmult_eq_reg_r c1); [|auto]. unfold Rdiv. rewrite Rmult_assoc, Rinv_l, Rmult_1_r by auto. rewrite W0, W1. ring [S2]. }
    split; [exact E0|]. rewrite <- E0. split; [rewrite W0, W1; ring [S2]|rewrite W2; ring].
  - intros (E0 & E1 & E2) i j Hi Hj. rewrite <- E0 in E2.
    assert (E0' : c1 * e0 = c2 * w0 - s2 * w1) by (rewrite E0; field; auto).
    assert (W0 : w0 = c1 * c2 * e0 + s2 * e1) by (rewrite E1; ring [E0' S2]).
    assert (W1 : w1 = - c1 * s2 * e0 + c2 * e1) by (rewrite E1; ring [E0' S2]).
    assert (W2 : w2 = s1 * e0 + e2) by (rewrite E2; ring).
    clear E0 E0' E1 E2. cases3 i; cases3 j; cbn; rewrite ?W0, ?W1, ?W2; ring [S0 S1 S2].
Qed.

(** Columns of the numerical Jacobian along which the component is affine, where the overwritten entries agree. *)
Lemma base_affine eps second ds half dyn x u t r i b : 0 < eps -> (r < half)%nat -> (i < 2 * half)%nat ->
  (forall v, dyn (rset x i v) t u r = dyn x t u r + b * (v - x i)) ->
  b = (if (half <=? i)%nat then if (i - half =? r)%nat then 1 else 0 else 0) ->
  partial (fun x' => dyn x' t u) x r i (system_derivative_state Rplus Rminus eps second (2 * half) ds dyn x u t r i).
Proof.
  intros He Hr Hi Hv Hb.
  assert (P : partial (fun x' => dyn x' t u) x r i b).
  { unfold partial. apply (is_derive_ext (fun v => dyn x t u r + b * (v - x i))); [intros v; now rewrite Hv|].
    auto_derive; auto. ring. }
  replace (system_derivative_state Rplus Rminus eps second (2 * half) ds dyn x u t r i) with b; [exact P|].
  unfold system_derivative_state. rewrite (Nat.mul_comm 2 half), Nat.div_mul by lia.
  replace (half * 2 - half)%nat with half by lia. rewrite (proj2 (Nat.ltb_lt r half) Hr).
  destruct second; cbn [andb].
  - destruct (Nat.leb_spec half i) as [L|L]; [exact Hb|].
    rewrite (proj2 (Nat.ltb_lt i half) L). exact Hb.
  - pose proof (pert_pos eps (x i) He) as Hp. unfold derivative_state, jacobian. rewrite !Hv. destruct ds; field; lra.
Qed.

Lemma cos_locally a : cos a <> 0 -> locally a (fun v => cos v <> 0).
Proof.
  intros H. assert (C : continuous cos a) by (apply continuity_pt_filterlim, continuity_cos).
  destruct (Rlt_or_le (cos a) 0) as [L|L].
  - apply (filter_imp (fun v => cos v < 0)); [intros v Hv; lra|]. apply (C (fun y => y < 0)). now apply open_lt.
  - apply (filter_imp (fun v => 0 < cos v)); [intros v Hv; lra|]. apply (C (fun y => 0 < y)). apply open_gt. lra.
Qed.

Lemma segm_rset x i v o j : segm (rset x i v) o j = rset (segm x o) (i - o) v j \/ (i < o)%nat.
Proof.
  destruct (Nat.lt_ge_cases i o) as [L|L]; [now right|left]. unfold segm, rset.
  destruct (Nat.eqb_spec (o + j) i), (Nat.eqb_spec j (i - o)); auto; lia.
Qed.
Lemma R_ext a b i j : (forall k, (k < 3)%nat -> a k = b k) -> R_WB a i j = R_WB b i j.
Proof. intros H. unfold R_WB. now rewrite !H by lia. Qed.
Lemma jac_ext th th' w w' i j : (forall k, (k < 3)%nat -> th k = th' k) -> (forall k, (k < 3)%nat -> w k = w' k) ->
  jacAngVel th w i j = jacAngVel th' w' i j.
Proof. intros H H'. unfold jacAngVel, jacobianOfAngularVelocityMapping, angularY, xAD. simpl. now rewrite !H, !H' by lia. Qed.

(** The entries of the generated code are the derivatives of the rates with respect to angles and angular velocity. *)
Definition ratesOf (theta omega : rvec) (i : nat) : R := rsum 3 (fun j => jacAngVel theta omega i (3 + j)%nat * omega j).
Lemma rates_dtheta theta omega i j : cos (theta 1%nat) <> 0 -> (i < 3)%nat -> (j < 3)%nat ->
  is_derive (fun v => ratesOf (rset theta j v) omega i) (theta j) (jacAngVel theta omega i j).
Proof.
  intros C Hi Hj. pose proof (sc (theta 1%nat)) as S1.
  cases3 i; cases3 j; unfold ratesOf, jacAngVel, jacobianOfAngularVelocityMapping, angularY, xAD, rset; simpl; auto_derive; auto;
    try (field; auto); try (field_simplify; auto); try ring.
Qed.

Lemma rates_domega theta omega i j : (i < 3)%nat -> (j < 3)%nat ->
  is_derive (fun v => ratesOf theta (rset omega j v) i) (omega j) (jacAngVel theta omega i (3 + j)%nat).
Proof.
  intros Hi Hj. cases3 i; cases3 j; unfold ratesOf, jacAngVel, jacobianOfAngularVelocityMapping, angularY, xAD, rset; simpl; auto_derive; auto; ring.
Qed.
Lemma derive_mulc (f : R -> R) (x d c : R) : is_derive f x d -> is_derive (fun a => f a * c) x (d * c).
Proof.
  intros H. apply (is_derive_ext (fun a => c * f a)); [intros; apply Rmult_comm|]. rewrite Rmult_comm. now apply is_derive_scal.
Qed.
Lemma velocity_dtheta theta v i j : (i < 3)%nat -> (j < 3)%nat ->
  is_derive (fun a => rsum 3 (fun k => R_WB (rset theta j a) i k * v k)) (theta j)
    (rsum 3 (fun k => - R_WB theta i k * JacobianOfRotationMultiplyVector theta (fun i => rsum 3 (fun k => R_WB theta i k * v k)) k j)).
Proof.
  intros Hi Hj.
  replace (rsum 3 (fun k => - R_WB theta i k * JacobianOfRotationMultiplyVector theta (fun i => rsum 3 (fun k => R_WB theta i k * v k)) k j))
    with (rsum 3 (fun k => dR theta j i k * v k)).
  - cbn [rsum]. apply @is_derive_plus; [apply @is_derive_plus; [apply @is_derive_plus; [apply @is_derive_const|]|]|];
      apply derive_mulc; apply dR_spec; auto.
  - pose proof (sc (theta 0%nat)) as S0. pose proof (sc (theta 1%nat)) as S1. pose proof (sc (theta 2%nat)) as S2.
    unfold JacobianOfRotationMultiplyVector.
    cases3 i; cases3 j; unfold R_WB, dR, mul3, rotX, rotY, rotZ; simpl;
    revert S0 S1 S2; generalize (cos (theta 0%nat)) as c0, (sin (theta 0%nat)) as s0, (cos (theta 1%nat)) as c1, (sin (theta 1%nat)) as s1, (cos (theta 2%nat)) as c2, (sin (theta 2%nat)) as s2;
    intros c0 s0 c1 s1 c2 s2 S0 S1 S2; ring [S0 S1 S2].
Qed.

(** * C68 *)

(** The right block of the generated Jacobian maps angular velocities to Euler angle rates: it gives the only rates that
    belong to the angular velocity. *)
Theorem C68_euler_rates (theta omega e : rvec) : cos (theta 1%nat) <> 0 ->
  (euler_rate theta omega e <-> forall i, (i < 3)%nat -> e i = rsum 3 (fun j => jacAngVel theta omega i (3 + j)%nat * omega j)).
Proof. apply euler_rate_iff. Qed.

(** The upper half of the returned state derivative is exact, whether or not the system was declared second order and with
    either kind of numerical differences in the base class. *)
Theorem C68_state (eps : R) (second ds : bool) (half : nat) (dyn : rvec -> R -> rvec -> rvec) (x u : rvec) (t : R) (r i : nat) :
  0 < eps -> (6 <= half)%nat -> floating_kinematics half dyn -> cos (x 1%nat) <> 0 ->
  (r < half)%nat -> (i < 2 * half)%nat ->
  partial (fun x' => dyn x' t u) x r i (getDerivativeState eps second ds (2 * half) dyn x u t r i).
Proof.
  intros He Hh HD C Hr Hi. unfold getDerivativeState. rewrite Nat.div2_double.
  set (base := system_derivative_state _ _ _ _ _ _ _ _ _ _).
  assert (Rt : forall y, cos (y 1%nat) <> 0 -> forall k, (k < 3)%nat -> dyn y t u k = ratesOf (segm y 0) (segm y half) k).
  { intros y Cy k Hk. destruct (HD y t u) as (E & _). apply (euler_rate_iff (segm y 0)); auto. }
  assert (Rv : forall y k, (k < 3)%nat -> dyn y t u (3 + k)%nat = rsum 3 (fun l => R_WB (segm y 0) k l * segm y (half + 3) l)).
  { intros y k Hk. destruct (HD y t u) as (_ & E & _). exact (E k Hk). }
  assert (Rj : forall y k, (6 <= k < half)%nat -> dyn y t u k = y (half + k)%nat).
  { intros y k Hk. destruct (HD y t u) as (_ & _ & E). exact (E k Hk). }
  assert (Cs : forall v, i <> 1%nat -> cos (rset x i v 1%nat) <> 0) by (intros v N; rewrite rset_other; auto).
  assert (Sg : forall v o k, (i < o)%nat \/ (o + 3 <= i)%nat -> (k < 3)%nat -> segm (rset x i v) o k = segm x o k).
  { intros v o k L Hk. unfold segm. apply rset_other. lia. }
  assert (Sn : forall v o k, (o <= i)%nat -> segm (rset x i v) o k = rset (segm x o) (i - o) v k).
  { intros v o k L. unfold segm, rset. destruct (Nat.eqb_spec (o + k) i), (Nat.eqb_spec k (i - o)); auto; lia. }
  assert (Loc : forall (f g : R -> R) d, (forall v, cos (rset x i v 1%nat) <> 0 -> f v = g v) -> is_derive g (x i) d -> is_derive f (x i) d).
  { intros f g d E D. apply (is_derive_ext_loc g); [|exact D].
    destruct (Nat.eq_dec i 1) as [->|N].
    - apply (filter_imp (fun v => cos v <> 0)); [|now apply cos_locally]. intros v Hv. symmetry. apply E. now rewrite rset_eq.
    - apply filter_forall. intros v. symmetry. apply E. auto. }
  destruct (Nat.ltb_spec r 3) as [R3|R3].
  - replace (3 <=? r)%nat with false by (symmetry; apply Nat.leb_gt; lia). cbn [andb].
    destruct (Nat.ltb_spec i 3) as [I3|I3].
    + unfold partial. apply (Loc _ (fun v => ratesOf (rset (segm x 0) i v) (segm x half) r)).
      * intros v Cv. rewrite Rt by auto. unfold ratesOf. apply rsum_ext. intros k Hk. f_equal.
        -- apply jac_ext; intros l Hl; [|apply Sg; lia]. rewrite Sn by lia. now rewrite Nat.sub_0_r.
        -- apply Sg; lia.
      * apply (rates_dtheta (segm x 0)); auto.
    + destruct ((half <=? i)%nat && (i <? half + 3)%nat) eqn:Eb; cbn [andb].
      * apply andb_true_iff in Eb. destruct Eb as [B1 B2]. apply Nat.leb_le in B1. apply Nat.ltb_lt in B2.
        unfold partial. apply (Loc _ (fun v => ratesOf (segm x 0) (rset (segm x half) (i - half) v) r)).
        -- intros v Cv. rewrite Rt by auto. unfold ratesOf. apply rsum_ext. intros k Hk. f_equal.
           ++ apply jac_ext; intros l Hl; [apply Sg; lia|]. now rewrite Sn by lia.
           ++ now rewrite Sn by lia.
        -- replace (x i) with (segm x half (i - half)%nat) by (unfold segm; f_equal; lia).
           apply rates_domega; lia.
      * apply andb_false_iff in Eb. rewrite Nat.leb_gt, Nat.ltb_ge in Eb.
        apply base_affine with (b := 0); auto.
        -- intros v. rewrite !Rt by (auto; (apply Cs; lia)). rewrite Rmult_0_l, Rplus_0_r. unfold ratesOf.
           apply rsum_ext. intros k Hk. f_equal; [apply jac_ext; intros l Hl|]; apply Sg; lia.
        -- destruct (Nat.leb_spec half i); auto. destruct (Nat.eqb_spec (i - half) r); auto. lia.
  - cbn [andb]. replace (3 <=? r)%nat with true by (symmetry; apply Nat.leb_le; lia).
    destruct (Nat.ltb_spec r 6) as [R6|R6]; cbn [andb].
    + assert (Er : r = (3 + (r - 3))%nat) by lia.
      destruct (Nat.ltb_spec i 3) as [I3|I3].
      * unfold partial. apply (Loc _ (fun v => rsum 3 (fun k => R_WB (rset (segm x 0) i v) (r - 3)%nat k * segm x (half + 3) k))).
        -- intros v Cv. rewrite Er at 1. rewrite Rv by (auto; lia). apply rsum_ext. intros k Hk. apply f_equal2; [|apply Sg; lia].
           apply R_ext. intros l Hl. rewrite Sn by lia. now rewrite Nat.sub_0_r.
        -- apply (velocity_dtheta (segm x 0) (segm x (half + 3))); lia.
      * destruct ((half + 3 <=? i)%nat && (i <? half + 6)%nat) eqn:Eb.
        -- apply andb_true_iff in Eb. destruct Eb as [B1 B2]. apply Nat.leb_le in B1. apply Nat.ltb_lt in B2.
           unfold partial. apply (Loc _ (fun v => rsum 3 (fun k => R_WB (segm x 0) (r - 3)%nat k * rset (segm x (half + 3)) (i - (half + 3)) v k))).
           ++ intros v Cv. rewrite Er at 1. rewrite Rv by (auto; lia). apply rsum_ext. intros k Hk. f_equal; [|apply Sn; lia].
              apply R_ext. intros l Hl. apply Sg; lia.
           ++ set (k0 := (i - (half + 3))%nat). apply (is_derive_ext (fun v => rdot 3 (R_WB (segm x 0) (r - 3)%nat) (segm x (half + 3)) + R_WB (segm x 0) (r - 3)%nat k0 * (v - segm x (half + 3) k0))).
              ** intros v. fold (rdot 3 (R_WB (segm x 0) (r - 3)%nat) (rset (segm x (half + 3)) k0 v)). now rewrite rdot_set by (unfold k0; lia).
              ** auto_derive; auto. ring.
        -- apply andb_false_iff in Eb. rewrite Nat.leb_gt, Nat.ltb_ge in Eb.
           apply base_affine with (b := 0); auto.
           ++ intros v. rewrite Er. rewrite !Rv by lia. rewrite Rmult_0_l, Rplus_0_r.
              apply rsum_ext. intros k Hk. f_equal; [apply R_ext; intros l Hl|]; apply Sg; lia.
           ++ destruct (Nat.leb_spec half i); auto. destruct (Nat.eqb_spec (i - half) r); auto. lia.
    + set (b := if (half <=? i)%nat then if (i - half =? r)%nat then 1 else 0 else 0).
      apply base_affine with (b := b); auto. intros v. rewrite !Rj by (auto; lia). unfold b.
      destruct (Nat.leb_spec half i).
      * destruct (Nat.eqb_spec (i - half) r) as [E|E].
        -- replace (half + r)%nat with i by lia. rewrite rset_eq. ring.
        -- rewrite rset_other by lia. ring.
      * rewrite rset_other by lia. ring.
Qed.

(** The input derivative is exact for every system whose accelerations obey M(q) a + h(q, qd) = S^T u, when the Cholesky solve
    returns an inverse of the inertia matrix. *)
Theorem C68_control (half c : nat) (dyn : rvec -> R -> rvec -> rvec) (M Minv S : rmat) (h x u : rvec) (t : R) (i j : nat) :
  (forall u' k, (k < half)%nat -> rsum half (fun l => M k l * dyn x t u' (half + l)%nat) = rsum c (fun l => S l k * u' l) - h k) ->
  (forall k l, (k < half)%nat -> (l < half)%nat -> rsum half (fun m => Minv k m * M m l) = if Nat.eqb l k then 1 else 0) ->
  (forall u1 u2 k, (k < half)%nat -> dyn x t u1 k = dyn x t u2 k) ->
  (i < 2 * half)%nat -> (j < c)%nat ->
  partial (fun u' => dyn x t u') u i j (getDerivativeControl (2 * half) Minv S i j).
Proof.
  intros HM HI HU Hi Hj. unfold getDerivativeControl. rewrite Nat.div2_double. unfold partial.
  destruct (Nat.ltb_spec i half) as [L|L].
  - apply (is_derive_ext (fun _ => dyn x t u i)); [intros v; now apply HU|]. auto_derive; auto.
  - assert (Q : forall u', dyn x t u' i = rsum half (fun m => Minv (i - half)%nat m * (rsum c (fun l => S l m * u' l) - h m))).
    { intros u'. transitivity (rsum half (fun m => Minv (i - half)%nat m * rsum half (fun l => M m l * dyn x t u' (half + l)%nat))).
      - rewrite (rsum_ext half _ (fun m => rsum half (fun l => Minv (i - half)%nat m * M m l * dyn x t u' (half + l)%nat))).
        2:{ intros m _. rewrite <- rsum_scal. apply rsum_ext. intros; ring. }
        rewrite rsum_swap.
        rewrite (rsum_ext half _ (fun l => if Nat.eqb l (i - half) then dyn x t u' (half + l)%nat else 0)).
        + rewrite rsum_delta by lia. f_equal. lia.
        + intros l Hl. rewrite rsum_scal_r, HI by lia. destruct (Nat.eqb l (i - half)); ring.
      - apply rsum_ext. intros m Hm. now rewrite HM. }
    apply (is_derive_ext (fun v => dyn x t u i + rsum half (fun k => Minv (i - half)%nat k * S j k) * (v - u j))).
    + intros v. rewrite (Q (rset u j v)), (Q u). rewrite <- rsum_scal_r, <- rsum_plus. apply rsum_ext. intros m Hm.
      fold (rdot c (fun l => S l m) u). fold (rdot c (fun l => S l m) (rset u j v)). rewrite rdot_set by auto. ring.
    + auto_derive; auto. ring.
Qed.
(** The default selection matrices: the torques act on the joints only, each on its own. *)
Theorem C68_selection (n : nat) (u : rvec) (k : nat) : (k < n)%nat ->
  rsum n (fun l => selection false n n l k * u l) = u k /\
  ((6 <= n)%nat -> rsum (n - 6) (fun l => selection true (n - 6) n l k * u l) = if (k <? 6)%nat then 0 else u (k - 6)%nat).
Proof.
  intros Hk. split.
  - rewrite (rsum_ext n _ (fun l => if Nat.eqb l k then u l else 0)); [now apply rsum_delta|].
    intros l Hl. unfold selection. rewrite Nat.sub_diag. cbn [Nat.leb andb]. rewrite Nat.sub_0_r, Nat.eqb_sym.
    destruct (Nat.eqb l k); ring.
  - intros H6. unfold selection. destruct (Nat.ltb_spec k 6) as [L|L].
    + rewrite (rsum_ext _ _ (fun _ => 0)); [apply rsum_zero|]. intros l _.
      replace (6 <=? k)%nat with false by (symmetry; apply Nat.leb_gt; lia). simpl. ring.
    + rewrite (rsum_ext _ _ (fun l => if Nat.eqb l (k - 6) then u l else 0)); [apply rsum_delta; lia|].
      intros l Hl. replace (6 <=? k)%nat with true by (symmetry; apply Nat.leb_le; lia). cbn [andb].
      rewrite Nat.eqb_sym. destruct (Nat.eqb l (k - 6)); ring.
Qed.

(** The hypotheses of C68_state are met, for every number of joints, e.g. by this system. *)
Definition exDyn (half : nat) (x : rvec) (t : R) (u : rvec) : rvec := fun k =>
  if (k <? 3)%nat then ratesOf (segm x 0) (segm x half) k
  else if (k <? 6)%nat then rsum 3 (fun l => R_WB (segm x 0) (k - 3)%nat l * x (half + 3 + l)%nat)
  else if (k <? half)%nat then x (half + k)%nat else u (k - half)%nat - x k.
Example C68_example half : (6 <= half)%nat -> floating_kinematics half (exDyn half).
Proof.
  intros H x t u. split; [|split].
  - intros C. apply euler_rate_iff; [exact C|]. intros i Hi. unfold exDyn. now rewrite (proj2 (Nat.ltb_lt i 3) Hi).
  - intros i Hi. unfold exDyn. replace (3 + i <? 3)%nat with false by (symmetry; apply Nat.ltb_ge; lia).
    replace (3 + i <? 6)%nat with true by (symmetry; apply Nat.ltb_lt; lia). now replace (3 + i - 3)%nat with i by lia.
  - intros i Hi. unfold exDyn. replace (i <? 3)%nat with false by (symmetry; apply Nat.ltb_ge; lia).
    replace (i <? 6)%nat with false by (symmetry; apply Nat.ltb_ge; lia). now rewrite (proj2 (Nat.ltb_lt i half)) by lia.
Qed.

Print Assumptions C68_euler_rates.
Print Assumptions C68_state.
Print Assumptions C68_control.
Print Assumptions C68_selection.
