(** C67: the soft contact model. *)
From Coq Require Import Reals Lra Lia List Psatz.
From Coquelicot Require Import Coquelicot.
From Verif Require Import Base.Outcome Rbd.ContactModel.
Import ListNotations.
Local Open Scope R_scope.

(** * Specification (documentation of the class) *)

(** Weight of the damper at height [z] for the smoothing types: with no smoothing the damper acts below the plane only. *)
Definition weight (c : contact) (z : R) : R :=
  match c_smoothing c with
  | NONE => if Rle_dec z (c_zOffset c) then 1 else 0
  | SIGMOID | TANH => 1 / (1 + exp (z * c_alpha c))
  | ABS => 1 / 2 * (- (z * c_alpha c) / (1 + Rabs (z * c_alpha c))) + 1 / 2
  | UNDEFINED => 0
  end.
(** Normal force of the spring at height [z]: exponential with normal force smoothing, otherwise linear below the plane. *)
Definition spring (c : contact) (z : R) : R :=
  if Rlt_dec 0 (c_alpha_n c) then c_k c * exp (- c_alpha_n c * (z - c_zOffset c))
  else if Rle_dec z (c_zOffset c) then - c_k c * (z - c_zOffset c) else 0.
Definition specForce (c : contact) (z : R) (v : vec3) : vec3 :=
  (- weight c z * c_d c * vx v, - weight c z * c_d c * vy v, - weight c z * c_d c * vz v + spring c z).
(** Power of a force on a point that moves with velocity [v]. *)
Definition power (f v : vec3) : R := vx f * vx v + vy f * vy v + vz f * vz v.

(** * Lemmas *)
Lemma tanh_sigmoid a : 1 / 2 * tanh (- (1 / 2) * a) + 1 / 2 = 1 / (1 + exp a).
Proof.
  unfold tanh, sinh, cosh. set (p := exp (1 / 2 * a)).
  assert (Hp : 0 < p) by apply exp_pos.
  replace (- (1 / 2) * a) with (- (1 / 2 * a)) by ring. rewrite Ropp_involutive, exp_Ropp. fold p.
  replace (exp a) with (p * p) by (unfold p; rewrite <- exp_plus; f_equal; lra).
  field. assert (0 < p * p) by nra. repeat split; nra.
Qed.
Lemma eeForce_spec c pos vel i : c_smoothing c <> UNDEFINED ->
  c_smoothing c <> NONE \/ (c_zOffset c = 0 /\ c_alpha_n c <= 0) ->
  eeForce c pos vel i true = Ok (Some (specForce c (vz (pos i)) (vel i))).
Proof.
  intros Hu Hn. set (z := vz (pos i)). set (v := vel i). unfold eeForce. fold z v.
  unfold computeEEForce, eeInContact, smoothEEForce, computeDamperForce, computeNormalSpring, specForce, weight, spring.
  destruct (c_smoothing c) eqn:Es; try congruence.
  - destruct Hn as [Hn|[Hz Ha]]; [congruence|]. rewrite Hz. destruct (Rgt_dec z 0) as [G|G].
    + destruct (Rle_dec z 0); [lra|]. destruct (Rlt_dec 0 (c_alpha_n c)); [lra|]. unfold zero3.
      do 2 f_equal. f_equal; [f_equal|]; ring.
    + cbn [obind omap]. destruct (Rgt_dec (c_alpha_n c) 0); [lra|]. destruct (Rlt_dec 0 (c_alpha_n c)); [lra|].
      destruct (Rle_dec (z - 0) 0); [|lra]. destruct (Rle_dec z 0); [|lra]. unfold scale3, vx, vy, vz; simpl.
      do 2 f_equal. f_equal; [f_equal|]; ring.
  - cbn [obind omap]. destruct (Rgt_dec (c_alpha_n c) 0), (Rlt_dec 0 (c_alpha_n c)); try lra;
      [|destruct (Rle_dec (z - c_zOffset c) 0), (Rle_dec z (c_zOffset c)); try lra]; unfold scale3, vx, vy, vz; simpl;
      do 2 f_equal; (f_equal; [f_equal|]; ring).
  - rewrite Rmult_assoc, tanh_sigmoid.
    cbn [obind omap]. destruct (Rgt_dec (c_alpha_n c) 0), (Rlt_dec 0 (c_alpha_n c)); try lra;
      [|destruct (Rle_dec (z - c_zOffset c) 0), (Rle_dec z (c_zOffset c)); try lra]; unfold scale3, vx, vy, vz; simpl;
      do 2 f_equal; (f_equal; [f_equal|]; ring).
  - replace (- z * c_alpha c) with (- (z * c_alpha c)) by ring. rewrite Rabs_Ropp.
    replace (1 / 2 * - z * c_alpha c / (1 + Rabs (z * c_alpha c))) with (1 / 2 * (- (z * c_alpha c) / (1 + Rabs (z * c_alpha c)))) by (unfold Rdiv; ring).
    cbn [obind omap]. destruct (Rgt_dec (c_alpha_n c) 0), (Rlt_dec 0 (c_alpha_n c)); try lra;
      [|destruct (Rle_dec (z - c_zOffset c) 0), (Rle_dec z (c_zOffset c)); try lra]; unfold scale3, vx, vy, vz; simpl;
      do 2 f_equal; (f_equal; [f_equal|]; ring).
Qed.
Lemma forcesFrom_spec c pos vel (F : nat -> bool -> option vec3) : forall active i,
  (forall k, (i <= k < i + length active)%nat -> eeForce c pos vel k (nth (k - i) active false) = Ok (F k (nth (k - i) active false))) ->
  exists fs, forcesFrom c pos vel i active = Ok fs /\ length fs = length active /\
    forall k, (k < length active)%nat -> nth k fs None = F (i + k)%nat (nth k active false).
Proof.
  induction active as [|a r IH]; intros i H.
  - exists []. split; [reflexivity|]. split; [reflexivity|]. simpl. lia.
  - cbn [forcesFrom]. pose proof (H i ltac:(simpl; lia)) as H0. rewrite Nat.sub_diag in H0. cbn [nth] in H0. rewrite H0. cbn [obind].
    destruct (IH (S i)) as (fs & E & L & N).
    + intros k Hk. specialize (H k ltac:(simpl; lia)). replace (k - i)%nat with (S (k - S i)) in H by lia. exact H.
    + rewrite E. cbn [obind]. eexists. split; [reflexivity|]. split; [simpl; lia|]. intros [|k] Hk; cbn [nth].
      * now rewrite Nat.add_0_r.
      * rewrite N by (simpl in Hk; lia). f_equal. lia.
Qed.

(** * C67 *)

(** Full claim: the force at every end-effector is the documented one, zero where the model is switched off.
    Proved for active end-effectors with velocity smoothing, or without any smoothing on a plane through the origin; what is
    missing is refuted below. *)
Theorem C67_force_partial (c : contact) (pos vel : nat -> vec3) : c_smoothing c <> UNDEFINED ->
  c_smoothing c <> NONE \/ (c_zOffset c = 0 /\ c_alpha_n c <= 0) ->
  exists fs, computeContactForces c pos vel = Ok fs /\ length fs = length (c_active c) /\
    forall i, (i < length (c_active c))%nat -> nth i (c_active c) false = true ->
      nth i fs None = Some (specForce c (vz (pos i)) (vel i)).
Proof.
  intros Hu Hn. destruct (forcesFrom_spec c pos vel (fun i a => if a then Some (specForce c (vz (pos i)) (vel i)) else None) (c_active c) 0)
    as (fs & E & L & N).
  - intros k Hk. destruct (nth (k - 0) (c_active c) false); [now apply eeForce_spec|reflexivity].
  - exists fs. split; [exact E|]. split; [exact L|]. intros i Hi Ha. rewrite N by auto. now rewrite Ha.
Qed.
(** REFUTED: the element of an end-effector that is switched off is never written, so its force is uninitialised. *)
Theorem C67_inactive_refuted (c : contact) (pos vel : nat -> vec3) (fs : list (option vec3)) (i : nat) :
  computeContactForces c pos vel = Ok fs -> (i < length (c_active c))%nat -> nth i (c_active c) true = false -> nth_error fs i = Some None.
Proof.
  unfold computeContactForces. generalize (c_active c) as active. intros active. revert i fs. generalize 0%nat as s.
  intros s i fs. revert s i fs. induction active as [|a r IH]; intros s i fs H Hi Ha; [simpl in Hi; lia|].
  cbn [forcesFrom] in H. destruct (eeForce c pos vel s a) as [f| |] eqn:Ef; try discriminate. cbn [obind] in H.
  destruct (forcesFrom c pos vel (S s) r) as [fs'| |] eqn:Er; try discriminate. apply Ok_inj in H. subst fs.
  destruct i as [|i]; cbn in *.
  - subst a. unfold eeForce in Ef. apply Ok_inj in Ef. now subst f.
  - apply (IH (S s)); auto. lia.
Qed.
(** REFUTED: without velocity smoothing contact is tested against height zero instead of the plane.  Below a raised plane
    there is no force, and above a lowered plane the damper acts. *)
Theorem C67_offset_refuted (c : contact) (pos vel : nat -> vec3) (i : nat) : c_smoothing c = NONE -> c_alpha_n c <= 0 -> 0 < c_k c ->
  (0 < vz (pos i) < c_zOffset c -> eeForce c pos vel i true = Ok (Some zero3) /\ 0 < spring c (vz (pos i))) /\
  (c_zOffset c < vz (pos i) <= 0 -> eeForce c pos vel i true = Ok (Some (scale3 (- c_d c) (vel i))) /\ specForce c (vz (pos i)) (vel i) = zero3).
Proof.
  intros Es Ha Hk. set (z := vz (pos i)). unfold eeForce, eeInContact, computeEEForce, smoothEEForce, computeDamperForce, computeNormalSpring, specForce, weight, spring.
  rewrite Es. fold z. destruct (Rlt_dec 0 (c_alpha_n c)); [lra|]. destruct (Rgt_dec (c_alpha_n c) 0); [lra|]. split.
  - intros Hz. destruct (Rgt_dec z 0); [|lra]. destruct (Rle_dec z (c_zOffset c)); [|lra]. split; [reflexivity|]. nra.
  - intros Hz. destruct (Rgt_dec z 0); [lra|]. cbn [obind omap]. destruct (Rle_dec (z - c_zOffset c) 0); [lra|].
    destruct (Rle_dec z (c_zOffset c)); [lra|]. split; [reflexivity|]. unfold zero3. f_equal; [f_equal|]; ring.
Qed.
(** REFUTED: without velocity smoothing the smoothed normal force is cut off at height zero: it jumps from k (for a plane
    through the origin) to 0. *)
Theorem C67_normal_smoothing_refuted (c : contact) (pos vel : nat -> vec3) (i : nat) : c_smoothing c = NONE -> 0 < c_alpha_n c -> 0 < c_k c ->
  0 < vz (pos i) -> eeForce c pos vel i true = Ok (Some zero3) /\ 0 < spring c (vz (pos i)).
Proof.
  intros Es Ha Hk Hz. unfold eeForce, eeInContact, spring. rewrite Es. destruct (Rgt_dec (vz (pos i)) 0); [|lra]. split; [reflexivity|].
  destruct (Rlt_dec 0 (c_alpha_n c)); [|lra]. apply Rmult_lt_0_compat; [exact Hk|apply exp_pos].
Qed.
(** An undefined smoothing type is rejected as soon as an end-effector is active. *)
Theorem C67_undefined (c : contact) (pos vel : nat -> vec3) : c_smoothing c = UNDEFINED ->
  List.In true (c_active c) -> computeContactForces c pos vel = Throw.
Proof.
  intros Es. unfold computeContactForces. generalize (c_active c) as active, 0%nat as i.
  induction active as [|a r IH]; intros i H; [destruct H|]. cbn [forcesFrom]. destruct a.
  - unfold eeForce, eeInContact, computeEEForce, smoothEEForce. now rewrite Es.
  - destruct H as [H|H]; [discriminate|]. cbn [obind eeForce]. now rewrite IH.
Qed.

(** The smoothing weights lie between 0 and 1, are 1/2 at height zero and fall with the height. *)
Lemma weight_form c z : c_smoothing c = ABS -> weight c z = if Rle_dec 0 (z * c_alpha c) then 1 / 2 * (1 / (1 + z * c_alpha c)) else 1 - 1 / 2 * (1 / (1 - z * c_alpha c)).
Proof.
  intros E. unfold weight. rewrite E. destruct (Rle_dec 0 (z * c_alpha c)).
  - rewrite Rabs_right by lra. field. lra.
  - rewrite Rabs_left by lra. field. lra.
Qed.
Lemma inv_range a : 0 <= a -> 0 < 1 / (1 + a) <= 1.
Proof. intros H. split; [apply Rdiv_lt_0_compat; lra|]. apply Rmult_le_reg_r with (1 + a); [lra|]. unfold Rdiv. rewrite Rmult_assoc, Rinv_l by lra. lra. Qed.
Lemma inv_anti a b : 0 <= a < b -> 1 / (1 + b) < 1 / (1 + a).
Proof. intros H. unfold Rdiv. rewrite !Rmult_1_l. apply Rinv_lt_contravar; nra. Qed.
Theorem C67_weight (c : contact) (z : R) : c_smoothing c <> UNDEFINED -> c_smoothing c <> NONE ->
  0 < weight c z < 1 /\ weight c 0 = 1 / 2 /\
  (0 < c_alpha c -> forall z', z < z' -> weight c z' < weight c z).
Proof.
  intros Hu Hn. destruct (c_smoothing c) eqn:Es; try congruence.
  - unfold weight. rewrite Es. pose proof (exp_pos (z * c_alpha c)) as E. split; [|split].
    + pose proof (inv_range (exp (z * c_alpha c)) ltac:(lra)). pose proof (inv_anti 0 (exp (z * c_alpha c)) ltac:(lra)) as A. rewrite Rplus_0_r in A. lra.
    + rewrite Rmult_0_l, exp_0. lra.
    + intros Ha z' Hz. apply inv_anti. split; [lra|]. apply exp_increasing. nra.
  - unfold weight. rewrite Es. pose proof (exp_pos (z * c_alpha c)) as E. split; [|split].
    + pose proof (inv_range (exp (z * c_alpha c)) ltac:(lra)). pose proof (inv_anti 0 (exp (z * c_alpha c)) ltac:(lra)) as A. rewrite Rplus_0_r in A. lra.
    + rewrite Rmult_0_l, exp_0. lra.
    + intros Ha z' Hz. apply inv_anti. split; [lra|]. apply exp_increasing. nra.
  - rewrite !weight_form by auto. split; [|split].
    + destruct (Rle_dec 0 (z * c_alpha c)) as [L|L].
      * pose proof (inv_range _ L). lra.
      * pose proof (inv_range (- (z * c_alpha c)) ltac:(lra)) as I. unfold Rminus in *. lra.
    + destruct (Rle_dec 0 (0 * c_alpha c)) as [L|L]; [|lra]. rewrite Rmult_0_l, Rplus_0_r. lra.
    + intros Ha z' Hz. rewrite (weight_form c z') by auto. assert (M : z * c_alpha c < z' * c_alpha c) by nra.
      destruct (Rle_dec 0 (z' * c_alpha c)) as [L'|L'], (Rle_dec 0 (z * c_alpha c)) as [L|L]; try lra.
      * pose proof (inv_anti (z * c_alpha c) (z' * c_alpha c) ltac:(lra)). lra.
      * pose proof (inv_range (z' * c_alpha c) ltac:(lra)). pose proof (inv_range (- (z * c_alpha c)) ltac:(lra)).
        pose proof (inv_anti 0 (- (z * c_alpha c)) ltac:(lra)) as A. rewrite Rplus_0_r in A. unfold Rminus in *. lra.
      * pose proof (inv_anti (- (z' * c_alpha c)) (- (z * c_alpha c)) ltac:(lra)). unfold Rminus in *. lra.
Qed.

(** The contact is passive: there is a potential of the height alone whose decrease is the power of the spring, and the rest of
    the power is the dissipation of the damper. *)
Definition potential (c : contact) (z : R) : R :=
  if Rlt_dec 0 (c_alpha_n c) then c_k c / c_alpha_n c * exp (- c_alpha_n c * (z - c_zOffset c))
  else if Rle_dec z (c_zOffset c) then 1 / 2 * c_k c * (z - c_zOffset c) * (z - c_zOffset c) else 0.
Lemma potential_derive c z : is_derive (potential c) z (- spring c z).
Proof.
  unfold potential, spring. destruct (Rlt_dec 0 (c_alpha_n c)) as [A|A].
  { auto_derive; auto. unfold Rminus. field. lra. }
  set (f := fun z => 1 / 2 * c_k c * (z - c_zOffset c) * (z - c_zOffset c)).
  assert (Df : is_derive f z (c_k c * (z - c_zOffset c))) by (unfold f; auto_derive; auto; field).
  destruct (Rlt_or_le z (c_zOffset c)) as [L|L]; [|destruct (Rle_lt_or_eq_dec _ _ L) as [G|G]].
  - destruct (Rle_dec z (c_zOffset c)); [|lra]. replace (- (- c_k c * (z - c_zOffset c))) with (c_k c * (z - c_zOffset c)) by ring.
    apply (is_derive_ext_loc f); [|exact Df]. apply (filter_imp (fun y => y < c_zOffset c)); [|now apply open_lt].
    intros y Hy. destruct (Rle_dec y (c_zOffset c)); [reflexivity|lra].
  - destruct (Rle_dec z (c_zOffset c)); [lra|]. rewrite Ropp_0.
    apply (is_derive_ext_loc (fun _ => 0)); [|auto_derive; auto].
    apply (filter_imp (fun y => c_zOffset c < y)); [|now apply open_gt]. intros y Hy. destruct (Rle_dec y (c_zOffset c)); [lra|reflexivity].
  - subst z. destruct (Rle_dec (c_zOffset c) (c_zOffset c)); [|lra]. replace (- (- c_k c * (c_zOffset c - c_zOffset c))) with 0 by ring.
    apply is_derive_Reals. intros eps He. exists (mkposreal (eps / (1 + Rabs (c_k c))) ltac:(apply Rdiv_lt_0_compat; [lra|pose proof (Rabs_pos (c_k c)); lra])).
    intros h Hh Hd. simpl in Hd. destruct (Rle_dec (c_zOffset c) (c_zOffset c)); [|lra].
    pose proof (Rabs_pos (c_k c)) as Kp.
    assert (Hd' : Rabs h * (1 + Rabs (c_k c)) < eps).
    { apply Rmult_lt_compat_r with (r := 1 + Rabs (c_k c)) in Hd; [|lra]. unfold Rdiv in Hd. rewrite Rmult_assoc, Rinv_l, Rmult_1_r in Hd by lra. exact Hd. }
    destruct (Rle_dec (c_zOffset c + h) (c_zOffset c)).
    + replace ((1 / 2 * c_k c * (c_zOffset c + h - c_zOffset c) * (c_zOffset c + h - c_zOffset c) - 1 / 2 * c_k c * (c_zOffset c - c_zOffset c) * (c_zOffset c - c_zOffset c)) / h - 0)
        with (1 / 2 * c_k c * h) by (field; auto).
      rewrite !Rabs_mult, (Rabs_right (1 / 2)) by lra. pose proof (Rabs_pos h). nra.
    + replace ((0 - 1 / 2 * c_k c * (c_zOffset c - c_zOffset c) * (c_zOffset c - c_zOffset c)) / h - 0) with 0 by (field; auto).
      rewrite Rabs_R0. lra.
Qed.
Theorem C67_passive (c : contact) : exists U : R -> R,
  (forall z, is_derive U z (- spring c z)) /\ (0 <= c_k c -> forall z, 0 <= U z /\ 0 <= spring c z) /\
  forall z v, power (specForce c z v) v = spring c z * vz v - weight c z * c_d c * (vx v * vx v + vy v * vy v + vz v * vz v).
Proof.
  exists (potential c). split; [|split].
  - apply potential_derive.
  - intros Hk z. unfold potential, spring. destruct (Rlt_dec 0 (c_alpha_n c)) as [A|A].
    + pose proof (exp_pos (- c_alpha_n c * (z - c_zOffset c))). split.
      * apply Rmult_le_pos; [|lra]. apply Rmult_le_pos; [lra|]. apply Rlt_le, Rinv_0_lt_compat, A.
      * nra.
    + destruct (Rle_dec z (c_zOffset c)); split; try lra.
      * replace (1 / 2 * c_k c * (z - c_zOffset c) * (z - c_zOffset c)) with (1 / 2 * c_k c * ((z - c_zOffset c) * (z - c_zOffset c))) by ring.
        apply Rmult_le_pos; [lra|nra].
      * nra.
  - intros z v. unfold power, specForce, vx, vy, vz. simpl. ring.
Qed.
(** Hence along every motion of the end-effector the contact never adds energy: the change of the potential plus the power it
    delivers is minus the dissipation. *)
Theorem C67_dissipates (c : contact) (z : R -> R) (v : R -> vec3) (t : R) : 0 <= c_d c -> c_smoothing c <> UNDEFINED ->
  is_derive z t (vz (v t)) -> exists (U : R -> R) (dU : R), (forall a, is_derive U a (- spring c a)) /\
    is_derive (fun s => U (z s)) t dU /\ dU + power (specForce c (z t) (v t)) (v t) <= 0.
Proof.
  intros Hd Hu Dz. destruct (C67_passive c) as (U & DU & _ & P).
  exists U, (vz (v t) * - spring c (z t)). split; [exact DU|]. split.
  - apply (is_derive_comp U z t); [apply DU|exact Dz].
  - rewrite P.
    assert (W : 0 <= weight c (z t)).
    { destruct (c_smoothing c) eqn:Es; try congruence; try (apply Rlt_le, C67_weight; congruence).
      unfold weight. rewrite Es. destruct (Rle_dec (z t) (c_zOffset c)); lra. }
    assert (0 <= weight c (z t) * c_d c * (vx (v t) * vx (v t) + vy (v t) * vy (v t) + vz (v t) * vz (v t))).
    { apply Rmult_le_pos; [apply Rmult_le_pos; auto|nra]. }
    lra.
Qed.

Example C67_example : let c := newContact 2 5000 500 100 (-1) 0 NONE in
  computeContactForces c (fun _ => (0, 0, -1)) (fun i => if Nat.eqb i 0 then (1, 0, 2) else (0, 0, 0))
  = Ok [Some (-500, 0, 4000); Some (0, 0, 5000)].
Proof.
  cbv zeta. unfold computeContactForces, newContact; cbn [c_active repeat forcesFrom].
  rewrite !eeForce_spec by (cbn; first [discriminate|right; lra]). cbn [obind]. unfold specForce, weight, spring; cbn.
  destruct (Rle_dec (-1) 0); [|lra]. destruct (Rlt_dec 0 (-1)); [lra|].
  repeat (f_equal; try ring; try lra).
Qed.

Print Assumptions C67_force_partial.
Print Assumptions C67_inactive_refuted.
Print Assumptions C67_offset_refuted.
Print Assumptions C67_normal_smoothing_refuted.
Print Assumptions C67_undefined.
Print Assumptions C67_weight.
Print Assumptions C67_passive.
Print Assumptions C67_dissipates.
