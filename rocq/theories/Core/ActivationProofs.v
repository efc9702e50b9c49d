From Coq Require Import ZArith QArith Reals Lqa Lra Lia.
From Coquelicot Require Import Coquelicot.
From Verif Require Import Base.Outcome Core.InterpModel Core.InterpProofs Core.ActivationModel.

Open Scope Q_scope.
Lemma window_iff t_on t_off t :
  Qle_bool t_on t && Qltb t t_off = true <-> t_on <= t /\ t < t_off.
Proof. rewrite Bool.andb_true_iff, Qle_bool_iff, Qltb_true. tauto. Qed.

(** fmod on non-negative numerator and positive divisor *)
Lemma Qtrunc_spec q : 0 <= q -> inject_Z (Qtrunc q) <= q /\ q < inject_Z (Qtrunc q) + 1.
Proof.
  intro H. unfold Qtrunc. destruct q as [n d]. unfold Qle in H. simpl in *.
  assert (Hn : (0 <= n)%Z) by lia.
  rewrite Z.quot_div_nonneg by lia.
  pose proof (Z.div_mod n (Z.pos d)). pose proof (Z.mod_pos_bound n (Z.pos d)).
  split; unfold Qle, Qlt; simpl; nia.
Qed.

Lemma Qtrunc_nonneg q : 0 <= q -> (0 <= Qtrunc q)%Z.
Proof.
  intro H. unfold Qtrunc. destruct q as [n d]. unfold Qle in H. simpl in *.
  apply Z.quot_pos; lia.
Qed.

Lemma fmod_spec x y : 0 <= x -> 0 < y ->
  exists r (k : Z), Qfmod x y = Some r /\ (0 <= k)%Z /\ x == inject_Z k * y + r /\ 0 <= r /\ r < y.
Proof.
  intros Hx Hy. unfold Qfmod.
  destruct (Qeq_bool y 0) eqn:E; [apply Qeq_bool_eq in E; Lqa.lra|].
  assert (Hq : 0 <= x / y).
  { apply Qle_shift_div_l; [exact Hy|]. Lqa.lra. }
  eexists. exists (Qtrunc (x / y)). split; [reflexivity|]. split; [apply Qtrunc_nonneg; exact Hq|].
  destruct (Qtrunc_spec (x / y) Hq) as [H1 H2].
  set (k := inject_Z (Qtrunc (x / y))) in *.
  assert (Hxy : x == (x / y) * y) by (field; intro; Lqa.lra).
  split; [ring|]. 
  assert (k * y <= (x / y) * y) by (apply Qmult_le_compat_r; Lqa.lra).
  assert ((x / y) * y < (k + 1) * y) by (apply Qmult_lt_compat_r; Lqa.lra).
  split; Lqa.lra.
Qed.

(** uniqueness of quotient/remainder *)
Lemma div_unique k1 k2 r1 r2 y : 0 < y ->
  inject_Z k1 * y + r1 == inject_Z k2 * y + r2 ->
  0 <= r1 -> r1 < y -> 0 <= r2 -> r2 < y -> k1 = k2 /\ r1 == r2.
Proof.
  intros Hy He H1 H2 H3 H4.
  assert (Hk : k1 = k2).
  { destruct (Z.lt_trichotomy k1 k2) as [Hlt|[Heq|Hgt]]; [|exact Heq|]; exfalso.
    - assert (Hz : inject_Z (k1 + 1) <= inject_Z k2) by (rewrite <- Zle_Qle; lia).
      rewrite inject_Z_plus in Hz. change (inject_Z 1) with 1 in Hz.
      assert ((inject_Z k1 + 1) * y <= inject_Z k2 * y) by (apply Qmult_le_compat_r; Lqa.lra). Lqa.lra.
    - assert (Hz : inject_Z (k2 + 1) <= inject_Z k1) by (rewrite <- Zle_Qle; lia).
      rewrite inject_Z_plus in Hz. change (inject_Z 1) with 1 in Hz.
      assert ((inject_Z k2 + 1) * y <= inject_Z k1 * y) by (apply Qmult_le_compat_r; Lqa.lra). Lqa.lra. }
  split; [exact Hk|]. subst k2. Lqa.lra.
Qed.

Lemma periodic_iff fraction period ao po t_end p t :
  0 < period -> 0 <= ao -> 0 <= fraction ->
  periodic_load fraction period ao po t_end = Ok p ->
  exists b, periodic_isActive p t = Ok b /\
    (b = true <->
     (t < t_end /\ exists k : Z, (0 <= k)%Z /\
        po + inject_Z k * period + ao <= t /\
        t < po + inject_Z k * period + ao + fraction * period)).
Proof.
  intros Hp Hao Hf Hload. unfold periodic_load in Hload.
  destruct (Qltb period (ao + fraction * period)) eqn:E; [discriminate|].
  apply Qltb_false in E. apply Ok_inj in Hload. subst p.
  unfold periodic_isActive. cbn [p_offset p_t_end p_period p_act_offset p_fraction].
  assert (Hfp : 0 <= fraction * period) by (apply Qmult_le_0_compat; Lqa.lra).
  destruct (Qle_bool po t) eqn:E1.
  - apply Qle_bool_iff in E1.
    destruct (Qltb t t_end) eqn:E2.
    + apply Qltb_true in E2.
      destruct (fmod_spec (t - po) period) as (r & k & Hr & Hk & He & H0 & H1); [Lqa.lra|Lqa.lra|].
      rewrite Hr. eexists. split; [reflexivity|]. rewrite window_iff. split.
      * intros [Ha Hb]. split; [exact E2|]. exists k. split; [exact Hk|]. split; Lqa.lra.
      * intros [_ (k' & Hk' & Ha & Hb)].
        destruct (div_unique k k' r (t - po - inject_Z k' * period) period) as [-> Hrr]; try Lqa.lra.
    + apply Qltb_false in E2. exists false. split; [reflexivity|]. split; [discriminate|].
      intros [Hc _]. Lqa.lra.
  - apply Qle_bool_false in E1. exists false. split; [reflexivity|]. split; [discriminate|].
    intros [_ (k & Hk & Ha & Hb)]. exfalso.
    assert (Hk0 : 0 <= inject_Z k) by (change 0 with (inject_Z 0); rewrite <- Zle_Qle; exact Hk).
    assert (0 <= inject_Z k * period) by (apply Qmult_le_0_compat; Lqa.lra). Lqa.lra.
Qed.

Open Scope R_scope.
Lemma rbf_factor_pos sigma : sigma <> 0 -> 0 < 1 / sqrt (2 * PI * sigma * sigma).
Proof.
  intro H. apply Rdiv_lt_0_compat; [lra|]. apply sqrt_lt_R0.
  pose proof PI_RGT_0. assert (0 < sigma * sigma) by nra. nra.
Qed.

Lemma rbf_load_decays mu sigma t1 t2 : sigma <> 0 ->
  Rabs (t1 - mu) < Rabs (t2 - mu) ->
  0 < rbf_compute (rbf_load mu sigma) t2 < rbf_compute (rbf_load mu sigma) t1.
Proof.
  intros Hs Ht. unfold rbf_compute, rbf_load. cbn [rbf_factor rbf_mu rbf_sigma2inv].
  pose proof (rbf_factor_pos sigma Hs) as Hf. split.
  - apply Rmult_lt_0_compat; [exact Hf|apply exp_pos].
  - apply Rmult_lt_compat_l; [exact Hf|]. apply exp_increasing.
    assert (Hi : -1 / (2 * sigma * sigma) < 0).
    { assert (0 < 2 * sigma * sigma) by nra.
      assert (0 < / (2 * sigma * sigma)) by (apply Rinv_0_lt_compat; lra). lra. }
    assert (Hsq : (t1 - mu) * (t1 - mu) < (t2 - mu) * (t2 - mu)).
    { apply Rsqr_lt_abs_1 in Ht. exact Ht. }
    nra.
Qed.

Lemma rbf_new_grows mu sigma t1 t2 : sigma <> 0 ->
  Rabs (t1 - mu) < Rabs (t2 - mu) ->
  rbf_compute (rbf_new mu sigma) t1 < rbf_compute (rbf_new mu sigma) t2.
Proof.
  intros Hs Ht. unfold rbf_compute, rbf_new. cbn [rbf_factor rbf_mu rbf_sigma2inv].
  pose proof (rbf_factor_pos sigma Hs) as Hf.
  apply Rmult_lt_compat_l; [exact Hf|]. apply exp_increasing.
  assert (Hi : 0 < 1 / (2 * sigma * sigma)).
  { assert (0 < 2 * sigma * sigma) by nra. apply Rdiv_lt_0_compat; lra. }
  assert (Hsq : (t1 - mu) * (t1 - mu) < (t2 - mu) * (t2 - mu)).
  { apply Rsqr_lt_abs_1 in Ht. exact Ht. }
  nra.
Qed.

(** Gaussian load: value is the normal density *)
Lemma rbf_load_at_mu mu sigma : rbf_compute (rbf_load mu sigma) mu = 1 / sqrt (2 * PI * sigma * sigma).
Proof.
  unfold rbf_compute, rbf_load. cbn [rbf_factor rbf_mu rbf_sigma2inv].
  replace ((mu - mu) * (mu - mu) * (-1 / (2 * sigma * sigma))) with 0 by ring.
  rewrite exp_0. ring.
Qed.

Lemma barrier_derivs b x :
  is_derive (barrier_compute b) x (barrier_d1 b x) /\
  is_derive (barrier_d1 b) x (barrier_d2 b x).
Proof.
  unfold barrier_compute, barrier_d1, barrier_d2. split; (auto_derive; [auto|]); unfold Rminus; ring.
Qed.

Lemma barrier_load_default ub lb alpha x : barrier_compute (barrier_load barrier_default ub lb alpha) x = 0.
Proof. unfold barrier_compute, barrier_load. destruct ub, lb; cbn; ring. Qed.

(** value of a constructed barrier at and beyond its bounds *)
Lemma barrier_new_bounds ub lb alpha x : 0 < alpha ->
  (lb <= x <= ub -> 0 < barrier_compute (barrier_new ub lb alpha) x <= 2) /\
  (ub < x \/ x < lb -> 1 < barrier_compute (barrier_new ub lb alpha) x).
Proof.
  intro Ha. unfold barrier_compute, barrier_new. cbn.
  pose proof (exp_pos (alpha * (x - ub))). pose proof (exp_pos (alpha * (lb - x))).
  assert (Hle : forall y, y <= 0 -> exp y <= 1).
  { intros y [Hy| ->]; [|rewrite exp_0; lra]. left. rewrite <- exp_0. apply exp_increasing. exact Hy. }
  assert (Hgt : forall y, 0 < y -> 1 < exp y).
  { intros y Hy. rewrite <- exp_0. apply exp_increasing. exact Hy. }
  split.
  - intros [H1 H2].
    assert (exp (alpha * (x - ub)) <= 1) by (apply Hle; nra).
    assert (exp (alpha * (lb - x)) <= 1) by (apply Hle; nra). lra.
  - intros [H1|H1].
    + assert (1 < exp (alpha * (x - ub))) by (apply Hgt; nra). lra.
    + assert (1 < exp (alpha * (lb - x))) by (apply Hgt; nra). lra.
Qed.
