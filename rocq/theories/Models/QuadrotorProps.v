(** * C84: the quadrotor model is a rigid body, and its Jacobians are its derivatives *)
From Coq Require Import Reals Lra Lia.
From Coquelicot Require Import Coquelicot.
From Verif Require Import Models.QuadrotorModel Models.QuadrotorSpec.
Local Open Scope R_scope.

(** ** Tools *)
Lemma norm_cont (x : R -> vec) (dx : vec) t :
  (forall i, (i < 12)%nat -> is_derive (fun s => x s i) t (dx i)) ->
  continuous (fun s => norm12 (x s)) t.
Proof.
  intros H. unfold norm12. apply continuous_comp.
  2: { apply continuity_pt_filterlim. apply continuity_pt_sqrt.
       repeat apply Rplus_le_le_0_compat; apply Rle_0_sqr. }
  assert (C : forall i, (i < 12)%nat -> continuous (fun s => x s i * x s i) t).
  { intros i Hi. apply (continuous_mult (K:=R_AbsRing) (fun s => x s i) (fun s => x s i));
    apply (ex_derive_continuous (fun s => x s i)); eexists; apply H; auto. }
  assert (PL : forall a b : R -> R, continuous a t -> continuous b t ->
            continuous (fun s => a s + b s) t).
  { intros a b. apply (continuous_plus (K:=R_AbsRing) (V:=R_NormedModule)). }
  apply (PL (fun s => _ + _ + _ + _ + _ + _ + _ + _ + _ + _ + _)); [|apply C; lia].
  apply (PL (fun s => _ + _ + _ + _ + _ + _ + _ + _ + _ + _)); [|apply C; lia].
  apply (PL (fun s => _ + _ + _ + _ + _ + _ + _ + _ + _)); [|apply C; lia].
  apply (PL (fun s => _ + _ + _ + _ + _ + _ + _ + _)); [|apply C; lia].
  apply (PL (fun s => _ + _ + _ + _ + _ + _ + _)); [|apply C; lia].
  apply (PL (fun s => _ + _ + _ + _ + _ + _)); [|apply C; lia].
  apply (PL (fun s => _ + _ + _ + _ + _)); [|apply C; lia].
  apply (PL (fun s => _ + _ + _ + _)); [|apply C; lia].
  apply (PL (fun s => _ + _ + _)); [|apply C; lia].
  apply (PL (fun s => _ + _)); [|apply C; lia].
  apply (PL (fun s => _)); apply C; lia.
Qed.

Lemma ode_locally P (x u : R -> vec) dx t i d :
  (forall i, (i < 12)%nat -> is_derive (fun s => x s i) t (dx i)) ->
  norm12 (x t) < norm_limit ->
  is_derive (fun s => ode_free P (x s) (u s) i) t d ->
  is_derive (fun s => quadrotor_ode P (x s) (u s) i) t d.
Proof.
  intros H N D. apply (is_derive_ext_loc (fun s => ode_free P (x s) (u s) i)); auto.
  pose proof (norm_cont x dx t H) as C.
  assert (L : locally t (fun s => norm12 (x s) < norm_limit)).
  { apply (C (fun y => y < norm_limit)). apply (open_lt norm_limit). exact N. }
  revert L. apply filter_imp. intros s Hs. unfold quadrotor_ode.
  destruct (Rlt_dec norm_limit (norm12 (x s))); auto. exfalso; lra.
Qed.

Lemma sum12 (f : nat -> R) : sumn 12 f =
  f 0%nat + f 1%nat + f 2%nat + f 3%nat + f 4%nat + f 5%nat + f 6%nat + f 7%nat + f 8%nat
  + f 9%nat + f 10%nat + f 11%nat.
Proof. unfold sumn. cbn [Nat.sub]. rewrite !sum_Sn, sum_O. reflexivity. Qed.
Lemma sum4 (f : nat -> R) : sumn 4 f = f 0%nat + f 1%nat + f 2%nat + f 3%nat.
Proof. unfold sumn. cbn [Nat.sub]. rewrite !sum_Sn, sum_O. reflexivity. Qed.

Lemma sin3 a : sin (a * 3) = 3 * sin a - 4 * (sin a * sin a * sin a).
Proof.
  replace (a * 3) with (2 * a + a) by ring. rewrite sin_plus, sin_2a, cos_2a.
  pose proof (sin2_cos2 a) as E. unfold Rsqr in E.
  assert (E' : cos a * cos a = 1 - sin a * sin a) by lra.
  ring [E'].
Qed.
Lemma sin2' a : sin (a * 2) = 2 * sin a * cos a.
Proof. rewrite Rmult_comm. apply sin_2a. Qed.
Lemma cos2' a : cos (a * 2) = cos a * cos a - sin a * sin a.
Proof. rewrite Rmult_comm. apply cos_2a. Qed.
Lemma ss a : sin a * sin a = 1 - cos a * cos a.
Proof. pose proof (sin2_cos2 a) as E. unfold Rsqr in E. lra. Qed.

Definition mk (f : nat -> R -> R) (t : R) : vec := fun i => f i t.

Lemma jac_free P (f g : nat -> R -> R) (dx du : vec) t :
  mQ P <> 0 -> Thxxyy P <> 0 -> Thzz P <> 0 -> cos (f 4%nat t) <> 0 ->
  (forall i, (i < 12)%nat -> is_derive (f i) t (dx i)) ->
  (forall i, (i < 4)%nat -> is_derive (g i) t (du i)) ->
  forall i, (i < 12)%nat ->
  is_derive (fun s => ode_free P (mk f s) (mk g s) i) t
    (sumn 12 (fun j => A_quadrotor P (mk f t) (mk g t) i j * dx j)
     + sumn 4 (fun j => B_quadrotor P (mk f t) (mk g t) i j * du j)).
Proof.
  intros Hm Hx Hz Hc DX DU i Hi.
  assert (XD : forall i, (i < 12)%nat -> ex_derive (f i) t) by (intros; eexists; eauto).
  assert (UD : forall i, (i < 4)%nat -> ex_derive (g i) t) by (intros; eexists; eauto).
  assert (XE : forall i, (i < 12)%nat -> Derive (fun s => f i s) t = dx i)
    by (intros; apply is_derive_unique; apply DX; auto).
  assert (UE : forall i, (i < 4)%nat -> Derive (fun s => g i s) t = du i)
    by (intros; apply is_derive_unique; apply DU; auto).
  rewrite sum12, sum4.
  destruct i as [|[|[|[|[|[|[|[|[|[|[|[|i]]]]]]]]]]]]; [.. | lia].
  all: cbv beta iota zeta delta [ode_free A_quadrotor B_quadrotor mk].
  1-6: match goal with |- is_derive _ _ ?d => match d with context [1 * ?e] => replace d with e by ring end end; apply DX; lia.
  all: auto_derive; [repeat match goal with |- _ /\ _ => split | |- True => exact I end; 
     match goal with |- ex_derive _ _ => first [simple apply XD; lia | simple apply UD; lia] | |- _ => assumption end|].
  all: rewrite ?XE, ?UE by lia; rewrite ?sin2', ?cos2', ?sin3.
  all: pose proof (ss (f 4%nat t)) as S4.
  all: clear DX DU XD UD XE UE Hi.
  all: revert S4 Hc Hm Hx Hz.
  all: generalize (cos (f 4%nat t)) (sin (f 4%nat t)) (mQ P) (Thxxyy P) (Thzz P); intros c s mq tx tz S4 Hc Hm Hx Hz.
  1-3: (field; auto).
  1: (field [S4]; auto).
  1: (field [S4]; auto).
  1: (field [S4]; auto).
Qed.

(** ** The Jacobians

    Along every differentiable motion of state and input, away from the singularity of the
    Euler angles, the derivative of the dynamics is A times the rate of the state plus B
    times the rate of the input. *)
Theorem C84_jacobians P (x u : R -> vec) (dx du : vec) t :
  mQ P <> 0 -> Thxxyy P <> 0 -> Thzz P <> 0 ->
  cos (x t 4%nat) <> 0 -> norm12 (x t) < norm_limit ->
  (forall i, (i < 12)%nat -> is_derive (fun s => x s i) t (dx i)) ->
  (forall i, (i < 4)%nat -> is_derive (fun s => u s i) t (du i)) ->
  forall i, (i < 12)%nat ->
  is_derive (fun s => quadrotor_ode P (x s) (u s) i) t
    (sumn 12 (fun j => A_quadrotor P (x t) (u t) i j * dx j)
     + sumn 4 (fun j => B_quadrotor P (x t) (u t) i j * du j)).
Proof.
  intros Hm Hx Hz Hc HN DX DU i Hi.
  apply (ode_locally P x u dx); auto.
  exact (jac_free P (fun i s => x s i) (fun i s => u s i) dx du t Hm Hx Hz Hc DX DU i Hi).
Qed.

(** ** The equations of motion *)

(** A motion over the open interval (a, b) that follows the dynamics, away from the
    singularity and within the limit of the norm. *)
Definition motion P (x u : R -> vec) (a b : R) : Prop :=
  forall t, a < t < b ->
    cos (x t 4%nat) <> 0 /\ norm12 (x t) <= norm_limit
    /\ forall i, (i < 12)%nat -> is_derive (fun s => x s i) t (quadrotor_ode P (x t) (u t) i).

Definition rate (x : vec) : v3 :=
  V3 (cos (x 4%nat) * cos (x 5%nat) * x 9%nat + sin (x 5%nat) * x 10%nat)
     (- (cos (x 4%nat) * sin (x 5%nat) * x 9%nat) + cos (x 5%nat) * x 10%nat)
     (sin (x 4%nat) * x 9%nat + x 11%nat).

Ltac side XD :=
  repeat match goal with |- _ /\ _ => split | |- True => exact I end;
  match goal with |- ex_derive _ _ => simple apply XD; lia | |- _ => assumption end.

Lemma orientation_rate (f : nat -> R -> R) (d : vec) t :
  (forall i, (i < 12)%nat -> is_derive (f i) t (d i)) ->
  derive9 (fun s => orientation (f 3%nat s) (f 4%nat s) (f 5%nat s)) t
    (mul (orientation (f 3%nat t) (f 4%nat t) (f 5%nat t))
         (skew (V3 (cos (f 4%nat t) * cos (f 5%nat t) * d 3%nat + sin (f 5%nat t) * d 4%nat)
                   (- (cos (f 4%nat t) * sin (f 5%nat t) * d 3%nat) + cos (f 5%nat t) * d 4%nat)
                   (sin (f 4%nat t) * d 3%nat + d 5%nat)))).
Proof.
  intros DX.
  assert (XD : forall i, (i < 12)%nat -> ex_derive (f i) t) by (intros; eexists; eauto).
  assert (XE : forall i, (i < 12)%nat -> Derive (fun s => f i s) t = d i)
    by (intros; apply is_derive_unique; apply DX; auto).
  unfold derive9, orientation, skew, mul, rotX, rotY, rotZ.
  cbn [e00 e01 e02 e10 e11 e12 e20 e21 e22 vx vy vz].
  repeat match goal with |- _ /\ _ => split end.
  all: auto_derive; [side XD|].
  all: rewrite ?XE by lia.
  all: pose proof (ss (f 3%nat t)) as S3; pose proof (ss (f 4%nat t)) as S4;
       pose proof (ss (f 5%nat t)) as S5; ring [S3 S4 S5].
Qed.

Lemma rate_derive (f : nat -> R -> R) (d : vec) t :
  (forall i, (i < 12)%nat -> is_derive (f i) t (d i)) ->
  derive3 (fun s => rate (mk f s)) t
    (V3 (- sin (f 4%nat t) * d 4%nat * cos (f 5%nat t) * f 9%nat t
         - cos (f 4%nat t) * sin (f 5%nat t) * d 5%nat * f 9%nat t
         + cos (f 4%nat t) * cos (f 5%nat t) * d 9%nat
         + cos (f 5%nat t) * d 5%nat * f 10%nat t + sin (f 5%nat t) * d 10%nat)
        (sin (f 4%nat t) * d 4%nat * sin (f 5%nat t) * f 9%nat t
         - cos (f 4%nat t) * cos (f 5%nat t) * d 5%nat * f 9%nat t
         - cos (f 4%nat t) * sin (f 5%nat t) * d 9%nat
         - sin (f 5%nat t) * d 5%nat * f 10%nat t + cos (f 5%nat t) * d 10%nat)
        (cos (f 4%nat t) * d 4%nat * f 9%nat t + sin (f 4%nat t) * d 9%nat + d 11%nat)).
Proof.
  intros DX.
  assert (XD : forall i, (i < 12)%nat -> ex_derive (f i) t) by (intros; eexists; eauto).
  assert (XE : forall i, (i < 12)%nat -> Derive (fun s => f i s) t = d i)
    by (intros; apply is_derive_unique; apply DX; auto).
  unfold derive3, rate, mk. cbn [vx vy vz].
  repeat match goal with |- _ /\ _ => split end.
  all: auto_derive; [side XD|].
  all: rewrite ?XE by lia; ring.
Qed.

(** Every motion of the model is the motion of a rigid body of the given mass and moments of
    inertia, with thrust along its vertical axis, moments in its own frame and gravity of
    9.81: with R the orientation from the three Euler angles there is an angular velocity w
    (R' = R [w]) which satisfies Euler's equations, and the centre satisfies Newton's. *)
Theorem C84_rigid_body P (x u : R -> vec) a b :
  mQ P <> 0 -> Thxxyy P <> 0 -> Thzz P <> 0 -> motion P x u a b ->
  exists w : R -> v3, forall t, a < t < b ->
    let Rot s := orientation (x s 3%nat) (x s 4%nat) (x s 5%nat) in
    derive9 Rot t (mul (Rot t) (skew (w t)))
    /\ (exists dw, derive3 w t dw
          /\ euler (Thxxyy P) (Thzz P) (V3 (u t 1%nat) (u t 2%nat) (u t 3%nat)) (w t) dw)
    /\ derive3 (fun s => V3 (x s 0%nat) (x s 1%nat) (x s 2%nat)) t
               (V3 (x t 6%nat) (x t 7%nat) (x t 8%nat))
    /\ (exists acc, derive3 (fun s => V3 (x s 6%nat) (x s 7%nat) (x s 8%nat)) t acc
          /\ newton (mQ P) (981 / 100) (u t 0%nat) (Rot t) acc).
Proof.
  intros Hm Hx Hz M. exists (fun s => rate (x s)). intros t Ht Rot.
  destruct (M t Ht) as (Hc & HN & D).
  set (d := ode_free P (x t) (u t)).
  assert (DX : forall i, (i < 12)%nat -> is_derive (fun s => x s i) t (d i)).
  { intros i Hi. generalize (D i Hi). unfold quadrotor_ode.
    destruct (Rlt_dec norm_limit (norm12 (x t))); [exfalso; lra | auto]. }
  clear D. split; [|split; [|split]].
  - exact (orientation_rate (fun i s => x s i) d t DX).
  - eexists. split; [exact (rate_derive (fun i s => x s i) d t DX)|].
    unfold euler, cross, rate. cbn [vx vy vz].
    subst d. cbv beta iota zeta delta [ode_free]. rewrite !sin2'.
    pose proof (ss (x t 4%nat)) as S4. pose proof (ss (x t 5%nat)) as S5.
    revert S4 S5 Hc Hm Hx Hz.
    generalize (cos (x t 4%nat)) (sin (x t 4%nat)) (cos (x t 5%nat)) (sin (x t 5%nat)) (mQ P)
      (Thxxyy P) (Thzz P).
    intros c s c5 s5 mq tx tz S4 S5 Hc Hm Hx Hz.
    split; [|split]; field [S4 S5]; auto.
  - unfold derive3. cbn [vx vy vz]. split; [|split]; apply DX; lia.
  - exists (V3 (d 6%nat) (d 7%nat) (d 8%nat)). split.
    + unfold derive3. cbn [vx vy vz]. split; [|split]; apply DX; lia.
    + unfold newton, app, Rot, orientation, mul, rotX, rotY, rotZ.
      cbn [e00 e01 e02 e10 e11 e12 e20 e21 e22 vx vy vz]. subst d.
      cbv beta iota zeta delta [ode_free]. split; [|split]; field; auto.
Qed.

(** ** C is a twentieth of B *)
Theorem C84_C P x u i j : C_quadrotor P x u i j = B_quadrotor P x u i j / 20.
Proof.
  unfold C_quadrotor, B_quadrotor.
  do 12 (destruct i as [|i]; [do 4 (destruct j as [|j]; [unfold Rdiv; ring|]); unfold Rdiv; try ring|]).
  all: unfold Rdiv; ring.
Qed.

(** ** Examples *)

(** A quadrotor that hovers and spins about its axis meets the hypotheses. *)
Definition spin (t : R) : vec := fun i => match i with 5%nat => t | 11%nat => 1 | _ => 0 end.
Definition hover : R -> vec := fun _ i => match i with 0%nat => mQ quad * grav_const | _ => 0 end.

Lemma spin_norm t : 0 < t < 1 -> norm12 (spin t) < norm_limit.
Proof.
  intros H. unfold norm12, spin. apply Rle_lt_trans with (sqrt (4 * 4)).
  - apply sqrt_le_1_alt. nra.
  - rewrite sqrt_square by lra. unfold norm_limit. lra.
Qed.

(** The numbers of the quadrotor that is shipped: at rest and level, a thrust of 0.546 kg times 9.81 m/s^2 keeps it
    hovering, and moments of 0.00232 Nm, 0.00232 Nm and 0.0003 Nm about its axes give one radian per second squared. *)
Theorem C84_shipped x u : (forall i, (3 <= i)%nat -> x i = 0) -> norm12 x <= norm_limit ->
  let a := quadrotor_ode quad x u in
  (forall i, (i < 6)%nat -> a i = 0) /\ a 6%nat = 0 /\ a 7%nat = 0 /\
  a 8%nat = u 0%nat / (546 / 1000) - 981 / 100 /\ a 9%nat = u 1%nat / (232 / 100000) /\
  a 10%nat = u 2%nat / (232 / 100000) /\ a 11%nat = u 3%nat / (3 / 10000).
Proof.
  intros Hx Hn a. unfold a, quadrotor_ode. destruct (Rlt_dec norm_limit (norm12 x)) as [L|_]; [lra|].
  unfold ode_free; cbn [mQ Thxxyy Thzz quad].
  rewrite (Hx 3%nat), (Hx 4%nat), (Hx 5%nat), (Hx 6%nat), (Hx 7%nat), (Hx 8%nat), (Hx 9%nat), (Hx 10%nat), (Hx 11%nat) by lia.
  rewrite ?Rmult_0_l, ?sin_0, ?cos_0.
  split; [intros i Hi; do 6 (destruct i as [|i]; [reflexivity|]); lia|].
  repeat split; field.
Qed.
Print Assumptions C84_shipped.

Example C84_example :
  mQ quad <> 0 /\ Thxxyy quad <> 0 /\ Thzz quad <> 0 /\ motion quad spin hover 0 1
  /\ (forall t, 0 < t < 1 -> norm12 (spin t) < norm_limit).
Proof.
  cbn [mQ Thxxyy Thzz quad]. split; [lra|]. split; [lra|]. split; [lra|].
  split; [intros t H; split; [|split]|].
  - cbn. rewrite cos_0. lra.
  - left. apply spin_norm; auto.
  - intros i Hi. unfold quadrotor_ode.
    destruct (Rlt_dec norm_limit (norm12 (spin t))) as [L|_];
      [pose proof (spin_norm t H); exfalso; lra|].
    destruct i as [|[|[|[|[|[|[|[|[|[|[|[|i]]]]]]]]]]]]; [.. | lia];
    unfold spin, hover, ode_free, grav_const; cbn [mQ Thxxyy Thzz quad];
    rewrite ?cos_0, ?sin_0;
    match goal with
    | |- is_derive (fun s => s) _ _ => apply (is_derive_id (K:=R_AbsRing))
    | |- is_derive _ _ ?d => replace d with 0 by (replace (0 * 2) with 0 by ring; rewrite ?sin_0; lra); apply (is_derive_const (K:=R_AbsRing) (V:=R_NormedModule))
    end.
  - intros t Ht. apply spin_norm; auto.
Qed.

(** ** Far away

    For states of norm above 1e20 the dynamics are switched off, but not the Jacobians. *)
Theorem C84_far_state_refuted :
  exists x u : R -> vec, exists dx : vec,
    cos (x 0 4%nat) <> 0
    /\ (forall i, (i < 12)%nat -> is_derive (fun s => x s i) 0 (dx i))
    /\ (forall i, (i < 4)%nat -> is_derive (fun s => u s i) 0 0)
    /\ ~ is_derive (fun s => quadrotor_ode quad (x s) (u s) 0%nat) 0
           (sumn 12 (fun j => A_quadrotor quad (x 0) (u 0) 0%nat j * dx j)).
Proof.
  exists (fun s i => match i with 6%nat => 3 * norm_limit + s | _ => 0 end), (fun _ _ => 0),
         (fun i => match i with 6%nat => 1 | _ => 0 end).
  split; [cbn; rewrite cos_0; lra|].
  assert (K0 : forall c : R, is_derive (fun _ : R => c) 0 0)
    by (intros c; apply (is_derive_const (K:=R_AbsRing) (V:=R_NormedModule))).
  split; [|split].
  - intros i Hi. do 6 (destruct i as [|i]; [apply K0|]).
    destruct i as [|i]; [|apply K0]. auto_derive; [exact I|reflexivity].
  - intros i Hi. apply K0.
  - intros D.
    assert (Z : is_derive (fun s => quadrotor_ode quad
        (fun i => match i with 6%nat => 3 * norm_limit + s | _ => 0 end) (fun _ => 0) 0%nat) 0 0).
    { apply (is_derive_ext_loc (fun _ => 0)); [|apply K0].
      exists (mkposreal 1 Rlt_0_1). intros s Hs.
      assert (Hs1 : Rabs (s - 0) < 1) by exact Hs. apply Rabs_def2 in Hs1.
      unfold quadrotor_ode.
      match goal with |- _ = (if ?c then _ else _) _ => destruct c as [|n]; [reflexivity|] end.
      exfalso. apply n. unfold norm12.
      apply Rlt_le_trans with (sqrt ((2 * norm_limit) * (2 * norm_limit))).
      + rewrite sqrt_square; unfold norm_limit; lra.
      + apply sqrt_le_1_alt. assert (2 * norm_limit <= 3 * norm_limit + s) by (unfold norm_limit in *; lra).
        assert (0 <= 2 * norm_limit) by (unfold norm_limit; lra). nra. }
    pose proof (is_derive_unique _ _ _ D) as E1. pose proof (is_derive_unique _ _ _ Z) as E2.
    rewrite sum12 in E1. cbv beta iota zeta delta [A_quadrotor] in E1. rewrite E2 in E1. lra.
Qed.

Print Assumptions C84_jacobians.
Print Assumptions C84_rigid_body.
Print Assumptions C84_C.
Print Assumptions C84_far_state_refuted.
