(** C51: second-order systems. *)
From Coq Require Import Reals Lra Bool.
From Coquelicot Require Import Coquelicot.
From Verif Require Import Core.SecondOrderModel.
Local Open Scope R_scope.

(** The motion of a mass m on a spring k with damper d, driven by gain*k*u. *)
Definition newton (k m d gain p v u a : R) : Prop := m * a = gain * k * u - d * v - k * p.

(** A motion of the system with constant input u. *)
Definition motion (s : sos) (u : R) (p v : R -> R) : Prop :=
  forall t, is_derive p t (fst (sos_dynamics s (p t) (v t) u)) /\
            is_derive v t (snd (sos_dynamics s (p t) (v t) u)).

(** The mechanical constructor realises the mechanical system exactly when there is no damper
    or m*k = 1: its damping ratio is d/(2mk) instead of d/(2 sqrt(mk)). *)
Theorem C51_mechanical_partial k m d gain : 0 < k -> 0 < m ->
  ((forall p v u, newton k m d gain p v u (snd (sos_dynamics (sos_mechanical k m d gain) p v u)))
   <-> (d = 0 \/ m * k = 1)).
Proof.
  intros Hk Hm.
  assert (Hkm : 0 < k / m) by now apply Rdiv_lt_0_compat.
  assert (Hw : sqrt (k / m) * sqrt (k / m) = k / m) by (apply sqrt_sqrt; lra).
  assert (Hwp : 0 < sqrt (k / m)) by now apply sqrt_lt_R0.
  unfold newton, sos_mechanical, sos_dynamics. cbn [snd g_dc w_n w_n_square zeta].
  set (w := sqrt (k / m)) in *.
  assert (Hmk : m * k <> 0) by nra.
  assert (E : forall p v u, m * (gain * (w * w) * u - 2 * (d / (2 * m * k)) * w * v - w * w * p)
              = gain * k * u - d * (w / k) * v - k * p).
  { intros p v u. rewrite Hw. field. lra. }
  assert (Ew : w = k <-> m * k = 1).
  { split; intros H.
    - rewrite H in Hw. apply (f_equal (Rmult m)) in Hw.
      replace (m * (k / m)) with k in Hw by (field; lra).
      apply (Rmult_eq_reg_l k); [|lra]. replace (k * (m * k)) with (m * (k * k)) by ring. lra.
    - assert (Hkk : k / m = k * k).
      { apply (Rmult_eq_reg_l m); [|lra]. replace (m * (k / m)) with k by (field; lra).
        replace (m * (k * k)) with (m * k * k) by ring. rewrite H. ring. }
      unfold w. rewrite Hkk. apply sqrt_square. lra. }
  split.
  - intros H. specialize (H 0 1 0). rewrite E in H.
    destruct (Req_dec d 0) as [Hd|Hd]; [now left|right].
    apply Ew. assert (Hq : d * (w / k) = d) by lra.
    apply (Rmult_eq_reg_l (d / k)).
    + replace (d / k * w) with (d * (w / k)) by (field; lra). rewrite Hq. field. lra.
    + intros Z. apply Hd. replace d with (d / k * k) by (field; lra). rewrite Z. ring.
  - intros [Hd|Hmk1] p v u; rewrite E.
    + rewrite Hd. ring.
    + apply Ew in Hmk1. rewrite Hmk1. field. lra.
Qed.

(** So the claim fails: stiffness 4, mass 1, damper 1. *)
Theorem C51_mechanical_refuted :
  ~ newton 4 1 1 1 0 1 0 (snd (sos_dynamics (sos_mechanical 4 1 1 1) 0 1 0)).
Proof.
  unfold newton, sos_mechanical, sos_dynamics. cbn [snd g_dc w_n w_n_square zeta].
  replace (4 / 1) with (2 * 2) by field. rewrite sqrt_square by lra. intros H. lra.
Qed.

(** What the mechanical constructor does realise: a damper of d / sqrt(m k). *)
Theorem C51_mechanical_actual k m d gain p v u : 0 < k -> 0 < m ->
  newton k m (d / sqrt (m * k)) gain p v u (snd (sos_dynamics (sos_mechanical k m d gain) p v u)).
Proof.
  intros Hk Hm. unfold newton, sos_mechanical, sos_dynamics. cbn [snd g_dc w_n w_n_square zeta].
  assert (Hkm : 0 < k / m) by now apply Rdiv_lt_0_compat.
  assert (Hmk : 0 < m * k) by nra.
  assert (Hw : sqrt (k / m) = k / sqrt (m * k)).
  { assert (Hs : sqrt (m * k) <> 0) by (apply Rgt_not_eq, sqrt_lt_R0; lra).
    apply (Rmult_eq_reg_r (sqrt (m * k))); auto.
    replace (k / sqrt (m * k) * sqrt (m * k)) with k by (field; auto).
    rewrite <- sqrt_mult by nra.
    replace (k / m * (m * k)) with (k * k) by (field; lra). apply sqrt_square. lra. }
  rewrite Rmult_assoc with (r1 := gain), sqrt_sqrt by lra.
  rewrite Hw. field. split; [apply Rgt_not_eq, sqrt_lt_R0; lra|lra].
Qed.

(** The frequency constructor with matched parameters realises any mechanical system. *)
Theorem C51_frequency k m d gain p v u : 0 < k -> 0 < m ->
  newton k m d gain p v u
    (snd (sos_dynamics (sos_frequency (sqrt (k / m)) (d / (2 * sqrt (m * k))) gain) p v u)).
Proof.
  intros Hk Hm. unfold newton, sos_frequency, sos_dynamics. cbn [snd g_dc w_n w_n_square zeta].
  assert (Hkm : 0 < k / m) by now apply Rdiv_lt_0_compat.
  assert (Hmk : 0 < m * k) by nra.
  assert (Hs : 0 < sqrt (m * k)) by now apply sqrt_lt_R0.
  assert (Hw : sqrt (k / m) = sqrt (m * k) / m).
  { apply (Rmult_eq_reg_r m); [|lra]. replace (sqrt (m * k) / m * m) with (sqrt (m * k)) by (field; lra).
    rewrite <- (sqrt_square m) at 2 by lra. rewrite <- sqrt_mult by nra. f_equal. field. lra. }
  rewrite Rmult_assoc with (r1 := gain), sqrt_sqrt by lra.
  rewrite Hw. field. lra.
Qed.

(** setDynamics makes the object the one constructed with the same numbers, whatever it was. *)
Theorem C51_set_dynamics s w z g p v u :
  sos_dynamics (set_dynamics s w z g) p v u = sos_dynamics (sos_frequency w z g) p v u.
Proof. reflexivity. Qed.

(** With w_n <> 0 the only rest position under a constant input u is g_dc * u: gain 1, not
    w_n^2 as the documentation of the constructor says, gives amplification 1. *)
Theorem C51_rest w z g p u : w <> 0 ->
  sos_dynamics (sos_frequency w z g) p 0 u = (0, 0) <-> p = g * u.
Proof.
  intros Hw. unfold sos_dynamics, sos_frequency. cbn [g_dc w_n w_n_square zeta].
  assert (Hw2 : w * w <> 0) by nra. split.
  - intros H. apply (f_equal snd) in H. cbn [snd] in H.
    apply (Rmult_eq_reg_l (w * w)); lra.
  - intros ->. f_equal. ring.
Qed.

(** Without input, a system that passes checkParameters never gains energy v^2/2 + w_n^2 p^2/2:
    along every motion the energy decreases at the rate 2*zeta*w_n*v^2. *)
Theorem C51_dissipation w z g p v t :
  motion (sos_frequency w z g) 0 p v ->
  check_parameters (sos_frequency w z g) = true ->
  let E := fun t => v t * v t / 2 + w * w * (p t * p t) / 2 in
  is_derive E t (- (2 * z * w * (v t * v t))) /\ - (2 * z * w * (v t * v t)) <= 0.
Proof.
  intros Hm Hc E. split.
  - destruct (Hm t) as [Hp Hv]. unfold sos_dynamics, sos_frequency in Hp, Hv.
    cbn [fst snd g_dc w_n w_n_square zeta] in Hp, Hv.
    assert (Ep := is_derive_unique _ _ _ Hp). assert (Ev := is_derive_unique _ _ _ Hv).
    unfold E. auto_derive.
    + assert (Xv : ex_derive (fun x : R => v x) t) by (eexists; exact Hv).
      assert (Xp : ex_derive (fun x : R => p x) t) by (eexists; exact Hp).
      repeat split; assumption.
    + change (Derive (fun x : R => v x) t) with (Derive v t).
      change (Derive (fun x : R => p x) t) with (Derive p t).
      rewrite Ep, Ev. field.
  - unfold check_parameters, sos_frequency in Hc. cbn [zeta w_n g_dc] in Hc.
    destruct (Rlt_dec z 0); [discriminate|]. destruct (Rlt_dec w 0); [discriminate|].
    assert (0 <= z * w) by nra. assert (0 <= v t * v t) by nra. nra.
Qed.

(** Hypotheses of the previous theorem: the undamped oscillator cos, -sin. *)
Example C51_example :
  motion (sos_frequency 1 0 1) 0 cos (fun t => - sin t) /\
  check_parameters (sos_frequency 1 0 1) = true.
Proof.
  split.
  - intros t. unfold sos_dynamics, sos_frequency. cbn [fst snd g_dc w_n w_n_square zeta]. split.
    + apply is_derive_cos.
    + auto_derive; auto. ring.
  - unfold check_parameters, sos_frequency. cbn [zeta w_n g_dc].
    destruct (Rlt_dec 0 0); [lra|]. destruct (Rlt_dec 1 0); [lra|].
    destruct (Req_EM_T 1 0); [lra|reflexivity].
Qed.

Print Assumptions C51_mechanical_partial.
Print Assumptions C51_mechanical_refuted.
Print Assumptions C51_mechanical_actual.
Print Assumptions C51_frequency.
Print Assumptions C51_set_dynamics.
Print Assumptions C51_rest.
Print Assumptions C51_dissipation.
