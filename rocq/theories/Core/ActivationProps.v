(** Property C13: activations. *)
From Coq Require Import ZArith QArith Reals Lqa Lra Lia.
From Coquelicot Require Import Coquelicot.
From Verif Require Import Base.Outcome Core.InterpModel Core.InterpProofs Core.ActivationModel Core.ActivationProofs.

Open Scope Q_scope.
(** C13. Single and linear activations are on exactly in [t_on, t_off). *)
Theorem C13_single_active_iff_in_window :
  forall t_on t_off t, single_isActive t_on t_off t = true <-> t_on <= t /\ t < t_off.
Proof. exact window_iff. Qed.
Print Assumptions C13_single_active_iff_in_window.

(** C13. Single and periodic activations weigh a term with the factor one; the linear one grows along a line through the
    start value at t_on. *)
Theorem C13_weight : forall t_on t_off slope v p t,
  single_compute t_on t_off t == 1 /\ periodic_compute p t == 1 /\
  linear_compute t_on slope v t_on == v /\ linear_compute t_on slope v (t_on + t) - linear_compute t_on slope v t_on == slope * t.
Proof. intros. unfold single_compute, periodic_compute, linear_compute. repeat split; ring. Qed.
Print Assumptions C13_weight.

Theorem C13_linear_active_iff_in_window :
  forall t_on t_off t, linear_isActive t_on t_off t = true <-> t_on <= t /\ t < t_off.
Proof. exact window_iff. Qed.
Print Assumptions C13_linear_active_iff_in_window.

(** C13. A loaded periodic activation is on exactly in one of the windows
    [po + k T + ao, po + k T + ao + f T), k = 0,1,2,..., before t_end. *)
Theorem C13_periodic_active_iff_in_some_window :
  forall fraction period ao po t_end p t,
    0 < period -> 0 <= ao -> 0 <= fraction ->
    periodic_load fraction period ao po t_end = Ok p ->
    exists b, periodic_isActive p t = Ok b /\
      (b = true <->
       (t < t_end /\ exists k : Z, (0 <= k)%Z /\
          po + inject_Z k * period + ao <= t /\
          t < po + inject_Z k * period + ao + fraction * period)).
Proof. exact periodic_iff. Qed.
Print Assumptions C13_periodic_active_iff_in_some_window.

Example C13_periodic_example :
  exists p, periodic_load (1#2) 2 (1#2) 1 10 = Ok p /\
    periodic_isActive p (15#4) = Ok true /\ periodic_isActive p (5#2) = Ok false.
Proof.
  exists (mk_periodic (1#2) 2 (1#2) 1 (Some 10)). repeat split; vm_compute; reflexivity.
Qed.

(** A periodic activation made by the parameter constructor reads an uninitialised end time for
    every time from the period offset on. *)
Theorem C13_periodic_constructor_uninitialised_refuted :
  forall fraction period ao po t, po <= t -> periodic_isActive (periodic_new fraction period ao po) t = UB.
Proof.
  exact (fun fraction period ao po t H =>
    eq_trans (f_equal (fun b : bool => if b then UB else Ok false) (proj2 (Qle_bool_iff po t) H)) eq_refl).
Qed.
Print Assumptions C13_periodic_constructor_uninitialised_refuted.

(** The value of a linear activation inside its window can leave [0,1]. *)
Theorem C13_linear_value_in_unit_interval_refuted :
  exists t_on t_off slope startVal t,
    linear_isActive t_on t_off t = true /\ 1 < linear_compute t_on slope startVal t.
Proof.
  exact (ex_intro _ 0 (ex_intro _ 5 (ex_intro _ 1 (ex_intro _ 0 (ex_intro _ 3
          (conj eq_refl eq_refl)))))).
Qed.
Print Assumptions C13_linear_value_in_unit_interval_refuted.

Open Scope R_scope.
(** C13. A Gaussian activation loaded from a file peaks at mu and decays on both sides. *)
Theorem C13_gauss_loaded_decays :
  forall mu sigma t1 t2, sigma <> 0 -> Rabs (t1 - mu) < Rabs (t2 - mu) ->
    0 < rbf_compute (rbf_load mu sigma) t2 < rbf_compute (rbf_load mu sigma) t1.
Proof. exact rbf_load_decays. Qed.
Print Assumptions C13_gauss_loaded_decays.

(** The same activation made by the constructor grows away from mu. *)
Theorem C13_gauss_constructed_decays_refuted :
  forall mu sigma t1 t2, sigma <> 0 -> Rabs (t1 - mu) < Rabs (t2 - mu) ->
    rbf_compute (rbf_new mu sigma) t1 < rbf_compute (rbf_new mu sigma) t2.
Proof. exact rbf_new_grows. Qed.
Print Assumptions C13_gauss_constructed_decays_refuted.

Example C13_gauss_example : (2 : R) <> 0 /\ Rabs (1 - 1) < Rabs (3 - 1).
Proof. split; [lra|]. rewrite Rminus_diag_eq, Rabs_R0 by reflexivity. rewrite Rabs_right; lra. Qed.

(** Barrier activation: the reported derivatives are the derivatives, whatever bounds are on. *)
Theorem C13_barrier_derivatives :
  forall b x, is_derive (barrier_compute b) x (barrier_d1 b x) /\
              is_derive (barrier_d1 b) x (barrier_d2 b x).
Proof. exact barrier_derivs. Qed.
Print Assumptions C13_barrier_derivatives.

(** A constructed barrier is at most 2 inside the bounds and above 1 outside. *)
Theorem C13_barrier_separates :
  forall ub lb alpha x, 0 < alpha ->
    (lb <= x <= ub -> 0 < barrier_compute (barrier_new ub lb alpha) x <= 2) /\
    (ub < x \/ x < lb -> 1 < barrier_compute (barrier_new ub lb alpha) x).
Proof. exact barrier_new_bounds. Qed.
Print Assumptions C13_barrier_separates.

(** A barrier loaded from a file (after default construction) is zero everywhere, whatever bounds
    the file contains. *)
Theorem C13_barrier_loaded_is_active_refuted :
  forall ub lb alpha x, barrier_compute (barrier_load barrier_default ub lb alpha) x = 0.
Proof. exact barrier_load_default. Qed.
Print Assumptions C13_barrier_loaded_is_active_refuted.

(** C13. A periodic activation is read from a file exactly when the active part lies inside the period. *)
Theorem C13_periodic_load_checked : forall fraction period ao po t_end,
  ((ao + fraction * period <= period)%Q -> periodic_load fraction period ao po t_end = Ok (mk_periodic fraction period ao po (Some t_end))) /\
  ((period < ao + fraction * period)%Q -> periodic_load fraction period ao po t_end = Throw).
Proof.
  intros. unfold periodic_load. split; intros H.
  - replace (Qltb period (ao + fraction * period)) with false; [reflexivity|]. symmetry. apply Qltb_false. exact H.
  - replace (Qltb period (ao + fraction * period)) with true; [reflexivity|]. symmetry. apply Qltb_true. exact H.
Qed.
Print Assumptions C13_periodic_load_checked.

(** C13. Which bounds a barrier has, whatever it was before. *)
Theorem C13_barrier_bounds : forall b ub lb alpha x,
  barrier_compute (barrier_new ub lb alpha) x = exp (alpha * (x - ub)) + exp (alpha * (lb - x)) /\
  barrier_compute (barrier_setUpperBoundOnly b ub alpha) x = exp (alpha * (x - ub)) /\
  barrier_compute (barrier_setLowerBoundOnly b lb alpha) x = exp (alpha * (lb - x)).
Proof. intros. unfold barrier_compute, barrier_new, barrier_setUpperBoundOnly, barrier_setLowerBoundOnly, b2R; cbn. repeat split; ring. Qed.
Print Assumptions C13_barrier_bounds.
