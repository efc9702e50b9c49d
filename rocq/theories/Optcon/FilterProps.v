(** C19, C20, C21, C55, C56: the Kalman filters. *)
From mathcomp Require Import all_ssreflect all_algebra.
From mathcomp Require Import ring.
From Verif Require Import Base.Outcome Base.Mx Optcon.LQSpec Optcon.LqrSpec Optcon.LqrModel Optcon.LqrProofs
  Optcon.FilterSpec Optcon.FilterModel Optcon.LqrProps Optcon.FilterUse Optcon.FilterProofs Optcon.FilterWitness.
Set Implicit Arguments. Unset Strict Implicit. Unset Printing Implicit Defensive.
Import GRing.Theory Num.Theory Order.TTheory.
Local Open Scope ring_scope.

(** C19. Whatever is called in whatever order (including replacing the models and the estimate), the
    covariance stays symmetric positive semidefinite. *)
Theorem C19_covariance_valid :
  forall (F : realFieldType) (n m o : nat) (cs : seq (ekf_call F n m o)) (e : ekf F n m o),
  ekf_valid e -> calls_ok e cs -> covariance (e_P (ekf_run e cs)).
Proof. by move=> F n m o cs e He Hc; have [] := ekf_run_valid He Hc. Qed.
Print Assumptions C19_covariance_valid.

(** C19. After every such history, a measurement update returns the covariance of the estimate with the
    filter's gain, never increases it, and no other gain does better; any gain doing as well is the same. *)
Theorem C19_update_optimal :
  forall (F : realFieldType) (n m o : nat) (cs : seq (ekf_call F n m o)) (e0 : ekf F n m o) y dt t,
  ekf_valid e0 -> calls_ok e0 (rcons cs (Update _ _ y dt t)) ->
  let e := ekf_run e0 cs in
  let H := measDerivativeState (e_h e) (e_x e) t in
  let W := measDerivativeNoise (e_h e) (e_x e) t in
  let V := W *m e_R e *m W^T in
  let e' := ekf_run e0 (rcons cs (Update _ _ y dt t)) in
  exists K, [/\ e_x e' = e_x e + K *m (y - computeMeasurement (e_h e) (e_x e) 0),
    e_P e' = posterior (e_P e) H V K, below (e_P e') (e_P e) &
    forall K', below (e_P e') (posterior (e_P e) H V K') /\
               (posterior (e_P e) H V K' = e_P e' -> K' = K)].
Proof. exact ekf_update_optimal. Qed.
Print Assumptions C19_update_optimal.

(** C19. The prediction propagates the error covariance through the linearised model. *)
Theorem C19_predict :
  forall (F : realFieldType) (n m o : nat) (e : ekf F n m o) u dt t,
  let e' := ekf_predict u dt t e in
  e_x e' = computeDynamics (e_f e) (e_x e) u dt t /\
  e_P e' = propagated (e_P e) (sysDerivativeState (e_f e) (e_x e) u dt t)
                      (sysDerivativeNoise (e_f e) (e_x e) u dt t) (dt *: e_Q e).
Proof. by []. Qed.
Print Assumptions C19_predict.

Example C19_example : forall F : realFieldType,
  let f := mk_system_model (fun x (u : 'cV[F]_1) dt t => x + dt *: u) (fun _ _ _ _ => 1%:M) (fun _ _ _ _ => 1%:M) in
  let e := mk_ekf f (lti_measurement (1%:M : 'M[F]_1) 1%:M) 0 1%:M 1%:M 1%:M in
  ekf_valid e /\ calls_ok e [:: Predict _ _ 0 1 0; Update _ _ (const_mx 1) 1 0].
Proof.
move=> F f e; split; first by split; [split; [exact: sym_scalar | exact: semi1] | split; [exact: sym_scalar | exact: semi1] | exact: sym_scalar | exact: posdef1].
by split; [exact: ler01 | split; [exact: unitmx1 |]].
Qed.

(** C20. Sigma points with the documented weights: mean and covariance of the estimate. *)
Theorem C20_sigma_points :
  forall (F : rcfType) (n : nat) (llt : 'M[F]_n -> option 'M[F]_n),
  (forall P Sq, llt P = Some Sq -> Sq *m Sq^T = P) ->
  forall (alpha beta kappa : F) (x : 'cV[F]_n) P Sq,
  0 < alpha * alpha * (n%:R + kappa) -> llt P = Some Sq ->
  let w := computeWeights n alpha beta kappa in
  let X := sigmaPoints (w_gamma w) x Sq in
  wmean X (w_m w) = x /\ wcov X x (w_c w) = P.
Proof. exact sigma_moments. Qed.
Print Assumptions C20_sigma_points.

(** C20. Exactness under affine maps: a predict/update cycle on an affine system. *)
Theorem C20_affine_cycle :
  forall (F : rcfType) (n m o : nat) (llt : 'M[F]_n -> option 'M[F]_n),
  (forall P Sq, llt P = Some Sq -> Sq *m Sq^T = P) ->
  forall (k k1 k2 : ukf F n m o) u dt t z dt' t' A b C d,
  0 < u_alpha k * u_alpha k * (n%:R + u_kappa k) ->
  (forall v, computeDynamics (u_f k) v u dt t = A *m v + b) ->
  (forall v, computeMeasurement (u_h k) v t' = C *m v + d) ->
  ukf_predict llt u dt t (ukf_computeWeights k) = Ok k1 -> ukf_update z dt' t' k1 = Ok k2 ->
  let N := sysDerivativeNoise (u_f k) (u_x k1) u dt t in
  let V := measDerivativeNoise (u_h k) (u_x k1) t' in
  let M := A *m u_P k *m A^T in
  let Pyy := C *m M *m C^T + V in
  let K := M *m C^T *m invmx Pyy in
  [/\ u_x k1 = A *m u_x k + b, u_P k1 = M + N,
      u_x k2 = u_x k1 + K *m (z - (C *m u_x k1 + d)) & u_P k2 = u_P k1 - K *m Pyy *m K^T].
Proof. exact ukf_cycle. Qed.
Print Assumptions C20_affine_cycle.

(** C20, refuted for a filter as constructed: the weights are never computed by the filter itself. *)
Theorem C20_fresh_filter_refuted :
  forall (F : rcfType) (n m o : nat) llt (f : system_model F n m) (h : measurement_model F n o)
         x0 alpha beta kappa P0 junk u dt t z,
  llt P0 <> None ->
  ukf_predict llt u dt t (ukf_new f h x0 alpha beta kappa P0 junk) = UB /\
  ukf_update z dt t (ukf_new f h x0 alpha beta kappa P0 junk) = UB.
Proof. by move=> F n m o llt f h x0 a b c P0 junk u dt t z Hn; rewrite /ukf_predict /=; case: (llt P0) Hn. Qed.
Print Assumptions C20_fresh_filter_refuted.

Example C20_example : forall F : rcfType,
  let llt := (fun P : 'M[F]_1 => if P == 1%:M then Some (1%:M : 'M[F]_1) else None) in
  (forall P Sq, llt P = Some Sq -> Sq *m Sq^T = P) /\ llt 1%:M = Some 1%:M /\
  0 < 1 * 1 * (1%:R + 0) :> F.
Proof.
move=> F llt; split=> [P Sq|]; first by rewrite /llt; case: eqP => // -> [] <-; rewrite trmx1 mulmx1.
by rewrite /llt eqxx !mul1r addr0 ltr01.
Qed.

(** C55. On affine systems without process noise a cycle of the unscented filter is a Kalman filter cycle:
    the covariance is that of the estimate, and no other gain does better. *)
Theorem C55_ukf_is_kalman_partial :
  forall (F : rcfType) (n m o : nat) (llt : 'M[F]_n -> option 'M[F]_n),
  (forall P Sq, llt P = Some Sq -> Sq *m Sq^T = P) ->
  forall (k k1 k2 : ukf F n m o) u dt t z dt' t' A b C d,
  0 < u_alpha k * u_alpha k * (n%:R + u_kappa k) ->
  (forall v, computeDynamics (u_f k) v u dt t = A *m v + b) ->
  (forall v, computeMeasurement (u_h k) v t' = C *m v + d) ->
  covariance (u_P k) -> (forall v, sysDerivativeNoise (u_f k) v u dt t = 0) ->
  (forall v, symmetric (measDerivativeNoise (u_h k) v t') /\ posdef (measDerivativeNoise (u_h k) v t')) ->
  ukf_predict llt u dt t (ukf_computeWeights k) = Ok k1 -> ukf_update z dt' t' k1 = Ok k2 ->
  let V := measDerivativeNoise (u_h k) (u_x k1) t' in
  exists K, [/\ u_x k2 = u_x k1 + K *m (z - (C *m u_x k1 + d)),
    u_P k2 = posterior (u_P k1) C V K & forall K', below (u_P k2) (posterior (u_P k1) C V K')].
Proof. exact ukf_kalman. Qed.
Print Assumptions C55_ukf_is_kalman_partial.

(** C55, refuted with process noise: the sigma points are not redrawn after the noise has been added, so the
    gain is not the optimal one and the covariance is not that of the estimate. *)
Theorem C55_ukf_process_noise_refuted :
  forall F : rcfType, exists (llt : 'M[F]_1 -> option 'M[F]_1) (k k1 k2 : ukf F 1 1 1),
  (forall P Sq, llt P = Some Sq -> Sq *m Sq^T = P) /\
  (forall v, computeDynamics (u_f k) v 0 1 0 = v) /\ (forall v, computeMeasurement (u_h k) v 0 = v) /\
  ukf_predict llt 0 1 0 (ukf_computeWeights k) = Ok k1 /\ ukf_update (const_mx 1) 1 0 k1 = Ok k2 /\
  (* the estimate was 0 with covariance 1 + 1, the measurement is 1 with covariance 1 *)
  u_x k1 = 0 /\ u_P k1 = 2%:R%:M /\
  u_x k2 = (2%:R^-1)%:M /\ posterior (u_P k1) 1%:M 1%:M (2%:R^-1)%:M = (3%:R / 4%:R)%:M /\
  u_P k2 = (3%:R / 2%:R)%:M /\ posterior (u_P k1) 1%:M 1%:M (2%:R / 3%:R)%:M = (2%:R / 3%:R)%:M.
Proof. exact ukf_noise_witness. Qed.
Print Assumptions C55_ukf_process_noise_refuted.

(** C21. What the correction of the steady-state filter does: the gain is A P H' (R + H P H')^-1, the gain
    of the one-step predictor, with R regularised by 1e-5.  Missing: this is not the gain for correcting a
    predicted state (refuted below); prediction does not compile (see FilterModel.v). *)
Theorem C21_correction_partial :
  forall (F : realFieldType) (n o : nat) (eig : 'M[F]_o -> 'M[F]_o * 'rV[F]_o),
  (forall M, symmetric M -> eigen_correct eig M) ->
  forall K0 y dt t (k k' : sskf F n o),
  covariance (k_Q k) -> covariance (k_R k) -> covariance (k_P k) ->
  sskf_update eig K0 y dt t k = Ok k' ->
  let H := measDerivativeState (k_h k) (k_x k) t in
  let A := k_A k in
  covariance (k_P k') /\
  exists P0 : 'M[F]_n, [/\ forall i j, `|k_P k' i j - P0 i j| < (10%:R ^+ 6)^-1,
    k_P k' = riccati (k_Q k) (k_R k + ((10%:R ^+ 5)^-1)%:M) A^T H^T P0 &
    k_x k' = k_x k + A *m P0^T *m H^T *m invmx (k_R k + ((10%:R ^+ 5)^-1)%:M + H *m P0 *m H^T)^T
                       *m (y - computeMeasurement (k_h k) (k_x k) t)].
Proof. exact sskf_gain. Qed.
Print Assumptions C21_correction_partial.

(** C21, refuted: with A = 0 (the state is fresh noise of covariance Q at every step) the measurement is
    ignored altogether, whatever the noise covariances, although a gain with smaller error exists. *)
Theorem C21_steady_state_gain_refuted :
  forall F : realFieldType,
  exists k k' : sskf F 1 1, forall K0 y,
  k_A k = 0 /\ k_Q k = 1%:M /\ k_R k = 1%:M /\
  sskf_update (@eig1 F) K0 y 0 0 k = Ok k' /\ k_x k' = k_x k /\ k_P k' = 1%:M /\
  posterior (k_P k') 1%:M (k_R k) 0 = 1%:M /\
  posterior (k_P k') 1%:M (k_R k) (2%:R^-1)%:M = (2%:R^-1)%:M.
Proof. exact sskf_witness. Qed.
Print Assumptions C21_steady_state_gain_refuted.

(** C56. The unscented filter evaluates the measurement model at the time it is given ... *)
Theorem C56_ukf_measurement_time_partial :
  forall (F : rcfType) (n m o : nat) (k : ukf F n m o) z dt t h,
  (forall x, computeMeasurement h x t = computeMeasurement (u_h k) x t) ->
  (forall x, measDerivativeNoise h x t = measDerivativeNoise (u_h k) x t) ->
  omap (fun k' => (u_x k', u_P k')) (ukf_update z dt t k)
  = omap (fun k' => (u_x k', u_P k'))
      (ukf_update z dt t (mk_ukf (u_f k) h (u_x k) (u_P k) (u_alpha k) (u_beta k) (u_kappa k) (u_w k) (u_sigma k))).
Proof. exact ukf_time. Qed.
Print Assumptions C56_ukf_measurement_time_partial.

(** ... C56, refuted for the extended filter: the predicted measurement is always that of time 0.  A
    measurement y(t) = x + t is taken at t = 1 from the exact state x = 0, and the estimate is moved. *)
Theorem C56_ekf_measurement_time_refuted :
  forall F : realFieldType, exists (e : ekf F 1 1 1) (y : 'cV[F]_1),
  ekf_valid e /\ y = computeMeasurement (e_h e) (e_x e) 1 /\ e_x (ekf_update y 1 1 e) <> e_x e.
Proof. exact ekf_time_witness. Qed.
Print Assumptions C56_ekf_measurement_time_refuted.
