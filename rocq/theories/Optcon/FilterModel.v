(** Model of the state estimators in /repo/ct_optcon/include/ct/optcon/filter.
    Scalars are elements of a real field (exact arithmetic); the copy constructors are not modelled. *)
From mathcomp Require Import all_ssreflect all_algebra.
From Verif Require Import Base.Outcome Base.Mx Optcon.LqrModel.
Set Implicit Arguments. Unset Strict Implicit. Unset Printing Implicit Defensive.
Import GRing.Theory Num.Theory Order.TTheory.
Local Open Scope ring_scope.

(** SystemModelBase.h lines 33-48: the calls made on the system model (state, control, dt, t). *)
Record system_model (F : realFieldType) (n m : nat) := mk_system_model {
  computeDynamics : 'cV[F]_n -> 'cV[F]_m -> F -> F -> 'cV[F]_n;
  sysDerivativeState : 'cV[F]_n -> 'cV[F]_m -> F -> F -> 'M[F]_n;
  sysDerivativeNoise : 'cV[F]_n -> 'cV[F]_m -> F -> F -> 'M[F]_n }.

(** LinearMeasurementModel.h lines 34-38 (state, t). *)
Record measurement_model (F : realFieldType) (n o : nat) := mk_measurement_model {
  computeMeasurement : 'cV[F]_n -> F -> 'cV[F]_o;
  measDerivativeState : 'cV[F]_n -> F -> 'M[F]_(o, n);
  measDerivativeNoise : 'cV[F]_n -> F -> 'M[F]_o }.

(** LTIMeasurementModel-impl.h lines 26-51. *)
Definition lti_measurement (F : realFieldType) n o (C : 'M[F]_(o, n)) (W : 'M[F]_o) : measurement_model F n o :=
  mk_measurement_model (fun x _ => C *m x) (fun _ _ => C) (fun _ _ => W).

Section EKF.
Variable F : realFieldType.
Variables n m o : nat.

(** ExtendedKalmanFilter: members f_, h_, x_est_ (EstimatorBase.h lines 64-70), Q_, R_, P_. *)
Record ekf := mk_ekf {
  e_f : system_model F n m; e_h : measurement_model F n o; e_x : 'cV[F]_n;
  e_Q : 'M[F]_n; e_R : 'M[F]_o; e_P : 'M[F]_n }.

(** ExtendedKalmanFilter-impl.h lines 33-51. *)
Definition ekf_predict (u : 'cV[F]_m) (dt t : F) (e : ekf) : ekf :=
  let dFdx := sysDerivativeState (e_f e) (e_x e) u dt t in
  let dFdv := sysDerivativeNoise (e_f e) (e_x e) u dt t in
  let P := dFdx *m e_P e *m dFdx^T + dFdv *m (dt *: e_Q e) *m dFdv^T in
  mk_ekf (e_f e) (e_h e) (computeDynamics (e_f e) (e_x e) u dt t) (e_Q e) (e_R e) P.

(** Lines 62-64: the gain. *)
Definition ekf_gain (t : F) (e : ekf) : 'M[F]_(n, o) :=
  let dHdx := measDerivativeState (e_h e) (e_x e) t in
  let dHdw := measDerivativeNoise (e_h e) (e_x e) t in
  e_P e *m dHdx^T *m invmx (dHdx *m e_P e *m dHdx^T + dHdw *m e_R e *m dHdw^T).

(** Lines 54-73; computeMeasurement is called without a time, whose default is 0. *)
Definition ekf_update (y : 'cV[F]_o) (dt t : F) (e : ekf) : ekf :=
  let dHdx := measDerivativeState (e_h e) (e_x e) t in
  let K := ekf_gain t e in
  mk_ekf (e_f e) (e_h e) (e_x e + K *m (y - computeMeasurement (e_h e) (e_x e) 0)) (e_Q e) (e_R e)
         (e_P e - K *m dHdx *m e_P e).

(** The public mutators of EstimatorBase.h lines 54-61 and the two filter steps. *)
Inductive ekf_call :=
| Predict (u : 'cV[F]_m) (dt t : F)
| Update (y : 'cV[F]_o) (dt t : F)
| SetEstimate (x : 'cV[F]_n)
| SetSystemModel (f : system_model F n m)
| SetMeasurementModel (h : measurement_model F n o).
Definition ekf_step (e : ekf) (c : ekf_call) : ekf :=
  match c with
  | Predict u dt t => ekf_predict u dt t e
  | Update y dt t => ekf_update y dt t e
  | SetEstimate x => mk_ekf (e_f e) (e_h e) x (e_Q e) (e_R e) (e_P e)
  | SetSystemModel f => mk_ekf f (e_h e) (e_x e) (e_Q e) (e_R e) (e_P e)
  | SetMeasurementModel h => mk_ekf (e_f e) h (e_x e) (e_Q e) (e_R e) (e_P e)
  end.
Definition ekf_run (e : ekf) (cs : seq ekf_call) : ekf := foldl ekf_step e cs.
End EKF.

Section SSKF.
Variable F : realFieldType.
Variables n m o : nat.
Variable eig : 'M[F]_o -> 'M[F]_o * 'rV[F]_o.

(** SteadyStateKalmanFilter: members.  predict (SteadyStateKalmanFilter-impl.h lines 37-44) passes three
    arguments to the four-argument methods of SystemModelBase and does not compile; the state [k_A] it
    would write is an input of the model. *)
Record sskf := mk_sskf {
  k_h : measurement_model F n o; k_x : 'cV[F]_n; k_Q : 'M[F]_n; k_R : 'M[F]_o;
  k_A : 'M[F]_n; k_P : 'M[F]_n; k_max : nat }.

(** update, lines 47-66; K is uninitialised before the call ([K0]). *)
Definition sskf_update (K0 : 'M[F]_(o, n)) (y : 'cV[F]_o) (dt t : F) (k : sskf) : outcome sskf :=
  let dHdx := measDerivativeState (k_h k) (k_x k) t in
  match dare eig (k_Q k) (k_R k) (k_A k)^T dHdx^T (k_P k) K0 ((10%:R ^+ 6)^-1) (k_max k) with
  | Ok (P, K) => Ok (mk_sskf (k_h k) (k_x k - K^T *m (y - computeMeasurement (k_h k) (k_x k) t))
                             (k_Q k) (k_R k) (k_A k) P (k_max k))
  | Throw => Throw
  | UB => UB
  end.
End SSKF.

Section UKF.
Variable F : rcfType.
Variables n m o : nat.

(** Weights and scaling, UnscentedKalmanFilter.h lines 156-163. *)
Record weights := mk_weights { w_gamma : F; w_m : 'I_(1 + (n + n)) -> F; w_c : 'I_(1 + (n + n)) -> F }.

(** computeWeights, UnscentedKalmanFilter-impl.h lines 211-239 (assertions are hypotheses). *)
Definition computeWeights (alpha beta kappa : F) : weights :=
  let L := n%:R in
  let lambda := alpha * alpha * (L + kappa) - L in
  let gamma := Num.sqrt (L + lambda) in
  let W_m_0 := lambda / (L + lambda) in
  let W_c_0 := W_m_0 + (1 - alpha * alpha + beta) in
  let W_i := 1 / (2%:R * alpha * alpha * (L + kappa)) in
  mk_weights gamma (fun i => if (val i == 0)%N then W_m_0 else W_i)
                   (fun i => if (val i == 0)%N then W_c_0 else W_i).

(** The filter.  [u_w] is [None] until computeWeights has been called: neither constructor calls it
    (lines 54-78), and the weights and gamma_ are not initialised otherwise. *)
Record ukf := mk_ukf {
  u_f : system_model F n m; u_h : measurement_model F n o; u_x : 'cV[F]_n; u_P : 'M[F]_n;
  u_alpha : F; u_beta : F; u_kappa : F;
  u_w : option weights; u_sigma : 'M[F]_(n, 1 + (n + n)) }.

(** Constructor, lines 55-65; sigmaStatePoints_ is uninitialised ([junk]). *)
Definition ukf_new f h x0 alpha beta kappa P0 junk : ukf :=
  mk_ukf f h x0 P0 alpha beta kappa None junk.
(** The public call computeWeights(). *)
Definition ukf_computeWeights (k : ukf) : ukf :=
  mk_ukf (u_f k) (u_h k) (u_x k) (u_P k) (u_alpha k) (u_beta k) (u_kappa k)
         (Some (computeWeights (u_alpha k) (u_beta k) (u_kappa k))) (u_sigma k).

(** Cholesky factor of P_, lines 127-132; [None] when the decomposition fails. *)
Variable llt : 'M[F]_n -> option 'M[F]_n.

(** computeSigmaPoints, lines 124-142. *)
Definition replicate_cols (x : 'cV[F]_n) : 'M[F]_n := \matrix_(i, j) x i 0.
Definition sigmaPoints (gamma : F) (x : 'cV[F]_n) (S : 'M[F]_n) : 'M[F]_(n, 1 + (n + n)) :=
  row_mx x (row_mx (gamma *: S + replicate_cols x) ((- gamma) *: S + replicate_cols x)).

(** computePredictionFromSigmaPoints, lines 264-271.  It returns a state vector, so for measurements the
    class only compiles when both dimensions agree; the model does not need that. *)
Definition predictionFrom d (w : weights) (X : 'M[F]_(d, 1 + (n + n))) : 'cV[F]_d :=
  X *m (\col_i w_m w i).

(** computeCovarianceFromSigmaPoints, lines 144-157. *)
Definition covarianceFrom d (w : weights) (mean : 'cV[F]_d) (X : 'M[F]_(d, 1 + (n + n))) (noise : 'M[F]_d)
  : 'M[F]_d :=
  let W : 'M[F]_(d, 1 + (n + n)) := \matrix_(i, j) w_c w j in
  let tmp : 'M[F]_(d, 1 + (n + n)) := \matrix_(i, j) (X i j - mean i 0) in
  (\matrix_(i, j) (tmp i j * W i j)) *m tmp^T + noise.

(** predict, lines 81-94. *)
Definition ukf_predict (u : 'cV[F]_m) (dt t : F) (k : ukf) : outcome ukf :=
  match llt (u_P k) with
  | None => Throw
  | Some Sq =>
      match u_w k with
      | None => UB
      | Some w =>
          let X0 := sigmaPoints (w_gamma w) (u_x k) Sq in
          let X : 'M[F]_(n, 1 + (n + n)) := \matrix_(i, j) computeDynamics (u_f k) (col j X0) u dt t i 0 in
          let x := predictionFrom w X in
          Ok (mk_ukf (u_f k) (u_h k) x (covarianceFrom w x X (sysDerivativeNoise (u_f k) x u dt t))
                     (u_alpha k) (u_beta k) (u_kappa k) (u_w k) X)
      end
  end.

(** computeKalmanGain, lines 159-173. *)
Definition kalmanGain (w : weights) (x : 'cV[F]_n) (X : 'M[F]_(n, 1 + (n + n))) (y : 'cV[F]_o)
  (Y : 'M[F]_(o, 1 + (n + n))) (Pyy : 'M[F]_o) : 'M[F]_(n, o) :=
  let W : 'M[F]_(n, 1 + (n + n)) := \matrix_(i, j) w_c w j in
  let dx : 'M[F]_(n, 1 + (n + n)) := \matrix_(i, j) ((X i j - x i 0) * W i j) in
  let dy : 'M[F]_(o, 1 + (n + n)) := \matrix_(i, j) (Y i j - y i 0) in
  dx *m dy^T *m invmx Pyy.

(** update, lines 97-121, with updateStateCovariance, lines 176-182. *)
Definition ukf_update (z : 'cV[F]_o) (dt t : F) (k : ukf) : outcome ukf :=
  match u_w k with
  | None => UB
  | Some w =>
      let X := u_sigma k in
      let Y : 'M[F]_(o, 1 + (n + n)) := \matrix_(i, j) computeMeasurement (u_h k) (col j X) t i 0 in
      let y := predictionFrom w Y in
      let Pyy := covarianceFrom w y Y (measDerivativeNoise (u_h k) (u_x k) t) in
      let K := kalmanGain w (u_x k) X y Y Pyy in
      Ok (mk_ukf (u_f k) (u_h k) (u_x k + K *m (z - y)) (u_P k - K *m Pyy *m K^T)
                 (u_alpha k) (u_beta k) (u_kappa k) (u_w k) X)
  end.
End UKF.
