(** Model of the integrated cost of direct multiple shooting and of its gradient:
    ct_optcon/include/ct/optcon/dms/dms_core/cost_evaluator/CostEvaluatorFull.h 70-140, with the passes over one shot,
    ShotContainer.h 140-202, and the controller of a shot, ControllerDms.h 56-70 (the spliners: LinearSpliner.h 42-110,
    ZeroOrderHoldSpliner.h 42-59).  The integration loops are those of Core/SensModel.v.
    Scalars are real; matrices and row vectors are the linear maps they stand for.  A decision vector is addressed by
    blocks, state k and control k (OptVectorDms, modelled in DmsModel.v); that a block is recomputed exactly when the
    decision vector has changed is C44, here every pass runs on the vector it is asked for. *)
From Coq Require Import Reals List Bool Arith.
From Coquelicot Require Import Coquelicot.
From Verif Require Import Core.SensModel Optcon.DmsSplineModel.
Import ListNotations.
Local Open Scope R_scope.

Section Full.
Context {V U : NormedModule R_AbsRing}.
(** Dynamics and linearisation; the intermediate cost with its derivatives; the terminal cost with its derivative, as
    functions of the state, control and time given to setCurrentStateAndControl. *)
Variable f : V -> U -> R -> V.
Variables (dfx : V -> U -> R -> V -> V) (dfu : V -> U -> R -> U -> V).
Variables (L : V -> U -> R -> R) (dLx : V -> U -> R -> V -> R) (dLu : V -> U -> R -> U -> R).
Variables (Phi : V -> U -> R -> R) (dPhi : V -> U -> R -> V -> R).
(** The settings: spline type, stepper (integrationType_), dt_sim_ and N_. *)
Variables (sp : splineType) (st : stepper) (dt : R) (N : nat).
(** The time grid read by the spliners, and the start time and number of steps each shot stored when it was built
    (ShotContainer.h 124-128). *)
Variables (tg tStart : nat -> R) (nSteps : nat -> nat).

(** The blocks of the decision vector. *)
Record dec := mkDec { d_s : nat -> V; d_q : nat -> U }.

(** LinearSpliner.h 42-57, ZeroOrderHoldSpliner.h 42-47: the control of shot k between its two nodes. *)
Definition spl (k : nat) (a b : U) (t : R) : U :=
  match sp with
  | ZERO_ORDER_HOLD => a
  | PIECEWISE_LINEAR =>
      plus (scal ((tg (S k) - t) / (tg (S k) - tg k)) a) (scal ((t - tg k) / (tg (S k) - tg k)) b)
  end.
(** splineDerivative_q_i (LinearSpliner.h 84-95, ZeroOrderHoldSpliner.h 51-54), via getDerivativeU0 (ControllerDms.h 61-65). *)
Definition dq0 (k : nat) (t : R) (h : U) : U :=
  match sp with
  | ZERO_ORDER_HOLD => h
  | PIECEWISE_LINEAR => scal ((tg (S k) - t) / (tg (S k) - tg k)) h
  end.
(** splineDerivative_q_iplus1 (LinearSpliner.h 98-110, ZeroOrderHoldSpliner.h 56-59), via getDerivativeUf (ControllerDms.h 66-70). *)
Definition dq1 (k : nat) (t : R) (h : U) : U :=
  match sp with
  | ZERO_ORDER_HOLD => zero
  | PIECEWISE_LINEAR => scal ((t - tg k) / (tg (S k) - tg k)) h
  end.
(** ControllerDms::computeControl, 56-60. *)
Definition shotCtrl (w : dec) (k : nat) : R -> U := spl k (d_q w k) (d_q w (S k)).

(** ShotContainer::integrateShot, 140-149: the evaluations cached while the shot is integrated. *)
Definition shotCache (w : dec) (k : nat) : list (V * U * R) :=
  snd (integrate_state f (shotCtrl w k) st (nSteps k) (d_s w k) (tStart k) dt).
(** ShotContainer::integrateCost, 151-160, and getCostIntegrated. *)
Definition shotCost (w : dec) (k : nat) : R :=
  fst (integrate_cost L st (nSteps k) 0 (tStart k) dt (shotCache w k)).
(** ShotContainer::integrateCostSensitivities, 185-202 (with integrateSensitivities, 165-183): the gradients with respect
    to s_k, q_k and, for the piecewise linear spline only, q_{k+1} (discreteRNext_ is zero otherwise, 89); each with a
    flag that no cached entry was read out of bounds. *)
Definition shotGradS (w : dec) (k : nat) : (V -> R) * bool :=
  let cache := shotCache w k in
  let s := snd (sens_x0 st (nSteps k) (tStart k) dt (fst (linearize dfx dfu cache))) in
  let g := cost_sens_x0 dLx st (nSteps k) (tStart k) dt cache (s_cache s) in
  (fst g, s_ok s && s_ok (snd g)).
Definition shotGradU (dctrl : R -> U -> U) (w : dec) (k : nat) : (U -> R) * bool :=
  let cache := shotCache w k in
  let lin := linearize dfx dfu cache in
  let s := snd (sens_u0 dctrl st (nSteps k) (tStart k) dt (fst lin) (snd lin) cache) in
  let g := cost_sens_u0 dctrl dLx dLu st (nSteps k) (tStart k) dt cache (s_cache s) in
  (fst g, s_ok s && s_ok (snd g)).
Definition shotGradQ (w : dec) (k : nat) : (U -> R) * bool := shotGradU (dq0 k) w k.
Definition shotGradQnext (w : dec) (k : nat) : (U -> R) * bool :=
  match sp with
  | PIECEWISE_LINEAR => shotGradU (dq1 k) w k
  | ZERO_ORDER_HOLD => (fun _ => 0, true)
  end.

(** CostEvaluatorFull::eval, 70-86.  setCurrentStateAndControl is called without a time, whose default is 0. *)
Definition evalFull (w : dec) : R :=
  let cost := fold_left (fun cost k => cost + shotCost w k) (seq 0 N) 0 in
  cost + Phi (d_s w N) zero 0.

(** CostEvaluatorFull::evalGradient, 88-140: the segments of the gradient. *)
Record gradient := mkGrad { g_s : nat -> V -> R; g_q : nat -> U -> R; g_ok : bool }.
Definition addTo {X : Type} (g : nat -> X -> R) (k : nat) (v : X -> R) : nat -> X -> R :=
  fun j => if (j =? k)%nat then radd (g j) v else g j.
Definition gradStep (w : dec) (g : gradient) (k : nat) : gradient :=
  let dS := shotGradS w k in let dQ := shotGradQ w k in let dQ1 := shotGradQnext w k in
  match sp with
  | ZERO_ORDER_HOLD =>
      mkGrad (addTo (g_s g) k (fst dS)) (addTo (g_q g) k (fst dQ)) (g_ok g && snd dS && snd dQ)
  | PIECEWISE_LINEAR =>
      mkGrad (addTo (g_s g) k (fst dS)) (addTo (addTo (g_q g) k (fst dQ)) (S k) (fst dQ1))
             (g_ok g && snd dS && snd dQ && snd dQ1)
  end.
Definition gradFull (w : dec) : gradient :=
  let g := fold_left (gradStep w) (seq 0 N) (mkGrad (fun _ _ => 0) (fun _ _ => 0) true) in
  mkGrad (addTo (g_s g) N (dPhi (d_s w N) zero 0)) (g_q g) (g_ok g).
End Full.
Arguments mkDec {V U}. Arguments d_s {V U}. Arguments d_q {V U}.
Arguments g_s {V U}. Arguments g_q {V U}. Arguments g_ok {V U}.
