(** Model of the control spliners and of the simple cost evaluator of direct multiple shooting:
    ct_optcon/include/ct/optcon/dms/dms_core/spline/Linear/LinearSpliner.h,
    spline/ZeroOrderHold/ZeroOrderHoldSpliner.h and cost_evaluator/CostEvaluatorSimple.h.
    Real arithmetic; control vectors are functions from component indices to reals. *)
From Coq Require Import Reals List Bool Arith.
From Verif Require Import Base.Outcome Base.RVec Optcon.DmsModel.
Import ListNotations.
Local Open Scope R_scope.

(** DmsSettings.h SplineType_t *)
Inductive splineType := ZERO_ORDER_HOLD | PIECEWISE_LINEAR.

(** LinearSpliner.h 42-57, ZeroOrderHoldSpliner.h 42-47.  computeSpline (40) stores the nodes.
    Reads past the end of nodes_ or of the time grid are undefined (the assertion of line 52
    checks shotIdx only and is compiled out in release builds). *)
Definition evalSpline (sp : splineType) (nodes : list rvec) (g : grid R) (time : R) (i : nat)
  : outcome rvec :=
  match sp with
  | PIECEWISE_LINEAR =>
      do t_shot <- rShotDuration g i ;;
      do t_s_start <- getShotStartTime g i ;;
      do t_s_end <- getShotEndTime g i ;;
      do a <- vec_get nodes i ;;
      do b <- vec_get nodes (i + 1) ;;
      Ok (fun j => a j * (t_s_end - time) / t_shot + b j * (time - t_s_start) / t_shot)
  | ZERO_ORDER_HOLD => vec_get nodes i
  end.

(** LinearSpliner.h 60-69, ZeroOrderHoldSpliner.h 49. *)
Definition splineDerivative_t (sp : splineType) (nodes : list rvec) (g : grid R) (time : R)
  (i : nat) : outcome rvec :=
  match sp with
  | PIECEWISE_LINEAR =>
      do t_shot <- rShotDuration g i ;;
      do b <- vec_get nodes (i + 1) ;;
      do a <- vec_get nodes i ;;
      Ok (fun j => (b j - a j) / t_shot)
  | ZERO_ORDER_HOLD => Ok rzero
  end.

(** LinearSpliner.h 72-82, ZeroOrderHoldSpliner.h 50. *)
Definition splineDerivative_h_i (sp : splineType) (nodes : list rvec) (g : grid R) (time : R)
  (i : nat) : outcome rvec :=
  match sp with
  | PIECEWISE_LINEAR =>
      do t_shot <- rShotDuration g i ;;
      do t_s_start <- getShotStartTime g i ;;
      do a <- vec_get nodes i ;;
      do b <- vec_get nodes (i + 1) ;;
      Ok (fun j => (time - t_s_start) * (a j - b j) / (t_shot * t_shot))
  | ZERO_ORDER_HOLD => Ok rzero
  end.

Definition scaledIdentity (c : R) : rmat := fun a b => if (a =? b)%nat then c else 0.

(** LinearSpliner.h 84-95, ZeroOrderHoldSpliner.h 51-54. *)
Definition splineDerivative_q_i (sp : splineType) (g : grid R) (time : R) (i : nat)
  : outcome rmat :=
  match sp with
  | PIECEWISE_LINEAR =>
      do t_shot <- rShotDuration g i ;;
      do t_s_end <- getShotEndTime g i ;;
      Ok (scaledIdentity ((t_s_end - time) / t_shot))
  | ZERO_ORDER_HOLD => Ok (scaledIdentity 1)
  end.

(** LinearSpliner.h 98-110, ZeroOrderHoldSpliner.h 56-59. *)
Definition splineDerivative_q_iplus1 (sp : splineType) (g : grid R) (time : R) (i : nat)
  : outcome rmat :=
  match sp with
  | PIECEWISE_LINEAR =>
      do t_shot <- rShotDuration g i ;;
      do t_s_start <- getShotStartTime g i ;;
      Ok (scaledIdentity ((time - t_s_start) / t_shot))
  | ZERO_ORDER_HOLD => Ok (scaledIdentity 0)
  end.

(** CostEvaluatorSimple.h 139-142: all weights but the last one of the piecewise linear case. *)
Definition linearHead (g : grid R) (N : nat) : outcome (list R) :=
  do d0 <- rShotDuration g 0 ;;
  do mid <- collect (fun i => do e <- getShotEndTime g i ;; do s <- getShotStartTime g (i - 1) ;;
                              Ok (1 / 2 * (e - s))) 1 (N - 1) ;;
  Ok (1 / 2 * d0 :: mid).

(** CostEvaluatorSimple.h 124-150.  phi_ has N+1 entries and the loops assign each of them
    once, so the model builds the vector; N is settings_.N_. *)
Definition updatePhi (sp : splineType) (g : grid R) (N : nat) : outcome (list R) :=
  match sp with
  | ZERO_ORDER_HOLD =>
      do l <- collect (rShotDuration g) 0 N ;; Ok (l ++ [0])
  | PIECEWISE_LINEAR =>
      do l <- linearHead g N ;;
      do dN <- rShotDuration g N ;; Ok (l ++ [1 / 2 * dN])
  end.

Section Simple.
Variables n m : nat.
(** The cost function after setCurrentStateAndControl(x, u, t): its intermediate and terminal
    values and derivatives (any cost function whose evaluations do not throw). *)
Record costfun := mkCost {
  c_val : list R -> list R -> R -> R;
  c_dx : list R -> list R -> R -> list R;
  c_du : list R -> list R -> R -> list R;
  c_fin : list R -> list R -> R -> R;
  c_fin_dx : list R -> list R -> R -> list R }.
Variable cost : costfun.

(** CostEvaluatorSimple.h 90-95 *)
Fixpoint evalLoop (phi : list R) (o : optvec) (g : grid R) (i k : nat) (acc : R) : outcome R :=
  match k with
  | O => Ok acc
  | S k' =>
      do x <- getOptimizedState n o i ;;
      do u <- getOptimizedControl m o i ;;
      do t <- getShotStartTime g i ;;
      do p <- vec_get phi i ;;
      evalLoop phi o g (S i) k' (acc + p * c_val cost x u t)
  end.
(** CostEvaluatorSimple.h 84-101: the terminal cost is evaluated with a zero control and at the
    default time 0. *)
Definition simpleEval (phi : list R) (o : optvec) (g : grid R) (N : nat) : outcome R :=
  do c <- evalLoop phi o g 0 (N + 1) 0 ;;
  do x <- getOptimizedState n o N ;;
  Ok (c + c_fin cost x (repeat 0 m) 0).

Definition vadd (a b : list R) : list R := map (fun p => fst p + snd p) (combine a b).
Definition vscale (c : R) (a : list R) : list R := map (Rmult c) a.
(** grad.segment(i, k) += v *)
Definition addSegment (i : nat) (v g : list R) : outcome (list R) :=
  do s <- segment i (length v) g ;; setSegment i (vadd s v) g.

(** CostEvaluatorSimple.h 110-116 *)
Fixpoint gradLoop (phi : list R) (o : optvec) (g : grid R) (i k : nat) (grad : list R)
  : outcome (list R) :=
  match k with
  | O => Ok grad
  | S k' =>
      do x <- getOptimizedState n o i ;;
      do u <- getOptimizedControl m o i ;;
      do t <- getShotStartTime g i ;;
      do p <- vec_get phi i ;;
      do si <- getStateIndex o i ;;
      do g1 <- addSegment si (vscale p (c_dx cost x u t)) grad ;;
      do ci <- getControlIndex o i ;;
      do g2 <- addSegment ci (vscale p (c_du cost x u t)) g1 ;;
      gradLoop phi o g (S i) k' g2
  end.
(** CostEvaluatorSimple.h 104-121; [len] is grad_length. *)
Definition simpleGradient (phi : list R) (o : optvec) (g : grid R) (N len : nat)
  : outcome (list R) :=
  do grad <- gradLoop phi o g 0 (N + 1) (repeat 0 len) ;;
  do x <- getOptimizedState n o N ;;
  do si <- getStateIndex o N ;;
  addSegment si (c_fin_dx cost x (repeat 0 m) 0) grad.
End Simple.
