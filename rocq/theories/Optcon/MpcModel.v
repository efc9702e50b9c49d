(** Model of ct_optcon: mpc/MPC-impl.h, with the policy handlers (PolicyModel.v and the cold-start
    base class policyhandler/PolicyHandler-impl.h), the horizon strategy and time keeper
    (MpcTimeModel.v) and the stage bookkeeping of the NLOC solver
    (solver/NLOptConSettings.hpp computeK 290-297, nloc/NLOCBackendBase-impl.hpp 126-148, 190-235,
    1647).

    Simplifications: the optimisation itself is an input of [finishIteration] (success flag and
    solution policy); clock readings are inputs; the forward integrator is a function argument
    [fwd controller t0 nSteps dt x].  (int)lround is not truncated to 32 bits. *)
From Coq Require Import List ZArith QArith.
From Verif Require Import Base.Outcome Base.Rounding Core.InterpModel Optcon.MpcTimeModel Optcon.PolicyModel.
Import ListNotations.
Open Scope Q_scope.

Definition state := list Q.

(** The controller given to the forward integrator: a policy or a third-party controller. *)
Inductive fwd_controller := FwdPolicy (p : policy) | FwdOther (id : nat).
Definition integrator := fwd_controller -> Q -> nat -> Q -> state -> state.

(** MPC members.  [m_heap] holds the horizon strategies; [m_hs] is MPC::timeHorizonStrategy_ and
    [m_tk_hs] the pointer kept by the time keeper.  [m_tf]: t_forward_start_, t_forward_stop_
    (uninitialised before the first preparation). *)
Record mpc := mk_mpc {
  m_settings : mpc_settings;
  m_cold : bool;                 (* which policy handler was installed, l.31-54 *)
  m_initPolicy : policy;         (* PolicyHandler::initialPolicy_ *)
  m_dt : Q; m_K : Z;             (* solver time step and number of stages *)
  m_policy : policy;             (* currentPolicy_ *)
  m_firstRun : bool;
  m_calls : nat;                 (* runCallCounter_ *)
  m_heap : list horizon_strategy; m_hs : nat; m_tk_hs : nat;
  m_tk : time_keeper;
  m_tf : option (Q * Q) }.

(** l.339-346 *)
Definition checkSettings (s : mpc_settings) : outcome unit :=
  if ms_useExternalTiming s && ms_measureDelay s then Throw else Ok tt.

(** NLOptConSettings.hpp 290-297 *)
Definition computeK (dt T : Q) : outcome Z :=
  if Qltb T 0 then Throw else Ok (Z.max 1 (lround (T / dt))).

(** NLOCBackendBase-impl.hpp 126-148: only the length checks matter here *)
Definition solver_setInitialGuess (K : Z) (p : policy) : outcome unit :=
  do nx <- traj_size (pol_x p) ;;
  if (Z.of_nat nx <? K + 1)%Z then Throw else
  do nu <- traj_size (pol_ff p) ;;
  if (Z.of_nat nu <? K)%Z then Throw else
  do nk <- traj_size (pol_fb p) ;;
  if (Z.of_nat nk <? K)%Z then Throw else Ok tt.

(** Constructor l.11-74 (solver horizon T0 given by K0 stages; default horizon strategy), followed
    by setInitialGuess l.91-97. *)
Definition mpc_start (s : mpc_settings) (dt : Q) (K0 : Z) (guess : policy) : outcome mpc :=
  do _ <- checkSettings s ;;
  do _ <- solver_setInitialGuess K0 guess ;;
  Ok (mk_mpc s (ms_coldStart s) guess dt K0 guess true 0
             [mk_hs (ms_mode s) (ms_minT s) (inject_Z K0 * dt)] 0 0 (tk_new s) None).

(** policyHandler_->designWarmStartingPolicy (virtual call) *)
Definition handler_warmstart (m : mpc) (delay T : Q) : outcome policy :=
  if m_cold m then Ok (m_initPolicy m) else designWarmStartingPolicy (m_dt m) delay T (m_policy m).

(** policyHandler_->truncateSolutionFront; the base class (PolicyHandler-impl.h 30-34) leaves its
    output uninitialised, and the caller reads it. *)
Definition handler_truncate (m : mpc) (delay : Q) (p : policy) : outcome (policy * Q) :=
  if m_cold m then UB else truncateSolutionFront (m_dt m) delay p.

(** Calls, with the clock readings made inside, and what they report. *)
Inductive mpc_op :=
| MPrepare (ext now1 now2 : Q)
| MFinish (x : state) (x_ts : Q) (ctl : option nat) (now_start now_prev now1 now2 now3 : Q)
          (success : bool) (solution : policy)
| MReset (T : Q)
| MUpdate (s : mpc_settings)
| MSetStrategy (hs : horizon_strategy).

Inductive mpc_out :=
| OPrepared (T t_start t_stop : Q) (guess : policy)
| OFinished (stamp : Q) (pol : policy) (x0 : state)
| ONone.

Definition set_heap (i : nat) (hs : horizon_strategy) (h : list horizon_strategy) : list horizon_strategy :=
  firstn i h ++ hs :: skipn (S i) h.

(** l.137-173 *)
Definition prepareIteration (m : mpc) (ext now1 now2 : Q) : outcome (mpc * mpc_out) :=
  let T := inject_Z (m_K m) * m_dt m in
  let tk := if m_firstRun m then tk_initialize (m_tk m) else m_tk m in
  do hs <- vec_get (m_heap m) (m_tk_hs m) ;;
  do r <- computeNewTimings tk hs now1 now2 ext T ;;
  let '(tk', newT, a, b) := r in
  if Qltb newT 0 then Throw else
  do K' <- computeK (m_dt m) newT ;;
  do p <- handler_warmstart m b newT ;;
  if Qltb b a then Throw else
  do _ <- solver_setInitialGuess K' p ;;
  Ok (mk_mpc (m_settings m) (m_cold m) (m_initPolicy m) (m_dt m) K' p (m_firstRun m) (S (m_calls m))
             (m_heap m) (m_hs m) (m_tk_hs m) tk' (Some (a, b)),
      OPrepared newT a b p).

(** l.324-336 *)
Definition integrateForward (fwd : integrator) (s : mpc_settings) (c : fwd_controller) (a b : Q) (x : state) : state :=
  fwd c a (Z.to_nat (Z.max 0 (lround ((b - a) / ms_forwardIntegration_dt s)))) (ms_forwardIntegration_dt s) x.

(** l.115-134 *)
Definition doForwardIntegration (fwd : integrator) (m : mpc) (ctl : option nat) (a b : Q) (x : state) : state :=
  if ms_forwardIntegration (m_settings m) then
    match ctl with
    | Some id => integrateForward fwd (m_settings m) (FwdOther id) a b x
    | None => integrateForward fwd (m_settings m) (FwdPolicy (m_policy m)) a b x
    end
  else x.

(** l.176-266.  Reading t_forward_* before any preparation is UB. *)
Definition finishIteration (fwd : integrator) (m : mpc) (x : state) (x_ts : Q) (ctl : option nat)
    (now_start now_prev now1 now2 now3 : Q) (success : bool) (solution : policy) : outcome (mpc * mpc_out) :=
  let tk := startDelayMeasurement (m_tk m) now_start x_ts in
  match m_tf m with
  | None => UB
  | Some (a, b) =>
      let x0 := if negb (m_firstRun m) then doForwardIntegration fwd m ctl a b x else x in
      do r <- (if success then
                 let stamp := x_ts + (b - a) in
                 let '(tk, dtp) := timeSincePreviousSuccessfulSolve tk now_prev x_ts in
                 if ms_postTruncation (m_settings m) then
                   if Qltb b dtp && negb (m_firstRun m) then
                     do pe <- handler_truncate m (dtp - b) solution ;;
                     Ok (tk, fst pe, stamp + snd pe)
                   else Ok (tk, solution, stamp)
                 else Ok (tk, solution, stamp)
               else Ok (tk, m_policy m, x_ts)) ;;
      let '(tk, pol, stamp) := r in
      let '(tk', o) := stopDelayMeasurement tk now1 now2 now3 x_ts in
      do _ <- o ;;
      let stamp := if m_firstRun m then stamp + tk_lastDelay tk' else stamp in
      Ok (mk_mpc (m_settings m) (m_cold m) (m_initPolicy m) (m_dt m) (m_K m) pol false (m_calls m)
                 (m_heap m) (m_hs m) (m_tk_hs m) tk' (m_tf m),
          OFinished stamp pol x0)
  end.

(** l.269-282, MpcTimeHorizon-impl.h 83-86 *)
Definition resetMpc (m : mpc) (T : Q) : outcome (mpc * mpc_out) :=
  do hs <- vec_get (m_heap m) (m_hs m) ;;
  if Qltb T 0 then Throw else
  do K' <- computeK (m_dt m) T ;;
  Ok (mk_mpc (m_settings m) (m_cold m) (m_initPolicy m) (m_dt m) K' (m_policy m) true 0
             (set_heap (m_hs m) (mk_hs (hs_mode hs) (hs_minT hs) T) (m_heap m)) (m_hs m) (m_tk_hs m)
             (tk_initialize (m_tk m)) (m_tf m), ONone).

(** l.285-296, MpcTimeHorizon-impl.h updateSettings *)
Definition mpc_updateSettings (m : mpc) (s : mpc_settings) : outcome (mpc * mpc_out) :=
  do _ <- checkSettings s ;;
  do hs <- vec_get (m_heap m) (m_hs m) ;;
  Ok (mk_mpc s (m_cold m) (m_initPolicy m) (m_dt m) (m_K m) (m_policy m) (m_firstRun m) (m_calls m)
             (set_heap (m_hs m) (mk_hs (ms_mode s) (ms_minT s) (hs_T0 hs)) (m_heap m)) (m_hs m) (m_tk_hs m)
             (tk_updateSettings s (m_tk m)) (m_tf m), ONone).

(** l.84-88: a new strategy object; only MPC's own pointer is redirected *)
Definition setTimeHorizonStrategy (m : mpc) (hs : horizon_strategy) : mpc :=
  mk_mpc (m_settings m) (m_cold m) (m_initPolicy m) (m_dt m) (m_K m) (m_policy m) (m_firstRun m) (m_calls m)
         (m_heap m ++ [hs]) (length (m_heap m)) (m_tk_hs m) (m_tk m) (m_tf m).

Definition mpc_step (fwd : integrator) (m : mpc) (o : mpc_op) : outcome (mpc * mpc_out) :=
  match o with
  | MPrepare e n1 n2 => prepareIteration m e n1 n2
  | MFinish x ts c n0 np n1 n2 n3 ok sol => finishIteration fwd m x ts c n0 np n1 n2 n3 ok sol
  | MReset T => resetMpc m T
  | MUpdate s => mpc_updateSettings m s
  | MSetStrategy hs => Ok (setTimeHorizonStrategy m hs, ONone)
  end.

Fixpoint mpc_run (fwd : integrator) (m : mpc) (h : list mpc_op) : outcome (list (mpc_op * mpc_out) * mpc) :=
  match h with
  | [] => Ok ([], m)
  | o :: r =>
      do mo <- mpc_step fwd m o ;;
      do t <- mpc_run fwd (fst mo) r ;;
      Ok ((o, snd mo) :: fst t, snd t)
  end.
