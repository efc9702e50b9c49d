(** Model of ct_optcon: mpc/MpcSettings.h (the settings read below),
    mpc/timehorizon/MpcTimeHorizon-impl.h, mpc/MpcTimeKeeper.h, and the two timers of ct_core
    (common/ExternallyDrivenTimer.h, common/Timer.h).

    Simplification: the system clock is an input: each reading of it is an argument of the call.
    Microsecond fields are integers as in the code. *)
From Coq Require Import ZArith QArith Qminmax.
From Verif Require Import Base.Outcome Core.InterpModel.
Open Scope Q_scope.

(** MpcSettings.h enum MPC_MODE *)
Inductive mpc_mode := ConstantReceding | FixedFinal | FixedFinalMin | RecedingFixedFinal | OtherMode.

(** MpcSettings.h, struct mpc_settings *)
Record mpc_settings := mk_mpcs {
  ms_forwardIntegration : bool;
  ms_forwardIntegration_dt : Q;
  ms_measureDelay : bool;
  ms_multiplier : Q;
  ms_fixedDelayUs : Z;
  ms_additionalDelayUs : Z;
  ms_postTruncation : bool;
  ms_mode : mpc_mode;
  ms_minT : Q;
  ms_coldStart : bool;
  ms_useExternalTiming : bool }.

(** MpcTimeHorizon: settings copy and initial horizon (MpcTimeHorizon-impl.h 13-16) *)
Record horizon_strategy := mk_hs { hs_mode : mpc_mode; hs_minT : Q; hs_T0 : Q }.

(** MpcTimeHorizon-impl.h 24-74; result (returned flag, new_T) *)
Definition computeNewTimeHorizon (hs : horizon_strategy) (t_since t_stop : Q) : outcome (bool * Q) :=
  let timeLeft := Qmax 0 (hs_T0 hs - (t_since + t_stop)) in
  match hs_mode hs with
  | ConstantReceding => Ok (false, hs_T0 hs)
  | FixedFinal => Ok (Qeq_bool timeLeft 0, timeLeft)
  | FixedFinalMin => let T := Qmax (hs_minT hs) timeLeft in Ok (Qeq_bool T (hs_minT hs), T)
  | RecedingFixedFinal => let T := Qmin (hs_minT hs) timeLeft in Ok (Qeq_bool T 0, T)
  | OtherMode => Throw
  end.

(** ExternallyDrivenTimer.h 42-50 / Timer.h 49-59: start and stop time, both reset to 0. *)
Record timer := mk_timer { tm_start : Q; tm_stop : Q }.
Definition timer_reset : timer := mk_timer 0 0.
Definition timer_do_start (now : Q) (t : timer) : timer := mk_timer now (tm_stop t).
Definition timer_do_stop (now : Q) (t : timer) : timer := mk_timer (tm_start t) now.
Definition timer_elapsed (t : timer) : Q := tm_stop t - tm_start t.

(** MpcTimeKeeper.h members 343-372.  [None] for minDelay is numeric_limits::max().
    The strategy is passed as an argument (it is a shared pointer, see MpcModel.v). *)
Record time_keeper := mk_tk {
  tk_settings : mpc_settings;
  tk_initialized : bool;
  tk_finalReached : bool;
  tk_timer : timer; tk_last : timer; tk_first : timer;
  tk_ext_timer : timer; tk_ext_last : timer; tk_ext_first : timer;
  tk_lastDelay : Q; tk_maxDelay : Q; tk_minDelay : option Q; tk_sumDelay : Q;
  tk_firstRun : bool }.

(** l.46-57 *)
Definition tk_new (s : mpc_settings) : time_keeper :=
  mk_tk s false false timer_reset timer_reset timer_reset timer_reset timer_reset timer_reset
        0 0 None 0 true.

(** l.64-83 *)
Definition tk_initialize (k : time_keeper) : time_keeper :=
  mk_tk (tk_settings k) true false timer_reset timer_reset timer_reset timer_reset timer_reset
        timer_reset 0 0 None 0 true.

(** l.325-340 *)
Definition us : Q := 1 # 1000000.
Definition computeDelayToApply (k : time_keeper) : Q :=
  let s := tk_settings k in
  let fixed := us * inject_Z (ms_additionalDelayUs s) in
  if ms_measureDelay s then fixed + ms_multiplier s * tk_lastDelay k
  else (fixed + us * inject_Z (ms_fixedDelayUs s)) + 0.

(** l.98-184.  [now1], [now2]: the two clock readings of l.123-124; [ext] the external time.
    Result: (time keeper, new_T, t_forw_start, t_forw_stop). *)
Definition computeNewTimings (k : time_keeper) (hs : horizon_strategy) (now1 now2 ext current_T : Q)
  : outcome (time_keeper * Q * Q * Q) :=
  if negb (tk_initialized k) then Throw else
  let s := tk_settings k in
  let upd tl tf el ef fin :=
    mk_tk s (tk_initialized k) fin (tk_timer k) tl tf (tk_ext_timer k) el ef
          (tk_lastDelay k) (tk_maxDelay k) (tk_minDelay k) (tk_sumDelay k) (tk_firstRun k) in
  let '(tl, tf, el, ef, sinceFirst, sinceLast) :=
    if negb (tk_firstRun k) then
      if ms_useExternalTiming s then
        let ef := timer_do_stop ext (tk_ext_first k) in
        let el := timer_do_stop ext (tk_ext_last k) in
        (tk_last k, tk_first k, el, ef, timer_elapsed ef, timer_elapsed el)
      else
        let tl := timer_do_stop now1 (tk_last k) in
        let tf := timer_do_stop now2 (tk_first k) in
        (tl, tf, tk_ext_last k, tk_ext_first k, timer_elapsed tf, timer_elapsed tl)
    else (tk_last k, tk_first k, tk_ext_last k, tk_ext_first k, 0, 0) in
  let fstart := sinceLast in
  let delay := computeDelayToApply k in
  let fstop := if negb (tk_firstRun k) then fstart + delay else fstart in
  let fstart := if Qltb current_T fstart then current_T else fstart in
  let fstop := if Qltb current_T fstop then current_T else fstop in
  do r <- computeNewTimeHorizon hs sinceFirst fstop ;;
  Ok (upd tl tf el ef (fst r), snd r, fstart, fstop).

(** l.200-209 *)
Definition startDelayMeasurement (k : time_keeper) (now ext : Q) : time_keeper :=
  let s := tk_settings k in
  if ms_measureDelay s then
    if ms_useExternalTiming s then
      mk_tk s (tk_initialized k) (tk_finalReached k) (tk_timer k) (tk_last k) (tk_first k)
            (timer_do_start ext (tk_ext_timer k)) (tk_ext_last k) (tk_ext_first k)
            (tk_lastDelay k) (tk_maxDelay k) (tk_minDelay k) (tk_sumDelay k) (tk_firstRun k)
    else
      mk_tk s (tk_initialized k) (tk_finalReached k) (timer_do_start now (tk_timer k))
            (tk_last k) (tk_first k) (tk_ext_timer k) (tk_ext_last k) (tk_ext_first k)
            (tk_lastDelay k) (tk_maxDelay k) (tk_minDelay k) (tk_sumDelay k) (tk_firstRun k)
  else k.

(** std::min with numeric_limits::max() represented by None *)
Definition min_opt (m : option Q) (d : Q) : option Q :=
  match m with None => Some d | Some v => Some (Qmin v d) end.

(** l.213-257.  [now1],[now2],[now3]: the readings of l.224, 227 and 252.  The first component is
    the state after the call, also when it throws (l.235). *)
Definition stopDelayMeasurement (k : time_keeper) (now1 now2 now3 ext : Q) : time_keeper * outcome unit :=
  let s := tk_settings k in
  let e := ms_useExternalTiming s in
  let tim := if e then tk_timer k else timer_do_stop now1 (tk_timer k) in
  let etim := if e then timer_do_stop ext (tk_ext_timer k) else tk_ext_timer k in
  let d := if e then timer_elapsed etim else timer_elapsed tim in
  let tl := if e then tk_last k else timer_do_start now2 (tk_last k) in
  let el := if e then timer_do_start ext (tk_ext_last k) else tk_ext_last k in
  let mx := Qmax (tk_maxDelay k) d in
  let mn := min_opt (tk_minDelay k) d in
  let sm := tk_sumDelay k + d in
  if Qltb d 0 then
    (mk_tk s (tk_initialized k) (tk_finalReached k) tim tl (tk_first k) etim el (tk_ext_first k)
           d mx mn sm (tk_firstRun k), Throw)
  else
    let tf := if tk_firstRun k then if e then tk_first k else timer_do_start now3 (tk_first k)
              else tk_first k in
    let ef := if tk_firstRun k then if e then timer_do_start ext (tk_ext_first k) else tk_ext_first k
              else tk_ext_first k in
    (mk_tk s (tk_initialized k) (tk_finalReached k) tim tl tf etim el ef d mx mn sm false, Ok tt).

(** l.265-282 *)
Definition timeSincePreviousSuccessfulSolve (k : time_keeper) (now ext : Q) : time_keeper * Q :=
  let s := tk_settings k in
  if tk_firstRun k then (k, 0)
  else if ms_useExternalTiming s then
    let el := timer_do_stop ext (tk_ext_last k) in
    (mk_tk s (tk_initialized k) (tk_finalReached k) (tk_timer k) (tk_last k) (tk_first k)
           (tk_ext_timer k) el (tk_ext_first k)
           (tk_lastDelay k) (tk_maxDelay k) (tk_minDelay k) (tk_sumDelay k) (tk_firstRun k),
     timer_elapsed el)
  else
    let tl := timer_do_stop now (tk_last k) in
    (mk_tk s (tk_initialized k) (tk_finalReached k) (tk_timer k) tl (tk_first k)
           (tk_ext_timer k) (tk_ext_last k) (tk_ext_first k)
           (tk_lastDelay k) (tk_maxDelay k) (tk_minDelay k) (tk_sumDelay k) (tk_firstRun k),
     timer_elapsed tl).

(** l.198 *)
Definition tk_updateSettings (s : mpc_settings) (k : time_keeper) : time_keeper :=
  mk_tk s (tk_initialized k) (tk_finalReached k) (tk_timer k) (tk_last k) (tk_first k)
        (tk_ext_timer k) (tk_ext_last k) (tk_ext_first k)
        (tk_lastDelay k) (tk_maxDelay k) (tk_minDelay k) (tk_sumDelay k) (tk_firstRun k).

(** The public calls of the time keeper, with the clock readings made inside. *)
Inductive tk_op :=
| TkInitialize
| TkTimings (hs : horizon_strategy) (now1 now2 ext current_T : Q)
| TkStart (now ext : Q)
| TkStop (now1 now2 now3 ext : Q)
| TkSincePrevious (now ext : Q)
| TkUpdate (s : mpc_settings).

(** Observable result of a call. *)
Inductive tk_out :=
| OutNone
| OutTimings (new_T t_start t_stop : Q)
| OutElapsed (d : Q)
| OutThrow
| OutUB.

Definition tk_step (k : time_keeper) (o : tk_op) : time_keeper * tk_out :=
  match o with
  | TkInitialize => (tk_initialize k, OutNone)
  | TkTimings hs n1 n2 e T =>
      match computeNewTimings k hs n1 n2 e T with
      | Ok (k', T', a, b) => (k', OutTimings T' a b)
      | Throw => (k, OutThrow)      (* the only throws happen before any visible effect
                                       other than stopping timers, see DESIGN.md *)
      | UB => (k, OutUB)
      end
  | TkStart n e => (startDelayMeasurement k n e, OutNone)
  | TkStop n1 n2 n3 e =>
      match stopDelayMeasurement k n1 n2 n3 e with
      | (k', Ok _) => (k', OutNone)
      | (k', Throw) => (k', OutThrow)
      | (k', UB) => (k', OutUB)
      end
  | TkSincePrevious n e => let '(k', d) := timeSincePreviousSuccessfulSolve k n e in (k', OutElapsed d)
  | TkUpdate s => (tk_updateSettings s k, OutNone)
  end.

Fixpoint tk_run (k : time_keeper) (h : list tk_op) : list (tk_op * tk_out) * time_keeper :=
  match h with
  | nil => (nil, k)
  | cons o r =>
      let '(k', out) := tk_step k o in
      let '(outs, k'') := tk_run k' r in
      (cons (o, out) outs, k'')
  end.
