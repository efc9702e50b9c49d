(** Properties C22 (time-horizon modes) and C23 (time keeper).  The vocabulary
    [documented_horizon], [clocks_ok], [stopwatch] is in MpcTimeSpec.v. *)
From Coq Require Import List ZArith QArith Qminmax Lqa Lia.
From Verif Require Import Base.Outcome Core.InterpModel Optcon.MpcTimeModel Optcon.MpcTimeSpec Optcon.MpcTimeProofs.
Import ListNotations.
Open Scope Q_scope.

(** C22. The new horizon and the finished flag are the documented ones. *)
Theorem C22_horizon_documented :
  forall hs t_since t_stop,
    0 <= hs_minT hs -> hs_mode hs <> OtherMode ->
    exists fin T, computeNewTimeHorizon hs t_since t_stop = Ok (fin, T) /\
      documented_horizon (hs_mode hs) (hs_T0 hs) (hs_minT hs) (hs_T0 hs - (t_since + t_stop)) T fin.
Proof. exact horizon_documented. Qed.
Print Assumptions C22_horizon_documented.

(** C22. As time passes the horizon never grows, the finished flag never drops, and the horizon
    is never negative. *)
Theorem C22_horizon_monotone :
  forall hs e1 s1 e2 s2 f1 T1 f2 T2,
    0 <= hs_minT hs -> e1 + s1 <= e2 + s2 ->
    computeNewTimeHorizon hs e1 s1 = Ok (f1, T1) -> computeNewTimeHorizon hs e2 s2 = Ok (f2, T2) ->
    T2 <= T1 /\ (f1 = true -> f2 = true) /\ (0 <= hs_T0 hs -> 0 <= T2).
Proof. exact horizon_monotone. Qed.
Print Assumptions C22_horizon_monotone.

Theorem C22_unknown_mode_throws :
  forall minT T0 a b, computeNewTimeHorizon (mk_hs OtherMode minT T0) a b = Throw.
Proof. exact (fun minT T0 a b => eq_refl). Qed.
Print Assumptions C22_unknown_mode_throws.

Example C22_example :
  let hs m := mk_hs m 1 3 in
  map (fun m => omap (fun r => (fst r, Qred (snd r))) (computeNewTimeHorizon (hs m) 2 (1#2)))
      [ConstantReceding; FixedFinal; FixedFinalMin; RecedingFixedFinal]
  = [Ok (false, 3); Ok (false, 1#2); Ok (true, 1); Ok (false, 1#2)].
Proof. vm_compute. reflexivity. Qed.

(** C23. For every history of calls with clocks that never run backwards and non-negative delay
    settings: every computed timing satisfies 0 <= start <= stop <= current horizon, elapsed times
    are non-negative and no measurement throws. *)
Theorem C23_timings_inside_horizon :
  forall s h, settings_nonneg s -> clocks_ok 0 0 h ->
    Forall (fun x : tk_op * tk_out =>
      match x with
      | (TkTimings hs _ _ _ T, OutTimings T' a b) => 0 <= a /\ a <= b /\ b <= T
      | (TkTimings hs _ _ _ _, OutThrow) => True     (* not initialised or unknown mode *)
      | (TkTimings _ _ _ _ _, _) => False
      | (TkStop _ _ _ _, out) => out = OutNone
      | (TkSincePrevious _ _, OutElapsed d) => 0 <= d
      | (TkSincePrevious _ _, _) => False
      | (_, out) => out = OutNone
      end) (fst (tk_run (tk_new s) h)).
Proof. exact timekeeper_inside_horizon. Qed.
Print Assumptions C23_timings_inside_horizon.

(** C23. The recorded maximum, minimum and sum are those of the stop-watch delays, when delay
    measurement is on. *)
Theorem C23_recorded_delays_match :
  forall s h,
    settings_nonneg s -> ms_measureDelay s = true -> ms_useExternalTiming s = false ->
    clocks_ok 0 0 h -> starts_before_stops false h ->
    let k := snd (tk_run (tk_initialize (tk_new s)) h) in
    let ds := stopwatch None h in
    tk_maxDelay k == maximum ds /\
    (match tk_minDelay k, minimum ds with
     | Some a, Some b => a == b | None, None => True | _, _ => False end) /\
    tk_sumDelay k == total_of ds.
Proof. exact timekeeper_records. Qed.
Print Assumptions C23_recorded_delays_match.

(** C23. A measurement throws exactly when the measured delay is negative. *)
Theorem C23_negative_delay_throws :
  forall k n1 n2 n3 x,
    let t := if ms_useExternalTiming (tk_settings k) then x - tm_start (tk_ext_timer k)
             else n1 - tm_start (tk_timer k) in
    snd (stopDelayMeasurement k n1 n2 n3 x) = Throw <-> t < 0.
Proof. exact stop_negative_throws. Qed.
Print Assumptions C23_negative_delay_throws.

Definition ex_settings (measure ext : bool) : mpc_settings :=
  mk_mpcs true (1#1000) measure (7#10) 0 10000 false ConstantReceding 1 false ext.
Definition ex_hist : list tk_op :=
  [TkInitialize; TkTimings (mk_hs ConstantReceding 1 3) 10 10 0 3; TkStart 10 0; TkStop 12 12 12 0;
   TkTimings (mk_hs ConstantReceding 1 3) 13 13 0 3; TkStart 14 0; TkStop (29#2) 15 15 0].
Example C23_example :
  settings_nonneg (ex_settings true false) /\ clocks_ok 0 0 ex_hist /\
  starts_before_stops false (tl ex_hist) /\ clocks_ok 0 0 (tl ex_hist) /\
  map Qred (stopwatch None ex_hist) = [2; 1#2].
Proof. repeat split; try (vm_compute; congruence). Qed.

(** With delay measurement switched off the recorded delays are not those of a stop watch: the
    start time is never set and the absolute clock reading is recorded. *)
Theorem C23_recorded_delays_without_measuring_refuted :
  exists s h, settings_nonneg s /\ clocks_ok 0 0 h /\ starts_before_stops false h /\
    map Qred (stopwatch None h) = [1] /\
    Qred (tk_maxDelay (snd (tk_run (tk_initialize (tk_new s)) h))) = 1001.
Proof.
  exists (ex_settings false false), [TkStart 1000 0; TkStop 1001 1001 1001 0].
  repeat split; vm_compute; congruence.
Qed.
Print Assumptions C23_recorded_delays_without_measuring_refuted.
