(** Specification vocabulary for histories of MPC calls. *)
From Coq Require Import List ZArith QArith.
From Verif Require Import Core.InterpModel Base.Rounding Optcon.MpcTimeModel Optcon.MpcTimeSpec Optcon.PolicyModel
  Optcon.PolicySpec Optcon.MpcModel.
Import ListNotations.
Open Scope Q_scope.

Definition mpc_settings_ok (s : mpc_settings) : Prop :=
  settings_nonneg s /\ ms_mode s <> OtherMode /\ 0 <= ms_minT s /\
  ms_useExternalTiming s && ms_measureDelay s = false.

(** Calls in a sensible order with clocks that never run back ([c] internal, [e] external),
    valid settings, and solutions with at least one stage on the solver's grid. *)
Fixpoint calls_ok (dt : Q) (c e : Q) (prepared : bool) (h : list mpc_op) : Prop :=
  match h with
  | [] => True
  | MPrepare x n1 n2 :: r => c <= n1 /\ n1 <= n2 /\ e <= x /\ calls_ok dt n2 x true r
  | MFinish _ ts _ n0 np n1 n2 n3 _ sol :: r =>
      prepared = true /\ c <= n0 /\ n0 <= np /\ np <= n1 /\ n1 <= n2 /\ n2 <= n3 /\ e <= ts /\
      (exists N, (1 <= N)%nat /\ policy_on_grid dt N sol) /\ calls_ok dt n3 ts prepared r
  | MReset T :: r => 0 <= T /\ calls_ok dt c e prepared r
  | MUpdate s :: r => mpc_settings_ok s /\ calls_ok dt c e prepared r
  | MSetStrategy hs :: r => hs_mode hs <> OtherMode /\ 0 <= hs_minT hs /\ 0 <= hs_T0 hs /\
                            calls_ok dt c e prepared r
  end.

(** [pol] is the solution with its first [k] steps removed. *)
Definition front_removed (k : nat) (sol pol : policy) : Prop :=
  tr_data (pol_fb pol) = skipn k (tr_data (pol_fb sol)) /\
  tr_data (pol_ff pol) = skipn k (tr_data (pol_ff sol)) /\
  tr_data (pol_x pol) = skipn k (tr_data (pol_x sol)).

(** What every reported result must satisfy.  [s] current settings, [first] no cycle finished since
    the start or the last reset, [a], [b] the prediction interval of the latest preparation,
    [cur] the policy reported last, [lc] and [le] the internal and external clock readings at the end
    of the latest cycle (0 if there was none since the start or the last reset). *)
Fixpoint reports_ok (fwd : integrator) (dt : Q) (s : mpc_settings) (first : bool) (a b : Q) (cur : policy)
    (lc le : Q) (tr : list (mpc_op * mpc_out)) : Prop :=
  match tr with
  | [] => True
  | (MPrepare _ _ _, OPrepared T a' b' g) :: r =>
      0 <= T /\ 0 <= a' /\ a' <= b' /\ (first = true -> a' == 0 /\ b' == 0) /\
      policy_on_grid dt (Nat.max 1 (Z.to_nat (lround (T / dt)))) g /\
      reports_ok fwd dt s first a' b' g lc le r
  | (MFinish x ts ctl n0 np n1 n2 _ ok sol, OFinished stamp pol x0) :: r =>
      let late := (if ms_useExternalTiming s then ts - le else np - lc) - b in
      (* the state handed to the solver *)
      x0 = (if negb first && ms_forwardIntegration s then
              fwd (match ctl with Some i => FwdOther i | None => FwdPolicy cur end)
                  a (Z.to_nat (lround ((b - a) / ms_forwardIntegration_dt s)))
                  (ms_forwardIntegration_dt s) x
            else x) /\
      (* the policy and its time stamp *)
      (if ok then
         exists k, front_removed k sol pol /\
           (* steps are removed only if the cycle is later than predicted, and then as many as fit *)
           (if ms_postTruncation s && negb first && Qltb 0 late
            then whole_steps dt (length (tr_data (pol_ff sol))) late k else k = 0%nat) /\
           if first then
             (ms_measureDelay s = true -> stamp == ts + (b - a) + (n1 - n0))
           else stamp == ts + (b - a) + inject_Z (Z.of_nat k) * dt
       else pol = cur /\ (first = false -> stamp == ts)) /\
      (if ms_useExternalTiming s then reports_ok fwd dt s false a b pol lc ts r
       else reports_ok fwd dt s false a b pol n2 le r)
  | (MReset _, ONone) :: r => reports_ok fwd dt s true a b cur 0 0 r
  | (MUpdate s', ONone) :: r => reports_ok fwd dt s' first a b cur lc le r
  | (MSetStrategy _, ONone) :: r => reports_ok fwd dt s first a b cur lc le r
  | _ :: _ => False
  end.
