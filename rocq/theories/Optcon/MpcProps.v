(** Property C25 (MPC cycles: policy time stamp and start state).  Vocabulary: MpcSpec.v. *)
From Coq Require Import List ZArith QArith Qabs Qround Lqa Lia.
From Verif Require Import Base.Outcome Base.Rounding Core.InterpModel Core.InterpProofs Optcon.MpcTimeModel Optcon.MpcTimeSpec
  Optcon.PolicyModel Optcon.PolicySpec Optcon.MpcModel Optcon.MpcSpec Optcon.MpcProofs Optcon.PolicyProps.
Import ListNotations.
Open Scope Q_scope.

(** The number of stages of a horizon: refused for negative horizons, otherwise at least one and, if more than one, within
    half a step of the horizon. *)
Theorem C25_stages dt T : 0 < dt ->
  (computeK dt T = Throw <-> T < 0) /\
  (0 <= T -> exists K, computeK dt T = Ok K /\ (1 <= K)%Z /\ ((1 < K)%Z -> Qabs (inject_Z K * dt - T) <= dt / (2 # 1)) /\
     (K = 1%Z -> T <= (3 # 2) * dt)).
Proof.
  intros Hd. unfold computeK. destruct (Qltb T 0) eqn:E.
  - apply Qltb_true in E. split; [split; auto|]. intros; lra.
  - assert (N : ~ T < 0) by (intros H; apply Qltb_true in H; congruence).
    split; [split; [discriminate|lra]|]. intros H0. eexists. split; [reflexivity|].
    assert (P : 0 <= T / dt) by (apply Qle_shift_div_l; [exact Hd|lra]).
    assert (El : lround (T / dt) = Qfloor (T / dt + (1#2))).
    { unfold lround. apply Qle_bool_iff in P. now rewrite P. }
    rewrite El. destruct (Qfloor_bounds (T / dt + (1#2))) as [B1 B2]. set (z := Qfloor (T / dt + (1 # 2))) in *.
    assert (ET : T == T / dt * dt) by (field; lra).
    set (q := T / dt) in *. clearbody q z.
    split; [lia|]. split.
    + intros H1. rewrite Z.max_r by lia. apply Qabs_Qle_condition. rewrite ET.
      unfold Qdiv. change (/ (2#1)) with (1#2). split; nra.
    + intros H1. assert (Z1 : (z <= 1)%Z) by lia. rewrite Zle_Qle in Z1. change (inject_Z 1) with 1 in Z1.
      rewrite ET. nra.
Qed.

(** C25. For every history of calls (warm-start handler, valid settings, clocks that never run
    back) no call throws, and every reported policy, time stamp and start state is as specified by
    [reports_ok]: after the first cycle the stamp of a successful solve is the state's time stamp
    plus the prediction interval plus the steps removed from the solution's front; in the first
    cycle it is the state's time stamp plus the measured solving time. *)
Theorem C25_policy_time_stamp_partial :
  forall fwd s dt K0 N guess h,
    0 < dt -> mpc_settings_ok s -> ms_coldStart s = false -> (1 <= K0)%Z -> (K0 <= Z.of_nat N)%Z ->
    policy_on_grid dt N guess -> calls_ok dt 0 0 false h ->
    exists m tr m', mpc_start s dt K0 guess = Ok m /\ mpc_run fwd m h = Ok (tr, m') /\
      reports_ok fwd dt s true 0 0 guess 0 0 tr.
Proof. exact mpc_reports. Qed.
Print Assumptions C25_policy_time_stamp_partial.

(** The predicted time is within half an integration step of the time added to the stamp. *)
Theorem C25_predicted_time_close :
  forall a b dti, 0 < dti -> a <= b ->
    Qabs (inject_Z (Z.of_nat (Z.to_nat (lround ((b - a) / dti)))) * dti - (b - a)) <= dti / 2.
Proof.
  intros a b dti Hd Hab.
  assert (Hq : 0 <= (b - a) / dti) by (apply Qle_shift_div_l; lra).
  rewrite Z2Nat.id by (apply lround_nonneg; exact Hq).
  set (z := inject_Z (lround ((b - a) / dti))).
  assert (E : z * dti - (b - a) == (z - (b - a) / dti) * dti) by (field; lra).
  rewrite E, Qabs_Qmult, (Qabs_pos dti) by lra.
  assert (H2 : dti / 2 == (1 # 2) * dti) by field. rewrite H2.
  apply Qmult_le_compat_r; [|lra].
  apply Qabs_Qle_condition. pose proof (lround_bounds ((b - a) / dti)). fold z in H. lra.
Qed.
Print Assumptions C25_predicted_time_close.

(** A run of three cycles meeting the hypotheses, with a post-truncation in the last one. *)
Definition mset (fi measure post cold ext : bool) : mpc_settings :=
  mk_mpcs fi (1#10) measure (7#10) 500000 0 post ConstantReceding 1 cold ext.
Definition no_fwd : integrator := fun _ t0 n dt x => (t0 + inject_Z (Z.of_nat n) * dt) :: x.
Definition ex_calls : list mpc_op :=
  [MPrepare 0 10 10; MFinish [1] 2 None 11 11 12 12 12 true ex_policy;
   MPrepare 3 13 13; MFinish [2] 4 None 14 14 15 15 15 true ex_policy;
   MPrepare 5 16 16; MFinish [3] 6 None 17 18 18 18 18 true ex_policy].
Lemma ex_policy_on_grid : policy_on_grid (1#2) 3 ex_policy.
Proof. exact (proj1 C24_example). Qed.
Example C25_example :
  mpc_settings_ok (mset true true true false false) /\ calls_ok (1#2) 0 0 false ex_calls /\
  omap (fun r => flat_map (fun x => match snd x with
                                   | OFinished s p x0 => [(Qred s, length (tr_time (pol_ff p)), map Qred x0)]
                                   | _ => [] end) (fst r))
    (obind (mpc_start (mset true true true false false) (1#2) 3 ex_policy) (fun m => mpc_run no_fwd m ex_calls))
  = Ok [(3, 3%nat, [1]); (5, 2%nat, [3#2; 2]); (15#2, 1%nat, [3#2; 3])].
Proof.
  split; [|split; [|vm_compute; reflexivity]].
  - repeat split; vm_compute; congruence.
  - cbn. repeat split; try (vm_compute; congruence); exists 3%nat; (split; [lia|]); apply ex_policy_on_grid.
Qed.

Definition first_stamp (o : outcome (list (mpc_op * mpc_out) * mpc)) : outcome (list Q) :=
  omap (fun r => flat_map (fun x => match snd x with OFinished s _ _ => [Qred s] | _ => [] end) (fst r)) o.

(** Without delay measurement the stamp of the first policy is not a time at which it was computed:
    with external timing the state's time stamp is added twice, with the internal clock the
    absolute clock reading is added. *)
Theorem C25_first_stamp_without_measuring_refuted :
  exists s h, mpc_settings_ok s /\ ms_useExternalTiming s = true /\ calls_ok (1#2) 0 0 false h /\
    h = [MPrepare 5 0 0; MFinish [1] 5 None 0 0 0 0 0 true ex_policy] /\
    first_stamp (obind (mpc_start s (1#2) 3 ex_policy) (fun m => mpc_run no_fwd m h)) = Ok [10].
Proof.
  exists (mset true false false false true), [MPrepare 5 0 0; MFinish [1] 5 None 0 0 0 0 0 true ex_policy].
  split; [repeat split; vm_compute; congruence|]. split; [reflexivity|].
  split; [|split; [reflexivity|vm_compute; reflexivity]].
  cbn. repeat split; try (vm_compute; congruence). exists 3%nat. split; [lia|]. apply ex_policy_on_grid.
Qed.
Print Assumptions C25_first_stamp_without_measuring_refuted.

(** With state prediction switched off the start state is the measured one, yet the stamp is moved
    by the prediction interval (documentation: the delay "only applies if stateForwardIntegration_
    is set to true"). *)
Theorem C25_stamp_without_prediction_refuted :
  exists s h tr m, mpc_settings_ok s /\ ms_forwardIntegration s = false /\ calls_ok (1#2) 0 0 false h /\
    obind (mpc_start s (1#2) 3 ex_policy) (fun m => mpc_run no_fwd m h) = Ok (tr, m) /\
    exists stamp pol, nth_error (map snd tr) 3 = Some (OFinished stamp pol [2]) /\
      nth_error h 3 = Some (MFinish [2] 4 None 14 14 15 15 15 true ex_policy) /\
      pol = ex_policy /\ Qred stamp = 9#2.
Proof.
  exists (mset false false false false false), (firstn 4 ex_calls).
  eexists. eexists. split; [repeat split; vm_compute; congruence|]. split; [reflexivity|].
  split. { cbn. repeat split; try (vm_compute; congruence); exists 3%nat; (split; [lia|]); apply ex_policy_on_grid. }
  split; [vm_compute; reflexivity|]. do 2 eexists. repeat split; vm_compute; reflexivity.
Qed.
Print Assumptions C25_stamp_without_prediction_refuted.

(** The controller used for the prediction is not the solution of the previous cycle but that
    solution already moved by the prediction interval: at every time it applies a later control. *)
Theorem C25_prediction_controller_refuted :
  exists h tr m g, mpc_settings_ok (mset true true false false false) /\ calls_ok (1#2) 0 0 false h /\
    obind (mpc_start (mset true true false false false) (1#2) 3 ex_policy)
          (fun m => mpc_run (fun c _ _ _ _ => match c with FwdPolicy p => concat (tr_data (pol_ff p)) | _ => [] end) m h)
      = Ok (tr, m) /\
    (* previous solution: controls 10, 20, 30; controller used for the prediction: *)
    nth_error (map snd tr) 3 = Some (OFinished g ex_policy [30; 30; 30]).
Proof.
  exists (firstn 4 ex_calls). do 3 eexists.
  split; [repeat split; vm_compute; congruence|].
  split. { cbn. repeat split; try (vm_compute; congruence); exists 3%nat; (split; [lia|]); apply ex_policy_on_grid. }
  split; vm_compute; reflexivity.
Qed.
Print Assumptions C25_prediction_controller_refuted.

(** After a failed solve the previous policy is returned, already moved by the prediction interval,
    but stamped with the state's time stamp. *)
Theorem C25_failed_solve_stamp_refuted :
  exists h tr m, calls_ok (1#2) 0 0 false h /\
    h = [MPrepare 0 10 10; MFinish [1] 2 None 11 11 11 11 11 true ex_policy;
         MPrepare 3 12 12; MFinish [2] (7#2) None (25#2) (25#2) (25#2) (25#2) (25#2) false ex_policy] /\
    obind (mpc_start (mset true true false false false) (1#2) 3 ex_policy) (fun m => mpc_run no_fwd m h) = Ok (tr, m) /\
    exists st1 st2 p2 x1 x2, map snd tr <> [] /\
      nth_error (map snd tr) 1 = Some (OFinished st1 ex_policy x1) /\ Qred st1 = 2 /\
      nth_error (map snd tr) 3 = Some (OFinished st2 p2 x2) /\ Qred st2 = 7#2 /\
      (* two steps of 1/2 were removed from the policy that started at 2: its origin is at 3 *)
      tr_data (pol_ff p2) = [[30]; [30]; [30]].
Proof.
  eexists. do 2 eexists. split; [|split; [reflexivity|split; [vm_compute; reflexivity|]]].
  { cbn. repeat split; try (vm_compute; congruence); exists 3%nat; (split; [lia|]); apply ex_policy_on_grid. }
  do 5 eexists. split; [discriminate|]. repeat split; vm_compute; reflexivity.
Qed.
Print Assumptions C25_failed_solve_stamp_refuted.

(** With cold starting and post-truncation the truncated time is read uninitialised. *)
Theorem C25_cold_start_truncation_refuted :
  exists s, mpc_settings_ok s /\ ms_coldStart s = true /\ calls_ok (1#2) 0 0 false ex_calls /\
    obind (mpc_start s (1#2) 3 ex_policy) (fun m => mpc_run no_fwd m ex_calls) = UB.
Proof.
  exists (mset true true true true false). split; [repeat split; vm_compute; congruence|].
  split; [reflexivity|]. split; [|vm_compute; reflexivity].
  cbn. repeat split; try (vm_compute; congruence); exists 3%nat; (split; [lia|]); apply ex_policy_on_grid.
Qed.
Print Assumptions C25_cold_start_truncation_refuted.

(** A horizon strategy installed with setTimeHorizonStrategy is never consulted: the reports are
    those of the run without it. *)
Theorem C25_new_strategy_ignored_refuted :
  forall fwd m hs e n1 n2, (m_tk_hs m < length (m_heap m))%nat ->
    omap snd (prepareIteration (setTimeHorizonStrategy m hs) e n1 n2) = omap snd (prepareIteration m e n1 n2) /\
    (forall x ts c n0 np n3 ok sol,
      omap snd (finishIteration fwd (setTimeHorizonStrategy m hs) x ts c n0 np n1 n2 n3 ok sol) =
      omap snd (finishIteration fwd m x ts c n0 np n1 n2 n3 ok sol)).
Proof.
  intros fwd m hs e n1 n2 Hl. split.
  - unfold prepareIteration. cbn [setTimeHorizonStrategy m_K m_dt m_firstRun m_tk m_heap m_tk_hs m_cold m_initPolicy m_policy m_settings m_calls m_hs].
    replace (vec_get (m_heap m ++ [hs]) (m_tk_hs m)) with (vec_get (m_heap m) (m_tk_hs m))
      by (unfold vec_get; rewrite nth_error_app1 by exact Hl; reflexivity).
    unfold handler_warmstart. cbn [setTimeHorizonStrategy m_cold m_initPolicy m_dt m_policy].
    destruct (vec_get (m_heap m) (m_tk_hs m)) as [h0| |]; cbn [obind omap]; try reflexivity.
    destruct (computeNewTimings _ h0 n1 n2 e _) as [[[[k' T'] a] b]| |]; cbn [obind omap]; try reflexivity.
    destruct (Qltb T' 0); [reflexivity|].
    destruct (computeK (m_dt m) T') as [K'| |]; cbn [obind omap]; try reflexivity.
    destruct (m_cold m).
    + cbn [obind]. destruct (Qltb b a); [reflexivity|].
      destruct (solver_setInitialGuess K' (m_initPolicy m)) as [[]| |]; reflexivity.
    + destruct (designWarmStartingPolicy (m_dt m) b T' (m_policy m)) as [p| |]; cbn [obind omap]; try reflexivity.
      destruct (Qltb b a); [reflexivity|]. destruct (solver_setInitialGuess K' p) as [[]| |]; reflexivity.
  - intros x ts c n0 np n3 ok sol. unfold finishIteration.
    cbn [setTimeHorizonStrategy m_K m_dt m_firstRun m_tk m_heap m_tk_hs m_cold m_initPolicy m_policy m_settings m_calls m_hs m_tf].
    unfold doForwardIntegration, handler_truncate.
    cbn [setTimeHorizonStrategy m_K m_dt m_firstRun m_tk m_heap m_tk_hs m_cold m_initPolicy m_policy m_settings m_calls m_hs m_tf].
    destruct (m_tf m) as [[a b]|]; [|reflexivity].
    match goal with |- omap snd (obind ?r _) = omap snd (obind ?r' _) => change r' with r; destruct r as [[[k p] st]| |] end;
      cbn [obind omap]; try reflexivity.
    destruct (stopDelayMeasurement k n1 n2 n3 ts) as [k' o]. destruct o as [[]| |]; reflexivity.
Qed.
Print Assumptions C25_new_strategy_ignored_refuted.
Print Assumptions C25_stages.
