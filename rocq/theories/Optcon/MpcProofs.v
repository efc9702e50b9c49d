From Coq Require Import List ZArith QArith Qminmax Lqa Lia.
From Verif Require Import Base.Outcome Base.Rounding Core.InterpModel Core.InterpProofs Optcon.MpcTimeModel
  Optcon.MpcTimeSpec Optcon.MpcTimeProofs Optcon.PolicyModel Optcon.PolicySpec Optcon.PolicyProofs
  Optcon.MpcModel Optcon.MpcSpec.
Import ListNotations.
Open Scope Q_scope.

Lemma tk_inv_mono c e c' e' k : tk_inv c e k -> c <= c' -> e <= e' -> tk_inv c' e' k.
Proof. intros (H1 & H2 & H3 & H4 & H5 & H6 & H7 & H8 & H9 & H10) Hc He. unfold tk_inv. repeat split; try lra; apply H3. Qed.

Lemma tk_step_to c e k o c' e' : tk_inv c e k -> clocks_ok c e [o; TkStart c' e'] ->
  tk_inv c' e' (fst (tk_step k o)) /\ timings_ok (o, snd (tk_step k o)).
Proof.
  intros Hi Hc. destruct (tk_step_inv c e k o [TkStart c' e'] Hi Hc) as (c1 & e1 & Hi1 & Hc1 & Ht).
  destruct Hc1 as (A & B & _). split; [eapply tk_inv_mono; eauto|exact Ht].
Qed.

Definition hs_ok (hs : horizon_strategy) : Prop := hs_mode hs <> OtherMode /\ 0 <= hs_minT hs /\ 0 <= hs_T0 hs.

Lemma horizon_nonneg hs t1 t2 fin T : hs_ok hs -> computeNewTimeHorizon hs t1 t2 = Ok (fin, T) -> 0 <= T.
Proof.
  intros (H1 & H2 & H3) H. eapply (horizon_monotone hs t1 t2 t1 t2); eauto. lra.
Qed.

Lemma timings_spec c e k hs n1 n2 x T :
  tk_inv c e k -> c <= n1 -> n1 <= n2 -> e <= x -> 0 <= T -> hs_ok hs -> tk_initialized k = true ->
  exists k' T' a b, computeNewTimings k hs n1 n2 x T = Ok (k', T', a, b) /\
    tk_inv n2 x k' /\ 0 <= a /\ a <= b /\ b <= T /\ 0 <= T' /\
    tk_settings k' = tk_settings k /\ tk_firstRun k' = tk_firstRun k /\ tk_initialized k' = true /\
    (tk_firstRun k = true -> a == 0 /\ b == 0) /\
    tm_start (tk_last k') = tm_start (tk_last k) /\ tm_start (tk_ext_last k') = tm_start (tk_ext_last k).
Proof.
  intros Hi C1 C2 C3 HT Hhs Hini.
  destruct (tk_step_to c e k (TkTimings hs n1 n2 x T) n2 x Hi) as [Hi' Ht].
  { cbn. repeat split; try lra. }
  cbn [tk_step] in *.
  destruct (computeNewTimings k hs n1 n2 x T) as [[[[k' T'] a] b]| |] eqn:E; cbn [fst snd timings_ok] in *.
  - exists k', T', a, b. split; [reflexivity|]. split; [exact Hi'|].
    destruct Ht as (A1 & A2 & A3). do 3 (split; [assumption|]).
    unfold computeNewTimings in E. rewrite Hini in E. cbn [negb] in E.
    destruct (tk_firstRun k) eqn:Ef; cbn [negb] in E.
    + assert (E0 : Qltb T 0 = false) by (apply Qltb_false; lra). rewrite E0 in E.
      destruct (computeNewTimeHorizon hs 0 0) as [[fin T'']| |] eqn:Eh; cbn [obind] in E; try discriminate.
      apply Ok_inj in E. inversion E; subst. cbn. repeat split; try lra; try congruence.
      eapply horizon_nonneg; eauto.
    + destruct (ms_useExternalTiming (tk_settings k));
      (match type of E with context [computeNewTimeHorizon hs ?u ?v] =>
        destruct (computeNewTimeHorizon hs u v) as [[fin T'']| |] eqn:Eh end; cbn [obind] in E; try discriminate;
       apply Ok_inj in E; inversion E; subst; cbn; repeat split; try lra; try congruence;
       eapply horizon_nonneg; eauto).
  - exfalso. unfold computeNewTimings in E. rewrite Hini in E. cbn [negb] in E.
    destruct Hhs as (Hm & _ & _). unfold computeNewTimeHorizon in E.
    destruct (tk_firstRun k); cbn [negb] in E;
      [|destruct (ms_useExternalTiming (tk_settings k))]; destruct (hs_mode hs); cbn [obind] in E;
      try discriminate; congruence.
  - contradiction.
Qed.

Lemma start_spec c e k n x : tk_inv c e k -> c <= n -> e <= x ->
  tk_inv n x (startDelayMeasurement k n x) /\
  tk_settings (startDelayMeasurement k n x) = tk_settings k /\
  tk_firstRun (startDelayMeasurement k n x) = tk_firstRun k /\
  tk_initialized (startDelayMeasurement k n x) = tk_initialized k /\
  (ms_measureDelay (tk_settings k) = true -> ms_useExternalTiming (tk_settings k) = false ->
   tm_start (tk_timer (startDelayMeasurement k n x)) = n) /\
  tk_last (startDelayMeasurement k n x) = tk_last k /\ tk_ext_last (startDelayMeasurement k n x) = tk_ext_last k.
Proof.
  intros Hi Hc He. destruct (tk_step_to c e k (TkStart n x) n x Hi) as [Hi' _].
  { cbn. repeat split; lra. }
  cbn [tk_step fst] in Hi'. split; [exact Hi'|]. unfold startDelayMeasurement.
  destruct (ms_measureDelay (tk_settings k)); destruct (ms_useExternalTiming (tk_settings k)); cbn;
    repeat split; congruence.
Qed.

Lemma since_spec c e k n x : tk_inv c e k -> c <= n -> e <= x ->
  exists k' d, timeSincePreviousSuccessfulSolve k n x = (k', d) /\
  tk_inv n x k' /\ 0 <= d /\ tk_settings k' = tk_settings k /\ tk_firstRun k' = tk_firstRun k /\
  tk_initialized k' = tk_initialized k /\ tk_timer k' = tk_timer k /\
  tm_start (tk_last k') = tm_start (tk_last k) /\ tm_start (tk_ext_last k') = tm_start (tk_ext_last k) /\
  d == (if tk_firstRun k then 0 else if ms_useExternalTiming (tk_settings k) then x - tm_start (tk_ext_last k)
        else n - tm_start (tk_last k)).
Proof.
  intros Hi Hc He. destruct (tk_step_to c e k (TkSincePrevious n x) n x Hi) as [Hi' Ht].
  { cbn. repeat split; lra. }
  cbn [tk_step] in *. destruct (timeSincePreviousSuccessfulSolve k n x) as [k' d] eqn:E. cbn [fst snd timings_ok] in *.
  exists k', d. split; [reflexivity|]. split; [exact Hi'|]. split; [exact Ht|].
  unfold timeSincePreviousSuccessfulSolve in E.
  destruct (tk_firstRun k) eqn:Ef; [inversion E; subst; rewrite ?Ef; auto 10; repeat split; auto; reflexivity|].
  destruct (ms_useExternalTiming (tk_settings k)); inversion E; subst; cbn; repeat split; auto; reflexivity.
Qed.

Lemma stop_spec c e k n1 n2 n3 x : tk_inv c e k -> c <= n1 -> n1 <= n2 -> n2 <= n3 -> e <= x ->
  exists k', stopDelayMeasurement k n1 n2 n3 x = (k', Ok tt) /\
  tk_inv n3 x k' /\ tk_settings k' = tk_settings k /\ tk_firstRun k' = false /\
  tk_initialized k' = tk_initialized k /\
  (ms_useExternalTiming (tk_settings k) = false -> tk_lastDelay k' = n1 - tm_start (tk_timer k)) /\
  tm_start (tk_last k') = (if ms_useExternalTiming (tk_settings k) then tm_start (tk_last k) else n2) /\
  tm_start (tk_ext_last k') = (if ms_useExternalTiming (tk_settings k) then x else tm_start (tk_ext_last k)).
Proof.
  intros Hi H1 H2 H3 He. destruct (tk_step_to c e k (TkStop n1 n2 n3 x) n3 x Hi) as [Hi' Ht].
  { cbn. repeat split; lra. }
  cbn [tk_step] in *.
  destruct (stopDelayMeasurement k n1 n2 n3 x) as [k' o] eqn:E.
  unfold stopDelayMeasurement in E.
  destruct o as [[]| |]; cbn [fst snd timings_ok] in *; try discriminate.
  exists k'. split; [reflexivity|]. split; [exact Hi'|].
  match type of E with (if ?b then _ else _) = _ => destruct b; [discriminate|] end.
  inversion E; subst; cbn. repeat split; try (intro Hx; rewrite Hx; reflexivity);
    destruct (ms_useExternalTiming (tk_settings k)); reflexivity.
Qed.

(** Invariant linking the specification's view with the MPC object. *)
Record mpc_inv (dt c e : Q) (prepared : bool) (s : mpc_settings) (first : bool) (a b : Q) (cur : policy) (lc le : Q) (m : mpc) : Prop := {
  iv_s : m_settings m = s; iv_ts : tk_settings (m_tk m) = s; iv_sok : mpc_settings_ok s;
  iv_cold : m_cold m = false; iv_dt : m_dt m = dt; iv_K : (1 <= m_K m)%Z;
  iv_pol : m_policy m = cur; iv_grid : exists N, (1 <= N)%nat /\ policy_on_grid dt N cur;
  iv_first : m_firstRun m = first; iv_tfirst : tk_firstRun (m_tk m) = first;
  iv_heap : Forall hs_ok (m_heap m); iv_hs : (m_hs m < length (m_heap m))%nat;
  iv_tkhs : (m_tk_hs m < length (m_heap m))%nat;
  iv_tk : tk_inv c e (m_tk m);
  iv_ini : first = false -> tk_initialized (m_tk m) = true;
  iv_prep : prepared = true -> m_tf m = Some (a, b) /\ 0 <= a /\ a <= b /\ tk_initialized (m_tk m) = true;
  iv_fprep : first = false -> prepared = true;
  iv_lc : tm_start (tk_last (m_tk m)) == lc; iv_le : tm_start (tk_ext_last (m_tk m)) == le;
  iv_l0 : first = true -> lc == 0 /\ le == 0 }.

Lemma heap_get h i : Forall hs_ok h -> (i < length h)%nat -> exists hs, vec_get h i = Ok hs /\ hs_ok hs.
Proof.
  intros Hf Hi. destruct (nth_error_lt_Some h i Hi) as [hs He]. exists hs. unfold vec_get. rewrite He.
  split; [reflexivity|]. rewrite Forall_forall in Hf. apply Hf. eapply nth_error_In; eauto.
Qed.

Lemma set_heap_ok i hs h : Forall hs_ok h -> hs_ok hs -> (i < length h)%nat ->
  Forall hs_ok (set_heap i hs h) /\ length (set_heap i hs h) = length h.
Proof.
  intros Hf Hh Hi. unfold set_heap. split.
  - rewrite Forall_forall in *. intros z Hz. rewrite in_app_iff in Hz. cbn [In] in Hz.
    destruct Hz as [Hz|[<-|Hz]]; auto; apply Hf.
    + rewrite <- (firstn_skipn i h), in_app_iff. auto.
    + rewrite <- (firstn_skipn (S i) h), in_app_iff. auto.
  - rewrite app_length. cbn [length]. rewrite firstn_length, skipn_length. lia.
Qed.

Lemma guess_ok dt N p K : policy_on_grid dt N p -> (K <= Z.of_nat N)%Z -> solver_setInitialGuess K p = Ok tt.
Proof.
  intros (H1 & H2 & H3) HK. unfold solver_setInitialGuess.
  rewrite (size_grid _ _ _ H3). cbn [obind].
  destruct (Z.ltb_spec (Z.of_nat (S N)) (K + 1)); [lia|].
  rewrite (size_grid _ _ _ H2). cbn [obind]. destruct (Z.ltb_spec (Z.of_nat N) K); [lia|].
  rewrite (size_grid _ _ _ H1). cbn [obind]. destruct (Z.ltb_spec (Z.of_nat N) K); [lia|]. reflexivity.
Qed.

Lemma prepare_ok dt c e prepared s first a b cur lc le m x n1 n2 :
  0 < dt -> mpc_inv dt c e prepared s first a b cur lc le m -> c <= n1 -> n1 <= n2 -> e <= x ->
  exists m' T a' b' g, prepareIteration m x n1 n2 = Ok (m', OPrepared T a' b' g) /\
    0 <= T /\ 0 <= a' /\ a' <= b' /\ (first = true -> a' == 0 /\ b' == 0) /\
    policy_on_grid dt (Nat.max 1 (Z.to_nat (lround (T / dt)))) g /\
    mpc_inv dt n2 x true s first a' b' g lc le m'.
Proof.
  intros Hdt Hv C1 C2 C3. destruct Hv. unfold prepareIteration.
  destruct (heap_get _ _ iv_heap0 iv_tkhs0) as (hs & Eh & Hhs). rewrite Eh. cbn [obind].
  set (tk := if m_firstRun m then tk_initialize (m_tk m) else m_tk m).
  assert (Htk : tk_inv c e tk).
  { unfold tk. destruct (m_firstRun m); [|exact iv_tk0].
    destruct iv_tk0 as (H1 & H2 & H3 & H4). unfold tk_inv, tk_initialize. simpl.
    repeat split; try lra; apply H3. }
  assert (Hini : tk_initialized tk = true).
  { unfold tk. destruct (m_firstRun m) eqn:Ef; [reflexivity|]. apply iv_ini0. congruence. }
  assert (Hts : tk_settings tk = s) by (unfold tk; destruct (m_firstRun m); auto).
  assert (Htf : tk_firstRun tk = first).
  { unfold tk. destruct (m_firstRun m) eqn:Ef; cbn; congruence. }
  assert (HT : 0 <= inject_Z (m_K m) * m_dt m).
  { apply Qmult_le_0_compat; [change 0 with (inject_Z 0); rewrite <- Zle_Qle; lia|rewrite iv_dt0; lra]. }
  destruct (timings_spec c e tk hs n1 n2 x _ Htk C1 C2 C3 HT Hhs Hini)
    as (k' & T' & a' & b' & E & Hi' & A1 & A2 & A3 & A4 & A5 & A6 & A7 & A8 & A9 & A10).
  rewrite E. cbn [obind].
  assert (E1 : Qltb T' 0 = false) by (apply Qltb_false; exact A4). rewrite E1.
  unfold computeK. rewrite E1. cbn [obind].
  unfold handler_warmstart. rewrite iv_cold0, iv_dt0, iv_pol0.
  destruct iv_grid0 as (N & HN & Hg).
  destruct (warmstart_correct dt b' T' N cur Hdt HN Hg) as (p' & st & Ew & _ & Gw & _).
  rewrite Ew. cbn [obind].
  assert (E2 : Qltb b' a' = false) by (apply Qltb_false; exact A2). rewrite E2.
  set (K := Nat.max 1 (Z.to_nat (lround (T' / dt)))) in *.
  assert (HK : Z.max 1 (lround (T' / dt)) = Z.of_nat K) by (unfold K; lia). rewrite HK.
  rewrite (guess_ok dt K p' (Z.of_nat K) Gw) by lia. cbn [obind].
  do 5 eexists. split; [reflexivity|]. do 3 (split; [assumption|]).
  split. { intro Hf. apply A8. congruence. }
  split; [exact Gw|].
  assert (HK1 : (1 <= K)%nat) by (unfold K; lia). clearbody K.
  assert (Hlc : tm_start (tk_last tk) == lc /\ tm_start (tk_ext_last tk) == le).
  { unfold tk. destruct (m_firstRun m) eqn:Ef; [|auto]. destruct (iv_l1 (eq_sym iv_first0)). cbn. lra. }
  constructor; cbn; auto; try congruence; try lia; try (rewrite ?A9, ?A10; apply Hlc).
  exists K. split; [lia|exact Gw].
Qed.

Lemma front_removed_0 p : front_removed 0 p p.
Proof. repeat split. Qed.

Lemma lround_nonneg q : 0 <= q -> (0 <= lround q)%Z.
Proof.
  intro H. rewrite <- (lround_inject 0). apply lround_mono. exact H.
Qed.

Lemma finish_ok fwd dt c e s first a b cur lc le m x ts ctl n0 np n1 n2 n3 ok sol :
  0 < dt -> mpc_inv dt c e true s first a b cur lc le m ->
  c <= n0 -> n0 <= np -> np <= n1 -> n1 <= n2 -> n2 <= n3 -> e <= ts ->
  (exists N, (1 <= N)%nat /\ policy_on_grid dt N sol) ->
  exists m' stamp pol x0,
    finishIteration fwd m x ts ctl n0 np n1 n2 n3 ok sol = Ok (m', OFinished stamp pol x0) /\
      x0 = (if negb first && ms_forwardIntegration s then
              fwd (match ctl with Some i => FwdOther i | None => FwdPolicy cur end)
                  a (Z.to_nat (lround ((b - a) / ms_forwardIntegration_dt s)))
                  (ms_forwardIntegration_dt s) x
            else x) /\
      (if ok then
         exists k, front_removed k sol pol /\
           (if ms_postTruncation s && negb first && Qltb 0 ((if ms_useExternalTiming s then ts - le else np - lc) - b)
            then whole_steps dt (length (tr_data (pol_ff sol))) ((if ms_useExternalTiming s then ts - le else np - lc) - b) k
            else k = 0%nat) /\
           if first then
             (ms_measureDelay s = true -> stamp == ts + (b - a) + (n1 - n0))
           else stamp == ts + (b - a) + inject_Z (Z.of_nat k) * dt
       else pol = cur /\ (first = false -> stamp == ts)) /\
    mpc_inv dt n3 ts true s false a b pol (if ms_useExternalTiming s then lc else n2)
      (if ms_useExternalTiming s then ts else le) m'.
Proof.
  intros Hdt Hv C0 Cp C1 C2 C3 Ce Hsol. destruct Hv. subst s dt cur. unfold finishIteration.
  destruct (start_spec c e (m_tk m) n0 ts iv_tk0 C0 Ce) as (S1 & S2 & S3 & S4 & S5 & S6 & S7).
  set (tk := startDelayMeasurement (m_tk m) n0 ts) in *.
  destruct (iv_prep0 eq_refl) as (Htf & Hab & Hba & Hini). rewrite Htf.
  rewrite iv_first0.
  set (x0 := if negb first then doForwardIntegration fwd m ctl a b x else x).
  assert (Hx0 : x0 = (if negb first && ms_forwardIntegration (m_settings m) then
              fwd (match ctl with Some i => FwdOther i | None => FwdPolicy (m_policy m) end)
                  a (Z.to_nat (lround ((b - a) / ms_forwardIntegration_dt (m_settings m))))
                  (ms_forwardIntegration_dt (m_settings m)) x
            else x)).
  { unfold x0, doForwardIntegration, integrateForward.     destruct first; [reflexivity|]. cbn [negb andb].
    destruct (ms_forwardIntegration (m_settings m)); [|reflexivity].
    assert (Hn : forall z, Z.to_nat (Z.max 0 z) = Z.to_nat z) by (intro z; lia).
    rewrite !Hn. destruct ctl; reflexivity. }
  assert (HXM : ms_measureDelay (m_settings m) = true -> ms_useExternalTiming (m_settings m) = false).
  { destruct iv_sok0 as (_ & _ & _ & Hc). intro Hm. rewrite Hm in Hc.
    destruct (ms_useExternalTiming (m_settings m)); [discriminate|reflexivity]. }
  assert (Hfin : forall tk1 c1 e1 pol stamp, tk_inv c1 e1 tk1 -> c1 <= n1 -> e1 <= ts ->
     tk_settings tk1 = m_settings m -> tk_initialized tk1 = tk_initialized (m_tk m) -> tk_timer tk1 = tk_timer tk ->
     tm_start (tk_last tk1) = tm_start (tk_last (m_tk m)) -> tm_start (tk_ext_last tk1) = tm_start (tk_ext_last (m_tk m)) ->
     (exists N, (1 <= N)%nat /\ policy_on_grid (m_dt m) N pol) ->
     exists m' d, (let '(tk', o) := stopDelayMeasurement tk1 n1 n2 n3 ts in
       do _ <- o ;;
       let stamp := if first then stamp + tk_lastDelay tk' else stamp in
       Ok (mk_mpc (m_settings m) (m_cold m) (m_initPolicy m) (m_dt m) (m_K m) pol false (m_calls m)
                 (m_heap m) (m_hs m) (m_tk_hs m) tk' (Some (a, b)), OFinished stamp pol x0))
       = Ok (m', OFinished (if first then stamp + d else stamp) pol x0) /\
       (ms_measureDelay (m_settings m) = true -> d == n1 - n0) /\
       mpc_inv (m_dt m) n3 ts true (m_settings m) false a b pol (if ms_useExternalTiming (m_settings m) then lc else n2)
      (if ms_useExternalTiming (m_settings m) then ts else le) m').
  { intros tk1 c1 e1 pol stamp Hi1 Hc1 He1 Hs1 Hn1 Ht1 Hl1 Hl2 Hg1.
    destruct (stop_spec c1 e1 tk1 n1 n2 n3 ts Hi1 Hc1 C2 C3 He1) as (k' & E & Hi' & K1 & K2 & K3 & K4 & K5 & K6).
    rewrite E. cbn [obind]. do 2 eexists. split; [reflexivity|]. split.
    - intro Hm. rewrite K4 by (rewrite Hs1; auto). rewrite Ht1, S5 by (rewrite iv_ts0; auto). reflexivity.
    - constructor; cbn; auto; try congruence.
      + intros _. repeat split; auto. congruence.
      + rewrite K5, Hs1, Hl1. destruct (ms_useExternalTiming (m_settings m)); [exact iv_lc0|reflexivity].
      + rewrite K6, Hs1, Hl2. destruct (ms_useExternalTiming (m_settings m)); [reflexivity|exact iv_le0]. }
  destruct ok.
  - destruct (since_spec n0 ts tk np ts S1 Cp (Qle_refl _)) as (k1 & dtp & E1 & I1 & D1 & T1 & T2 & T3 & T4 & T5 & T6 & T7).
    rewrite E1.
    assert (Hplain : exists m' stamp pol x1,
      (let '(tk0, pol, stamp) := (k1, sol, ts + (b - a)) in
       let '(tk', o) := stopDelayMeasurement tk0 n1 n2 n3 ts in
       do _ <- o ;;
       let stamp := if first then stamp + tk_lastDelay tk' else stamp in
       Ok (mk_mpc (m_settings m) (m_cold m) (m_initPolicy m) (m_dt m) (m_K m) pol false (m_calls m)
                 (m_heap m) (m_hs m) (m_tk_hs m) tk' (Some (a, b)), OFinished stamp pol x0))
        = Ok (m', OFinished stamp pol x1) /\
      x1 = x0 /\
      front_removed 0 sol pol /\
      (if first then (ms_measureDelay (m_settings m) = true -> stamp == ts + (b - a) + (n1 - n0))
       else stamp == ts + (b - a)) /\
      mpc_inv (m_dt m) n3 ts true (m_settings m) false a b pol (if ms_useExternalTiming (m_settings m) then lc else n2)
      (if ms_useExternalTiming (m_settings m) then ts else le) m').
    { destruct (Hfin k1 np ts sol (ts + (b - a)) I1 C1 (Qle_refl _)) as (m' & d & E & Hd & Hv);
        [congruence|congruence|congruence|congruence|congruence|exact Hsol|].
      do 4 eexists. split; [exact E|]. split; [reflexivity|]. split; [apply front_removed_0|]. split; [|exact Hv].
      destruct first.
      - intro Hm. rewrite (Hd Hm). reflexivity.
      - reflexivity. }
    set (late := (if ms_useExternalTiming (m_settings m) then ts - le else np - lc) - b).
    assert (Hlate : first = false -> dtp - b == late).
    { intro Hf. unfold late. rewrite T7, S3, iv_tfirst0, Hf, S2, iv_ts0, S6, S7.
      destruct (ms_useExternalTiming (m_settings m)); rewrite ?iv_lc0, ?iv_le0; reflexivity. }
    destruct (ms_postTruncation (m_settings m)) eqn:Ep.
    + destruct (Qltb b dtp && negb first) eqn:Eb.
      * apply andb_prop in Eb. destruct Eb as [Eb1 Ef]. destruct first; [discriminate|].
        destruct Hsol as (N & HN & Hg).
        destruct (truncate_correct (m_dt m) (dtp - b) N sol Hdt HN Hg) as (p' & k & eff & Et & Hw & He & _ & Gp & F1 & F2 & F3).
        assert (Et' : handler_truncate m (dtp - b) sol = Ok (p', eff)).
        { unfold handler_truncate. rewrite iv_cold0. exact Et. }
        rewrite Et'. cbn [obind fst snd].
        destruct (Hfin k1 np ts p' (ts + (b - a) + eff) I1 C1 (Qle_refl _)) as (m' & d & E & Hd & Hv);
          [congruence|congruence|congruence|congruence|congruence| |].
        { exists (N - k)%nat. split; [|exact Gp]. destruct Hw as (Hw & _). lia. }
        do 4 eexists. split; [exact E|]. split; [exact Hx0|]. split; [|exact Hv].
        exists k. split; [repeat split; assumption|]. split; [|rewrite He; reflexivity].
        cbn [negb andb].
        assert (Ql : Qltb 0 late = true).
        { apply Qltb_true. rewrite <- (Hlate eq_refl). apply Qltb_true in Eb1. lra. }
        rewrite Ql. destruct Hg as (_ & Hg2 & _). rewrite (proj2 (grid_len _ _ _ Hg2)).
        destruct Hw as (W1 & W2 & W3). pose proof (Hlate eq_refl) as HL. split; [exact W1|].
        split; [rewrite <- HL; exact W2|rewrite <- HL; exact W3].
      * cbn [obind]. destruct Hplain as (m' & stamp & pol & x1 & E & -> & H1 & H2 & H3).
        do 4 eexists. split; [exact E|]. split; [exact Hx0|]. split; [|exact H3].
        exists 0%nat. split; [exact H1|]. split.
        { cbn [andb]. destruct first; [reflexivity|]. cbn [negb andb] in *. rewrite andb_true_r in Eb.
          assert (Ql : Qltb 0 late = false).
          { apply Qltb_false. rewrite <- (Hlate eq_refl). apply Qltb_false in Eb. lra. }
          rewrite Ql. reflexivity. }
        destruct first; [exact H2|]. rewrite H2. change (inject_Z (Z.of_nat 0)) with 0. ring.
    + cbn [obind]. destruct Hplain as (m' & stamp & pol & x1 & E & -> & H1 & H2 & H3).
      do 4 eexists. split; [exact E|]. split; [exact Hx0|]. split; [|exact H3].
      exists 0%nat. split; [exact H1|]. split; [reflexivity|].
      destruct first; [exact H2|]. rewrite H2. change (inject_Z (Z.of_nat 0)) with 0. ring.
  - cbn [obind].
    destruct (Hfin tk n0 ts (m_policy m) ts S1 ltac:(lra) (Qle_refl _)) as (m' & d & E & Hd & Hv);
        [congruence|congruence|congruence|congruence|congruence|exact iv_grid0|].
    do 4 eexists. split; [exact E|]. split; [exact Hx0|]. split; [|exact Hv].
    split; [reflexivity|]. intro Hf. rewrite Hf. reflexivity.
Qed.

Lemma run_ok fwd dt h : 0 < dt -> forall c e prepared s first a b cur lc le m,
  mpc_inv dt c e prepared s first a b cur lc le m -> calls_ok dt c e prepared h ->
  exists tr m', mpc_run fwd m h = Ok (tr, m') /\ reports_ok fwd dt s first a b cur lc le tr.
Proof.
  intro Hdt. induction h as [|o r IH]; intros c e prepared s first a b cur lc le m Hv Hc.
  - exists [], m. split; [reflexivity|exact I].
  - cbn [mpc_run]. destruct o as [x n1 n2|x ts ctl n0 np n1 n2 n3 ok sol|T|s'|hs]; cbn [calls_ok mpc_step] in *.
    + destruct Hc as (C1 & C2 & C3 & Hr).
      destruct (prepare_ok _ _ _ _ _ _ _ _ _ _ _ _ x n1 n2 Hdt Hv C1 C2 C3) as (m' & T & a' & b' & g & E & P1 & P2 & P3 & P4 & P5 & Hv').
      rewrite E. cbn [obind fst snd]. destruct (IH _ _ _ _ _ _ _ _ _ _ _ Hv' Hr) as (tr & m'' & Er & Hrep).
      rewrite Er. cbn [obind fst snd]. do 2 eexists. split; [reflexivity|]. cbn [reports_ok]. auto 10.
    + destruct Hc as (-> & C0 & Cp & C1 & C2 & C3 & C4 & Hsol & Hr).
      destruct (finish_ok fwd dt c e s first a b cur lc le m x ts ctl n0 np n1 n2 n3 ok sol Hdt Hv C0 Cp C1 C2 C3 C4 Hsol)
        as (m' & stamp & pol & x0 & E & P1 & P2 & Hv').
      rewrite E. cbn [obind fst snd]. destruct (IH _ _ _ _ _ _ _ _ _ _ _ Hv' Hr) as (tr & m'' & Er & Hrep).
      rewrite Er. cbn [obind fst snd]. do 2 eexists. split; [reflexivity|]. cbn [reports_ok].
      split; [exact P1|]. split; [exact P2|]. destruct (ms_useExternalTiming s); exact Hrep.
    + destruct Hc as (HT & Hr). unfold resetMpc. destruct Hv.
      destruct (heap_get _ _ iv_heap0 iv_hs0) as (hs & Eh & Hhs). rewrite Eh. cbn [obind].
      assert (E1 : Qltb T 0 = false) by (apply Qltb_false; exact HT).
      unfold computeK. rewrite E1. cbn [obind fst snd].
      destruct (set_heap_ok (m_hs m) (mk_hs (hs_mode hs) (hs_minT hs) T) (m_heap m) iv_heap0) as [Hh1 Hh2].
      { destruct Hhs as (Q1 & Q2 & Q3). repeat split; cbn; assumption. }
      { exact iv_hs0. }
      edestruct (IH c e prepared s true a b cur 0 0) as (tr & m'' & Er & Hrep); [|exact Hr|].
      2:{ rewrite Er. cbn [obind fst snd]. do 2 eexists. split; [reflexivity|]. exact Hrep. }
      constructor; cbn; auto; try congruence; try lia.
      * destruct iv_tk0 as (H1 & H2 & H3 & H4). unfold tk_inv, tk_initialize. simpl.
        repeat split; try lra; apply H3.
      * intro Hp. destruct (iv_prep0 Hp) as (Q1 & Q2 & Q3 & Q4). auto.
      * intros. split; reflexivity.
    + destruct Hc as (Hs & Hr). unfold mpc_updateSettings, checkSettings. destruct Hv.
      pose proof Hs as (S1 & S2 & S3 & S4). rewrite S4. cbn [obind].
      destruct (heap_get _ _ iv_heap0 iv_hs0) as (hs & Eh & Hhs). rewrite Eh. cbn [obind fst snd].
      destruct (set_heap_ok (m_hs m) (mk_hs (ms_mode s') (ms_minT s') (hs_T0 hs)) (m_heap m) iv_heap0) as [Hh1 Hh2].
      { destruct Hhs as (Q1 & Q2 & Q3). repeat split; cbn; assumption. }
      { exact iv_hs0. }
      edestruct (IH c e prepared s' first a b cur lc le) as (tr & m'' & Er & Hrep); [|exact Hr|].
      2:{ rewrite Er. cbn [obind fst snd]. do 2 eexists. split; [reflexivity|]. exact Hrep. }
      constructor; cbn; auto; try congruence; try lia.
      destruct iv_tk0 as (H1 & H2 & H3 & H4). unfold tk_inv, tk_updateSettings. simpl.
      repeat split; try lra; try apply S1; apply H4.
    + destruct Hc as (H1 & H2 & H3 & Hr). cbn [obind fst snd]. destruct Hv.
      edestruct (IH c e prepared s first a b cur lc le) as (tr & m'' & Er & Hrep); [|exact Hr|].
      2:{ rewrite Er. cbn [obind fst snd]. do 2 eexists. split; [reflexivity|]. exact Hrep. }
      constructor; cbn; auto; try congruence; try (rewrite app_length; simpl; lia).
      rewrite Forall_app. split; [exact iv_heap0|]. constructor; [|constructor]. repeat split; assumption.
Qed.

Lemma mpc_reports fwd s dt K0 N guess h :
  0 < dt -> mpc_settings_ok s -> ms_coldStart s = false -> (1 <= K0)%Z -> (K0 <= Z.of_nat N)%Z ->
  policy_on_grid dt N guess -> calls_ok dt 0 0 false h ->
  exists m tr m', mpc_start s dt K0 guess = Ok m /\ mpc_run fwd m h = Ok (tr, m') /\
    reports_ok fwd dt s true 0 0 guess 0 0 tr.
Proof.
  intros Hdt Hs Hcold HK HN Hg Hh. unfold mpc_start, checkSettings.
  pose proof Hs as (S1 & S2 & S3 & S4). rewrite S4. cbn [obind].
  rewrite (guess_ok dt N guess K0 Hg HN). cbn [obind]. eexists.
  assert (Hv : mpc_inv dt 0 0 false s true 0 0 guess 0 0
    (mk_mpc s (ms_coldStart s) guess dt K0 guess true 0
             [mk_hs (ms_mode s) (ms_minT s) (inject_Z K0 * dt)] 0 0 (tk_new s) None)).
  { constructor; cbn; auto; try congruence.
    - exists N. split; [lia|exact Hg].
    - constructor; [|constructor]. repeat split; cbn; auto.
      apply Qmult_le_0_compat; [change 0 with (inject_Z 0); rewrite <- Zle_Qle; lia|lra].
    - apply tk_new_inv. exact S1.
    - intros. split; reflexivity. }
  destruct (run_ok fwd dt h Hdt _ _ _ _ _ _ _ _ _ _ _ Hv Hh) as (tr & m' & E & Hr).
  exists tr, m'. split; [reflexivity|]. split; [exact E|exact Hr].
Qed.
