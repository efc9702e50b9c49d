From Coq Require Import List ZArith QArith Qminmax Lqa Lia.
From Verif Require Import Base.Outcome Core.InterpModel Core.InterpProofs Optcon.MpcTimeModel Optcon.MpcTimeSpec.
Import ListNotations.
Open Scope Q_scope.

Ltac qmm :=
  repeat match goal with
  | |- context [Qmax ?a ?b] =>
      let H1 := fresh in let H2 := fresh in
      destruct (Q.max_spec a b) as [[H1 H2]|[H1 H2]]; rewrite H2 in *
  | |- context [Qmin ?a ?b] =>
      let H1 := fresh in let H2 := fresh in
      destruct (Q.min_spec a b) as [[H1 H2]|[H1 H2]]; rewrite H2 in *
  end.

Lemma Qeq_bool_true_iff a b : Qeq_bool a b = true <-> a == b.
Proof. split; [apply Qeq_bool_eq|apply Qeq_eq_bool]. Qed.

Lemma horizon_documented hs t_since t_stop :
  0 <= hs_minT hs -> hs_mode hs <> OtherMode ->
  exists fin T, computeNewTimeHorizon hs t_since t_stop = Ok (fin, T) /\
    documented_horizon (hs_mode hs) (hs_T0 hs) (hs_minT hs) (hs_T0 hs - (t_since + t_stop)) T fin.
Proof.
  intros Hm Hmode. unfold computeNewTimeHorizon. destruct (hs_mode hs) eqn:E; [| | | |congruence];
    do 2 eexists; (split; [reflexivity|]); cbn [documented_horizon].
  - split; reflexivity.
  - rewrite Qeq_bool_true_iff.
    destruct (Q.max_spec 0 (hs_T0 hs - (t_since + t_stop))) as [[H1 H2]|[H1 H2]]; rewrite H2;
      repeat split; intros; try lra.
  - rewrite Qeq_bool_true_iff.
    destruct (Q.max_spec 0 (hs_T0 hs - (t_since + t_stop))) as [[H1 H2]|[H1 H2]]; rewrite H2;
    destruct (Q.max_spec (hs_minT hs) (hs_T0 hs - (t_since + t_stop))) as [[H3 H4]|[H3 H4]];
    destruct (Q.max_spec (hs_minT hs) 0) as [[H5 H6]|[H5 H6]]; try rewrite H4; try rewrite H6;
      repeat split; intros; try lra.
  - rewrite Qeq_bool_true_iff.
    destruct (Q.max_spec 0 (hs_T0 hs - (t_since + t_stop))) as [[H1 H2]|[H1 H2]]; rewrite H2;
    destruct (Q.min_spec (hs_minT hs) (hs_T0 hs - (t_since + t_stop))) as [[H3 H4]|[H3 H4]];
    destruct (Q.min_spec (hs_minT hs) 0) as [[H5 H6]|[H5 H6]]; try rewrite H4; try rewrite H6;
      repeat split; intros; try lra;
      match goal with H : _ \/ _ |- _ => destruct H; lra | _ => idtac end.
Qed.

Lemma Qmax_mono a b c : b <= c -> Qmax a b <= Qmax a c.
Proof. intro H. apply Q.max_le_compat_l. exact H. Qed.
Lemma Qmin_mono a b c : b <= c -> Qmin a b <= Qmin a c.
Proof. intro H. apply Q.min_le_compat_l. exact H. Qed.

Lemma horizon_monotone hs e1 s1 e2 s2 f1 T1 f2 T2 :
  0 <= hs_minT hs -> e1 + s1 <= e2 + s2 ->
  computeNewTimeHorizon hs e1 s1 = Ok (f1, T1) -> computeNewTimeHorizon hs e2 s2 = Ok (f2, T2) ->
  T2 <= T1 /\ (f1 = true -> f2 = true) /\ (0 <= hs_T0 hs -> 0 <= T2).
Proof.
  intros Hm He H1 H2.
  assert (Hmode : hs_mode hs <> OtherMode).
  { intro Hc. unfold computeNewTimeHorizon in H1. rewrite Hc in H1. discriminate. }
  destruct (horizon_documented hs e1 s1 Hm Hmode) as (g1 & U1 & Hg1 & D1).
  destruct (horizon_documented hs e2 s2 Hm Hmode) as (g2 & U2 & Hg2 & D2).
  rewrite H1 in Hg1. rewrite H2 in Hg2. apply Ok_inj in Hg1. apply Ok_inj in Hg2.
  injection Hg1 as <- <-. injection Hg2 as <- <-.
  set (l1 := hs_T0 hs - (e1 + s1)) in *. set (l2 := hs_T0 hs - (e2 + s2)) in *.
  assert (Hl : l2 <= l1) by (unfold l1, l2; lra). clearbody l1 l2.
  destruct (hs_mode hs); cbn [documented_horizon] in *; [| | | |contradiction].
  - destruct D1 as [D1 ->], D2 as [D2 ->]. repeat split; auto; intros; try lra.
  - destruct D1 as (A1 & B1 & C1), D2 as (A2 & B2 & C2). rewrite C1, C2.
    destruct (Qlt_le_dec l1 0), (Qlt_le_dec l2 0); repeat split; intros;
    repeat match goal with
    | H : ?a <= ?b -> _ |- _ =>
        let X := fresh in
        first [assert (X : a <= b) by lra; specialize (H X); clear X | clear H] end; lra.
  - destruct D1 as (A1 & B1 & C1), D2 as (A2 & B2 & C2). rewrite C1, C2.
    destruct (Qlt_le_dec l1 (hs_minT hs)), (Qlt_le_dec l2 (hs_minT hs)); repeat split; intros;
    repeat match goal with
    | H : ?a <= ?b -> _ |- _ =>
        let X := fresh in
        first [assert (X : a <= b) by lra; specialize (H X); clear X | clear H] end; lra.
  - destruct D1 as (A1 & A1' & B1 & C1), D2 as (A2 & A2' & B2 & C2). rewrite C1, C2.
    split; [|split].
    + destruct (Qlt_le_dec l1 (hs_minT hs)) as [X1|X1]; [destruct (Qlt_le_dec l1 0) as [Y1|Y1]|].
      * rewrite B1, B2; lra.
      * rewrite A1' by lra. destruct (Qlt_le_dec l2 0); [rewrite B2|rewrite A2']; lra.
      * rewrite A1 by lra. destruct (Qlt_le_dec l2 (hs_minT hs)); [|rewrite A2; lra].
        destruct (Qlt_le_dec l2 0); [rewrite B2|rewrite A2']; lra.
    + intros [X|X]; [left; lra|right; exact X].
    + intros _. destruct (Qlt_le_dec l2 (hs_minT hs)); [|rewrite A2; lra].
        destruct (Qlt_le_dec l2 0); [rewrite B2|rewrite A2']; lra.
Qed.

(** * Time keeper invariant *)
Definition tk_inv (c e : Q) (k : time_keeper) : Prop :=
  0 <= c /\ 0 <= e /\ settings_nonneg (tk_settings k) /\
  tm_start (tk_timer k) <= c /\ tm_start (tk_last k) <= c /\ tm_start (tk_first k) <= c /\
  tm_start (tk_ext_timer k) <= e /\ tm_start (tk_ext_last k) <= e /\ tm_start (tk_ext_first k) <= e /\
  0 <= tk_lastDelay k.

Definition timings_ok (x : tk_op * tk_out) : Prop :=
  match x with
  | (TkTimings hs _ _ _ T, OutTimings T' a b) => 0 <= a /\ a <= b /\ b <= T
  | (TkTimings hs _ _ _ _, OutThrow) => True
  | (TkTimings _ _ _ _ _, _) => False
  | (TkStop _ _ _ _, out) => out = OutNone
  | (TkSincePrevious _ _, OutElapsed d) => 0 <= d
  | (TkSincePrevious _ _, _) => False
  | (_, out) => out = OutNone
  end.

Lemma us_pos : 0 < us. Proof. reflexivity. Qed.

Lemma delay_nonneg c e k : tk_inv c e k -> 0 <= computeDelayToApply k.
Proof.
  intros (H1 & H2 & (Ha & Hb & Hc) & H4 & H5 & H6 & H7 & H8 & H9 & H10).
  unfold computeDelayToApply.
  assert (0 <= us * inject_Z (ms_additionalDelayUs (tk_settings k))).
  { apply Qmult_le_0_compat; [discriminate|]. change 0 with (inject_Z 0). rewrite <- Zle_Qle. exact Hc. }
  assert (0 <= us * inject_Z (ms_fixedDelayUs (tk_settings k))).
  { apply Qmult_le_0_compat; [discriminate|]. change 0 with (inject_Z 0). rewrite <- Zle_Qle. exact Hb. }
  destruct (ms_measureDelay (tk_settings k)); [|lra].
  assert (0 <= ms_multiplier (tk_settings k) * tk_lastDelay k) by (apply Qmult_le_0_compat; assumption).
  lra.
Qed.

Ltac inv_solve :=
  unfold tk_inv; simpl; repeat split; auto; try lra; try (unfold timer_elapsed; simpl; lra);
  try match goal with H : settings_nonneg _ |- _ => apply H end.

Lemma tk_step_inv c e k o r :
  tk_inv c e k -> clocks_ok c e (o :: r) ->
  exists c' e', tk_inv c' e' (fst (tk_step k o)) /\ clocks_ok c' e' r /\
    timings_ok (o, snd (tk_step k o)).
Proof.
  intros Hinv Hc.
  pose proof (delay_nonneg c e k Hinv) as Hdel.
  pose proof Hinv as (H1 & H2 & Hs & H4 & H5 & H6 & H7 & H8 & H9 & H10).
  destruct o as [|hs n1 n2 x T|n x|n1 n2 n3 x|n x|s]; cbn [clocks_ok] in Hc.
  - exists c, e. split; [|split; [exact Hc|reflexivity]]. inv_solve.
  - destruct Hc as (C1 & C2 & C3 & C4 & C5).
    exists n2, x. cbn [tk_step]. unfold computeNewTimings.
    destruct (tk_initialized k) eqn:Ei; cbn [negb].
    2:{ split; [inv_solve|split; [exact C5|exact I]]. }
    destruct (tk_firstRun k) eqn:Ef; cbn [negb].
    + assert (E0 : Qltb T 0 = false) by (apply Qltb_false; lra). rewrite E0.
      destruct (computeNewTimeHorizon hs 0 0) as [[fin T']| |] eqn:Eh; cbn [obind].
      * split; [inv_solve|split; [exact C5|]]. cbn. lra.
      * split; [inv_solve|split; [exact C5|exact I]].
      * exfalso. unfold computeNewTimeHorizon in Eh. destruct (hs_mode hs); discriminate.
    + destruct (ms_useExternalTiming (tk_settings k)) eqn:Ee.
      * cbn [timer_elapsed timer_do_stop tm_stop tm_start].
        set (a := timer_elapsed (timer_do_stop x (tk_ext_last k))).
        assert (Ha : 0 <= a) by (unfold a, timer_elapsed; simpl; lra).
        destruct (Qltb T a) eqn:E1; destruct (Qltb T (a + computeDelayToApply k)) eqn:E2;
          rewrite ?Qltb_true, ?Qltb_false in *;
          match goal with |- context [computeNewTimeHorizon hs ?u ?v] =>
            destruct (computeNewTimeHorizon hs u v) as [[fin T']| |] eqn:Eh end; cbn [obind];
          try (split; [inv_solve|split; [exact C5|exact I]]);
          try (split; [inv_solve|split; [exact C5|cbn; lra]]);
          exfalso; unfold computeNewTimeHorizon in Eh; destruct (hs_mode hs); discriminate.
      * set (a := timer_elapsed (timer_do_stop n1 (tk_last k))).
        assert (Ha : 0 <= a) by (unfold a, timer_elapsed; simpl; lra).
        destruct (Qltb T a) eqn:E1; destruct (Qltb T (a + computeDelayToApply k)) eqn:E2;
          rewrite ?Qltb_true, ?Qltb_false in *;
          match goal with |- context [computeNewTimeHorizon hs ?u ?v] =>
            destruct (computeNewTimeHorizon hs u v) as [[fin T']| |] eqn:Eh end; cbn [obind];
          try (split; [inv_solve|split; [exact C5|exact I]]);
          try (split; [inv_solve|split; [exact C5|cbn; lra]]);
          exfalso; unfold computeNewTimeHorizon in Eh; destruct (hs_mode hs); discriminate.
  - destruct Hc as (C1 & C2 & C3). exists n, x. cbn [tk_step]. unfold startDelayMeasurement.
    split; [|split; [exact C3|reflexivity]].
    destruct (ms_measureDelay (tk_settings k)); [destruct (ms_useExternalTiming (tk_settings k))|];
      inv_solve.
  - destruct Hc as (C1 & C2 & C3 & C4 & C5). exists n3, x. cbn [tk_step].
    unfold stopDelayMeasurement.
    destruct (ms_useExternalTiming (tk_settings k)) eqn:Ee.
    + set (d := timer_elapsed (timer_do_stop x (tk_ext_timer k))).
      assert (Hd : 0 <= d) by (unfold d, timer_elapsed; simpl; lra).
      assert (E : Qltb d 0 = false) by (apply Qltb_false; exact Hd). rewrite E.
      split; [|split; [exact C5|reflexivity]]. destruct (tk_firstRun k); inv_solve.
    + set (d := timer_elapsed (timer_do_stop n1 (tk_timer k))).
      assert (Hd : 0 <= d) by (unfold d, timer_elapsed; simpl; lra).
      assert (E : Qltb d 0 = false) by (apply Qltb_false; exact Hd). rewrite E.
      split; [|split; [exact C5|reflexivity]]. destruct (tk_firstRun k); inv_solve.
  - destruct Hc as (C1 & C2 & C3). exists n, x. cbn [tk_step].
    unfold timeSincePreviousSuccessfulSolve.
    destruct (tk_firstRun k); [split; [inv_solve|split; [exact C3|cbn; lra]]|].
    destruct (ms_useExternalTiming (tk_settings k));
      (split; [inv_solve|split; [exact C3|cbn; unfold timer_elapsed; simpl; lra]]).
  - destruct Hc as (C1 & C2). exists c, e. cbn [tk_step].
    split; [clear Hs Hinv; inv_solve|split; [exact C2|reflexivity]].
Qed.

Lemma tk_run_inv h : forall c e k,
  tk_inv c e k -> clocks_ok c e h -> Forall timings_ok (fst (tk_run k h)).
Proof.
  induction h as [|o r IH]; intros c e k Hi Hc; [constructor|].
  destruct (tk_step_inv c e k o r Hi Hc) as (c' & e' & Hi' & Hc' & Ht).
  cbn [tk_run]. destruct (tk_step k o) as [k' out] eqn:E. cbn [fst snd] in *.
  specialize (IH c' e' k' Hi' Hc'). destruct (tk_run k' r) as [outs k'']. cbn [fst] in *.
  constructor; assumption.
Qed.

Lemma tk_new_inv s : settings_nonneg s -> tk_inv 0 0 (tk_new s).
Proof. intro H. unfold tk_inv, tk_new. simpl. repeat split; try apply H; lra. Qed.

Lemma timekeeper_inside_horizon s h :
  settings_nonneg s -> clocks_ok 0 0 h ->
  Forall timings_ok (fst (tk_run (tk_new s) h)).
Proof. intros Hs Hc. eapply tk_run_inv; [apply tk_new_inv; exact Hs|exact Hc]. Qed.

(** * Recorded delays *)
Definition rec_state (k : time_keeper) (ds : list Q) : Prop :=
  tk_maxDelay k == maximum ds /\
  (match tk_minDelay k, minimum ds with
   | Some a, Some b => a == b | None, None => True | _, _ => False end) /\
  tk_sumDelay k == total_of ds /\
  (match rev ds with [] => True | d :: _ => tk_lastDelay k == d end).

Lemma maximum_snoc l x : maximum (l ++ [x]) = Qmax (maximum l) x.
Proof. unfold maximum. rewrite fold_left_app. reflexivity. Qed.
Lemma total_snoc l x : total_of (l ++ [x]) = total_of l + x.
Proof. unfold total_of. rewrite fold_left_app. reflexivity. Qed.
Lemma minimum_snoc l x : minimum (l ++ [x]) =
  Some (match minimum l with None => x | Some m => Qmin m x end).
Proof. destruct l as [|a l]; [reflexivity|]. simpl. rewrite fold_left_app. reflexivity. Qed.

Lemma record_step k ds d k' :
  rec_state k ds ->
  tk_maxDelay k' = Qmax (tk_maxDelay k) d -> tk_minDelay k' = min_opt (tk_minDelay k) d ->
  tk_sumDelay k' = tk_sumDelay k + d -> tk_lastDelay k' = d ->
  rec_state k' (ds ++ [d]).
Proof.
  intros (H1 & H2 & H3 & H4) E1 E2 E3 E4. unfold rec_state.
  rewrite E1, E2, E3, E4, maximum_snoc, total_snoc, minimum_snoc, rev_app_distr. simpl rev.
  cbn [app]. repeat split; try reflexivity.
  - rewrite H1. reflexivity.
  - destruct (tk_minDelay k), (minimum ds); simpl; try contradiction; try reflexivity.
    rewrite H2. reflexivity.
  - rewrite H3. reflexivity.
Qed.

Lemma rec_ext k k' ds :
  rec_state k ds -> tk_maxDelay k' = tk_maxDelay k -> tk_minDelay k' = tk_minDelay k ->
  tk_sumDelay k' = tk_sumDelay k -> tk_lastDelay k' = tk_lastDelay k -> rec_state k' ds.
Proof. unfold rec_state. intros H -> -> -> ->. exact H. Qed.

Definition measuring (k : time_keeper) : Prop :=
  ms_measureDelay (tk_settings k) = true /\ ms_useExternalTiming (tk_settings k) = false.

Lemma record_run h : forall c e k start ds,
  tk_inv c e k -> clocks_ok c e h -> measuring k ->
  (match start with Some s => tm_start (tk_timer k) = s | None => True end) ->
  starts_before_stops (match start with Some _ => true | None => false end) h ->
  rec_state k ds ->
  rec_state (snd (tk_run k h)) (ds ++ stopwatch start h).
Proof.
  induction h as [|o r IH]; intros c e k start ds Hinv Hc Hm Hst Hsb Hr.
  - cbn. rewrite app_nil_r. exact Hr.
  - destruct (tk_step_inv c e k o r Hinv Hc) as (c' & e' & Hi' & Hc' & Ht).
    cbn [tk_run]. destruct (tk_step k o) as [k' out] eqn:E. cbn [fst snd] in *.
    destruct (tk_run k' r) as [outs k''] eqn:Er.
    assert (Hk'' : k'' = snd (tk_run k' r)) by (rewrite Er; reflexivity). cbn [snd].
    destruct Hm as [Hm1 Hm2].
    destruct o as [|hs n1 n2 x T|n x|n1 n2 n3 x|n x|s]; cbn [starts_before_stops] in Hsb; try contradiction.
    + (* timings *)
      cbn [stopwatch]. rewrite Hk''.
      cbn [tk_step] in E. unfold computeNewTimings in E. rewrite Hm2 in E.
      assert (HK : tk_settings k' = tk_settings k /\ tk_timer k' = tk_timer k /\
        tk_maxDelay k' = tk_maxDelay k /\ tk_minDelay k' = tk_minDelay k /\
        tk_sumDelay k' = tk_sumDelay k /\ tk_lastDelay k' = tk_lastDelay k).
      { destruct (tk_initialized k); cbn [negb] in E; [|injection E as <- _; auto 10].
        destruct (tk_firstRun k); cbn [negb] in E;
        match type of E with context [computeNewTimeHorizon hs ?u ?v] =>
            destruct (computeNewTimeHorizon hs u v) as [[fin T']| |] end; cbn [obind fst snd] in E;
        injection E as <- _; simpl; auto 10. }
      destruct HK as (K1 & K2 & K3 & K4 & K5 & K6).
      eapply IH; eauto.
      * unfold measuring. rewrite K1. auto.
      * rewrite K2. exact Hst.
      * eapply rec_ext; eauto.
    + (* start *)
      cbn [stopwatch]. rewrite Hk''. cbn [tk_step] in E. unfold startDelayMeasurement in E.
      rewrite Hm1, Hm2 in E. injection E as <- _.
      eapply (IH c' e' _ (Some n)); eauto; try reflexivity.
      split; assumption.
    + (* stop *)
      destruct Hsb as [Hs1 Hsb]. destruct start as [s0|]; [|discriminate].
      cbn [stopwatch]. rewrite Hk''. cbn [tk_step] in E. unfold stopDelayMeasurement in E.
      rewrite Hm2 in E.
      set (d := timer_elapsed (timer_do_stop n1 (tk_timer k))) in *.
      assert (Hdd : d = n1 - s0) by (unfold d, timer_elapsed; simpl; rewrite Hst; reflexivity).
      assert (Hd : 0 <= d).
      { destruct Hinv as (_ & _ & _ & H4 & _). cbn [clocks_ok] in Hc.
        unfold d, timer_elapsed; simpl; lra. }
      assert (Ed : Qltb d 0 = false) by (apply Qltb_false; exact Hd). rewrite Ed in E.
      injection E as <- _. rewrite <- Hdd.
      replace (ds ++ d :: stopwatch (Some s0) r) with ((ds ++ [d]) ++ stopwatch (Some s0) r)
        by (rewrite <- app_assoc; reflexivity).
      eapply (IH c' e' _ (Some s0)); eauto.
      * split; assumption.
      * eapply record_step; [exact Hr| | | |]; reflexivity.
    + (* since previous *)
      cbn [stopwatch]. rewrite Hk''. cbn [tk_step] in E.
      unfold timeSincePreviousSuccessfulSolve in E. rewrite Hm2 in E.
      destruct (tk_firstRun k); injection E as <- _; eapply IH; eauto; try (split; assumption).
Qed.

Lemma timekeeper_records s h :
  settings_nonneg s -> ms_measureDelay s = true -> ms_useExternalTiming s = false ->
  clocks_ok 0 0 h -> starts_before_stops false h ->
  let k := snd (tk_run (tk_initialize (tk_new s)) h) in
  let ds := stopwatch None h in
  tk_maxDelay k == maximum ds /\
  (match tk_minDelay k, minimum ds with
   | Some a, Some b => a == b | None, None => True | _, _ => False end) /\
  tk_sumDelay k == total_of ds.
Proof.
  intros Hs Hm He Hc Hsb k ds.
  assert (Hr : rec_state k ([] ++ ds)).
  { unfold k, ds. eapply record_run with (c := 0) (e := 0); eauto.
    - unfold tk_inv. simpl. repeat split; try apply Hs; lra.
    - split; assumption.
    - repeat split; reflexivity. }
  destruct Hr as (A & B & C & _). auto.
Qed.

Lemma stop_negative_throws k n1 n2 n3 x :
  let t := if ms_useExternalTiming (tk_settings k) then x - tm_start (tk_ext_timer k)
           else n1 - tm_start (tk_timer k) in
  snd (stopDelayMeasurement k n1 n2 n3 x) = Throw <-> t < 0.
Proof.
  unfold stopDelayMeasurement. destruct (ms_useExternalTiming (tk_settings k)) eqn:E; cbn zeta.
  - unfold timer_elapsed, timer_do_stop. simpl.
    destruct (Qltb (x - tm_start (tk_ext_timer k)) 0) eqn:E1; simpl.
    + apply Qltb_true in E1. tauto.
    + apply Qltb_false in E1. split; [discriminate|]. intro. lra.
  - unfold timer_elapsed, timer_do_stop. simpl.
    destruct (Qltb (n1 - tm_start (tk_timer k)) 0) eqn:E1; simpl.
    + apply Qltb_true in E1. tauto.
    + apply Qltb_false in E1. split; [discriminate|]. intro. lra.
Qed.
