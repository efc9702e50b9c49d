(** C23: the window over which a measured state is integrated forward, and the horizon, of any history of calls. *)
From Coq Require Import List ZArith QArith Qminmax Lqa Lia Bool.
From Verif Require Import Base.Outcome Core.InterpModel Core.InterpProofs Optcon.MpcTimeModel Optcon.MpcTimeSpec Optcon.MpcTimeProofs.
Import ListNotations.
Open Scope Q_scope.

(** ** Specification *)
(** What a bystander notes down of the calls: the reading at the first and at the latest finished solve, and how long the
    latest one took.  [ext]: readings are those of the external clock.  Every call of stopDelayMeasurement reads the internal
    clock up to three times. *)
Record notes := mkNotes { started : Q; firstEnd : option Q; lastEnd : option (Q * Q) }.
Definition note (ext : bool) (w : notes) (o : tk_op) : notes :=
  match o with
  | TkStart n x => mkNotes (if ext then x else n) (firstEnd w) (lastEnd w)
  | TkStop n1 n2 n3 x =>
      mkNotes (started w) (match firstEnd w with None => Some (if ext then x else n3) | Some t => Some t end)
              (Some (if ext then x else n2, (if ext then x else n1) - started w))
  | _ => w
  end.
Definition noted (ext : bool) (h : list tk_op) : notes := fold_left (note ext) h (mkNotes 0 None None).
Definition keepsSettings (o : tk_op) : Prop := match o with TkInitialize | TkUpdate _ => False | _ => True end.
Definition micro : Q := 1 / (1000 * 1000).
(** The delay to bridge, in seconds. *)
Definition bridged (s : mpc_settings) (took : Q) : Q :=
  micro * inject_Z (ms_additionalDelayUs s) +
  (if ms_measureDelay s then ms_multiplier s * took else micro * inject_Z (ms_fixedDelayUs s)).

Definition kept (s : mpc_settings) (w : notes) (k : time_keeper) : Prop :=
  let e := ms_useExternalTiming s in
  tk_settings k = s /\ tk_initialized k = true /\
  (ms_measureDelay s = true -> tm_start (if e then tk_ext_timer k else tk_timer k) = started w) /\
  0 <= tm_start (if e then tk_ext_timer k else tk_timer k) /\
  match firstEnd w, lastEnd w with
  | None, None => tk_firstRun k = true
  | Some f, Some (l, d) => tk_firstRun k = false /\ tm_start (if e then tk_ext_first k else tk_first k) = f /\
      tm_start (if e then tk_ext_last k else tk_last k) = l /\ (ms_measureDelay s = true -> tk_lastDelay k = d)
  | _, _ => False
  end.

Lemma timings_kept s w k hs n1 n2 x T : kept s w k -> kept s w (fst (tk_step k (TkTimings hs n1 n2 x T))).
Proof.
  intros K. cbn [tk_step]. destruct (computeNewTimings k hs n1 n2 x T) as [[[[k' T'] a] b]| |] eqn:E; try exact K. cbn [fst].
  destruct K as (K1 & K2 & K3 & K3' & K4). unfold computeNewTimings in E. rewrite K1, K2 in E. cbn [negb] in E.
  destruct (tk_firstRun k) eqn:F; cbn [negb] in E.
  - match type of E with context [computeNewTimeHorizon hs ?u ?v] => destruct (computeNewTimeHorizon hs u v) as [[fin T1]| |] end; cbn [obind fst snd] in E; try discriminate.
    injection E as <- _ _ _. unfold kept; cbn -[Qle Qplus Qminus]. auto 10.
  - destruct (ms_useExternalTiming s) eqn:X;
    match type of E with context [computeNewTimeHorizon hs ?u ?v] => destruct (computeNewTimeHorizon hs u v) as [[fin T1]| |] end; cbn [obind fst snd] in E; try discriminate;
    injection E as <- _ _ _; unfold kept; cbn -[Qle Qplus Qminus]; rewrite X; auto 10.
Qed.
Lemma run_kept s : forall h w k c e, kept s w k -> 0 <= c -> 0 <= e ->
  tm_start (if ms_useExternalTiming s then tk_ext_timer k else tk_timer k) <= (if ms_useExternalTiming s then e else c) ->
  clocks_ok c e h -> Forall keepsSettings h ->
  kept s (fold_left (note (ms_useExternalTiming s)) h w) (snd (tk_run k h)).
Proof.
  induction h as [|o h IH]; intros w k c e K Hc He Hs HC HF; [exact K|].
  inversion HF as [|? ? F1 F2]; subst. cbn [fold_left tk_run].
  destruct (tk_step k o) as [k1 out] eqn:E. destruct (tk_run k1 h) as [outs k2] eqn:E2.
  cbn [snd]. replace k2 with (snd (tk_run k1 h)) by (rewrite E2; reflexivity). clear E2 outs k2.
  destruct o as [|hs n1 n2 x T|n x|n1 n2 n3 x|n x|s']; try contradiction; cbn [clocks_ok] in HC.
  - destruct HC as (C1 & C2 & C3 & _ & HC). pose proof (timings_kept s w k hs n1 n2 x T K) as K'. rewrite E in K'. cbn [fst] in K'.
    assert (ST : tk_timer k1 = tk_timer k /\ tk_ext_timer k1 = tk_ext_timer k).
    { cbn [tk_step] in E. destruct (computeNewTimings k hs n1 n2 x T) as [[[[k' T'] a] b]| |] eqn:E3; injection E as <- _; try (split; reflexivity).
      unfold computeNewTimings in E3. destruct (tk_initialized k); cbn [negb] in E3; [|discriminate].
      destruct (tk_firstRun k); cbn [negb] in E3; [|destruct (ms_useExternalTiming (tk_settings k))];
      match type of E3 with context [computeNewTimeHorizon hs ?u ?v] => destruct (computeNewTimeHorizon hs u v) as [[fin T1]| |] end; cbn [obind fst snd] in E3; try discriminate;
      injection E3 as <- _ _ _; split; reflexivity. }
    destruct ST as [S1 S2]. apply (IH w k1 n2 x); auto; try lra. rewrite S1, S2. revert Hs; destruct (ms_useExternalTiming s); intros; lra.
  - destruct HC as (C1 & C2 & HC). cbn [note]. cbn [tk_step] in E. injection E as <- _.
    apply (IH _ _ n x); auto; try lra; unfold startDelayMeasurement; destruct K as (K1 & K2 & K3 & K3' & K4); rewrite K1.
    + destruct (ms_measureDelay s) eqn:M; [|unfold kept; rewrite K1, M; split; [reflexivity|split; [exact K2|split; [discriminate|split; [exact K3'|exact K4]]]]].
      destruct (ms_useExternalTiming s) eqn:X; unfold kept; cbn -[Qle Qplus Qminus]; rewrite X, M; (split; [reflexivity|split; [exact K2|split; [reflexivity|split; [unfold timer_do_start; cbn [tm_start]; lra|exact K4]]]]).
    + revert Hs; destruct (ms_measureDelay s); destruct (ms_useExternalTiming s); cbn -[Qle Qplus Qminus]; intros; lra.
  - destruct HC as (C1 & C2 & C3 & C4 & HC). cbn [note]. cbn [tk_step] in E. unfold stopDelayMeasurement in E.
    destruct K as (K1 & K2 & K3 & K3' & K4). rewrite K1 in E.
    destruct (ms_useExternalTiming s) eqn:X.
    + unfold timer_elapsed, timer_do_stop in E; cbn [tm_start tm_stop] in E.
      assert (D : Qltb (x - tm_start (tk_ext_timer k)) 0 = false) by (apply Qltb_false; lra). rewrite D in E. injection E as <- _.
      apply (IH _ _ n3 x); auto; try lra; [|cbn -[Qle Qplus Qminus]; lra].
      unfold kept; rewrite X; cbn -[Qle Qplus Qminus]. split; [reflexivity|split; [exact K2|split; [exact K3|split; [exact K3'|]]]].
      destruct (firstEnd w) as [f|]; destruct (lastEnd w) as [[l d]|]; try contradiction.
      * destruct K4 as (F & G1 & _). rewrite F. split; [reflexivity|split; [exact G1|split; [reflexivity|]]]. intros M. rewrite (K3 M). reflexivity.
      * rewrite K4. split; [reflexivity|split; [reflexivity|split; [reflexivity|]]]. intros M. rewrite (K3 M). reflexivity.
    + unfold timer_elapsed, timer_do_stop in E; cbn [tm_start tm_stop] in E.
      assert (D : Qltb (n1 - tm_start (tk_timer k)) 0 = false) by (apply Qltb_false; lra). rewrite D in E. injection E as <- _.
      apply (IH _ _ n3 x); auto; try lra; [|cbn -[Qle Qplus Qminus]; lra].
      unfold kept; rewrite X; cbn -[Qle Qplus Qminus]. split; [reflexivity|split; [exact K2|split; [exact K3|split; [exact K3'|]]]].
      destruct (firstEnd w) as [f|]; destruct (lastEnd w) as [[l d]|]; try contradiction.
      * destruct K4 as (F & G1 & _). rewrite F. split; [reflexivity|split; [exact G1|split; [reflexivity|]]]. intros M. rewrite (K3 M). reflexivity.
      * rewrite K4. split; [reflexivity|split; [reflexivity|split; [reflexivity|]]]. intros M. rewrite (K3 M). reflexivity.
  - destruct HC as (C1 & C2 & HC). cbn [note]. cbn [tk_step] in E. unfold timeSincePreviousSuccessfulSolve in E.
    pose proof K as KK. destruct K as (K1 & K2 & K3 & K3' & K4). rewrite K1 in E.
    destruct (tk_firstRun k) eqn:F.
    + injection E as <- _. apply (IH w k n x); auto; try lra; [revert Hs; destruct (ms_useExternalTiming s); intros; lra].
    + destruct (ms_useExternalTiming s) eqn:X; injection E as <- _; apply (IH w _ n x); auto; try lra; try (cbn -[Qle Qplus Qminus]; lra); unfold kept; cbn -[Qle Qplus Qminus]; rewrite X; auto 10.
Qed.

Theorem C23_forward_window : forall s h hs n1 n2 x T k' T' a b, clocks_ok 0 0 h -> Forall keepsSettings h ->
  let ext := ms_useExternalTiming s in
  computeNewTimings (snd (tk_run (tk_initialize (tk_new s)) h)) hs n1 n2 x T = Ok (k', T', a, b) ->
  (exists fin sinceFirst, computeNewTimeHorizon hs sinceFirst b = Ok (fin, T') /\
     sinceFirst == match firstEnd (noted ext h) with None => 0 | Some t => (if ext then x else n2) - t end) /\
  match lastEnd (noted ext h) with
  | None => a == Qmin T 0 /\ b == Qmin T 0
  | Some (t, took) => let since := (if ext then x else n1) - t in a == Qmin T since /\ b == Qmin T (since + bridged s took)
  end.
Proof.
  intros s h hs n1 n2 x T k' T' a b HC HF ext E.
  assert (K : kept s (noted ext h) (snd (tk_run (tk_initialize (tk_new s)) h))).
  { unfold noted, ext. apply (run_kept s h _ _ 0 0); auto; try lra.
    - unfold kept. cbn. destruct (ms_useExternalTiming s); cbn; repeat split; lra.
    - destruct (ms_useExternalTiming s); cbn; lra. }
  set (k := snd (tk_run (tk_initialize (tk_new s)) h)) in *. clearbody k.
  assert (MIN : forall u, (if Qltb T u then T else u) == Qmin T u).
  { intros u. destruct (Qltb T u) eqn:L; [apply Qltb_true in L; rewrite Q.min_l; lra|apply Qltb_false in L; rewrite Q.min_r; lra]. }
  destruct K as (K1 & K2 & K3 & _ & K4). unfold computeNewTimings, computeDelayToApply in E. rewrite K1, K2 in E. cbn [negb] in E.
  destruct (firstEnd (noted ext h)) as [f|]; destruct (lastEnd (noted ext h)) as [[l d]|]; try contradiction.
  - destruct K4 as (F & F1 & F2 & F3). rewrite F in E. cbn [negb] in E. fold ext in F1, F2, E. 
    assert (BR : (let fixed := us * inject_Z (ms_additionalDelayUs s) in
      if ms_measureDelay s then fixed + ms_multiplier s * tk_lastDelay k else (fixed + us * inject_Z (ms_fixedDelayUs s)) + 0) == bridged s d).
    { unfold bridged, us. assert (MU : micro == 1 # 1000000) by reflexivity. destruct (ms_measureDelay s); rewrite MU; [rewrite (F3 eq_refl); ring|ring]. }
    cbv zeta in BR.
    destruct ext; cbv beta iota in E; match type of E with context [computeNewTimeHorizon hs ?u ?v] =>
      destruct (computeNewTimeHorizon hs u v) as [[fin T1]| |] eqn:EH end; cbn [obind fst snd] in E; try discriminate;
    injection E as _ <- <- <-;
    (split; [eexists; eexists; split; [exact EH|unfold timer_elapsed; cbn; rewrite F1; reflexivity]|]);
    unfold timer_elapsed, timer_do_stop in *; cbn [tm_start tm_stop] in *; rewrite F2 in *; cbv zeta; rewrite !MIN, BR; split; reflexivity.
  - rewrite K4 in E. cbn [negb] in E. cbv beta iota in E.
    match type of E with context [computeNewTimeHorizon hs ?u ?v] => destruct (computeNewTimeHorizon hs u v) as [[fin T1]| |] eqn:EH end; cbn [obind fst snd] in E; try discriminate.
    injection E as _ <- <- <-. split; [exists fin, 0; split; [exact EH|reflexivity]|]. rewrite MIN. split; reflexivity.
Qed.
Example forward_window_case :
  let s := mk_mpcs true (1#1000) true (7#10) 0 10000 false ConstantReceding 1 false false in
  let h := [TkTimings (mk_hs ConstantReceding 1 3) 10 10 0 3; TkStart 10 0; TkStop 12 12 12 0; TkStart 14 0; TkStop (29#2) 15 15 0] in
  clocks_ok 0 0 h /\ Forall keepsSettings h /\ lastEnd (noted false h) = Some (15, (29#2) - 14) /\
  exists k' T' a b, computeNewTimings (snd (tk_run (tk_initialize (tk_new s)) h)) (mk_hs ConstantReceding 1 3) 16 16 0 3 = Ok (k', T', a, b) /\ a < b /\ b < 3.
Proof.
  cbv zeta. split; [cbn; repeat split; lra|]. split; [repeat constructor|]. split; [reflexivity|].
  do 4 eexists. split; [vm_compute; reflexivity|split; vm_compute; reflexivity].
Qed.
Print Assumptions C23_forward_window.
