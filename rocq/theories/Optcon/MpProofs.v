(** Proofs about the worker pool. *)
From Coq Require Import List Arith Bool Permutation Lia.
From Verif.Optcon Require Import MpModel MpSpec.
Import ListNotations.

Lemma upd_split {A} (l : list A) i w : nth_error l i = Some w ->
  exists l1 l2, l = l1 ++ w :: l2 /\ length l1 = i /\ forall v, upd l i v = l1 ++ v :: l2.
Proof.
  revert i; induction l as [|a l IH]; intros [|i] H; cbn in H; try discriminate.
  - injection H as <-. exists [], l. auto.
  - destruct (IH i H) as (l1 & l2 & E & Hl & Hu). exists (a :: l1), l2. subst l. repeat split.
    + cbn. congruence.
    + intros v. cbn. now rewrite Hu.
Qed.

Ltac flds := cbn [s_taken s_completed s_max s_min s_task s_pid s_lock s_main s_workers s_data s_log
  set_taken set_completed set_max set_min set_task set_pid set_lock set_main set_workers set_data].

Section MpProofs.
Variable D : Type.
Variable micro direct : kind -> nat -> list (D -> D).
Notation st := (st D).

(** Replaying a log on the data. *)
Fixpoint replay (l : list (kind * nat * nat)) (d : D) : D :=
  match l with
  | [] => d
  | (kd, idx, j) :: l => replay l (match nth_error (micro kd idx) j with Some f => f d | None => d end)
  end.

Lemma replay_app l l' d : replay (l ++ l') d = replay l' (replay l d).
Proof. revert d; induction l as [|[[kd i] j] l IH]; intro d; cbn; auto. Qed.

Lemma events_app l l' i : stage_events (l ++ l') i = stage_events l i ++ stage_events l' i.
Proof. apply filter_app. Qed.

Variable t : task.
Variable ts : list task.
Notation kd := (tk_kind t).
Notation mx := (tk_max t).
Notation mn := (tk_min t).
Notation N := (S (tk_max t - tk_min t)).
Hypothesis Hrange : mn <= mx.
Variable l0 : list (kind * nat * nat).
Variable d0 : D.

Definition full (idx : nat) := map (fun j => (kd, idx, j)) (seq 0 (length (micro kd idx))).

Definition own (w : worker) : list nat :=
  match w_pc w with
  | WHave _ _ k => if k <? N then [k] else []
  | WWork _ _ idx _ => [mx - idx]
  | _ => []
  end.
Definition cnt (w : worker) : nat := match w_pc w with WCount _ _ => 1 | _ => 0 end.

(** In the posted phase a worker only carries the current task. *)
Definition okw (w : worker) : Prop :=
  match w_pc w with
  | WLoaded (Some k) _ | WDispatch (Some k) _ => k = kd
  | WTake k _ | WCount k _ => k = kd
  | WHave k _ _ => k = kd
  | WWork k _ idx _ => k = kd /\ mn <= idx <= mx
  | _ => True
  end.
Definition wlog (l1 : list (kind * nat * nat)) (w : worker) : Prop :=
  match w_pc w with
  | WHave _ _ k => k < N -> stage_events l1 (mx - k) = []
  | WWork _ _ idx j => stage_events l1 idx = map (fun j => (kd, idx, j)) (seq 0 j) /\ j <= length (micro kd idx)
  | _ => True
  end.

Definition total (f : worker -> nat) (ws : list worker) : nat := list_sum (map f ws).

Record work (s : st) (l1 : list (kind * nat * nat)) (fin : list nat) : Prop := MkWork {
  wk_max : s_max s = mx;
  wk_min : s_min s = mn;
  wk_log : s_log s = l0 ++ l1;
  wk_data : s_data s = replay l1 d0;
  wk_ok : Forall okw (s_workers s);
  wk_perm : Permutation (seq 0 (min (s_taken s) N)) (concat (map own (s_workers s)) ++ fin);
  wk_count : s_completed s + total cnt (s_workers s) = length fin;
  wk_fin : forall k, In k fin -> stage_events l1 (mx - k) = full (mx - k);
  wk_wlog : Forall (wlog l1) (s_workers s);
  wk_untaken : forall k, s_taken s <= k -> k < N -> stage_events l1 (mx - k) = [];
  wk_out : forall idx, ~ (mn <= idx <= mx) -> stage_events l1 idx = []
}.

(** A worker change that touches neither ownership nor the log. *)
Lemma total_app f ws ws' : total f (ws ++ ws') = total f ws + total f ws'.
Proof. unfold total. rewrite map_app. now rewrite list_sum_app. Qed.

Lemma total_cons f w ws : total f (w :: ws) = f w + total f ws.
Proof. reflexivity. Qed.

Lemma Forall_mid {A} (P : A -> Prop) l1 w l2 : Forall P (l1 ++ w :: l2) <-> Forall P l1 /\ P w /\ Forall P l2.
Proof. rewrite Forall_app. split; intros H; decompose [and] H; [inversion H1; subst; auto|]. split; auto. Qed.

Lemma range_perm_length s l1 fin : work s l1 fin -> s_completed s > mx - mn ->
  Permutation (seq 0 N) fin /\ (forall w, In w (s_workers s) -> own w = []) /\ N <= s_taken s.
Proof.
  intros W Hc. pose proof (Permutation_length (wk_perm _ _ _ W)) as HL.
  rewrite seq_length, app_length in HL. pose proof (wk_count _ _ _ W) as HC.
  assert (Hfin : N <= length fin) by lia.
  assert (Hm : min (s_taken s) N = N) by lia.
  assert (H0 : length (concat (map own (s_workers s))) = 0) by lia.
  apply length_zero_iff_nil in H0.
  split; [|split].
  - pose proof (wk_perm _ _ _ W) as P. now rewrite Hm, H0 in P.
  - intros w Hw. apply in_split in Hw. destruct Hw as (a & b & E). rewrite E in H0.
    rewrite map_app, concat_app in H0. cbn in H0. apply app_eq_nil in H0. destruct H0 as [_ H0].
    now apply app_eq_nil in H0.
  - lia.
Qed.

Lemma work_done s l1 fin : work s l1 fin -> s_completed s > mx - mn ->
  forall idx, (mn <= idx <= mx -> stage_events l1 idx = full idx) /\ (~ (mn <= idx <= mx) -> stage_events l1 idx = []).
Proof.
  intros W Hc idx. split; [|apply (wk_out _ _ _ W)].
  intros Hi. destruct (range_perm_length _ _ _ W Hc) as [P _].
  assert (Hin : In (mx - idx) fin).
  { apply (Permutation_in _ P). apply in_seq. lia. }
  pose proof (wk_fin _ _ _ W _ Hin) as H. now replace (mx - (mx - idx)) with idx in H by lia.
Qed.

(** Steps of a worker that only move its position between states owning nothing. *)
Lemma work_move s l1 fin i w w' :
  work s l1 fin -> nth_error (s_workers s) i = Some w ->
  own w' = own w -> cnt w' = cnt w -> okw w' -> wlog l1 w' ->
  work (set_workers (upd (s_workers s) i w') s) l1 fin.
Proof.
  intros W Hn Ho Hc Hok Hwl. destruct (upd_split _ _ _ Hn) as (a & b & E & _ & Hu).
  destruct W as [W1 W2 W3 W4 W5 W6 W7 W8 W9 W10 W11].
  rewrite E in W5, W6, W7, W9.
  constructor; flds; auto; rewrite Hu.
  - apply Forall_mid in W5. apply Forall_mid. tauto.
  - rewrite !map_app, !concat_app in *. cbn [map concat] in *. now rewrite Ho.
  - rewrite total_app, total_cons in *. now rewrite Hc.
  - apply Forall_mid in W9. apply Forall_mid. tauto.
Qed.

Lemma work_lock s l1 fin v : work s l1 fin -> work (set_lock v s) l1 fin.
Proof. intros [W1 W2 W3 W4 W5 W6 W7 W8 W9 W10 W11]; constructor; auto. Qed.
Lemma work_main s l1 fin v : work s l1 fin -> work (set_main v s) l1 fin.
Proof. intros [W1 W2 W3 W4 W5 W6 W7 W8 W9 W10 W11]; constructor; auto. Qed.
Lemma work_task s l1 fin v : work s l1 fin -> work (set_task v s) l1 fin.
Proof. intros [W1 W2 W3 W4 W5 W6 W7 W8 W9 W10 W11]; constructor; auto. Qed.

Lemma work_wake s l1 fin : work s l1 fin -> work (set_workers (map wake (s_workers s)) s) l1 fin.
Proof.
  intros [W1 W2 W3 W4 W5 W6 W7 W8 W9 W10 W11].
  assert (Hown : forall w, own (wake w) = own w) by (intros [[] u]; reflexivity).
  assert (Hcnt : forall w, cnt (wake w) = cnt w) by (intros [[] u]; reflexivity).
  constructor; flds; auto.
  - apply Forall_map. eapply Forall_impl; [|exact W5]. intros [[] u]; cbn; auto.
  - rewrite map_map. now rewrite (map_ext _ _ Hown).
  - unfold total in *. rewrite map_map. now rewrite (map_ext _ _ Hcnt).
  - apply Forall_map. eapply Forall_impl; [|exact W9]. intros [[] u]; cbn; auto.
Qed.

(** Taking an index. *)
Lemma work_take s l1 fin i p u :
  work s l1 fin -> nth_error (s_workers s) i = Some (MkWorker (WTake kd p) u) ->
  work (set_taken (S (s_taken s)) (set_workers (upd (s_workers s) i (MkWorker (WHave kd p (s_taken s)) u)) s)) l1 fin.
Proof.
  intros W Hn. destruct (upd_split _ _ _ Hn) as (a & b & E & _ & Hu).
  destruct W as [W1 W2 W3 W4 W5 W6 W7 W8 W9 W10 W11].
  rewrite E in W5, W6, W7, W9.
  constructor; flds; auto; rewrite ?Hu.
  - apply Forall_mid in W5. apply Forall_mid. cbn. tauto.
  - rewrite map_app, concat_app in W6 |- *. cbn -[Nat.min Nat.ltb] in W6 |- *. unfold own at 2; cbn -[Nat.min Nat.ltb].
    destruct (Nat.ltb_spec (s_taken s) N) as [Hlt|Hge].
    + replace (min (S (s_taken s)) N) with (S (s_taken s)) by lia.
      replace (min (s_taken s) N) with (s_taken s) in W6 by lia.
      rewrite seq_S. cbn [plus].
      rewrite (Permutation_app_comm (seq 0 (s_taken s)) [s_taken s]). cbn [app].
      rewrite W6. rewrite <- !app_assoc. apply Permutation_middle.
    + replace (min (S (s_taken s)) N) with N by lia. replace (min (s_taken s) N) with N in W6 by lia. exact W6.
  - rewrite total_app, total_cons in *. cbn [cnt w_pc length] in *. lia.
  - apply Forall_mid in W9. apply Forall_mid. cbn. intuition.
  - intros k H1 H2. apply W10; lia.
Qed.

(** Starting work on an index in range. *)
Lemma work_start s l1 fin i p k u :
  work s l1 fin -> nth_error (s_workers s) i = Some (MkWorker (WHave kd p k) u) -> k < N ->
  work (set_workers (upd (s_workers s) i (MkWorker (WWork kd p (mx - k) 0) u)) s) l1 fin.
Proof.
  intros W Hn Hk. eapply work_move; eauto; cbn -[Nat.ltb].
  - unfold own. cbn -[Nat.ltb]. destruct (Nat.ltb_spec k N); [|lia]. f_equal. lia.
  - split; auto; lia.
  - unfold wlog; cbn. split; [|lia].
    pose proof (wk_wlog _ _ _ W) as H. rewrite Forall_forall in H. specialize (H _ (nth_error_In _ _ Hn)).
    cbn in H. apply H. exact Hk.
Qed.

Lemma work_skip s l1 fin i p k u :
  work s l1 fin -> nth_error (s_workers s) i = Some (MkWorker (WHave kd p k) u) -> N <= k ->
  work (set_workers (upd (s_workers s) i (MkWorker (WNotify kd p) u)) s) l1 fin.
Proof.
  intros W Hn Hk. eapply work_move; eauto; cbn -[Nat.ltb]; auto.
  - unfold own. cbn -[Nat.ltb]. destruct (Nat.ltb_spec k N); [lia|]. reflexivity.
Qed.

Lemma nodup_own s l1 fin : work s l1 fin -> NoDup (concat (map own (s_workers s)) ++ fin).
Proof. intros W. eapply Permutation_NoDup; [exact (wk_perm _ _ _ W)|apply seq_NoDup]. Qed.

Lemma own_lt s l1 fin k : work s l1 fin -> In k (concat (map own (s_workers s)) ++ fin) -> k < s_taken s /\ k < N.
Proof. intros W H. apply (Permutation_in _ (Permutation_sym (wk_perm _ _ _ W))) in H. apply in_seq in H. lia. Qed.

(** An elementary update. *)
Lemma work_micro s l1 fin i p idx j u f :
  work s l1 fin -> nth_error (s_workers s) i = Some (MkWorker (WWork kd p idx j) u) ->
  nth_error (micro kd idx) j = Some f ->
  work (set_data (f (s_data s)) (s_log s ++ [(kd, idx, j)])
         (set_workers (upd (s_workers s) i (MkWorker (WWork kd p idx (S j)) u)) s)) (l1 ++ [(kd, idx, j)]) fin.
Proof.
  intros W Hn Hf. pose proof (nodup_own _ _ _ W) as ND.
  destruct (upd_split _ _ _ Hn) as (a & b & E & _ & Hu).
  destruct W as [W1 W2 W3 W4 W5 W6 W7 W8 W9 W10 W11].
  rewrite E in W5, W6, W7, W9, ND.
  assert (Hw : wlog l1 (MkWorker (WWork kd p idx j) u)) by (apply Forall_mid in W9; tauto).
  assert (Ho : okw (MkWorker (WWork kd p idx j) u)) by (apply Forall_mid in W5; tauto).
  cbn in Hw, Ho. destruct Hw as [Hlog Hj]. destruct Ho as [_ Hidx].
  assert (Hown : In (mx - idx) (seq 0 (min (s_taken s) N))).
  { apply (Permutation_in _ (Permutation_sym W6)). rewrite map_app, concat_app. cbn.
    rewrite !in_app_iff. cbn. tauto. }
  apply in_seq in Hown.
  rewrite map_app, concat_app in ND. cbn [map concat own w_pc] in ND.
  unfold own at 2 in ND; cbn [w_pc app] in ND. rewrite <- app_assoc in ND. cbn [app] in ND.
  apply NoDup_remove_2 in ND. rewrite !in_app_iff in ND.
  assert (Hother : forall idx', idx' <> idx -> stage_events (l1 ++ [(kd, idx, j)]) idx' = stage_events l1 idx').
  { intros idx' Hne. rewrite events_app. cbn. destruct (Nat.eqb_spec idx idx'); [congruence|]. apply app_nil_r. }
  assert (Hwl : forall w, In w a \/ In w b -> wlog l1 w -> okw w -> wlog (l1 ++ [(kd, idx, j)]) w).
  { intros w Hin. assert (Hno : ~ In (mx - idx) (own w)).
    { intros Hi. apply ND. destruct Hin as [Hin|Hin]; [left|right; left].
      - apply in_concat. exists (own w). split; [now apply in_map|exact Hi].
      - apply in_concat. exists (own w). split; [now apply in_map|exact Hi]. }
    destruct w as [[] u']; cbn -[Nat.ltb] in *; auto.
    - unfold own in Hno; cbn -[Nat.ltb] in Hno. unfold wlog; cbn. intros H Hk HkN. rewrite Hother; [auto|].
      destruct (Nat.ltb_spec k N); [|lia]. intros Heq. apply Hno. left. lia.
    - unfold wlog; cbn. intros [H1 H2] [H3 H4]. rewrite Hother; [auto|]. intros ->. apply Hno. left. reflexivity. }
  constructor; flds; auto; rewrite ?Hu.
  - rewrite W3. now rewrite app_assoc.
  - rewrite W4, replay_app. cbn. now rewrite Hf.
  - apply Forall_mid in W5. apply Forall_mid. cbn. tauto.
  - rewrite map_app, concat_app in *. exact W6.
  - rewrite total_app, total_cons in *. exact W7.
  - intros k Hk. rewrite Hother; auto. intros Heq. apply ND. right. right.
    assert (k < N). { assert (In k (seq 0 (min (s_taken s) N))).
      { apply (Permutation_in _ (Permutation_sym W6)). apply in_app_iff. now right. } apply in_seq in H. lia. }
    replace (mx - idx) with k by lia. exact Hk.
  - apply Forall_mid in W9. apply Forall_mid in W5. apply Forall_mid. destruct W9 as (A1 & _ & A3), W5 as (B1 & _ & B3).
    rewrite !Forall_forall in *. repeat split; auto.
    + rewrite events_app, Hlog, seq_S, map_app. cbn. now rewrite Nat.eqb_refl.
    + cbn. assert (j < length (micro kd idx)); [|lia]. apply nth_error_Some. congruence.
  - intros k H1 H2. rewrite Hother; auto. lia.
  - intros idx' H. rewrite Hother; auto. intros ->. tauto.
Qed.

(** The last elementary update was done. *)
Lemma work_finish s l1 fin i p idx j u :
  work s l1 fin -> nth_error (s_workers s) i = Some (MkWorker (WWork kd p idx j) u) ->
  nth_error (micro kd idx) j = None ->
  work (set_workers (upd (s_workers s) i (MkWorker (WCount kd p) u)) s) l1 ((mx - idx) :: fin).
Proof.
  intros W Hn Hf.
  destruct (upd_split _ _ _ Hn) as (a & b & E & _ & Hu).
  destruct W as [W1 W2 W3 W4 W5 W6 W7 W8 W9 W10 W11].
  rewrite E in W5, W6, W7, W9.
  assert (Hw : wlog l1 (MkWorker (WWork kd p idx j) u)) by (apply Forall_mid in W9; tauto).
  assert (Ho : okw (MkWorker (WWork kd p idx j) u)) by (apply Forall_mid in W5; tauto).
  cbn in Hw, Ho. destruct Hw as [Hlog Hj]. destruct Ho as [_ Hidx].
  apply nth_error_None in Hf.
  constructor; flds; auto; rewrite ?Hu.
  - apply Forall_mid in W5. apply Forall_mid. cbn. tauto.
  - rewrite W6. rewrite !map_app, !concat_app. cbn. rewrite <- !app_assoc. cbn.
    apply Permutation_app_head. apply Permutation_middle.
  - rewrite total_app, total_cons in *. cbn [cnt w_pc length] in *. lia.
  - intros k [<-|Hk]; auto. replace (mx - (mx - idx)) with idx by lia. rewrite Hlog. unfold full.
    now replace j with (length (micro kd idx)) by lia.
  - apply Forall_mid in W9. apply Forall_mid. cbn. tauto.
Qed.

Lemma work_count s l1 fin i p u :
  work s l1 fin -> nth_error (s_workers s) i = Some (MkWorker (WCount kd p) u) ->
  work (set_completed (S (s_completed s)) (set_workers (upd (s_workers s) i (MkWorker (WTake kd p) u)) s)) l1 fin.
Proof.
  intros W Hn.
  destruct (upd_split _ _ _ Hn) as (a & b & E & _ & Hu).
  destruct W as [W1 W2 W3 W4 W5 W6 W7 W8 W9 W10 W11].
  rewrite E in W5, W6, W7, W9.
  constructor; flds; auto; rewrite ?Hu.
  - apply Forall_mid in W5. apply Forall_mid. cbn. tauto.
  - rewrite map_app, concat_app in *. exact W6.
  - rewrite total_app, total_cons in *. cbn [cnt w_pc length] in *. lia.
  - apply Forall_mid in W9. apply Forall_mid. cbn. tauto.
Qed.

(** A worker step in the posted phase. *)
Definition task_ok (s : st) : Prop := s_task s = None \/ s_task s = Some kd.

Lemma work_worker s l1 fin i s' : work s l1 fin -> task_ok s -> worker_next micro i s = Some s' ->
  (exists l1' fin', work s' l1' fin') /\ s_task s' = s_task s /\ s_completed s <= s_completed s' /\
  s_pid s' = s_pid s /\
  (s_main s' = s_main s \/ exists ts', s_main s = MSleep ts' /\ s_main s' = MCheck ts').
Proof.
  intros W Ht. unfold worker_next. destruct (nth_error (s_workers s) i) as [w|] eqn:Hn; [|discriminate].
  assert (Hok : okw w) by (pose proof (wk_ok _ _ _ W) as H; rewrite Forall_forall in H; apply H; eapply nth_error_In; eauto).
  assert (Hwl : wlog l1 w) by (pose proof (wk_wlog _ _ _ W) as H; rewrite Forall_forall in H; apply H; eapply nth_error_In; eauto).
  destruct w as [pc u]. cbn [w_pc w_uid]. destruct pc as [|t0 p| | | | | |t0 p|k0 p|k0 p k|k0 p idx j|k0 p|k0 p|k0 p|k0 p]; intros E; cbn in Hok.
  - injection E as <-. cbn. repeat split; auto. exists l1, fin. eapply work_move; eauto; cbn; auto.
    destruct Ht as [-> | ->]; auto.
  - injection E as <-. cbn. repeat split; auto. exists l1, fin. eapply work_move; eauto; cbn; auto;
      destruct (must_sleep _ _ _); cbn; auto.
  - destruct (s_lock s); [discriminate|]. injection E as <-. cbn. repeat split; auto. exists l1, fin.
    apply work_lock. eapply work_move; eauto; cbn; auto.
  - destruct (must_sleep _ _ _); injection E as <-; cbn; repeat split; auto; exists l1, fin; try apply work_lock;
      eapply work_move; eauto; cbn; auto.
  - injection E as <-. cbn. repeat split; auto. exists l1, fin. apply work_lock. eapply work_move; eauto; cbn; auto.
  - discriminate.
  - injection E as <-. cbn. repeat split; auto. exists l1, fin. eapply work_move; eauto; cbn; auto.
    destruct Ht as [-> | ->]; auto.
  - destruct t0 as [k|]; injection E as <-; cbn; repeat split; auto; exists l1, fin; eapply work_move; eauto; cbn; auto.
  - subst. injection E as <-. cbn. repeat split; auto. exists l1, fin. now apply work_take.
  - subst. destruct (Nat.ltb_spec (s_max s - s_min s) k) as [H|H]; injection E as <-; cbn; repeat split; auto; exists l1, fin;
      rewrite (wk_max _ _ _ W) in *; rewrite (wk_min _ _ _ W) in *.
    + eapply work_skip; eauto.
    + eapply work_start; eauto. lia.
  - destruct Hok as [-> Hi]. destruct (nth_error (micro kd idx) j) as [f|] eqn:Hf; injection E as <-; cbn; repeat split; auto.
    + exists (l1 ++ [(kd, idx, j)]), fin. now apply work_micro.
    + exists l1, ((mx - idx) :: fin). eapply work_finish; eauto.
  - subst. injection E as <-. cbn. repeat split; auto. exists l1, fin. now apply work_count.
  - destruct (all_completed s); injection E as <-; cbn; repeat split; auto; exists l1, fin; eapply work_move; eauto; cbn; auto.
  - injection E as <-.
    assert (W' : work (set_workers (upd (s_workers s) i (MkWorker (WEnd k0 p) u)) s) l1 fin) by (eapply work_move; eauto; cbn; auto).
    destruct (s_main s) eqn:Hm; cbn; repeat split; auto; try (exists l1, fin; try apply work_main; exact W'). eauto.
  - injection E as <-. cbn. repeat split; auto. exists l1, fin. eapply work_move; eauto; cbn; auto.
Qed.

(** Resting workers stay at rest while the task is IDLE. *)
Lemma rest_step s i s' : Forall at_rest (s_workers s) -> s_task s = None -> worker_next micro i s = Some s' ->
  Forall at_rest (s_workers s') /\ s_task s' = None /\ s_log s' = s_log s /\ s_data s' = s_data s /\
  s_taken s' = s_taken s /\ s_completed s' = s_completed s /\ s_max s' = s_max s /\ s_min s' = s_min s /\
  (s_main s' = s_main s \/ exists ts', s_main s = MSleep ts').
Proof.
  intros HR Ht. unfold worker_next. destruct (nth_error (s_workers s) i) as [w|] eqn:Hn; [|discriminate].
  destruct (upd_split _ _ _ Hn) as (a & b & E & _ & Hu).
  assert (Hw : at_rest w) by (rewrite Forall_forall in HR; apply HR; eapply nth_error_In; eauto).
  assert (Hrest : forall w', at_rest w' -> Forall at_rest (upd (s_workers s) i w')).
  { intros w' Hw'. rewrite Hu. rewrite E in HR. apply Forall_mid in HR. apply Forall_mid. tauto. }
  destruct w as [pc u]. cbn [w_pc w_uid]. destruct pc; cbn in Hw; try contradiction; intros EE;
    rewrite ?Ht in EE; cbn in EE; try discriminate.
  - injection EE as <-; cbn; repeat split; auto. 
  - destruct t0; [contradiction|]. injection EE as <-. cbn. repeat split; auto.
  - destruct (s_lock s); [discriminate|]. injection EE as <-. cbn. repeat split; auto.
  - injection EE as <-; cbn; repeat split; auto.
  - injection EE as <-; cbn; repeat split; auto.
  - injection EE as <-; cbn; repeat split; auto.
  - destruct t0; [contradiction|]. injection EE as <-; cbn; repeat split; auto.
  - apply (f_equal (fun o => match o with Some x => x | None => s end)) in EE. subst s'. flds. repeat split; auto.
    apply Hrest. match goal with |- context[if ?b then _ else _] => destruct b end; exact I.
  - injection EE as <-. destruct (s_main s) eqn:Hm; cbn; repeat split; auto; try (apply Hrest; exact I). eauto.
  - injection EE as <-; cbn; repeat split; auto.
Qed.

Hypothesis Hmulti : mn < mx.

(** Number of things the main thread still has to do, in half calls. *)
Definition left_ (m : mpc) : nat :=
  match m with
  | MIdle l => 2 * length l
  | MSetTaken _ l | MSetCompleted _ l | MSetMax _ l | MSetMin _ l | MSetTask _ l
  | MNotify l | MCheck l | MBlock l | MSleep l | MReset l => 2 * length l + 1
  end.

Inductive phase (s : st) : Prop :=
| Pre : Forall at_rest (s_workers s) -> s_task s = None -> s_log s = l0 -> s_data s = d0 ->
    (s_main s = MIdle (t :: ts) \/ s_main s = MSetTaken t ts \/
     (s_main s = MSetCompleted t ts /\ s_taken s = 0) \/
     (s_main s = MSetMax t ts /\ s_taken s = 0 /\ s_completed s = 0) \/
     (s_main s = MSetMin t ts /\ s_taken s = 0 /\ s_completed s = 0 /\ s_max s = mx) \/
     (s_main s = MSetTask t ts /\ s_taken s = 0 /\ s_completed s = 0 /\ s_max s = mx /\ s_min s = mn)) -> phase s
| Post l1 fin : work s l1 fin -> s_task s = Some kd ->
    (s_main s = MNotify ts \/ s_main s = MCheck ts \/ s_main s = MBlock ts \/ s_main s = MSleep ts \/
     (s_main s = MReset ts /\ s_completed s > mx - mn)) -> phase s
| Fin l1 fin : work s l1 fin -> s_task s = None -> s_main s = MIdle ts -> s_completed s > mx - mn -> phase s
| Later : left_ (s_main s) < 2 * length ts -> phase s.

Lemma rest_ok w : at_rest w -> okw w /\ own w = [] /\ cnt w = 0 /\ forall l1, wlog l1 w.
Proof. destruct w as [[] u]; cbn; try contradiction; auto; destruct t0; try contradiction; auto. Qed.

Lemma work_init s : Forall at_rest (s_workers s) -> s_log s = l0 -> s_data s = d0 -> s_taken s = 0 ->
  s_completed s = 0 -> s_max s = mx -> s_min s = mn -> work s [] [].
Proof.
  intros HR Hl Hd H1 H2 H3 H4. rewrite Forall_forall in HR.
  constructor; auto.
  - now rewrite app_nil_r.
  - apply Forall_forall. intros w Hw. apply rest_ok; auto.
  - rewrite H1. cbn. rewrite app_nil_r. replace (concat (map own (s_workers s))) with (@nil nat); [constructor|].
    induction (s_workers s) as [|w ws IH]; cbn; auto. destruct (rest_ok w) as (_ & -> & _); [apply HR; now left|].
    apply IH. intros; apply HR; now right.
  - rewrite H2. cbn. induction (s_workers s) as [|w ws IH]; cbn; auto. unfold total; cbn.
    destruct (rest_ok w) as (_ & _ & -> & _); [apply HR; now left|]. apply IH. intros; apply HR; now right.
  - intros k [].
  - apply Forall_forall. intros w Hw. apply rest_ok; auto.
Qed.

Lemma left_worker s i s' : worker_next micro i s = Some s' -> left_ (s_main s') = left_ (s_main s).
Proof.
  unfold worker_next. destruct (nth_error (s_workers s) i) as [[pc u]|]; [|discriminate]. cbn.
  destruct pc; intros E; try (injection E as <-; reflexivity); try discriminate.
  - destruct (s_lock s); [discriminate|]; now injection E as <-.
  - destruct (must_sleep _ _ _); now injection E as <-.
  - destruct t0; now injection E as <-.
  - destruct (nth_error _ j); now injection E as <-.
  - injection E as <-. destruct (s_main s) eqn:Hm; cbn; rewrite ?Hm; reflexivity.
Qed.

Lemma left_main s s' : main_next direct s = Some s' -> left_ (s_main s') <= left_ (s_main s).
Proof.
  unfold main_next. destruct (s_main s) eqn:Hm; intros E; try (injection E as <-; cbn; lia); try discriminate.
  - destruct ts0 as [|t0 ts0]; [discriminate|]. destruct (tk_min t0 =? tk_max t0); injection E as <-; cbn; lia.
  - injection E as <-. flds. destruct (all_completed s); cbn; lia.
Qed.

Lemma phase_step e s s' : phase s -> step micro direct e s = Some s' -> phase s'.
Proof.
  intros HP. destruct e as [|i| |i]; cbn.
  - (* main *)
    destruct HP as [HR Ht Hl Hd Hm|l1 fin W Ht Hm|l1 fin W Ht Hm Hc|Hm].
    + unfold main_next.
      decompose [or and] Hm; clear Hm;
        match goal with H : s_main s = _ |- _ => rewrite H end; intros E.
      * destruct (Nat.eqb_spec mn mx); [lia|]. injection E as <-. apply Pre; cbn; auto.
      * injection E as <-. apply Pre; cbn; auto.
      * injection E as <-. apply Pre; cbn; auto 10.
      * injection E as <-. apply Pre; cbn; auto 10.
      * injection E as <-. apply Pre; cbn; auto 10.
      * injection E as <-. apply (Post _ [] []); cbn; auto. apply work_main, work_task, work_init; auto.
    + unfold main_next.
      decompose [or and] Hm; clear Hm;
        match goal with H : s_main s = _ |- _ => rewrite H end; intros E; try discriminate.
      * injection E as <-. apply (Post _ l1 fin); cbn; auto. apply work_main, work_wake; auto.
      * injection E as <-. apply (Post _ l1 fin); flds; auto; [now apply work_main|].
        destruct (all_completed s) eqn:Hac; auto. unfold all_completed in Hac. apply Nat.ltb_lt in Hac.
        rewrite (wk_max _ _ _ W), (wk_min _ _ _ W) in Hac. auto 10.
      * injection E as <-. apply (Post _ l1 fin); cbn; auto. now apply work_main.
      * injection E as <-. apply (Fin _ l1 fin); cbn; auto. apply work_main, work_task; auto.
    + intros E. assert (Hlt : left_ (s_main s') < left_ (s_main s) \/ exists t0 ts0, ts = t0 :: ts0 /\ left_ (s_main s') < 2 * length ts).
      { unfold main_next in E. rewrite Hm in E. destruct ts as [|t0 ts0]; [discriminate|].
        destruct (tk_min t0 =? tk_max t0); injection E as <-; cbn; right; exists t0, ts0; split; auto; cbn; lia. }
      apply Later. destruct Hlt as [H|(? & ? & _ & H)]; auto. rewrite Hm in H. exact H.
    + intros E. apply Later. pose proof (left_main _ _ E). lia.
  - (* worker *)
    intros E. destruct HP as [HR Ht Hl Hd Hm|l1 fin W Ht Hm|l1 fin W Ht Hm Hc|Hm].
    + destruct (rest_step _ _ _ HR Ht E) as (A1 & A2 & A3 & A4 & A5 & A6 & A7 & A8 & A9).
      assert (A10 : s_main s' = s_main s).
      { destruct A9 as [A9|(ts' & A9)]; auto. rewrite A9 in Hm. decompose [or and] Hm; discriminate. }
      apply Pre; try congruence.
    + destruct (work_worker _ _ _ _ _ W (or_intror Ht) E) as ((l1' & fin' & W') & B1 & B2 & _ & B3).
      apply (Post _ l1' fin'); auto; try congruence.
      destruct B3 as [B3|(ts' & B3 & B4)].
      * rewrite B3. decompose [or and] Hm; auto 10. right; right; right; right. split; auto; lia.
      * rewrite B3 in Hm. rewrite B4. decompose [or and] Hm; try discriminate. match goal with H : MSleep _ = MSleep _ |- _ => injection H as -> end. auto.
    + destruct (work_worker _ _ _ _ _ W (or_introl Ht) E) as ((l1' & fin' & W') & B1 & B2 & _ & B3).
      apply (Fin _ l1' fin'); auto; try congruence; try lia.
      destruct B3 as [B3|(ts' & B3 & B4)]; congruence.
    + apply Later. now rewrite (left_worker _ _ _ E).
  - (* spurious wake-up of the main thread *)
    destruct (s_main s) eqn:Hm; try discriminate. intros E. injection E as <-.
    destruct HP as [HR Ht Hl Hd Hm'|l1 fin W Ht Hm'|l1 fin W Ht Hm' Hc|Hm'].
    + rewrite Hm in Hm'. decompose [or and] Hm'; discriminate.
    + apply (Post _ l1 fin); cbn; auto; [now apply work_main|]. rewrite Hm in Hm'.
      decompose [or and] Hm'; try discriminate. match goal with H : MSleep _ = MSleep _ |- _ => injection H as -> end. auto.
    + congruence.
    + apply Later. cbn. rewrite Hm in Hm'. exact Hm'.
  - (* spurious wake-up of a worker *)
    destruct (nth_error (s_workers s) i) as [[pc u]|] eqn:Hn; [|discriminate].
    cbn. destruct pc; try discriminate. intros E. injection E as <-.
    destruct HP as [HR Ht Hl Hd Hm'|l1 fin W Ht Hm'|l1 fin W Ht Hm' Hc|Hm'].
    + apply Pre; cbn; auto. destruct (upd_split _ _ _ Hn) as (a & b & E & _ & Hu). rewrite Hu. rewrite E in HR.
      apply Forall_mid in HR. apply Forall_mid. cbn. tauto.
    + apply (Post _ l1 fin); cbn; auto. eapply work_move; eauto; cbn; auto.
    + apply (Fin _ l1 fin); cbn; auto. eapply work_move; eauto; cbn; auto.
    + apply Later. exact Hm'.
Qed.

Lemma phase_run sch s s' : phase s -> run micro direct sch s = Some s' -> phase s'.
Proof.
  revert s. induction sch as [|e sch IH]; intros s HP; cbn.
  - intros E. now injection E as <-.
  - destruct (step micro direct e s) as [s1|] eqn:E; [|discriminate]. apply IH. eapply phase_step; eauto.
Qed.
End MpProofs.
