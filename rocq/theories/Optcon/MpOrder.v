(** From "every stage exactly once" to "same result as the sequential loop". *)
From Coq Require Import List Arith Bool Permutation Lia.
From Verif.Optcon Require Import MpModel MpSpec MpProofs.
Import ListNotations.

Lemma skipn_nth {A} (l : list A) n f : nth_error l n = Some f -> skipn n l = f :: skipn (S n) l.
Proof.
  revert n; induction l as [|a l IH]; intros [|n] H; cbn in *; try discriminate.
  - now injection H as ->.
  - rewrite (IH _ H). destruct l; reflexivity.
Qed.

Section Order.
Variable D : Type.
Variable micro : kind -> nat -> list (D -> D).
Variable kd : kind.
Variable lo hi : nat.
Hypothesis Hcomm : stages_commute micro kd lo hi.
Definition ours (e : kind * nat * nat) : Prop := fst (fst e) = kd /\ lo <= snd (fst e) <= hi.
Notation replay := (replay D micro).

Definition act (e : kind * nat * nat) (d : D) : D :=
  match nth_error (micro (fst (fst e)) (snd (fst e))) (snd e) with Some f => f d | None => d end.

Lemma replay_cons e l d : replay (e :: l) d = replay l (act e d).
Proof. destruct e as [[k i] j]. reflexivity. Qed.

Lemma act_comm e e' d : ours e -> ours e' -> snd (fst e) <> snd (fst e') ->
  act e (act e' d) = act e' (act e d).
Proof.
  intros [H1 R1] [H2 R2] H3. unfold act. rewrite H1, H2.
  destruct (nth_error (micro kd (snd (fst e))) (snd e)) as [f|] eqn:E1; auto.
  destruct (nth_error (micro kd (snd (fst e'))) (snd e')) as [g|] eqn:E2; auto.
  eapply (Hcomm _ _ _ _ _ R1 R2); eauto using nth_error_In.
Qed.

Lemma replay_act l e d : ours e -> (forall e', In e' l -> ours e' /\ snd (fst e') <> snd (fst e)) ->
  replay l (act e d) = act e (replay l d).
Proof.
  intros He. revert d. induction l as [|e' l IH]; intros d Hl; [reflexivity|].
  rewrite !replay_cons. destruct (Hl e' (or_introl eq_refl)) as [H1 H2].
  rewrite (act_comm e' e) by auto. apply IH. intros; apply Hl; now right.
Qed.

Definition others (l : list (kind * nat * nat)) (i : nat) := filter (fun e => negb (snd (fst e) =? i)) l.

Lemma replay_pull l i d : (forall e, In e l -> ours e) ->
  replay l d = replay (stage_events l i ++ others l i) d.
Proof.
  revert d. induction l as [|e l IH]; intros d Hl; [reflexivity|].
  assert (Hl' : forall e, In e l -> ours e) by (intros; apply Hl; now right).
  rewrite replay_cons, IH by auto. unfold stage_events, others in *. cbn [filter].
  destruct (Nat.eqb_spec (snd (fst e)) i) as [Heq|Hne]; cbn [negb].
  - now rewrite <- app_comm_cons, replay_cons.
  - rewrite !replay_app, replay_cons. f_equal. apply replay_act; [apply Hl; now left|].
    intros e' Hin. apply filter_In in Hin. destruct Hin as [Hin He']. apply Nat.eqb_eq in He'. split; auto. congruence.
Qed.

Lemma replay_full i d n pre : n = length (micro kd i) - pre -> pre <= length (micro kd i) ->
  replay (map (fun j => (kd, i, j)) (seq pre n)) d = apply_all (skipn pre (micro kd i)) d.
Proof.
  revert pre d. induction n as [|n IH]; intros pre d Hn Hp.
  - cbn. rewrite skipn_all2 by lia. reflexivity.
  - cbn [seq map]. rewrite replay_cons. unfold act. cbn.
    destruct (nth_error (micro kd i) pre) as [f|] eqn:E; [|apply nth_error_None in E; lia].
    rewrite IH by lia. now rewrite (skipn_nth _ _ _ E).
Qed.

Lemma apply_all_app (fs gs : list (D -> D)) d : apply_all (fs ++ gs) d = apply_all gs (apply_all fs d).
Proof. revert d; induction fs; intro d; cbn; auto. Qed.

(** Any order of the stages gives the result of the interleaved run. *)
Lemma replay_order order : NoDup order -> (forall i, In i order -> lo <= i <= hi) -> forall l d,
  (forall e, In e l -> fst (fst e) = kd /\ In (snd (fst e)) order) ->
  (forall i, In i order -> done_once kd (length (micro kd i)) l i) ->
  replay l d = apply_all (concat (map (micro kd) order)) d.
Proof.
  induction order as [|i order IH]; intros ND Hr l d Hl Hdone.
  - destruct l as [|e l]; [reflexivity|]. destruct (Hl e (or_introl eq_refl)) as [_ []].
  - apply NoDup_cons_iff in ND. destruct ND as [Hni ND].
    rewrite (replay_pull l i) by (intros e He; destruct (Hl e He); split; auto).
    rewrite replay_app. cbn [map concat]. rewrite apply_all_app.
    rewrite (Hdone i (or_introl eq_refl)). rewrite (replay_full i d _ 0) by lia. cbn [skipn].
    apply IH; auto; [intros; apply Hr; now right| |].
    + intros e He. unfold others in He. apply filter_In in He. destruct He as [He Hne].
      destruct (Hl e He) as [H1 [H2|H2]]; [|auto]. rewrite H2, Nat.eqb_refl in Hne. discriminate.
    + intros i' Hi'. unfold done_once. rewrite <- (Hdone i' (or_intror Hi')).
      assert (Hne : i' <> i) by (intros ->; contradiction).
      clear -Hne. unfold stage_events, others. induction l as [|e l IH]; cbn; auto.
      destruct (Nat.eqb_spec (snd (fst e)) i) as [H|H]; cbn.
      * destruct (Nat.eqb_spec (snd (fst e)) i'); [congruence|]. exact IH.
      * destruct (Nat.eqb_spec (snd (fst e)) i'); [now rewrite IH|exact IH].
Qed.
End Order.

(** The call returned. *)
Lemma call_returned D (micro direct : kind -> nat -> list (D -> D)) t ts sch s0 s :
  tk_min t < tk_max t -> Forall at_rest (s_workers s0) -> s_task s0 = None -> s_main s0 = MIdle (t :: ts) ->
  run micro direct sch s0 = Some s -> s_main s = MIdle ts ->
  exists l, s_log s = s_log s0 ++ l /\ s_data s = replay D micro l (s_data s0) /\
  forall idx, (tk_min t <= idx <= tk_max t -> done_once (tk_kind t) (length (micro (tk_kind t) idx)) l idx) /\
              (~ (tk_min t <= idx <= tk_max t) -> stage_events l idx = []).
Proof.
  intros Hmm HR Ht Hm Hrun Hend.
  assert (HP : phase D micro t ts (s_log s0) (s_data s0) s0) by (apply Pre; auto).
  assert (Hle : tk_min t <= tk_max t) by lia.
  pose proof (phase_run D micro direct t ts Hle _ _ Hmm _ _ _ HP Hrun) as [HR' _ _ _ H|l1 fin W _ H|l1 fin W _ _ Hc|H].
  - rewrite Hend in H. decompose [or and] H; try discriminate.
    match goal with E : MIdle _ = MIdle _ |- _ => injection E as E; apply (f_equal (@length _)) in E; cbn in E; lia end.
  - rewrite Hend in H. decompose [or and] H; discriminate.
  - exists l1. split; [apply (wk_log _ _ _ _ _ _ _ _ W)|]. split; [apply (wk_data _ _ _ _ _ _ _ _ W)|].
    intros idx. eapply work_done; eauto.
  - rewrite Hend in H. cbn in H. lia.
Qed.

(** ... and its result is that of the sequential loop, in any order of the stages. *)
Lemma call_sequential D (micro direct : kind -> nat -> list (D -> D)) t ts sch s0 s order :
  tk_min t < tk_max t -> Forall at_rest (s_workers s0) -> s_task s0 = None -> s_main s0 = MIdle (t :: ts) ->
  run micro direct sch s0 = Some s -> s_main s = MIdle ts ->
  stages_commute micro (tk_kind t) (tk_min t) (tk_max t) -> Permutation order (seq (tk_min t) (S (tk_max t) - tk_min t)) ->
  s_data s = apply_all (concat (map (micro (tk_kind t)) order)) (s_data s0).
Proof.
  intros Hmm HR Ht Hm Hrun Hend Hcomm Hp.
  destruct (call_returned _ _ _ _ _ _ _ _ Hmm HR Ht Hm Hrun Hend) as (l & _ & Hd & Hx). rewrite Hd.
  assert (Hin : forall i, In i order <-> tk_min t <= i <= tk_max t).
  { intros i. split; intros H.
    - apply (Permutation_in _ Hp) in H. apply in_seq in H. lia.
    - apply (Permutation_in _ (Permutation_sym Hp)). apply in_seq. lia. }
  apply (replay_order D micro (tk_kind t) _ _ Hcomm).
  - eapply Permutation_NoDup; [apply Permutation_sym; exact Hp|apply seq_NoDup].
  - intros i Hi. now apply Hin.
  - intros e He.
    assert (Hse : In e (stage_events l (snd (fst e)))) by (apply filter_In; split; [exact He|apply Nat.eqb_refl]).
    destruct (Nat.le_gt_cases (tk_min t) (snd (fst e))) as [H1|H1];
      [destruct (Nat.le_gt_cases (snd (fst e)) (tk_max t)) as [H2|H2]|].
    + split; [|now apply Hin]. destruct (Hx (snd (fst e))) as [A _]. rewrite (A (conj H1 H2)) in Hse.
      apply in_map_iff in Hse. destruct Hse as (j & <- & _). reflexivity.
    + destruct (Hx (snd (fst e))) as [_ A]. rewrite A in Hse by lia. destruct Hse.
    + destruct (Hx (snd (fst e))) as [_ A]. rewrite A in Hse by lia. destruct Hse.
  - intros i Hi. apply Hin in Hi. now apply Hx.
Qed.
