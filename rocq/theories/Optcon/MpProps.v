(** C37 and C40: the worker pool. *)
From Coq Require Import List Arith Bool Permutation Lia.
From Verif.Optcon Require Import MpModel MpSpec MpProofs MpOrder MpLive.
Import ListNotations.

Section Reach.
Variable D : Type.
Variable micro direct : kind -> nat -> list (D -> D).

Definition task_free (m : mpc) : Prop :=
  match m with MIdle _ | MSetTaken _ _ | MSetCompleted _ _ | MSetMax _ _ | MSetMin _ _ | MSetTask _ _ => True | _ => False end.

Lemma idle_step e (s s' : st D) : (task_free (s_main s) -> s_task s = None) -> step micro direct e s = Some s' ->
  (task_free (s_main s') -> s_task s' = None) /\ length (s_workers s') = length (s_workers s).
Proof.
  intros H.
  assert (Hlen : forall (l : list worker) i w, length (upd l i w) = length l).
  { induction l as [|a l IH]; intros [|i] w; cbn; auto. }
  destruct e as [|i| |i]; cbn.
  - unfold main_next. destruct (s_main s) as [[|t1 l]|t1 l|t1 l|t1 l|t1 l|t1 l|l|l|l|l|l] eqn:Hm; intros E; try discriminate;
      try (injection E as <-; flds; rewrite ?map_length; cbn in *; auto; tauto).
    + destruct (_ =? _); injection E as <-; flds; cbn in *; auto.
    + injection E as <-. flds. destruct (all_completed s); cbn; tauto.
  - unfold worker_next. destruct (nth_error (s_workers s) i) as [w|] eqn:Hn; [|discriminate].
    destruct (w_pc w) as [|t0 p| | | | | |t0 p|k0 p|k0 p k|k0 p idx j|k0 p|k0 p|k0 p|k0 p]; intros E;
      try discriminate; try (injection E as <-; flds; rewrite ?Hlen; now auto).
    + destruct (s_lock s); [discriminate|]. injection E as <-; flds; rewrite ?Hlen; now auto.
    + destruct (must_sleep _ _ _); injection E as <-; flds; rewrite ?Hlen; now auto.
    + destruct t0; injection E as <-; flds; rewrite ?Hlen; now auto.
    + destruct (nth_error _ j); injection E as <-; flds; rewrite ?Hlen; now auto.
    + injection E as <-. destruct (s_main s) eqn:Hm; flds; rewrite ?Hlen; rewrite ?Hm; cbn in *; auto; tauto.
  - destruct (s_main s) eqn:Hm; try discriminate. intros E. injection E as <-. flds. cbn. tauto.
  - destruct (nth_error (s_workers s) i) as [[[] u]|]; cbn; try discriminate. intros E. injection E as <-. flds. rewrite ?Hlen; auto.
Qed.

Lemma idle_run sch (s s' : st D) : lock_ok s -> (task_free (s_main s) -> s_task s = None) -> run micro direct sch s = Some s' ->
  lock_ok s' /\ (task_free (s_main s') -> s_task s' = None) /\ length (s_workers s') = length (s_workers s).
Proof.
  revert s. induction sch as [|e sch IH]; intros s HL H; cbn.
  - intros E. injection E as <-. auto.
  - destruct (step micro direct e s) as [s1|] eqn:E; [|discriminate]. intros E'.
    destruct (idle_step _ _ _ H E) as [H1 H2]. destruct (IH s1 (lock_step _ _ _ _ _ _ HL E) H1 E') as (I1 & I2 & I3).
    repeat split; auto; try apply I1. congruence.
Qed.

Lemma nth_error_repeat' {A} (a : A) n i w : nth_error (repeat a n) i = Some w -> w = a.
Proof. intros H. apply nth_error_In in H. now apply repeat_spec in H. Qed.

Lemma reachable_ok n s : reachable micro direct n s ->
  lock_ok s /\ (task_free (s_main s) -> s_task s = None) /\ length (s_workers s) = n.
Proof.
  intros (taken & completed & kmax & kmin & pid & d & ts & sch & H).
  destruct (idle_run sch (launch n taken completed kmax kmin pid d ts) s) as (H1 & H2 & H3); auto.
  - split; cbn; [discriminate|]. intros i w Hn Hh. apply nth_error_repeat' in Hn. subst w. discriminate.
  - repeat split; auto; try apply H1. rewrite H3. cbn. apply repeat_length.
Qed.
End Reach.

(** ** C37.  From any reachable moment between calls at which no worker still carries work of an earlier call,
    every interleaving that lets the call computeLQApproximation(first,last) or rolloutShots(first,last) return
    has done the work of each index in the range exactly once, complete and in order, and touched nothing
    outside.  Partial: the hypothesis on stragglers is needed, see the refutation below. *)
Theorem C37_exactly_once_partial D (micro direct : kind -> nat -> list (D -> D)) n t ts sch s0 s :
  reachable micro direct n s0 -> s_main s0 = MIdle (t :: ts) -> Forall at_rest (s_workers s0) ->
  tk_min t < tk_max t ->
  run micro direct sch s0 = Some s -> s_main s = MIdle ts ->
  exists l, s_log s = s_log s0 ++ l /\
  forall idx, (tk_min t <= idx <= tk_max t -> done_once (tk_kind t) (length (micro (tk_kind t) idx)) l idx) /\
              (~ (tk_min t <= idx <= tk_max t) -> stage_events l idx = []).
Proof.
  intros HR Hm Hrest Hmm Hrun Hend. apply reachable_ok in HR. destruct HR as (_ & Ht & _).
  rewrite Hm in Ht. specialize (Ht I).
  destruct (call_returned D micro direct t ts sch s0 s Hmm Hrest Ht Hm Hrun Hend) as (l & H1 & _ & H3). eauto.
Qed.
Print Assumptions C37_exactly_once_partial.

(** The first call after the worker threads were launched needs no hypothesis. *)
Theorem C37_first_call D (micro direct : kind -> nat -> list (D -> D)) n taken completed kmax kmin pid d t ts sch s :
  tk_min t < tk_max t ->
  run micro direct sch (launch n taken completed kmax kmin pid d (t :: ts)) = Some s -> s_main s = MIdle ts ->
  forall idx, (tk_min t <= idx <= tk_max t -> done_once (tk_kind t) (length (micro (tk_kind t) idx)) (s_log s) idx) /\
              (~ (tk_min t <= idx <= tk_max t) -> stage_events (s_log s) idx = []).
Proof.
  intros Hmm Hrun Hend.
  destruct (C37_exactly_once_partial D micro direct n t ts sch (launch n taken completed kmax kmin pid d (t :: ts)) s) as (l & H1 & H2); auto.
  - exists taken, completed, kmax, kmin, pid, d, (t :: ts), []. reflexivity.
  - cbn. apply Forall_forall. intros w Hw. apply repeat_spec in Hw. subst w. exact I.
  - cbn in H1. now subst l.
Qed.
Print Assumptions C37_first_call.

(** If the work on different indices commutes, the shared data afterwards are those of a sequential loop, in any
    order of the range. *)
Theorem C37_sequential_result_partial D (micro direct : kind -> nat -> list (D -> D)) n t ts sch s0 s order :
  reachable micro direct n s0 -> s_main s0 = MIdle (t :: ts) -> Forall at_rest (s_workers s0) ->
  tk_min t < tk_max t ->
  run micro direct sch s0 = Some s -> s_main s = MIdle ts ->
  stages_commute micro (tk_kind t) (tk_min t) (tk_max t) -> Permutation order (seq (tk_min t) (S (tk_max t) - tk_min t)) ->
  s_data s = apply_all (concat (map (micro (tk_kind t)) order)) (s_data s0).
Proof.
  intros HR Hm Hrest Hmm Hrun Hend Hc Hp. apply reachable_ok in HR. destruct HR as (_ & Ht & _).
  rewrite Hm in Ht. specialize (Ht I). eapply call_sequential; eauto.
Qed.
Print Assumptions C37_sequential_result_partial.

(** A call with a single index is done by the caller itself, at once. *)
Theorem C37_single_stage D (micro direct : kind -> nat -> list (D -> D)) t ts s :
  tk_min t = tk_max t -> s_main s = MIdle (t :: ts) ->
  exists s', main_next direct s = Some s' /\ s_main s' = MIdle ts /\
    s_data s' = apply_all (direct (tk_kind t) (tk_min t)) (s_data s) /\
    s_log s' = s_log s ++ map (fun j => (tk_kind t, tk_min t, j)) (seq 0 (length (direct (tk_kind t) (tk_min t)))).
Proof.
  intros He Hm. unfold main_next. rewrite Hm, He, Nat.eqb_refl. eexists. split; [reflexivity|]. flds. auto.
Qed.
Print Assumptions C37_single_stage.

Definition noop : kind -> nat -> list (unit -> unit) := fun _ _ => [fun d => d].
Definition times (n : nat) (e : ev) : list ev := repeat e n.

(** Two workers share a linearisation of the stages 0..2, step by step in turn, and the call returns. *)
Definition lq_call : task := MkTask Lq 0 2 1.
Definition ok_schedule : list ev :=
  times 7 Main ++ times 3 (Wk 1) ++ times 3 (Wk 0) ++ concat (repeat [Wk 0; Wk 1] 14) ++ times 2 Main.
Example C37_example : exists s, run noop noop ok_schedule (launch 2 7 7 7 7 7 tt [lq_call]) = Some s /\
  s_main s = MIdle [] /\ s_log s = [(Lq, 2, 0); (Lq, 1, 0); (Lq, 0, 0)].
Proof. eexists. split; [vm_compute; reflexivity|]. auto. Qed.
(** The hypotheses on the starting state, and data on which the work of different stages commutes. *)
Example C37_example_commute : stages_commute (fun _ i => [fun d : list nat => upd d i 7]) Lq 0 2.
Proof.
  intros i j f g d _ _ Hij [<-|[]] [<-|[]]. revert i j Hij. induction d as [|a d IH]; intros [|i] [|j] Hij; cbn; auto; try lia.
  f_equal. apply IH. lia.
Qed.
Example C37_example_rest :
  reachable noop noop 2 (launch 2 7 7 7 7 7 tt [lq_call]) /\ Forall at_rest (s_workers (launch 2 7 7 7 7 7 tt [lq_call])) /\
  tk_min lq_call < tk_max lq_call.
Proof.
  split; [|split; [cbn; repeat constructor|cbn; lia]]. exists 7, 7, 7, 7, 7, tt, [lq_call], []. reflexivity.
Qed.

(** ** C37 refuted in general.  A worker that read the shot rollout task but was not scheduled before the rollout
    had finished joins the next call, the linearisation, still believing that it rolls out shots: it takes both
    indices of the linearisation, the call returns, and no stage has been linearised. *)
Definition shot_call (p : nat) : task := MkTask Shots 0 1 p.
Definition lq_call2 (p : nat) : task := MkTask Lq 0 1 p.
Definition stale_schedule : list ev :=
  times 7 Main ++ times 3 (Wk 1)                        (* worker 1 is about to take a shot ... *)
  ++ times 3 (Wk 0) ++ times 10 (Wk 0) ++ times 5 (Wk 0)  (* ... worker 0 rolls out everything *)
  ++ times 2 Main                                        (* the rollout returns *)
  ++ times 7 Main                                        (* the linearisation is posted *)
  ++ times 10 (Wk 1) ++ times 5 (Wk 1)                   (* worker 1 goes on rolling out shots *)
  ++ times 2 Main.                                       (* the linearisation returns *)
Theorem C37_stale_worker_refuted : exists s,
  run noop noop stale_schedule (launch 2 0 0 0 0 0 tt [shot_call 1; lq_call2 2]) = Some s /\
  s_main s = MIdle [] /\ forall idx j, ~ In (Lq, idx, j) (s_log s).
Proof.
  eexists. split; [vm_compute; reflexivity|]. split; [reflexivity|]. cbn. intros idx j H. decompose [or] H; try discriminate. contradiction.
Qed.
Print Assumptions C37_stale_worker_refuted.

(** ** C40.  With at least two workers, a call posted while no worker carries earlier work can get stuck in one
    way only: every index has been processed exactly once and counted, and the caller sleeps although the
    condition it waits for holds.  In particular work is never left undone.  Partial: the property asks for no
    stuck state at all, refuted below. *)
Lemma in_call_cases t ts m : in_call t ts m -> premain t ts m \/ postmain ts m.
Proof.
  unfold premain, postmain. destruct m; cbn; intros H; try (destruct H as [-> ->]); try subst; try tauto.
Qed.

Theorem C40_no_work_left_partial D (micro direct : kind -> nat -> list (D -> D)) n t ts sch s0 s :
  2 <= n -> reachable micro direct n s0 -> s_main s0 = MIdle (t :: ts) -> Forall at_rest (s_workers s0) ->
  Forall (fresh_for t) (s_workers s0) -> tk_min t < tk_max t ->
  run micro direct sch s0 = Some s -> in_call t ts (s_main s) -> stuck micro direct s ->
  s_main s = MSleep ts /\ s_completed s = S (tk_max t - tk_min t) /\
  exists l, s_log s = s_log s0 ++ l /\
  forall idx, (tk_min t <= idx <= tk_max t -> done_once (tk_kind t) (length (micro (tk_kind t) idx)) l idx) /\
              (~ (tk_min t <= idx <= tk_max t) -> stage_events l idx = []).
Proof.
  intros Hn HR Hm Hrest Hfresh Hmm Hrun Hin Hst.
  pose proof (reachable_ok _ _ _ _ _ HR) as (HL & Ht & Hlen). rewrite Hm in Ht. specialize (Ht I).
  assert (HP : phase D micro t ts (s_log s0) (s_data s0) s0) by (apply Pre; auto).
  assert (HI : inv2 D t ts s0).
  { apply inv2_pre; [unfold premain; auto| |auto]. eapply Forall_impl; [|exact Hfresh].
    intros w [F1 F2] [M|M]; [auto|]. destruct (w_pc w); auto. }
  destruct (inv_run D micro direct t ts Hmm (s_log s0) (s_data s0) sch s0 s HP HL HI Hrun) as (HP' & HL' & HI').
  assert (Hlen' : length (s_workers s) = n).
  { destruct (idle_run D micro direct sch s0 s HL) as (_ & _ & H); auto. congruence. }
  destruct (stuck_done D micro direct t ts Hmm (s_log s0) (s_data s0) s HP' HL' HI') as (Hs & l1 & fin & W & Hfin & Hc); auto; [lia|now apply in_call_cases|].
  assert (Hle : tk_min t <= tk_max t) by lia.
  pose proof (work_done D micro t Hle (s_log s0) (s_data s0) s l1 fin W Hc) as Hdone.
  destruct (range_perm_length D micro t Hle (s_log s0) (s_data s0) s l1 fin W Hc) as (Hp & _ & _).
  apply Permutation_length in Hp. rewrite seq_length in Hp. pose proof (wk_count _ _ _ _ _ _ _ _ W) as Hcnt.
  split; [exact Hs|split; [lia|]].
  exists l1. split; [exact (wk_log _ _ _ _ _ _ _ _ W)|]. exact Hdone.
Qed.
Print Assumptions C40_no_work_left_partial.

(** ** C40 refuted: lost wake-ups.  One worker: it has evaluated its sleep condition but not yet blocked when the
    caller notifies (the caller notifies without the mutex); both sleep for ever and nothing has been done. *)
Definition lost_schedule : list ev := times 4 (Wk 0) ++ times 9 Main ++ times 1 (Wk 0).
Theorem C40_worker_wakeup_lost_refuted : exists s,
  run noop noop lost_schedule (launch 1 0 0 0 0 0 tt [lq_call]) = Some s /\
  in_call lq_call [] (s_main s) /\ s_log s = [] /\ stuck noop noop s.
Proof.
  eexists. split; [vm_compute; reflexivity|]. repeat split. intros [|[|i]]; reflexivity.
Qed.
Print Assumptions C40_worker_wakeup_lost_refuted.

(** Any number of workers: the caller has evaluated its predicate but not yet blocked when the last worker
    notifies; all work is done and the call never returns. *)
Definition lost_done_schedule : list ev :=
  times 8 Main ++ times 3 (Wk 0) ++ times 15 (Wk 0) ++ times 5 (Wk 0) ++ times 5 (Wk 0)
  ++ times 3 (Wk 1) ++ times 4 (Wk 1) ++ times 1 (Wk 1) ++ times 5 (Wk 1) ++ times 1 Main.
Theorem C40_caller_wakeup_lost_refuted : exists s,
  run noop noop lost_done_schedule (launch 2 0 0 0 0 0 tt [lq_call]) = Some s /\
  in_call lq_call [] (s_main s) /\ s_completed s = 3 /\ stuck noop noop s.
Proof.
  eexists. split; [vm_compute; reflexivity|]. repeat split. intros [|[|[|i]]]; reflexivity.
Qed.
Print Assumptions C40_caller_wakeup_lost_refuted.

(** A straggler of the previous call that counts its index between the two counter resets of the next call makes
    that call wait for one index too many: the call never returns, even with spurious wake-ups. *)

Definition parked (t : task) (w : worker) : Prop :=
  w_uid w = Some (tk_pid t, tk_kind t) /\ (w_pc w = WLock \/ w_pc w = WCheck \/ w_pc w = WBlock \/ w_pc w = WSleep).
Definition hung {D} (t : task) (ts : list task) (s : st D) : Prop :=
  (s_main s = MCheck ts \/ s_main s = MBlock ts \/ s_main s = MSleep ts) /\ all_completed s = false /\
  s_task s = Some (tk_kind t) /\ s_pid s = tk_pid t /\ Forall (parked t) (s_workers s).

Lemma hung_step D (micro direct : kind -> nat -> list (D -> D)) t ts e s s' :
  hung t ts s -> step micro direct e s = Some s' -> hung t ts s'.
Proof.
  intros (Hm & Hc & Ht & Hp & HF).
  assert (Hupd : forall i w w', nth_error (s_workers s) i = Some w -> parked t w' -> Forall (parked t) (upd (s_workers s) i w')).
  { intros i w w' Hn Hw. destruct (upd_split _ _ _ Hn) as (a & b & E1 & _ & Hu). rewrite Hu. rewrite E1 in HF.
    apply Forall_mid in HF. apply Forall_mid. tauto. }
  destruct e as [|i| |i]; cbn.
  - unfold main_next. destruct Hm as [Hm|[Hm|Hm]]; rewrite Hm; intros E; try discriminate; injection E as <-; rewrite ?Hc;
      unfold hung; flds; unfold all_completed in *; flds; auto.
  - unfold worker_next. destruct (nth_error (s_workers s) i) as [w|] eqn:Hn; [|discriminate].
    assert (Hw : parked t w) by (rewrite Forall_forall in HF; apply HF; eapply nth_error_In; eauto).
    destruct Hw as [Hu [Hw|[Hw|[Hw|Hw]]]]; rewrite Hw.
    + destruct (s_lock s); [discriminate|]. intros E; injection E as <-. unfold hung; flds. repeat split; auto.
      eapply Hupd; eauto. split; cbn; auto.
    + rewrite Ht, Hp, Hu. cbn [must_sleep]. rewrite (proj2 (same_id_eq _ _ _) eq_refl).
      intros E; injection E as <-. unfold hung; flds. repeat split; auto. eapply Hupd; eauto. split; cbn; auto.
    + intros E; injection E as <-. unfold hung; flds. repeat split; auto. eapply Hupd; eauto. split; cbn; auto.
    + discriminate.
  - destruct Hm as [Hm|[Hm|Hm]]; rewrite Hm; intros E; try discriminate; injection E as <-.
    unfold hung; flds; repeat split; auto.
  - destruct (nth_error (s_workers s) i) as [w|] eqn:Hn; [|discriminate].
    assert (Hw : parked t w) by (rewrite Forall_forall in HF; apply HF; eapply nth_error_In; eauto).
    destruct Hw as [Hu Hw]. destruct (w_pc w); try discriminate. intros E; injection E as <-.
    unfold hung; flds. repeat split; auto. eapply Hupd; eauto. split; cbn; auto.
Qed.

Lemma hung_run D (micro direct : kind -> nat -> list (D -> D)) t ts sch s s' :
  hung t ts s -> run micro direct sch s = Some s' -> hung t ts s'.
Proof.
  revert s; induction sch as [|e sch IH]; intros s H; cbn; [intros E; now injection E as <-|].
  destruct (step micro direct e s) eqn:E; [|discriminate]. apply IH. eapply hung_step; eauto.
Qed.

Definition lost_count_schedule : list ev :=
  times 7 Main ++ times 3 (Wk 1) ++ times 18 (Wk 0) ++ times 2 Main   (* as before: the rollout is done by worker 0 *)
  ++ times 2 Main ++ times 5 (Wk 1) ++ times 7 Main                     (* worker 1 counts before the second reset *)
  ++ times 9 (Wk 1) ++ times 12 (Wk 1) ++ times 12 (Wk 0).
Theorem C40_lost_count_refuted : exists s,
  run noop noop lost_count_schedule (launch 2 0 0 0 0 0 tt [shot_call 1; lq_call2 2]) = Some s /\
  in_call (lq_call2 2) [] (s_main s) /\
  forall sch s', run noop noop sch s = Some s' -> in_call (lq_call2 2) [] (s_main s').
Proof.
  eexists. split; [vm_compute; reflexivity|]. split; [reflexivity|]. intros sch s' Hr.
  apply (hung_run _ _ _ (lq_call2 2) []) in Hr.
  - destruct Hr as [[H|[H|H]] _]; rewrite H; reflexivity.
  - unfold hung; cbn. repeat split; auto. apply Forall_forall. intros w [<-|[<-|[]]]; split; cbn; auto.
Qed.
Print Assumptions C40_lost_count_refuted.
