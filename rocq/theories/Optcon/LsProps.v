(** C36 and C39: line search. *)
From Coq Require Import List QArith Qabs Bool Arith Lia Lqa.
From Verif.Optcon Require Import LsModel LsSpec LsProofs.
Import ListNotations.

Section C36.
Variables T Df : Type.
Variable zero_defects : Df.
Notation acceptable := (acceptable T Df).

(** ** C36.  The single-threaded search tries alpha_0 * n_alpha^i for i < maxIterations in order and takes over the
    first acceptable trial, trajectories and costs alike; if there is none it returns 0 and changes nothing.  [eval]
    is the outcome of the rollout for each step size, NaN included. *)
Theorem C36_first_acceptable c d1 d2 (eval : Q -> trial T Df) b alpha b' :
  performLineSearch c d1 d2 eval b = (alpha, b') ->
  let size i := step_size (ls_alpha0 c) (ls_n c) i in
  let good i := acceptable c d1 d2 (size i) (eval (size i)) (b_lowest b) in
  (exists i, (i < ls_max c)%nat /\ good i /\ (forall j, (j < i)%nat -> ~ good j) /\ alpha = size i /\
     taken_over T Df (eval (size i)) b' /\ exists m, b_lowest b' = Some m /\ has_merit T Df c (eval (size i)) m) \/
  ((forall i, (i < ls_max c)%nat -> ~ good i) /\ alpha = 0 /\ b' = b).
Proof.
  intros H size good. apply search_spec in H. destruct H as [(i & Hi & -> & H1 & H2 & H3 & H4)|(-> & -> & H)].
  - left. exists i. auto 10.
  - right. auto.
Qed.

(** ** C36.  No step whose merit is NaN is accepted, none at all if the reference merit is NaN, and an accepted step
    never raises the merit; without the Armijo condition it strictly lowers it. *)
Theorem C36_never_worse c d1 d2 alpha (o : trial T Df) lowest :
  acceptStep c d1 d2 alpha o lowest = true ->
  exists m l, has_merit T Df c o m /\ lowest = Some l /\ m <= l /\ (ls_kind c = SIMPLE -> m < l).
Proof.
  intros H. apply acceptStep_ok in H. destruct H as (m & l & Hm & Hl & H). exists m, l. split; [exact Hm|]. split; [exact Hl|].
  destruct (ls_kind c).
  - split; [lra|auto].
  - destruct H as [H _]. split; [exact H|discriminate].
Qed.

(** ** C36.  lineSearch as a whole.  If it reports a better cost, the merit went down (SIMPLE) or not up (ARMIJO) and
    the trajectory is that of a tried step.  If no step is acceptable it reports none, and trajectory, costs,
    defect norm and merit are those before the call. *)
Theorem C36_line_search c d1 d2 dnorm (eval : Q -> trial T Df) b found b' : steps_ok c ->
  lineSearch zero_defects c d1 d2 dnorm eval b = (found, b') ->
  let size i := step_size (ls_alpha0 c) (ls_n c) i in
  let before := MkTrial (b_traj b) (b_defects b) (b_int b) (b_fin b) (dnorm (b_defects b)) (b_box b) (b_gen b) in
  (exists i l m, (i < ls_max c)%nat /\ taken_over T Df (eval (size i)) b' /\ has_merit T Df c before l /\
     has_merit T Df c (eval (size i)) m /\ m <= l /\ (ls_kind c = SIMPLE -> m < l)) \/
  (found = false /\ b_traj b' = b_traj b /\ b_int b' = b_int b /\ b_fin b' = b_fin b /\ b_dnorm b' = dnorm (b_defects b) /\
     b_box b' = b_box b /\ b_gen b' = b_gen b /\
     forall i l, (i < ls_max c)%nat -> has_merit T Df c before l -> ~ acceptable c d1 d2 (size i) (eval (size i)) (Some l)).
Proof.
  intros (Ha & Hn & _) H size before. unfold lineSearch in H.
  set (low := nadd (nadd (nadd (b_int b) (b_fin b)) (nmul (dnorm (b_defects b)) (Some (ls_rho c)))) (nmul (nadd (b_box b) (b_gen b)) (Some (ls_rhoc c)))) in *.
  assert (Hlow : match low with Some l => has_merit T Df c before l | None => forall l, ~ has_merit T Df c before l end).
  { unfold low, has_merit, before; cbn [o_int o_fin o_def o_box o_gen].
    destruct (b_int b) as [i|], (b_fin b) as [f|], (dnorm (b_defects b)) as [d|], (b_box b) as [x|], (b_gen b) as [g|]; cbn [nadd nmul];
      try (intros l (?&?&?&?&?&?&?&?&?&?&?); discriminate).
    exists i, f, d, x, g. repeat split. lra. }
  match goal with H : context [performLineSearch c d1 d2 eval ?bb] |- _ => set (b1 := bb) in * end.
  destruct (performLineSearch c d1 d2 eval b1) as [alpha b2] eqn:E.
  apply C36_first_acceptable in E. cbn zeta in E. destruct E as [(i & Hi & Hg & _ & Hal & Ht & _)|(Hnone & -> & ->)].
  - left. assert (Hpos : 0 < alpha) by (rewrite Hal; apply step_size_pos; auto).
    destruct (Qeq_bool alpha 0) eqn:Ez; [apply Qeq_bool_iff in Ez; exfalso; lra|].
    assert (Hb : b2 = b') by (destruct (nltb _ _); congruence). subst b2.
    unfold size. apply acceptStep_ok in Hg. apply C36_never_worse in Hg. destruct Hg as (m & l & Hm & Hl & H1 & H2).
    cbn [b1 b_lowest] in Hl. rewrite Hl in Hlow. exists i, l, m. auto 10.
  - right. cbn in H. injection H as <- <-. unfold b1. cbn. repeat split.
    intros i l Hi Hl Hacc. apply (Hnone i Hi). cbn [b1 b_lowest].
    destruct low as [l'|]; [|now apply Hlow in Hl].
    pose proof (has_merit_unique T Df c before l l' Hl Hlow) as Hq.
    destruct Hacc as (m & l2 & Hm & El & Hk). injection El as <-. exists m, l'. split; [exact Hm|]. split; [reflexivity|].
    unfold size in Hk. destruct (ls_kind c); [lra|]. destruct Hk as [Hk (D1 & D2 & E1 & E2 & Hk')]. split; [lra|].
    exists D1, D2. repeat split; auto. lra.
Qed.

Lemma ratio_lt (k p q : Q) : ~ q == 0 -> k < Qabs (p / q) <-> k * Qabs q < Qabs p.
Proof.
  intros Hq. assert (Hp : 0 < Qabs q).
  { destruct (Qlt_le_dec 0 (Qabs q)) as [H|H]; [exact H|]. exfalso. apply Hq.
    apply Qabs_Qle_condition in H. destruct H. lra. }
  assert (E : Qabs p == Qabs (p / q) * Qabs q) by (rewrite <- Qabs_Qmult; setoid_replace (p / q * q) with p by (field; exact Hq); reflexivity).
  rewrite E. symmetry. apply Qmult_lt_r. exact Hp.
Qed.
Lemma acceptable_reference c d1 d2 alpha (o : trial T Df) l l' : l == l' ->
  acceptable c d1 d2 alpha o (Some l) -> acceptable c d1 d2 alpha o (Some l').
Proof.
  intros Hq (m & l2 & Hm & El & Hk). injection El as <-. exists m, l'. split; [exact Hm|]. split; [reflexivity|].
  destruct (ls_kind c); [lra|]. destruct Hk as [Hk (D1 & D2 & E1 & E2 & Hk')]. split; [lra|].
  exists D1, D2. repeat split; auto. lra.
Qed.

(** ** C36.  What lineSearch reports.  "A better cost was found" means that some step is acceptable and that the first
    such step changes the merit by more than the given share of the merit before, or leaves defects above the
    given limit. *)
Theorem C36_reported c d1 d2 dnorm (eval : Q -> trial T Df) b found b' l : steps_ok c ->
  lineSearch zero_defects c d1 d2 dnorm eval b = (found, b') ->
  let size i := step_size (ls_alpha0 c) (ls_n c) i in
  let before := MkTrial (b_traj b) (b_defects b) (b_int b) (b_fin b) (dnorm (b_defects b)) (b_box b) (b_gen b) in
  let good i := acceptable c d1 d2 (size i) (eval (size i)) (Some l) in
  has_merit T Df c before l -> ~ l == 0 ->
  (found = true <-> exists i m, (i < ls_max c)%nat /\ good i /\ (forall j, (j < i)%nat -> ~ good j) /\
     has_merit T Df c (eval (size i)) m /\
     (ls_minImprove c * Qabs l < Qabs (l - m) \/ exists d, o_def (eval (size i)) = Some d /\ ls_maxDefect c < d)).
Proof.
  intros (Ha & Hn & _) H size before good Hl Hz. unfold lineSearch in H.
  set (low := nadd (nadd (nadd (b_int b) (b_fin b)) (nmul (dnorm (b_defects b)) (Some (ls_rho c)))) (nmul (nadd (b_box b) (b_gen b)) (Some (ls_rhoc c)))) in *.
  assert (Hlow : exists l', low = Some l' /\ l' == l).
  { destruct Hl as (i & f & d & x & g & E1 & E2 & E3 & E4 & E5 & E). cbn in E1, E2, E3, E4, E5.
    unfold low. rewrite E1, E2, E3, E4, E5. cbn. eexists. split; [reflexivity|]. lra. }
  destruct Hlow as (l' & El & Hq). rewrite El in H. clear El. clear low.
  match goal with H : context [performLineSearch c d1 d2 eval ?bb] |- _ => set (b1 := bb) in * end.
  destruct (performLineSearch c d1 d2 eval b1) as [alpha b2] eqn:E.
  apply C36_first_acceptable in E. cbn zeta in E. cbn [b1 b_lowest] in E.
  destruct E as [(i & Hi & Hg & Hf & Hal & Ht & m0 & Elow & Hm0)|(Hnone & -> & ->)].
  - assert (Hpos : 0 < alpha) by (rewrite Hal; apply step_size_pos; auto).
    destruct (Qeq_bool alpha 0) eqn:Ez; [apply Qeq_bool_iff in Ez; exfalso; lra|].
    assert (Hfirst : forall i2, (i2 < ls_max c)%nat -> good i2 -> (forall j, (j < i2)%nat -> ~ good j) -> i2 = i).
    { intros i2 L2 G2 F2. destruct (Nat.lt_trichotomy i i2) as [L|[L|L]]; [|auto|]; exfalso.
      - apply (F2 i L). apply (acceptable_reference _ _ _ _ _ l' l Hq). exact Hg.
      - apply (Hf i2 L). apply (acceptable_reference _ _ _ _ _ l l'); [lra|]. exact G2. }
    rewrite Elow in H. cbn [nsub ndiv nabs] in H.
    destruct (Qeq_bool l' 0) eqn:Ez'; [apply Qeq_bool_iff in Ez'; exfalso; lra|].
    assert (Hz' : ~ l' == 0) by lra.
    destruct Ht as (_ & _ & _ & _ & Hdn & _).
    assert (Em : Qabs (l - m0) == Qabs (l' - m0)) by (rewrite Hq; reflexivity).
    assert (Ea : Qabs l == Qabs l') by (rewrite Hq; reflexivity).
    assert (Emul : ls_minImprove c * Qabs l == ls_minImprove c * Qabs l') by (rewrite Ea; reflexivity).
    pose proof (ratio_lt (ls_minImprove c) (l' - m0) l' Hz') as HR.
    destruct (nltb (Some (ls_minImprove c)) (nabs (Some ((l' - m0) / l')))) eqn:En.
    + injection H as <- <-. split; [intros _|reflexivity]. exists i, m0. split; [exact Hi|].
      split; [apply (acceptable_reference _ _ _ _ _ l' l Hq); exact Hg|].
      split. { intros j Hj G. apply (Hf j Hj). apply (acceptable_reference _ _ _ _ _ l l'); [lra|exact G]. }
      split; [exact Hm0|]. left. unfold nltb, nabs in En. apply negb_true_iff in En. rewrite Emul, Em. apply HR.
      apply Qnot_le_lt. intros L. apply Qle_bool_iff in L. congruence.
    + injection H as Hfd <-. rewrite Hdn in Hfd. unfold nltb, nabs in En. apply negb_false_iff, Qle_bool_iff in En. split.
      * intros F. subst found. exists i, m0. split; [exact Hi|].
        split; [apply (acceptable_reference _ _ _ _ _ l' l Hq); exact Hg|].
        split. { intros j Hj G. apply (Hf j Hj). apply (acceptable_reference _ _ _ _ _ l l'); [lra|exact G]. }
        split; [exact Hm0|]. right. unfold size. destruct (o_def (eval (step_size (ls_alpha0 c) (ls_n c) i))) as [d|]; [|discriminate].
        exists d. split; [reflexivity|]. unfold nltb in F. apply negb_true_iff in F. apply Qnot_le_lt. intros L. apply Qle_bool_iff in L. congruence.
      * intros (i2 & m & L2 & G2 & F2 & M2 & D). rewrite (Hfirst i2 L2 G2 F2) in M2, D. rewrite <- Hfd.
        pose proof (has_merit_unique T Df c _ _ _ M2 Hm0) as Emm.
        destruct D as [D|(d & D1 & D2)].
        { exfalso. assert (Em' : Qabs (l - m) == Qabs (l' - m0)) by (rewrite Hq, Emm; reflexivity).
          rewrite Emul, Em' in D. apply HR in D. lra. }
        unfold size in D1. rewrite D1. cbn. apply negb_true_iff. destruct (Qle_bool d (ls_maxDefect c)) eqn:Q; [|reflexivity].
        apply Qle_bool_iff in Q. lra.
  - cbn in H. injection H as <- <-. split; [discriminate|].
    intros (i & m & Hi & G & _). exfalso. apply (Hnone i Hi). apply (acceptable_reference _ _ _ _ _ l l'); [lra|exact G].
Qed.
End C36.
Print Assumptions C36_reported.
Print Assumptions C36_first_acceptable.
Print Assumptions C36_never_worse.
Print Assumptions C36_line_search.

(** Finding: with ARMIJO a step that does not lower the merit at all is accepted when the expected decrease is not
    positive, so "improving" is not strict. *)
Definition arm : ls_settings := MkLs ARMIJO 3 1 (1#2) (1#10) 1 1 0 1.
Theorem C36_strict_decrease_refuted :
  exists c d1 d2 alpha (o : trial unit unit) m, steps_ok c /\ has_merit unit unit c o m /\ acceptStep c d1 d2 alpha o (Some m) = true.
Proof.
  exists arm, (Some (-1)), (Some 1), 1, (MkTrial tt tt (Some 2) (Some 1) (Some 0) (Some 0) (Some 0)), 3.
  split; [|split]; [repeat split; reflexivity|exists 2, 1, 0, 0, 0; repeat split|reflexivity].
Qed.
Print Assumptions C36_strict_decrease_refuted.

(** Example: merit 4, the full step gives NaN, half a step merit 5, a quarter merit 3. *)
Definition simple : ls_settings := MkLs SIMPLE 5 1 (1#2) 0 1 1 0 1.
Definition ex_eval (a : Q) : trial nat nat :=
  if Qeq_bool a 1 then MkTrial 1%nat 1%nat None (Some 0) (Some 0) (Some 0) (Some 0)
  else if Qeq_bool a (1#2) then MkTrial 2%nat 2%nat (Some 4) (Some 1) (Some 0) (Some 0) (Some 0)
  else MkTrial 4%nat 4%nat (Some 1) (Some 1) (Some 1) (Some 0) (Some 0).
Example C36_example : steps_ok simple /\
  lineSearch 0%nat simple None None (fun _ => Some 1) ex_eval (MkLsState 0%nat 9%nat (Some 1) (Some 2) (Some 1) (Some 0) (Some 0) None)
  = (true, MkLsState 4%nat 4%nat (Some 1) (Some 1) (Some 1) (Some 0) (Some 0) (Some 3)).
Proof. split; [repeat split; reflexivity|reflexivity]. Qed.

(** ** C39.  For every number of workers, every schedule and every pattern of acceptable steps: when the caller gets
    past its wait, either no tried step is acceptable, 0 is returned and the old trajectories are in place, or an
    acceptable step is returned and the trajectories are those of that step.
    Partial: the step need not be the one the sequential search returns, see C39_larger_step_refuted; and the
    workers are taken to start on this search (no worker left over from an earlier one). *)
Theorem C39_result_partial acc max n sch s :
  lrun acc max sch (lpost max n) = Some s -> l_main s = LDone ->
  match lreturned max s with
  | Some e => (e < max)%nat /\ acc e = true /\ l_result s = Some e
  | None => (forall e, (e < max)%nat -> acc e = false) /\ l_result s = None
  end.
Proof.
  intros Hrun Hd. pose proof (inv_run acc max _ _ _ (inv_post acc max n) Hrun) as [L R N W D A O F].
  unfold lreturned. destruct (Nat.eqb_spec (l_best s) max) as [E|E].
  - destruct (N E) as [_ N2]. destruct R as [[_ R]|R]; [|lia]. split; auto.
  - destruct R as [[R _]|R]; [lia|]. tauto.
Qed.
Print Assumptions C39_result_partial.

(** ** C39.  An accepted step is returned iff some tried step is acceptable, and it is never larger than the one
    the sequential search returns. *)
Theorem C39_iff_sequential_accepts acc max n sch s :
  lrun acc max sch (lpost max n) = Some s -> l_main s = LDone ->
  ((exists e, lreturned max s = Some e) <-> exists e, (e < max)%nat /\ acc e = true) /\
  forall e e', lreturned max s = Some e -> first_acceptable acc max e' -> (e' <= e)%nat.
Proof.
  intros Hrun Hd. pose proof (C39_result_partial acc max n sch s Hrun Hd) as H. destruct (lreturned max s) as [e|].
  - split.
    + split; [intros _; exists e; tauto|eauto].
    + intros e1 e' E (H1 & H2 & H3). injection E as <-. destruct (Nat.le_gt_cases e' e) as [|Hlt]; [assumption|]. 
      specialize (H3 e Hlt). destruct H as (_ & H & _). congruence.
  - split; [split; [intros (e & He); discriminate|intros (e & He & Ha)]|discriminate].
    destruct H as [H _]. rewrite H in Ha by auto. discriminate.
Qed.
Print Assumptions C39_iff_sequential_accepts.

(** ** C39.  The sequential answer is returned if the full step is acceptable, if only one step is, or if there is
    only one worker. *)
Theorem C39_full_step acc max n sch s : (0 < max)%nat -> acc 0%nat = true ->
  lrun acc max sch (lpost max n) = Some s -> l_main s = LDone -> lreturned max s = Some 0%nat.
Proof.
  intros Hm Ha Hrun Hd. pose proof (inv_run acc max _ _ _ (inv_post acc max n) Hrun) as [L R N W D A O F].
  destruct (F Hm Ha) as [_ F2]. unfold lreturned. rewrite (F2 (D Hd)). destruct (Nat.eqb_spec 0 max); [lia|reflexivity].
Qed.
Theorem C39_unique_step acc max n sch s e0 : (e0 < max)%nat -> acc e0 = true -> (forall e, (e < max)%nat -> acc e = true -> e = e0) ->
  lrun acc max sch (lpost max n) = Some s -> l_main s = LDone -> lreturned max s = Some e0.
Proof.
  intros He Ha Hu Hrun Hd. pose proof (C39_result_partial acc max n sch s Hrun Hd) as H. destruct (lreturned max s) as [e|].
  - f_equal. apply Hu; tauto.
  - destruct H as [H _]. rewrite H in Ha by auto. discriminate.
Qed.
Theorem C39_one_worker acc max sch s :
  lrun acc max sch (lpost max 1) = Some s -> l_main s = LDone ->
  match lreturned max s with
  | Some e => first_acceptable acc max e
  | None => forall e, (e < max)%nat -> acc e = false
  end.
Proof.
  intros Hrun Hd. pose proof (C39_result_partial acc max 1 sch s Hrun Hd) as H.
  pose proof (inv1_best acc max s (inv1_run acc max sch _ s (inv1_post acc max) Hrun)) as Hb.
  unfold lreturned in *. destruct (Nat.eqb_spec (l_best s) max) as [E|E]; [tauto|]. destruct Hb; [contradiction|assumption].
Qed.
Print Assumptions C39_full_step.
Print Assumptions C39_unique_step.
Print Assumptions C39_one_worker.

(** ** C39.  The workers never leave the search unfinished: once no worker can move, the verdict has been posted. *)
Theorem C39_workers_finish acc max n sch s : (0 < n)%nat -> (0 < max)%nat ->
  lrun acc max sch (lpost max n) = Some s -> (forall i v, lworker acc max i v s = None) -> l_found s = true.
Proof. exact (stuck_found acc max n sch s). Qed.
Print Assumptions C39_workers_finish.

Definition wk (i : nat) (k : nat) : list lev := repeat (LWk i false) k.

(** Finding: three workers; steps 1 and 2 are acceptable.  Worker 1 commits step 1, worker 2 then overwrites it with
    the smaller step 2 while worker 0 is still busy rejecting step 0.  The sequential search returns step 1. *)
Theorem C39_larger_step_refuted : exists acc max n sch s,
  lrun acc max sch (lpost max n) = Some s /\ l_main s = LDone /\ lreturned max s = Some 2%nat /\ first_acceptable acc max 1%nat.
Proof.
  exists (fun e => 1 <=? e)%nat, 4%nat, 3%nat, (wk 0 3 ++ wk 1 3 ++ wk 2 3 ++ wk 1 2 ++ wk 2 2 ++ wk 0 2 ++ [LMain]).
  eexists. split; [vm_compute; reflexivity|]. split; [reflexivity|]. split; [reflexivity|].
  split; [lia|]. split; [reflexivity|]. intros i Hi. destruct i; [reflexivity|lia].
Qed.
Print Assumptions C39_larger_step_refuted.

(** Finding: the notification is sent without the mutex the caller waits on, so it can fall between the caller's test
    and its going to sleep; the caller then sleeps for ever although the verdict is there. *)
Theorem C39_wakeup_lost_refuted : exists acc max n sch s, (0 < max)%nat /\
  lrun acc max sch (lpost max n) = Some s /\ l_found s = true /\ l_main s = LSleep /\
  lmain s = None /\ forall i v, lworker acc max i v s = None.
Proof.
  exists (fun _ => true), 1%nat, 1%nat, ([LMain] ++ wk 0 5 ++ [LMain] ++ wk 0 2). eexists.
  split; [lia|]. split; [vm_compute; reflexivity|]. split; [reflexivity|]. split; [reflexivity|]. split; [reflexivity|].
  intros [|[|i]] v; reflexivity.
Qed.
Print Assumptions C39_wakeup_lost_refuted.

(** Finding: maxIterations = 0 passes the check of the settings; the sequential search then returns 0, the parallel
    one never returns. *)
Theorem C39_zero_iterations_hang_refuted acc n sch s :
  lrun acc 0 sch (lpost 0 n) = Some s -> l_main s <> LDone.
Proof.
  assert (HI : forall sch s s', lrun acc 0 sch s = Some s' -> l_found s = false -> l_main s <> LDone ->
    (forall w, In w (l_workers s) -> match w with LExec _ | LCommit _ _ => False | _ => True end) -> l_main s' <> LDone).
  { clear sch s. induction sch as [|e sch IH]; cbn; intros s s' H Hf Hm Hw; [congruence|].
    destruct (lstep acc 0 e s) as [t|] eqn:E; [|discriminate]. apply (IH t s' H); clear H IH.
    - destruct e as [|i v|]; cbn in E.
      + unfold lmain in E. destruct (l_main s); try discriminate; now injection E as <-.
      + unfold lworker in E. destruct (nth_error (l_workers s) i) as [w|] eqn:Ei; [|discriminate].
        apply nth_error_In, Hw in Ei. destruct w; try contradiction; try discriminate; now injection E as <-.
      + destruct (l_main s); try discriminate; now injection E as <-.
    - destruct e as [|i v|]; cbn in E.
      + unfold lmain in E. rewrite Hf in E. destruct (l_main s); try discriminate; injection E as <-; discriminate.
      + unfold lworker in E. destruct (nth_error (l_workers s) i) as [w|] eqn:Ei; [|discriminate].
        apply nth_error_In, Hw in Ei. destruct w; try contradiction; try discriminate; now injection E as <-.
      + destruct (l_main s); try discriminate; injection E as <-; discriminate.
    - destruct e as [|i v|]; cbn in E.
      + unfold lmain in E. destruct (l_main s); try discriminate; injection E as <-; exact Hw.
      + unfold lworker in E. destruct (nth_error (l_workers s) i) as [w|] eqn:Ei; [|discriminate].
        pose proof (Hw _ (nth_error_In _ _ Ei)) as Hwi. destruct w; try contradiction; try discriminate; injection E as <-; cbn;
          intros x Hx; apply (In_lupd acc 0) in Hx; (destruct Hx as [Hx|Hx]; [subst x; exact I|destruct Hx as (j & Hj1 & Hj); exact (Hw _ (nth_error_In _ _ Hj))]).
      + destruct (l_main s); try discriminate; injection E as <-; exact Hw. }
  intros H. apply (HI _ _ _ H); [reflexivity|discriminate|]. cbn. intros w Hw. apply repeat_spec in Hw. now subst w.
Qed.
Print Assumptions C39_zero_iterations_hang_refuted.

(** Example: two workers, the third step is the first acceptable one; the caller returns with it. *)
Example C39_example : exists s,
  lrun (fun e => 2 <=? e)%nat 4 ([LMain; LMain] ++ wk 0 3 ++ wk 1 5 ++ wk 0 2 ++ wk 1 4 ++ [LMain]) (lpost 4 2) = Some s /\
  l_main s = LDone /\ lreturned 4 s = Some 2%nat.
Proof. eexists. split; [vm_compute; reflexivity|]. split; reflexivity. Qed.
