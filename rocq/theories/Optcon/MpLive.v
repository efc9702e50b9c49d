(** Which deadlocks the worker pool can reach. *)
From Coq Require Import List Arith Bool Permutation Lia.
From Verif.Optcon Require Import MpModel MpSpec MpProofs MpOrder.
Import ListNotations.

Lemma nth_upd {A} (l : list A) i j v w : nth_error l i = Some w ->
  nth_error (upd l i v) j = if i =? j then Some v else nth_error l j.
Proof.
  revert i j. induction l as [|a l IH]; intros [|i] [|j] H; cbn in *; try discriminate; auto.
Qed.

Definition holds (w : worker) : bool := match w_pc w with WCheck | WBlock => true | _ => false end.

(** The wake-up mutex is held by exactly the worker inside the critical section. *)
Definition lock_ok {D} (s : st D) : Prop :=
  (forall i, s_lock s = Some i -> exists w, nth_error (s_workers s) i = Some w /\ holds w = true) /\
  (forall i w, nth_error (s_workers s) i = Some w -> holds w = true -> s_lock s = Some i).

Section Live.
Variable D : Type.
Variable micro direct : kind -> nat -> list (D -> D).
Notation st := (st D).

Lemma lock_keep (s s' : st) i w w' : nth_error (s_workers s) i = Some w -> holds w' = holds w ->
  s_workers s' = upd (s_workers s) i w' -> s_lock s' = s_lock s -> lock_ok s -> lock_ok s'.
Proof.
  intros Hn Hh Hw Hl [H1 H2]. split.
  - intros j Hj. rewrite Hl in Hj. destruct (H1 j Hj) as (v & Hv & Hhv). rewrite Hw, (nth_upd _ _ _ _ _ Hn).
    destruct (Nat.eqb_spec i j) as [->|]; [|eauto]. exists w'. rewrite Hn in Hv. split; congruence.
  - intros j v Hv Hhv. rewrite Hl. rewrite Hw, (nth_upd _ _ _ _ _ Hn) in Hv.
    destruct (Nat.eqb_spec i j) as [->|]; [|eauto]. injection Hv as <-. apply (H2 _ _ Hn). congruence.
Qed.

Lemma lock_worker s i s' : lock_ok s -> worker_next micro i s = Some s' -> lock_ok s'.
Proof.
  intros HL. unfold worker_next. destruct (nth_error (s_workers s) i) as [w|] eqn:Hn; [|discriminate].
  destruct w as [pc u]. cbn [w_pc w_uid]. destruct pc as [|t0 p| | | | | |t0 p|k0 p|k0 p k|k0 p idx j|k0 p|k0 p|k0 p|k0 p]; intros E.
  all: try (injection E as <-; eapply lock_keep; [exact Hn| |reflexivity|reflexivity|exact HL]; reflexivity).
  - injection E as <-. eapply lock_keep; [exact Hn| |reflexivity|reflexivity|exact HL]. destruct (must_sleep _ _ _); reflexivity.
  - destruct (s_lock s) eqn:Hlk; [discriminate|]. injection E as <-. destruct HL as [H1 H2]. split; flds.
    + intros j Hj. injection Hj as <-. rewrite (nth_upd _ _ _ _ _ Hn), Nat.eqb_refl. eauto.
    + intros j v Hv Hhv. rewrite (nth_upd _ _ _ _ _ Hn) in Hv. destruct (Nat.eqb_spec i j) as [->|]; auto.
      exfalso. specialize (H2 _ _ Hv Hhv). congruence.
  - destruct (must_sleep _ _ _); injection E as <-.
    + eapply lock_keep; [exact Hn| |reflexivity|reflexivity|exact HL]; reflexivity.
    + destruct HL as [H1 H2]. pose proof (H2 _ _ Hn eq_refl) as Hi. split; flds; [discriminate|].
      intros j v Hv Hhv. rewrite (nth_upd _ _ _ _ _ Hn) in Hv. destruct (Nat.eqb_spec i j) as [->|Hne].
      * injection Hv as <-. discriminate.
      * specialize (H2 _ _ Hv Hhv). congruence.
  - injection E as <-. destruct HL as [H1 H2]. pose proof (H2 _ _ Hn eq_refl) as Hi. split; flds; [discriminate|].
    intros j v Hv Hhv. rewrite (nth_upd _ _ _ _ _ Hn) in Hv. destruct (Nat.eqb_spec i j) as [->|Hne].
    + injection Hv as <-. discriminate.
    + specialize (H2 _ _ Hv Hhv). congruence.
  - discriminate.
  - destruct t0; injection E as <-; (eapply lock_keep; [exact Hn| |reflexivity|reflexivity|exact HL]; reflexivity).
  - injection E as <-. eapply lock_keep; [exact Hn| |reflexivity|reflexivity|exact HL]. destruct (_ <? _); reflexivity.
  - destruct (nth_error (micro k0 idx) j); injection E as <-;
      (eapply lock_keep; [exact Hn| |reflexivity|reflexivity|exact HL]; reflexivity).
  - injection E as <-. eapply lock_keep; [exact Hn| |reflexivity|reflexivity|exact HL]. destruct (all_completed s); reflexivity.
  - injection E as <-. assert (HL' : lock_ok (set_workers (upd (s_workers s) i (MkWorker (WEnd k0 p) u)) s))
      by (eapply lock_keep; [exact Hn| |reflexivity|reflexivity|exact HL]; reflexivity).
    destruct (s_main s); exact HL'.
Qed.

Lemma lock_wake (s : st) : lock_ok s -> lock_ok (set_workers (map wake (s_workers s)) s).
Proof.
  assert (Hw : forall w, holds (wake w) = holds w) by (intros [[] u]; reflexivity).
  intros [H1 H2]. split; flds.
  - intros i Hi. destruct (H1 i Hi) as (w & Hn & Hh). exists (wake w). split; [now apply map_nth_error|congruence].
  - intros i w Hn Hh. rewrite nth_error_map in Hn. destruct (nth_error (s_workers s) i) as [v|] eqn:E; [|discriminate].
    injection Hn as <-. apply (H2 _ _ E). congruence.
Qed.

Lemma lock_step e s s' : lock_ok s -> step micro direct e s = Some s' -> lock_ok s'.
Proof.
  intros HL. destruct e as [|i| |i]; cbn.
  - unfold main_next. destruct (s_main s) as [l|t l|t l|t l|t l|t l|l|l|l|l|l]; intros E; try discriminate;
      try (injection E as <-; exact HL).
    + destruct l as [|t l]; [discriminate|]. destruct (_ =? _); injection E as <-; exact HL.
    + injection E as <-. exact (lock_wake _ HL).
  - now apply lock_worker.
  - destruct (s_main s); try discriminate. intros E. injection E as <-. exact HL.
  - destruct (nth_error (s_workers s) i) as [[pc u]|] eqn:Hn; [|discriminate]. cbn. destruct pc; try discriminate.
    intros E. injection E as <-. eapply lock_keep; [exact Hn| |reflexivity|reflexivity|exact HL]; reflexivity.
Qed.

Variable t : task.
Variable ts : list task.
Notation kd := (tk_kind t).
Notation N := (S (tk_max t - tk_min t)).
Hypothesis Hmulti : tk_min t < tk_max t.
Variable l0 : list (kind * nat * nat).
Variable d0 : D.
Notation phase := (phase D micro t ts l0 d0).
Notation work := (work D micro t l0 d0).

(** The worker has finished (or is just finishing) the current task. *)
Definition marked (w : worker) : Prop :=
  w_uid w = Some (tk_pid t, kd) \/
  match w_pc w with WNotify k p | WSignal k p | WEnd k p => (p, k) = (tk_pid t, kd) | _ => False end.
Definition carry (w : worker) : Prop :=
  match w_pc w with
  | WLoaded (Some _) p | WDispatch (Some _) p | WTake _ p | WHave _ p _ | WWork _ p _ _ | WCount _ p => p = tk_pid t
  | _ => True
  end.
(** Asleep, or about to be, although it has not done its share. *)
Definition missed (w : worker) : nat :=
  match w_pc w with WBlock | WSleep => if same_id (w_uid w) (tk_pid t) kd then 0 else 1 | _ => 0 end.

Lemma kind_eqb_eq a b : kind_eqb a b = true <-> a = b.
Proof. destruct a, b; cbn; split; congruence. Qed.
Lemma same_id_eq u p k : same_id u p k = true <-> u = Some (p, k).
Proof.
  destruct u as [[p' k']|]; cbn; [|split; discriminate]. rewrite andb_true_iff, Nat.eqb_eq, kind_eqb_eq.
  split; [intros [-> ->]; reflexivity|intros E; injection E as -> ->; auto].
Qed.

Definition premain (m : mpc) : Prop :=
  m = MIdle (t :: ts) \/ m = MSetTaken t ts \/ m = MSetCompleted t ts \/ m = MSetMax t ts \/ m = MSetMin t ts \/ m = MSetTask t ts.
Definition postmain (m : mpc) : Prop :=
  m = MNotify ts \/ m = MCheck ts \/ m = MBlock ts \/ m = MSleep ts \/ m = MReset ts.

Record ext (s : st) : Prop := MkExt {
  x_pid : s_pid s = tk_pid t;
  x_carry : Forall carry (s_workers s);
  x_have : forall w k0 p k, In w (s_workers s) -> w_pc w = WHave k0 p k -> k < s_taken s;
  x_marked : forall w, In w (s_workers s) -> marked w -> N < s_taken s;
  x_missed : s_main s = MNotify ts \/ total missed (s_workers s) <= 1 }.

Definition inv2 (s : st) : Prop :=
  (premain (s_main s) -> Forall (fun w => ~ marked w) (s_workers s) /\ (s_main s = MIdle (t :: ts) \/ s_pid s = tk_pid t)) /\
  (postmain (s_main s) -> ext s).

Lemma pre_post m : premain m -> postmain m -> False.
Proof. unfold premain, postmain. intros H1 H2. decompose [or] H1; decompose [or] H2; congruence. Qed.

Lemma phase_pre s : phase s -> premain (s_main s) -> Forall at_rest (s_workers s) /\ s_task s = None.
Proof.
  intros [HR Ht _ _ _|l1 fin W Ht H|l1 fin W Ht H Hc|H] Hp; auto; exfalso; unfold premain in Hp.
  - decompose [or and] H; decompose [or] Hp; congruence.
  - decompose [or] Hp; try congruence. rewrite H in H0. injection H0 as E. apply (f_equal (@length _)) in E. cbn in E; lia.
  - decompose [or] Hp; match goal with E : s_main s = _ |- _ => rewrite E in H; cbn in H; lia end.
Qed.

Lemma phase_post s : phase s -> postmain (s_main s) -> exists l1 fin, work s l1 fin /\ s_task s = Some kd.
Proof.
  intros [HR Ht _ _ Hm|l1 fin W Ht H|l1 fin W Ht H Hc|H] Hp; eauto; exfalso; unfold postmain in Hp.
  - decompose [or and] Hm; decompose [or] Hp; congruence.
  - decompose [or] Hp; congruence.
  - decompose [or] Hp; match goal with E : s_main s = _ |- _ => rewrite E in H; cbn in H; lia end.
Qed.

Ltac cl Hm := cbn; try discriminate; try (intros ? ? ?; discriminate); auto;
  try (intros [?H|[]]; apply Hm; left; assumption).

(** A worker step while the task is posted. *)
Lemma ext_worker s i s' : (exists l1 fin, work s l1 fin) -> s_task s = Some kd -> ext s -> worker_next micro i s = Some s' -> ext s'.
Proof.
  intros (l1 & fin & W) Ht [X1 X2 XH X3 X4]. unfold worker_next.
  destruct (nth_error (s_workers s) i) as [w|] eqn:Hn; [|discriminate].
  pose proof (nth_error_In _ _ Hn) as HIn.
  assert (Hok : okw t w) by (pose proof (wk_ok _ _ _ _ _ _ _ _ W) as H; rewrite Forall_forall in H; auto).
  assert (Hc : carry w) by (rewrite Forall_forall in X2; auto).
  assert (Hm := X3 w HIn).
  assert (Hmk : forall w' s', s_pid s' = s_pid s -> s_workers s' = upd (s_workers s) i w' ->
    (s_main s' = s_main s \/ s_main s' <> MNotify ts /\ s_main s <> MNotify ts) -> s_taken s <= s_taken s' ->
    carry w' -> (forall k0 p k, w_pc w' = WHave k0 p k -> k < s_taken s') -> (marked w' -> N < s_taken s') -> missed w' <= missed w -> ext s').
  { intros w' s'' E1 E2 E3 E4 C1 CH C2 C3. destruct (upd_split _ _ _ Hn) as (a & b & E & _ & Hu).
    constructor.
    - congruence.
    - rewrite E2, Hu. rewrite E in X2. apply Forall_mid in X2. apply Forall_mid. tauto.
    - intros v k0 p k Hv Hpv. rewrite E2, Hu in Hv. apply in_app_iff in Hv. destruct Hv as [Hv|[<-|Hv]]; eauto;
        (eapply Nat.lt_le_trans; [|exact E4]; eapply (XH v); [|exact Hpv]; rewrite E; apply in_app_iff; cbn; auto).
    - intros v Hv Hmv. rewrite E2, Hu in Hv. apply in_app_iff in Hv. destruct Hv as [Hv|[<-|Hv]]; auto.
      + eapply Nat.lt_le_trans; [|exact E4]. apply (X3 v); auto. rewrite E. apply in_app_iff. auto.
      + eapply Nat.lt_le_trans; [|exact E4]. apply (X3 v); auto. rewrite E. apply in_app_iff. cbn. auto.
    - assert (HM : total missed (s_workers s'') <= total missed (s_workers s)).
      { rewrite E2, Hu, E, !total_app, !total_cons. lia. }
      destruct E3 as [E3|[E3 E3']]; [rewrite E3|]; destruct X4 as [X4|X4]; auto; try (right; lia). congruence. }
  destruct w as [pc u]. cbn [w_pc w_uid].
  destruct pc as [|t0 p| | | | | |t0 p|k0 p|k0 p k|k0 p idx j|k0 p|k0 p|k0 p|k0 p]; intros E; cbn in Hok, Hc.
  - injection E as <-. apply (Hmk (MkWorker (WLoaded (s_task s) (s_pid s)) u)); cl Hm. now rewrite Ht.
  - injection E as <-. apply (Hmk (MkWorker (if must_sleep u p t0 then WLock else WDispatch t0 p) u)); auto;
      destruct (must_sleep u p t0); cl Hm.
  - destruct (s_lock s); [discriminate|]. injection E as <-. apply (Hmk (MkWorker WCheck u)); cl Hm.
  - rewrite Ht in E. cbn [must_sleep] in E. rewrite X1 in E. destruct (same_id u (tk_pid t) kd) eqn:Hs; injection E as <-.
    + apply (Hmk (MkWorker WBlock u)); cl Hm. rewrite Hs. auto.
    + apply (Hmk (MkWorker WReload u)); cl Hm.
  - injection E as <-. apply (Hmk (MkWorker WSleep u)); cl Hm.
  - discriminate.
  - injection E as <-. apply (Hmk (MkWorker (WDispatch (s_task s) (s_pid s)) u)); cl Hm. now rewrite Ht.
  - destruct t0 as [k|]; injection E as <-.
    + apply (Hmk (MkWorker (WTake k p) u)); cl Hm.
    + apply (Hmk (MkWorker WTop u)); cl Hm.
  - injection E as <-. apply (Hmk (MkWorker (WHave k0 p (s_taken s)) u)); flds; auto.
    + cbn. intros k1 p1 k E. injection E as <- <- <-. lia.
    + intros [H|[]]. enough (N < s_taken s) by lia. apply Hm. left. exact H.
  - destruct (Nat.ltb_spec (s_max s - s_min s) k) as [Hk|Hk]; injection E as <-.
    + apply (Hmk (MkWorker (WNotify k0 p) u)); cl Hm. intros _.
      rewrite (wk_max _ _ _ _ _ _ _ _ W), (wk_min _ _ _ _ _ _ _ _ W) in Hk.
      pose proof (XH _ _ _ _ HIn eq_refl). lia.
    + apply (Hmk (MkWorker (WWork k0 p (s_max s - k) 0) u)); cl Hm.
  - destruct (nth_error (micro k0 idx) j); injection E as <-.
    + apply (Hmk (MkWorker (WWork k0 p idx (S j)) u)); cl Hm.
    + apply (Hmk (MkWorker (WCount k0 p) u)); cl Hm.
  - injection E as <-. apply (Hmk (MkWorker (WTake k0 p) u)); cl Hm.
  - injection E as <-. apply (Hmk (MkWorker (if all_completed s then WSignal k0 p else WEnd k0 p) u)); auto.
    + destruct (all_completed s); exact I.
    + intros ? ? ?. destruct (all_completed s); cbn [w_pc]; discriminate.
    + intros H. apply Hm. destruct H as [H|H]; [left; exact H|right]. destruct (all_completed s); exact H.
    + destruct (all_completed s); cbn; auto.
  - injection E as <-. assert (HE : forall s', s_workers s' = upd (s_workers s) i (MkWorker (WEnd k0 p) u) ->
      s_taken s' = s_taken s -> s_pid s' = s_pid s -> (s_main s' = s_main s \/ s_main s' <> MNotify ts /\ s_main s <> MNotify ts) -> ext s').
    { intros s'' F1 F2 F3 F4. apply (Hmk (MkWorker (WEnd k0 p) u)); auto; try lia; [cbn; discriminate|].
      rewrite F2. intros H. apply Hm. destruct H as [H|H]; [left; exact H|right; exact H]. }
    destruct (s_main s) eqn:Hmm; apply HE; flds; auto. right. split; discriminate.
  - injection E as <-. apply (Hmk (MkWorker WTop (Some (p, k0)))); cl Hm.
    intros [H|[]]. apply Hm. right. cbn in *. congruence.
Qed.

Lemma total_bound {A} (f : A -> nat) l : (forall i j a b, nth_error l i = Some a -> nth_error l j = Some b -> f a > 0 -> f b > 0 -> i = j) ->
  (forall a, f a <= 1) -> list_sum (map f l) <= 1.
Proof.
  intros H1 H2. induction l as [|a l IH]; [cbn; lia|]. change (f a + list_sum (map f l) <= 1).
  destruct (Nat.eq_dec (f a) 0) as [E|E].
  - rewrite E. apply IH. intros i j x y Hi Hj Hx Hy. specialize (H1 (S i) (S j) x y Hi Hj Hx Hy). congruence.
  - assert (HZ : list_sum (map f l) = 0).
    { clear IH. assert (HA : forall b, In b l -> f b = 0).
      { intros b Hb. apply In_nth_error in Hb. destruct Hb as [j Hj]. destruct (Nat.eq_dec (f b) 0) as [|Hb]; auto.
        exfalso. assert (0 = S j) by (apply (H1 0 (S j) a b); auto; lia). lia. }
      clear H1 E. induction l as [|b l IH]; cbn; auto. rewrite (HA b) by (cbn; auto). apply IH. intros; apply HA; cbn; auto. }
    specialize (H2 a). lia.
Qed.

(** Before the task is posted no worker marks it done. *)
Lemma unmarked_worker s i s' : Forall at_rest (s_workers s) -> s_task s = None ->
  Forall (fun w => ~ marked w) (s_workers s) -> worker_next micro i s = Some s' ->
  Forall (fun w => ~ marked w) (s_workers s') /\ s_pid s' = s_pid s /\
  (s_main s' = s_main s \/ exists l, s_main s = MSleep l).
Proof.
  intros HR Ht HF. unfold worker_next. destruct (nth_error (s_workers s) i) as [w|] eqn:Hn; [|discriminate].
  pose proof (nth_error_In _ _ Hn) as HIn.
  assert (Hat : at_rest w) by (rewrite Forall_forall in HR; auto).
  assert (Hun : ~ marked w) by (rewrite Forall_forall in HF; apply HF; auto).
  assert (Hmk : forall w' (s' : st), s_workers s' = upd (s_workers s) i w' -> (marked w' -> marked w) ->
    Forall (fun w => ~ marked w) (s_workers s')).
  { intros w' s'' E Hw. destruct (upd_split _ _ _ Hn) as (a & b & E1 & _ & Hu). rewrite E, Hu. rewrite E1 in HF.
    apply Forall_mid in HF. apply Forall_mid. intuition. }
  destruct w as [pc u]. cbn [w_pc w_uid].
  destruct pc as [|t0 p| | | | | |t0 p|k0 p|k0 p k|k0 p idx j|k0 p|k0 p|k0 p|k0 p]; intros E; cbn in Hat; try contradiction.
  - injection E as <-. split; [|auto]. apply (Hmk (MkWorker (WLoaded (s_task s) (s_pid s)) u)); auto.
  - injection E as <-. split; [|auto]. apply (Hmk (MkWorker (if must_sleep u p t0 then WLock else WDispatch t0 p) u)); auto.
    destruct (must_sleep u p t0); auto.
  - destruct (s_lock s); [discriminate|]. injection E as <-. split; [|auto]. apply (Hmk (MkWorker WCheck u)); auto.
  - destruct (must_sleep u _ _); injection E as <-; (split; [|auto]);
      [apply (Hmk (MkWorker WBlock u))|apply (Hmk (MkWorker WReload u))]; auto.
  - injection E as <-. split; [|auto]. apply (Hmk (MkWorker WSleep u)); auto.
  - discriminate.
  - injection E as <-. split; [|auto]. apply (Hmk (MkWorker (WDispatch (s_task s) (s_pid s)) u)); auto.
  - destruct t0 as [k|]; [contradiction|]. injection E as <-. split; [|auto]. apply (Hmk (MkWorker WTop u)); auto.
  - injection E as <-. split; [|auto]. apply (Hmk (MkWorker (if all_completed s then WSignal k0 p else WEnd k0 p) u)); auto.
    destruct (all_completed s); auto.
  - injection E as <-. destruct (s_main s) eqn:Hmm; (split; [|split; [reflexivity|flds; eauto]]); eapply (Hmk (MkWorker (WEnd k0 p) u)); flds; auto.
  - injection E as <-. split; [|auto]. apply (Hmk (MkWorker WTop (Some (p, k0)))); auto.
    intros [H|[]]. right. cbn in *. congruence.
Qed.

Lemma main_left e s s' : step micro direct e s = Some s' -> left_ (s_main s') <= left_ (s_main s).
Proof.
  destruct e as [|i| |i]; cbn.
  - unfold main_next. destruct (s_main s) as [[|t1 l]|t1 l|t1 l|t1 l|t1 l|t1 l|l|l|l|l|l] eqn:Hm; intros E; try discriminate;
      try (injection E as <-; cbn; lia).
    + destruct (_ =? _); injection E as <-; cbn; lia.
    + injection E as <-. flds. destruct (all_completed s); cbn [left_]; lia.
  - unfold worker_next. destruct (nth_error (s_workers s) i) as [w|] eqn:Hn; [|discriminate].
    destruct (w_pc w) as [|t0 p| | | | | |t0 p|k0 p|k0 p k|k0 p idx j|k0 p|k0 p|k0 p|k0 p]; intros E;
      try discriminate; try (injection E as <-; cbn; lia).
    + destruct (s_lock s); [discriminate|]. injection E as <-; cbn; lia.
    + destruct (must_sleep _ _ _); injection E as <-; cbn; lia.
    + destruct t0; injection E as <-; cbn; lia.
    + destruct (nth_error _ j); injection E as <-; cbn; lia.
    + injection E as <-. destruct (s_main s) eqn:Hm; flds; rewrite ?Hm; cbn; lia.
  - destruct (s_main s) eqn:Hm; try discriminate. intros E. injection E as <-. cbn. lia.
  - destruct (nth_error (s_workers s) i) as [[[] u]|]; cbn; try discriminate. intros E. injection E as <-. cbn. lia.
Qed.

Lemma inv2_past (s : st) : left_ (s_main s) <= 2 * length ts -> inv2 s.
Proof.
  intros H. split; intros Hp; exfalso; unfold premain, postmain in Hp; decompose [or] Hp;
    match goal with E : s_main s = _ |- _ => rewrite E in H; cbn in H; lia end.
Qed.

Lemma phase_cases s : phase s -> premain (s_main s) \/ postmain (s_main s) \/ left_ (s_main s) <= 2 * length ts.
Proof.
  unfold premain, postmain. intros [HR Ht _ _ Hm|l1 fin W Ht H|l1 fin W Ht H Hc|H].
  - left. tauto.
  - right; left. tauto.
  - right; right. rewrite H. cbn. lia.
  - right; right. lia.
Qed.

Lemma inv2_pre (s : st) : premain (s_main s) -> Forall (fun w => ~ marked w) (s_workers s) ->
  (s_main s = MIdle (t :: ts) \/ s_pid s = tk_pid t) -> inv2 s.
Proof. intros H1 H2 H3. split; auto. intros H. exfalso. eapply pre_post; eauto. Qed.

Lemma inv2_post (s : st) : postmain (s_main s) -> ext s -> inv2 s.
Proof. intros H1 H2. split; auto. intros H. exfalso. eapply pre_post; eauto. Qed.

Lemma missed_le w : missed w <= 1.
Proof. unfold missed. destruct (w_pc w); try lia; destruct (same_id _ _ _); lia. Qed.

Lemma inv2_step e s s' : phase s -> lock_ok s -> inv2 s -> step micro direct e s = Some s' -> inv2 s'.
Proof.
  intros HP HL [HA HB] E. pose proof (main_left _ _ _ E) as Hleft.
  destruct (phase_cases s HP) as [Hp|[Hp|Hp]]; [| |apply inv2_past; lia].
  - (* before the task is posted *)
    specialize (HA Hp). destruct HA as [HA HA']. destruct (phase_pre s HP Hp) as [HR Ht]. clear HB Hleft.
    destruct e as [|i| |i]; cbn in E.
    + unfold main_next in E. unfold premain in Hp. decompose [or] Hp; clear Hp; rewrite H in * || rewrite H0 in *.
      all: try rewrite H in *; try rewrite H0 in *; try rewrite H1 in *.
      * destruct (Nat.eqb_spec (tk_min t) (tk_max t)); [lia|]. injection E as <-. apply inv2_pre; flds; auto. unfold premain; auto.
      * injection E as <-. apply inv2_pre; flds; auto; [unfold premain; tauto|]. destruct HA' as [F|]; [discriminate|auto].
      * injection E as <-. apply inv2_pre; flds; auto; [unfold premain; tauto|]. destruct HA' as [F|]; [discriminate|auto].
      * injection E as <-. apply inv2_pre; flds; auto; [unfold premain; tauto|]. destruct HA' as [F|]; [discriminate|auto].
      * injection E as <-. apply inv2_pre; flds; auto; [unfold premain; tauto|]. destruct HA' as [F|]; [discriminate|auto].
      * injection E as <-. apply inv2_post; flds; [unfold postmain; tauto|]. constructor; flds; auto.
        -- destruct HA' as [F|]; [discriminate|auto].
        -- apply Forall_forall. intros [pc u] Hw. rewrite Forall_forall in HR. specialize (HR _ Hw).
           destruct pc; cbn in *; try contradiction; auto; destruct t0; try contradiction; auto.
        -- intros [pc u] k0 p k Hw Hpc. cbn in Hpc. subst pc. rewrite Forall_forall in HR. specialize (HR _ Hw). contradiction.
        -- intros w Hw Hmk. rewrite Forall_forall in HA. exfalso. eapply HA; eauto.
    + destruct (unmarked_worker _ _ _ HR Ht HA E) as (H1 & H2 & H3).
      assert (Hmm : s_main s' = s_main s).
      { destruct H3 as [H3|[l H3]]; auto. exfalso. unfold premain in Hp. decompose [or] Hp; congruence. }
      apply inv2_pre; rewrite ?Hmm, ?H2; auto.
    + exfalso. unfold premain in Hp. decompose [or] Hp; clear Hp;
        match goal with F : s_main s = _ |- _ => rewrite F in E; discriminate end.
    + destruct (nth_error (s_workers s) i) as [[pc u]|] eqn:Hn; [|discriminate]. cbn in E. destruct pc; try discriminate.
      injection E as <-. apply inv2_pre; flds; auto.
      destruct (upd_split _ _ _ Hn) as (a & b & E1 & _ & Hu). rewrite Hu. rewrite E1 in HA.
      apply Forall_mid in HA. apply Forall_mid. destruct HA as (Q1 & Q2 & Q3). repeat split; auto.
  - specialize (HB Hp). destruct (phase_post s HP Hp) as (l1 & fin & W & Ht). clear HA.
    destruct e as [|i| |i]; cbn in E.
    + assert (HB2 : forall s' : st, s_pid s' = s_pid s -> s_workers s' = s_workers s -> s_taken s' = s_taken s ->
        s_main s <> MNotify ts -> ext s').
      { intros s'' F1 F2 F3 F4. destruct HB as [X1 X2 XH X3 X4]. constructor; rewrite ?F1, ?F2, ?F3; auto. tauto. }
      unfold main_next in E. unfold postmain in Hp. destruct Hp as [Hp|[Hp|[Hp|[Hp|Hp]]]]; rewrite Hp in *.
      * injection E as <-. apply inv2_post; flds; [unfold postmain; tauto|]. destruct HB as [X1 X2 XH X3 X4].
        assert (Hwk : forall w, wake w = w \/ (w_pc w = WSleep /\ wake w = MkWorker WLock (w_uid w)))
          by (intros [[] u]; cbn; auto).
        constructor; flds; auto.
        -- apply Forall_forall. intros w Hw. apply in_map_iff in Hw. destruct Hw as (v & <- & Hv).
           rewrite Forall_forall in X2. destruct (Hwk v) as [->|[_ ->]]; auto. exact I.
        -- intros w k0 p k Hw Hpc. apply in_map_iff in Hw. destruct Hw as (v & <- & Hv).
           destruct (Hwk v) as [F|[_ F]]; rewrite F in Hpc; [eauto|discriminate].
        -- intros w Hw Hmk. apply in_map_iff in Hw. destruct Hw as (v & <- & Hv). apply (X3 v Hv).
           destruct (Hwk v) as [F|[_ F]]; rewrite F in Hmk; auto. destruct Hmk as [Hmk|[]]. left. exact Hmk.
        -- right. unfold total. apply total_bound; [|apply missed_le]. destruct HL as [HL1 HL2].
           assert (HH : forall v, missed (wake v) > 0 -> holds v = true).
           { intros [[] u]; cbn; try lia; auto. }
           intros i j a b Hi Hj Ha Hb. rewrite nth_error_map in Hi, Hj.
           destruct (nth_error (s_workers s) i) as [v|] eqn:Ei; [|discriminate]. injection Hi as <-.
           destruct (nth_error (s_workers s) j) as [v'|] eqn:Ej; [|discriminate]. injection Hj as <-.
           pose proof (HL2 _ _ Ei (HH _ Ha)). pose proof (HL2 _ _ Ej (HH _ Hb)). congruence.
      * injection E as <-. apply inv2_post; flds; [unfold postmain; destruct (all_completed s); tauto|].
        apply HB2; auto. discriminate.
      * injection E as <-. apply inv2_post; flds; [unfold postmain; tauto|]. apply HB2; auto. discriminate.
      * discriminate.
      * injection E as <-. apply inv2_past. cbn. lia.
    + assert (X : ext s') by (eapply ext_worker; eauto).
      destruct (work_worker D micro t (Nat.lt_le_incl _ _ Hmulti) l0 d0 s l1 fin i s' W (or_intror Ht) E) as (_ & _ & _ & _ & Hm).
      apply inv2_post; auto. unfold postmain in *. destruct Hm as [->|[l [Hm1 Hm2]]]; auto.
      decompose [or] Hp; try congruence. rewrite Hm2. assert (l = ts) by congruence. subst. tauto.
    + destruct (s_main s) as [| | | | | | | | |l|] eqn:Hm; try discriminate. injection E as <-.
      unfold postmain in Hp. decompose [or] Hp; try discriminate.
      assert (l = ts) by congruence. subst l. destruct HB as [X1 X2 XH X3 X4].
      apply inv2_post; flds; [unfold postmain; tauto|]. constructor; flds; auto. right. destruct X4; auto. congruence.
    + destruct (nth_error (s_workers s) i) as [[pc u]|] eqn:Hn; [|discriminate]. cbn in E. destruct pc; try discriminate.
      injection E as <-. apply inv2_post; flds; auto. destruct HB as [X1 X2 XH X3 X4].
      destruct (upd_split _ _ _ Hn) as (a & b & E1 & _ & Hu). constructor; flds; rewrite ?Hu; auto.
      * rewrite E1 in X2. apply Forall_mid in X2. apply Forall_mid. cbn. tauto.
      * intros v k0 p k Hv Hpv. apply in_app_iff in Hv. destruct Hv as [Hv|[<-|Hv]]; [|discriminate|];
          (eapply (XH v); [|exact Hpv]; rewrite E1; apply in_app_iff; cbn; auto).
      * intros v Hv Hmv. apply in_app_iff in Hv. destruct Hv as [Hv|[<-|Hv]].
        -- apply (X3 v); auto. rewrite E1. apply in_app_iff. auto.
        -- apply (X3 _ (nth_error_In _ _ Hn)). destruct Hmv as [Hmv|[]]. left. exact Hmv.
        -- apply (X3 v); auto. rewrite E1. apply in_app_iff. cbn. auto.
      * destruct X4 as [X4|X4]; auto. right. rewrite E1 in X4. rewrite total_app, total_cons in *.
        replace (missed (MkWorker WLock u)) with 0 by reflexivity. lia.
Qed.

Lemma inv_run sch s s' : phase s -> lock_ok s -> inv2 s -> run micro direct sch s = Some s' ->
  phase s' /\ lock_ok s' /\ inv2 s'.
Proof.
  revert s. induction sch as [|e sch IH]; intros s HP HL HI; cbn.
  - intros E. injection E as <-. auto.
  - destruct (step micro direct e s) as [s1|] eqn:E; [|discriminate]. apply IH.
    + eapply phase_step; [lia|lia|exact HP|exact E].
    + eapply lock_step; eauto.
    + eapply inv2_step; eauto.
Qed.

(** With at least two workers, a state of the call from which nothing moves is one in which all stages are done
    and the caller is asleep. *)
Lemma stuck_done s : phase s -> lock_ok s -> inv2 s -> 2 <= length (s_workers s) -> stuck micro direct s ->
  (premain (s_main s) \/ postmain (s_main s)) ->
  s_main s = MSleep ts /\ exists l1 fin, work s l1 fin /\ N <= length fin /\ s_completed s > tk_max t - tk_min t.
Proof.
  intros HP HL [HA HB] Hlen [Hst1 Hst2] Hin.
  assert (Hm : s_main s = MSleep ts).
  { unfold main_next in Hst1. destruct Hin as [Hin|Hin]; unfold premain, postmain in Hin; decompose [or] Hin; auto;
      match goal with F : s_main s = _ |- _ => rewrite F in Hst1 end; try discriminate.
    destruct (tk_min t =? tk_max t); discriminate. }
  split; auto. assert (Hp : postmain (s_main s)) by (unfold postmain; tauto).
  specialize (HB Hp). destruct (phase_post s HP Hp) as (l1 & fin & W & Ht). exists l1, fin. split; auto.
  assert (Hsleep : forall i w, nth_error (s_workers s) i = Some w -> w_pc w = WSleep \/ w_pc w = WLock /\ s_lock s <> None).
  { intros i w Hn. specialize (Hst2 i). unfold worker_next in Hst2. rewrite Hn in Hst2.
    destruct (w_pc w); auto; try discriminate.
    - destruct (s_lock s); [right; split; auto; discriminate|discriminate].
    - destruct (must_sleep _ _ _); discriminate.
    - destruct t0; discriminate.
    - destruct (nth_error _ j); discriminate. }
  assert (Hlk : s_lock s = None).
  { destruct (s_lock s) as [i|] eqn:Hlk; auto. destruct HL as [HL1 _]. destruct (HL1 i Hlk) as (w & Hn & Hh).
    destruct (Hsleep i w Hn) as [Hpc|[Hpc _]]; unfold holds in Hh; rewrite Hpc in Hh; discriminate. }
  assert (Hall : forall w, In w (s_workers s) -> w_pc w = WSleep).
  { intros w Hw. apply In_nth_error in Hw. destruct Hw as [i Hn]. destruct (Hsleep i w Hn) as [|[_ F]]; auto. congruence. }
  destruct HB as [X1 X2 XH X3 X4]. destruct X4 as [X4|X4]; [congruence|].
  assert (Hmk : exists w, In w (s_workers s) /\ marked w).
  { destruct (s_workers s) as [|w1 [|w2 ws]]; cbn in Hlen; try lia.
    rewrite !total_cons in X4. unfold missed in X4 at 1 2.
    rewrite (Hall w1), (Hall w2) in X4 by (cbn; auto).
    destruct (same_id (w_uid w1) (tk_pid t) kd) eqn:S1.
    - exists w1. split; [cbn; auto|]. left. now apply same_id_eq.
    - destruct (same_id (w_uid w2) (tk_pid t) kd) eqn:S2; [|lia].
      exists w2. split; [cbn; auto|]. left. now apply same_id_eq. }
  destruct Hmk as (w & Hw & Hmk). specialize (X3 w Hw Hmk).
  destruct W as [_ _ _ _ _ Hperm Hcount _ _ _ _].
  assert (Ho : concat (map (own t) (s_workers s)) = []).
  { clear -Hall. induction (s_workers s) as [|a l IH]; cbn; auto. rewrite IH by (intros; apply Hall; cbn; auto).
    unfold own. rewrite (Hall a) by (cbn; auto). reflexivity. }
  assert (Hc0 : total cnt (s_workers s) = 0).
  { clear -Hall. induction (s_workers s) as [|a l IH]; auto. rewrite total_cons, IH by (intros; apply Hall; cbn; auto).
    unfold cnt. rewrite (Hall a) by (cbn; auto). reflexivity. }
  rewrite Ho in Hperm. cbn [app] in Hperm. apply Permutation_length in Hperm. rewrite seq_length in Hperm. lia.
Qed.
End Live.
