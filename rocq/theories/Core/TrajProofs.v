From Coq Require Import List ZArith QArith Sorted Lia Lqa.
From Verif Require Import Base.Outcome Core.InterpModel Core.InterpSpec Core.InterpProofs.
Import ListNotations.
Open Scope Q_scope.

Definition R (S : Q) (a : Q) (p : Q * vec) : Prop := a == fst p - S.

Definition Refines (s : traj) (r : recording) : Prop :=
  Forall2 (R (rec_shift r)) (tr_time s) (rec_pts r) /\ tr_data s = map snd (rec_pts r).

Lemma last_time_app pts t d : last_time (pts ++ [(t, d)]) = Some t.
Proof. unfold last_time. rewrite rev_app_distr. reflexivity. Qed.

Lemma last_time_None pts : last_time pts = None -> pts = [].
Proof.
  unfold last_time. destruct (rev pts) as [|[t d] l] eqn:E; [|discriminate].
  intros _. apply (f_equal (@rev _)) in E. rewrite rev_involutive in E. exact E.
Qed.

Lemma last_time_Some pts g : last_time pts = Some g -> exists init d, pts = init ++ [(g, d)].
Proof.
  unfold last_time. destruct (rev pts) as [|[t d] l] eqn:E; [discriminate|].
  intros [= ->]. apply (f_equal (@rev _)) in E. rewrite rev_involutive in E.
  simpl in E. eauto.
Qed.

Lemma Forall2_len {A B} (P : A -> B -> Prop) l m : Forall2 P l m -> length l = length m.
Proof. induction 1; simpl; lia. Qed.

Lemma Forall2_snoc_r {A B} (P : A -> B -> Prop) l m b :
  Forall2 P l (m ++ [b]) -> exists l' a, l = l' ++ [a] /\ Forall2 P l' m /\ P a b.
Proof.
  intro H. apply Forall2_app_inv_r in H. destruct H as (l1 & l2 & H1 & H2 & ->).
  inversion H2 as [|a ? l' ? Hab Hnil]; subst. inversion Hnil; subst. eauto.
Qed.

Lemma vec_back_app {A} (l : list A) a : vec_back (l ++ [a]) = Ok a.
Proof.
  unfold vec_back, vec_get. destruct (l ++ [a]) eqn:E; [destruct l; discriminate|].
  rewrite <- E. rewrite app_length. simpl.
  rewrite nth_error_app2 by lia. replace (length l + 1 - 1 - length l)%nat with 0%nat by lia.
  reflexivity.
Qed.

Lemma Forall2_removelast {A B} (P : A -> B -> Prop) l m :
  Forall2 P l m -> Forall2 P (removelast l) (removelast m).
Proof.
  intros H. destruct m as [|b m] using rev_ind.
  - inversion H; constructor.
  - apply Forall2_snoc_r in H. destruct H as (l' & a & -> & H & _).
    rewrite !removelast_last. exact H.
Qed.

Lemma Forall2_skipn {A B} (P : A -> B -> Prop) n l m :
  Forall2 P l m -> Forall2 P (skipn n l) (skipn n m).
Proof.
  intro H; revert n; induction H; intros [|n]; simpl; try constructor; auto.
Qed.

Lemma map_removelast {A B} (f : A -> B) l : map f (removelast l) = removelast (map f l).
Proof.
  destruct l as [|a l] using rev_ind; [reflexivity|].
  rewrite map_app. simpl. rewrite !removelast_last. reflexivity.
Qed.

Lemma R_shift S dt ts pts :
  Forall2 (R S) ts pts -> Forall2 (R (S + dt)) (map (fun v => v + - dt) ts) pts.
Proof.
  induction 1; simpl; constructor; [|assumption]. unfold R in *. lra.
Qed.

Lemma step_refines s r o :
  Refines s r ->
  match rec_step r o with
  | Some r' => exists s', traj_step s o = Ok s' /\ Refines s' r'
  | None => traj_step s o = UB
  end.
Proof.
  intros [Ht Hd]. pose proof (Forall2_len _ _ _ Ht) as Hlen.
  destruct o as [d t a| |n dt|dt| |ty|t|t]; cbn [rec_step traj_step].
  - destruct a.
    + eexists. split; [reflexivity|]. split; cbn.
      * apply Forall2_app; [exact Ht|]. constructor; [|constructor]. unfold R; simpl. lra.
      * rewrite Hd, map_app. reflexivity.
    + destruct (last_time (rec_pts r)) as [g|] eqn:E.
      * apply last_time_Some in E. destruct E as (init & d0 & E).
        pose proof Ht as Ht0. rewrite E in Ht0.
        apply Forall2_snoc_r in Ht0. destruct Ht0 as (ts' & b & Hts & _ & Hb).
        unfold traj_push. rewrite Hts, vec_back_app. cbn [obind].
        eexists. split; [reflexivity|]. split; cbn.
        -- rewrite <- Hts. apply Forall2_app; [exact Ht|].
           constructor; [|constructor]. unfold R in *; simpl in *. lra.
        -- rewrite Hd, map_app. reflexivity.
      * apply last_time_None in E. rewrite E in Ht. inversion Ht as [Hts|].
        unfold traj_push. rewrite <- Hts. reflexivity.
  - destruct (rec_pts r) as [|p0 pts0] eqn:E.
    + inversion Ht as [Hts|]. unfold traj_pop. rewrite <- Hts. reflexivity.
    + rewrite <- E in *. unfold traj_pop, vec_pop.
      destruct (tr_time s) as [|x ts] eqn:Ets; [rewrite E in Hlen; simpl in Hlen; lia|].
      destruct (tr_data s) as [|y ds] eqn:Eds; [rewrite E in Hd; simpl in Hd; discriminate|].
      cbn [obind]. eexists. split; [reflexivity|]. split; cbn [tr_time tr_data rec_pts rec_shift].
      * apply Forall2_removelast. exact Ht.
      * rewrite Hd. symmetry. apply map_removelast.
  - unfold traj_erase_front, vec_erase_front.
    assert (Hl2 : length (tr_data s) = length (rec_pts r)) by (rewrite Hd; apply map_length).
    rewrite Hlen, Hl2. destruct (n <=? length (rec_pts r))%nat; [|reflexivity].
    cbn [obind]. eexists. split; [reflexivity|].
    split; cbn [tr_time tr_data rec_pts rec_shift traj_shift].
    + apply R_shift. apply Forall2_skipn. exact Ht.
    + rewrite Hd. apply skipn_map.
  - eexists. split; [reflexivity|]. split; cbn; [apply R_shift; exact Ht|exact Hd].
  - eexists. split; [reflexivity|]. split; cbn; constructor.
  - eexists. split; [reflexivity|]. split; cbn; assumption.
  - eexists. split; [reflexivity|]. unfold traj_eval.
    destruct (interpolate _ _ _ _ _ _). split; cbn; assumption.
  - eexists. split; [reflexivity|]. unfold traj_index.
    destruct (findIndex _ _ _). split; cbn; assumption.
Qed.

Lemma run_refines ops : forall s r,
  Refines s r ->
  match rec_run r ops with
  | Some r' => exists s', traj_run s ops = Ok s' /\ Refines s' r'
  | None => traj_run s ops = UB
  end.
Proof.
  induction ops as [|o ops IH]; intros s r H; cbn [rec_run traj_run].
  - eauto.
  - pose proof (step_refines s r o H) as Hs. destruct (rec_step r o) as [r'|].
    + destruct Hs as (s' & Hs & H'). rewrite Hs. cbn [obind]. apply IH. exact H'.
    + rewrite Hs. reflexivity.
Qed.

Lemma new_refines ty : Refines (traj_new ty) (mk_rec [] 0).
Proof. split; simpl; [constructor|reflexivity]. Qed.

(** The cached index never becomes negative as long as no look-up hits an empty trajectory. *)
Lemma interpolate_hint ty ts ds t hint :
  (0 <= hint)%Z -> (0 <= fst (interpolate ty ts ds t (-1) hint))%Z.
Proof.
  intro Hh. unfold interpolate.
  destruct (length ts =? 0)%nat eqn:E1; [exact Hh|].
  destruct (length ds =? 0)%nat; [exact Hh|].
  destruct (negb _); [exact Hh|].
  destruct (length ds =? 1)%nat; [exact Hh|].
  change (-1 =? -1)%Z with true. cbn iota.
  assert (Hne : ts <> []) by (intros ->; discriminate).
  destruct (findIndex_total ts t hint Hne Hh) as (k & Hk & _). rewrite Hk. simpl. lia.
Qed.

Lemma step_hint s r o s' :
  Refines s r -> (0 <= tr_hint s)%Z ->
  (match o with OpIndex _ => rec_pts r <> [] | _ => True end) ->
  traj_step s o = Ok s' -> (0 <= tr_hint s')%Z.
Proof.
  intros [Ht Hd] Hh Hc. destruct o as [d t a| |n dt|dt| |ty|t|t]; cbn [traj_step].
  - unfold traj_push. destruct a; cbn [obind].
    + intros [= <-]. exact Hh.
    + destruct (vec_back (tr_time s)); cbn [obind]; try discriminate. intros [= <-]. exact Hh.
  - unfold traj_pop. destruct (vec_pop (tr_time s)); cbn [obind]; try discriminate.
    destruct (vec_pop (tr_data s)); cbn [obind]; try discriminate. intros [= <-]. exact Hh.
  - unfold traj_erase_front. destruct (vec_erase_front n (tr_time s)); cbn [obind]; try discriminate.
    destruct (vec_erase_front n (tr_data s)); cbn [obind]; try discriminate. intros [= <-]. exact Hh.
  - intros [= <-]. exact Hh.
  - intros [= <-]. exact Hh.
  - intros [= <-]. exact Hh.
  - intros [= <-]. unfold traj_eval.
    pose proof (interpolate_hint (tr_type s) (tr_time s) (tr_data s) t (tr_hint s) Hh) as H.
    destruct (interpolate _ _ _ _ _ _). exact H.
  - intros [= <-]. unfold traj_index.
    assert (Hne : tr_time s <> []).
    { intro E. rewrite E in Ht. inversion Ht. congruence. }
    destruct (findIndex_total (tr_time s) t (tr_hint s) Hne Hh) as (k & Hk & _).
    rewrite Hk. simpl. lia.
Qed.

Lemma run_hint ops : forall s r s',
  Refines s r -> (0 <= tr_hint s)%Z -> no_index_when_empty r ops ->
  traj_run s ops = Ok s' -> (0 <= tr_hint s')%Z.
Proof.
  induction ops as [|o ops IH]; intros s r s' Hr Hh Hn Hrun; cbn [traj_run] in Hrun.
  - injection Hrun as <-. exact Hh.
  - destruct Hn as [Hn1 Hn2]. pose proof (step_refines s r o Hr) as Hs.
    destruct (rec_step r o) as [r'|].
    + destruct Hs as (s1 & Hs1 & Hr1). rewrite Hs1 in Hrun. cbn [obind] in Hrun.
      apply (IH s1 r' s' Hr1); [|exact Hn2|exact Hrun]. exact (step_hint s r o s1 Hr Hh Hn1 Hs1).
    + rewrite Hs in Hrun. discriminate.
Qed.

(** Transfer of the curve value from local to global time. *)
Definition RP (S : Q) (a p : Q * vec) : Prop := fst a == fst p - S /\ snd a = snd p.

Lemma refines_points S ts pts :
  Forall2 (R S) ts pts -> Forall2 (RP S) (combine ts (map snd pts)) pts.
Proof.
  induction 1; simpl; constructor; [|assumption]. split; [exact H|reflexivity].
Qed.

Lemma curve_transfer ty S L pts t v :
  Forall2 (RP S) L pts -> curve_value ty L t v -> curve_value ty pts (t + S) v.
Proof.
  intros HF Hcv.
  destruct Hcv as [t0 d0 rest Hpe Ht Hr | tl dl init Hpe Ht Hr | m1 ta da tb db m2 Hty Hpe Ha Hb Hr
                  | m1 ta da tb db m2 Hty Hpe Ha Hb Hl Hr]; subst L.
  - inversion HF as [|? [g d] ? ? Hp HF']; subst. destruct Hp as [Hp1 Hp2]. simpl in *. subst d.
    eapply cv_before; [reflexivity|lra|exact Hr].
  - apply Forall2_app_inv_l in HF. destruct HF as (p1 & p2 & H1 & H2 & ->).
    inversion H2 as [|? [g d] ? ? Hp Hnil]; subst. inversion Hnil; subst.
    destruct Hp as [Hp1 Hp2]. simpl in *. subst d.
    eapply cv_after; [reflexivity|lra|exact Hr].
  - apply Forall2_app_inv_l in HF. destruct HF as (p1 & p2 & H1 & H2 & ->).
    inversion H2 as [|? [ga da'] ? ? Hpa Hrest]; subst.
    inversion Hrest as [|? [gb db'] ? ? Hpb Hrest']; subst.
    destruct Hpa as [Hpa1 Hpa2], Hpb as [Hpb1 Hpb2]. simpl in *. subst.
    eapply cv_hold; [reflexivity|reflexivity|lra|lra|exact Hr].
  - apply Forall2_app_inv_l in HF. destruct HF as (p1 & p2 & H1 & H2 & ->).
    inversion H2 as [|? [ga da'] ? ? Hpa Hrest]; subst.
    inversion Hrest as [|? [gb db'] ? ? Hpb Hrest']; subst.
    destruct Hpa as [Hpa1 Hpa2], Hpb as [Hpb1 Hpb2]. simpl in *. subst.
    eapply cv_linear; [reflexivity|reflexivity|lra|lra|exact Hl|].
    intros k xi xj x Hi Hj Hx. rewrite (Hr k xi xj x Hi Hj Hx).
    rewrite Hpa1, Hpb1. field. repeat split; intro; lra.
Qed.

Lemma increasing_local S ts pts :
  Forall2 (R S) ts pts -> increasing (map fst pts) -> increasing ts.
Proof.
  unfold increasing. induction 1 as [|a p ts pts Hap HF IH]; simpl; intro Hs; [constructor|].
  inversion Hs as [|? ? Hs' Hall]; subst. constructor; [apply IH; exact Hs'|].
  clear IH Hs Hs'. induction HF as [|b q ts pts Hbq HF IH2]; constructor.
  - inversion Hall; subst. unfold R in *. lra.
  - apply IH2. inversion Hall; assumption.
Qed.

(** Sortedness and dimension of the recording. *)
Lemma sorted_snoc l x :
  StronglySorted Qlt l -> (forall y, In y l -> y < x) -> StronglySorted Qlt (l ++ [x]).
Proof.
  induction 1 as [|a l Hs IH Hall]; intros H; simpl; constructor.
  - constructor.
  - constructor.
  - apply IH. intros y Hy. apply H. right; exact Hy.
  - apply Forall_app. split; [exact Hall|]. constructor; [|constructor]. apply H. left; reflexivity.
Qed.

Lemma sorted_le_last l x : StronglySorted Qlt (l ++ [x]) -> forall y, In y (l ++ [x]) -> y <= x.
Proof.
  induction l as [|a l IH]; simpl; intros Hs y Hy.
  - destruct Hy as [->|[]]. lra.
  - inversion Hs as [|? ? Hs' Hall]; subst. destruct Hy as [->|Hy].
    + rewrite Forall_forall in Hall. apply Qlt_le_weak. apply Hall. apply in_or_app. right; left; reflexivity.
    + apply IH; assumption.
Qed.

Lemma sorted_skipn n l : StronglySorted Qlt l -> StronglySorted Qlt (skipn n l).
Proof.
  revert n; induction l as [|a l IH]; intros [|n] H; simpl; auto. apply IH. inversion H; assumption.
Qed.

Lemma sorted_removelast l : StronglySorted Qlt l -> StronglySorted Qlt (removelast l).
Proof.
  destruct l as [|x l] using rev_ind; [auto|]. rewrite removelast_last. clear IHl.
  induction l as [|a l IH]; simpl; intro H; [constructor|]. inversion H as [|? ? Hs Hall]; subst.
  constructor; [apply IH; exact Hs|]. apply Forall_app in Hall. tauto.
Qed.

Lemma rec_sorted ops : forall r r',
  increasing (map fst (rec_pts r)) -> pushes_in_order r ops -> rec_run r ops = Some r' ->
  increasing (map fst (rec_pts r')).
Proof.
  unfold increasing. induction ops as [|o ops IH]; intros r r' Hs Hp Hr; cbn [rec_run] in Hr.
  - injection Hr as <-. exact Hs.
  - destruct Hp as [Hp1 Hp2]. destruct (rec_step r o) as [r1|] eqn:E; [|discriminate].
    apply (IH r1 r'); [|exact Hp2|exact Hr]. clear IH Hr Hp2.
    destruct o as [d t a| |n dt|dt| |ty|t|t]; cbn [rec_step] in E.
    + destruct a.
      * injection E as <-. cbn. rewrite map_app. cbn. apply sorted_snoc; [exact Hs|].
        destruct (last_time (rec_pts r)) as [g|] eqn:El.
        -- apply last_time_Some in El. destruct El as (init & d0 & El). rewrite El, map_app in *.
           cbn in *. intros y Hy. pose proof (sorted_le_last _ _ Hs y Hy). lra.
        -- apply last_time_None in El. rewrite El. cbn. tauto.
      * destruct (last_time (rec_pts r)) as [g|] eqn:El; [|discriminate].
        injection E as <-. cbn. rewrite map_app. cbn. apply sorted_snoc; [exact Hs|].
        apply last_time_Some in El. destruct El as (init & d0 & El). rewrite El, map_app in *.
        cbn in *. intros y Hy. pose proof (sorted_le_last _ _ Hs y Hy). lra.
    + destruct (rec_pts r) as [|p pts] eqn:Ep; [discriminate|]. rewrite <- Ep in *. injection E as <-.
      cbn [rec_pts]. rewrite map_removelast. apply sorted_removelast. exact Hs.
    + destruct (n <=? length (rec_pts r))%nat; [|discriminate]. injection E as <-. cbn.
      rewrite <- skipn_map. apply sorted_skipn. exact Hs.
    + injection E as <-. exact Hs.
    + injection E as <-. constructor.
    + injection E as <-. exact Hs.
    + injection E as <-. exact Hs.
    + injection E as <-. exact Hs.
Qed.

Lemma rec_dim n ops : forall r r',
  same_dim n (map snd (rec_pts r)) -> Forall (op_dim n) ops -> rec_run r ops = Some r' ->
  same_dim n (map snd (rec_pts r')).
Proof.
  unfold same_dim. induction ops as [|o ops IH]; intros r r' Hs Hp Hr; cbn [rec_run] in Hr.
  - injection Hr as <-. exact Hs.
  - inversion Hp as [|? ? Hp1 Hp2]; subst. destruct (rec_step r o) as [r1|] eqn:E; [|discriminate].
    apply (IH r1 r'); [|exact Hp2|exact Hr]. clear IH Hr Hp2.
    destruct o as [d t a| |m dt|dt| |ty|t|t]; cbn [rec_step] in E.
    + destruct a.
      * injection E as <-. cbn. rewrite map_app. apply Forall_app. split; [exact Hs|].
        constructor; [exact Hp1|constructor].
      * destruct (last_time (rec_pts r)) as [g|]; [|discriminate].
        injection E as <-. cbn. rewrite map_app. apply Forall_app. split; [exact Hs|].
        constructor; [exact Hp1|constructor].
    + destruct (rec_pts r) as [|p pts] eqn:Ep; [discriminate|]. rewrite <- Ep in *. injection E as <-.
      cbn [rec_pts]. rewrite map_removelast. rewrite Forall_forall in *. intros x Hx. apply Hs.
      clear -Hx. destruct (map snd (rec_pts r)) as [|y l] using rev_ind; [destruct Hx|].
      rewrite removelast_last in Hx. apply in_or_app. left; exact Hx.
    + destruct (m <=? length (rec_pts r))%nat; [|discriminate]. injection E as <-. cbn.
      rewrite <- skipn_map. rewrite Forall_forall in *. intros x Hx. apply Hs.
      rewrite <- (firstn_skipn m (map snd (rec_pts r))). apply in_or_app. right; exact Hx.
    + injection E as <-. exact Hs.
    + injection E as <-. constructor.
    + injection E as <-. exact Hs.
    + injection E as <-. exact Hs.
    + injection E as <-. exact Hs.
Qed.

Lemma traj_history ty ops :
  match rec_run (mk_rec [] 0) ops with
  | None => traj_run (traj_new ty) ops = UB
  | Some r => exists s, traj_run (traj_new ty) ops = Ok s /\
      tr_data s = map snd (rec_pts r) /\
      Forall2 (fun t p => t == fst p - rec_shift r) (tr_time s) (rec_pts r) /\
      traj_size s = Ok (length (rec_pts r))
  end.
Proof.
  pose proof (run_refines ops _ _ (new_refines ty)) as H.
  destruct (rec_run (mk_rec [] 0) ops) as [r|]; [|exact H].
  destruct H as (s & Hs & Ht & Hd). exists s. repeat split; try assumption.
  unfold traj_size. pose proof (Forall2_len _ _ _ Ht) as Hl.
  rewrite Hd, map_length, Hl, Nat.eqb_refl. reflexivity.
Qed.

Lemma traj_eval_history n ty ops r :
  rec_run (mk_rec [] 0) ops = Some r -> rec_pts r <> [] ->
  pushes_in_order (mk_rec [] 0) ops -> no_index_when_empty (mk_rec [] 0) ops ->
  Forall (op_dim n) ops ->
  exists s, traj_run (traj_new ty) ops = Ok s /\
    increasing (tr_time s) /\
    forall t, exists v, snd (traj_eval t s) = Ok v /\ length v = n /\
      curve_value (tr_type s) (rec_pts r) (t + rec_shift r) v.
Proof.
  intros Hrun Hne Hord Hidx Hdim.
  pose proof (run_refines ops _ _ (new_refines ty)) as H. rewrite Hrun in H.
  destruct H as (s & Hs & Ht & Hd). exists s. split; [exact Hs|].
  assert (Hinc : increasing (map fst (rec_pts r))).
  { eapply rec_sorted; [|exact Hord|exact Hrun]. constructor. }
  assert (Hdm : same_dim n (map snd (rec_pts r))).
  { eapply rec_dim; [|exact Hdim|exact Hrun]. constructor. }
  assert (Hinct : increasing (tr_time s)) by (eapply increasing_local; eauto).
  split; [exact Hinct|]. intro t.
  assert (Hh : (0 <= tr_hint s)%Z).
  { eapply run_hint; [apply (new_refines ty)| |exact Hidx|exact Hs]. simpl; lia. }
  pose proof (Forall2_len _ _ _ Ht) as Hlen.
  destruct (interpolate_correct (tr_type s) (tr_time s) (tr_data s) t (tr_hint s) n)
    as (h & v & Hi & _ & Hv & Hcv); try assumption.
  - intro E. rewrite E in Hlen. destruct (rec_pts r); [congruence|discriminate].
  - rewrite Hd, map_length. exact Hlen.
  - rewrite Hd. exact Hdm.
  - exists v. unfold traj_eval. rewrite Hi. split; [reflexivity|]. split; [exact Hv|].
    eapply curve_transfer; [apply refines_points; exact Ht|]. rewrite <- Hd. exact Hcv.
Qed.

Lemma lookup_independent_of_history (hist : list (list Q * Q)) (ts : list Q) (t : Q) :
    Forall (fun q => fst q <> []) hist ->
    increasing ts -> ts <> [] ->
    exists i,
      snd (findIndex ts t (hint_after 0 hist)) = Ok (Z.of_nat i) /\
      is_last_node_before ts t i /\
      (forall j, is_last_node_before ts t j -> j = i).
Proof.
  intros Hh Hs Hne.
  destruct (findIndex_correct ts t (hint_after 0 hist) Hs Hne) as (k & Hk & Hl).
  { apply hint_after_nonneg; [lia|exact Hh]. }
  exists k. rewrite Hk. split; [reflexivity|]. split; [exact Hl|].
  intros j Hj. eapply is_last_node_unique; eauto.
Qed.

Lemma findIndex_negative_hint ts t :
  ts <> [] -> snd (findIndex ts t (-1)) = Throw.
Proof.
  intros Hne. unfold findIndex, clamp_hint.
  assert (Hl : (0 < length ts)%nat) by (destruct ts; [congruence|simpl; lia]).
  rewrite Z.min_l by lia. reflexivity.
Qed.

Lemma lookup_after_empty_lookup :
  exists hist, forall ts t, ts <> [] -> snd (findIndex ts t (hint_after 0 hist)) = Throw.
Proof. exists [([], 0)]. exact findIndex_negative_hint. Qed.

Lemma interpolate_exact_at_nodes ty ts ds hint n i t ti di :
    increasing ts -> length ts = length ds -> same_dim n ds -> (0 <= hint)%Z ->
    nth_error ts i = Some ti -> nth_error ds i = Some di -> ti == t ->
    exists r, snd (interpolate ty ts ds t (-1) hint) = Ok r /\ same_vec r di.
Proof.
  intros Hs Hl Hd Hh Hi Hdi Heq.
  assert (Hne : ts <> []) by (intros ->; destruct i; discriminate).
  destruct (interpolate_correct ty ts ds t hint n Hs Hne Hl Hd Hh) as (h & r & Hr & _ & Hrn & Hcv).
  exists r. rewrite Hr. split; [reflexivity|].
  pose proof (combine_nth_error ts ds i ti di Hi Hdi) as Hc.
  apply nth_error_split in Hc. destruct Hc as (l1 & l2 & Hc & _).
  eapply curve_value_at_node; [| |exact Hrn|exact Hc|exact Heq|exact Hcv].
  - assert (Hmap : map fst (combine ts ds) = ts).
    { clear -Hl. revert ds Hl. induction ts as [|x ts IH]; intros [|d ds] Hl; simpl in *; try lia; [reflexivity|].
      f_equal. apply IH. lia. }
    rewrite Hmap. exact Hs.
  - rewrite Forall_forall. intros [a b] Hin. simpl. apply in_combine_r in Hin.
    unfold same_dim in Hd. rewrite Forall_forall in Hd. apply Hd. exact Hin.
Qed.

Lemma interpolate_throws' ty ts ds t gl hint :
    ts = [] \/ ds = [] \/ length ts <> length ds ->
    snd (interpolate ty ts ds t gl hint) = Throw.
Proof. intros. rewrite interpolate_throws by assumption. reflexivity. Qed.
