From Coq Require Import List ZArith QArith Sorted Lia Lqa.
From Verif Require Import Base.Outcome Core.InterpModel Core.InterpSpec.
Import ListNotations.
Open Scope Q_scope.

Lemma Qltb_true a b : Qltb a b = true <-> a < b.
Proof.
  unfold Qltb. rewrite Bool.negb_true_iff.
  split; intro H.
  - apply Qnot_le_lt. intro Hc. apply Qle_bool_iff in Hc. congruence.
  - destruct (Qle_bool b a) eqn:E; [|reflexivity].
    apply Qle_bool_iff in E. exfalso. apply (Qlt_not_le _ _ H E).
Qed.

Lemma Qltb_false a b : Qltb a b = false <-> b <= a.
Proof.
  unfold Qltb. rewrite Bool.negb_false_iff. apply Qle_bool_iff.
Qed.

Lemma Qle_bool_false a b : Qle_bool a b = false <-> b < a.
Proof.
  split; intro H.
  - apply Qnot_le_lt. intro Hc. apply Qle_bool_iff in Hc. congruence.
  - destruct (Qle_bool a b) eqn:E; [|reflexivity].
    apply Qle_bool_iff in E. exfalso. apply (Qlt_not_le _ _ H E).
Qed.

Lemma vec_at_nat {A} (l : list A) (i : nat) :
  vec_at l (Z.of_nat i) = match nth_error l i with Some v => Ok v | None => Throw end.
Proof.
  unfold vec_at. destruct (Z.ltb_spec (Z.of_nat i) 0); [lia|].
  rewrite Nat2Z.id. reflexivity.
Qed.

Lemma vec_at_nat' {A} (l : list A) (z : Z) (i : nat) :
  z = Z.of_nat i ->
  vec_at l z = match nth_error l i with Some v => Ok v | None => Throw end.
Proof. intros ->. apply vec_at_nat. Qed.

Lemma nth_error_lt_Some {A} (l : list A) i :
  (i < length l)%nat -> exists v, nth_error l i = Some v.
Proof.
  intro H. destruct (nth_error l i) eqn:E; [eauto|].
  apply nth_error_None in E. lia.
Qed.

Lemma sorted_nth ts : increasing ts ->
  forall i j a b, (i < j)%nat -> nth_error ts i = Some a -> nth_error ts j = Some b -> a < b.
Proof.
  unfold increasing. induction 1 as [|x l Hs IH Hall]; intros i j a b Hij Hi Hj.
  - destruct i; discriminate.
  - destruct j; [lia|]. destruct i; simpl in *.
    + injection Hi as <-. rewrite Forall_forall in Hall.
      apply Hall. eapply nth_error_In; eauto.
    + eapply (IH i j); eauto; lia.
Qed.

(** Backward scan: ends at the last node <= t at or before [i], or 0. *)
Lemma scan_backward_spec ts t i :
  (i < length ts)%nat ->
  exists k, scan_backward ts t i = Ok (Z.of_nat k) /\ (k <= i)%nat /\
    (forall j tj, nth_error ts j = Some tj -> (k < j <= i)%nat -> t < tj) /\
    (forall tk, nth_error ts k = Some tk -> tk <= t \/ (k = 0%nat /\ t < tk)).
Proof.
  induction i as [|i IH]; intro Hi.
  - cbn [scan_backward]. rewrite vec_at_nat.
    destruct (nth_error_lt_Some ts 0 Hi) as [v Hv]. rewrite Hv. cbn [obind].
    exists 0%nat. destruct (Qle_bool v t) eqn:E.
    + apply Qle_bool_iff in E. repeat split; try lia.
      intros tk Hk. rewrite Hv in Hk. injection Hk as <-. left; exact E.
    + apply Qle_bool_false in E. repeat split; try lia.
      intros tk Hk. rewrite Hv in Hk. injection Hk as <-. right; split; [reflexivity|exact E].
  - cbn [scan_backward]. rewrite vec_at_nat.
    destruct (nth_error_lt_Some ts (S i) Hi) as [v Hv]. rewrite Hv. cbn [obind].
    destruct (Qle_bool v t) eqn:E.
    + apply Qle_bool_iff in E. exists (S i). repeat split; try lia.
      intros tk Hk. rewrite Hv in Hk. injection Hk as <-. left; exact E.
    + apply Qle_bool_false in E.
      destruct IH as (k & Hk & Hle & Hall & Hend); [lia|].
      exists k. repeat split; try assumption; try lia.
      intros j tj Hj Hr. destruct (Nat.eq_dec j (S i)) as [->|Hne].
      * rewrite Hv in Hj. injection Hj as <-. exact E.
      * apply (Hall j); [exact Hj|lia].
Qed.

(** Forward scan. *)
Lemma scan_forward_spec ts t fuel :
  forall i idx, (i + fuel)%nat = length ts -> idx = (Z.of_nat i - 1)%Z ->
  exists k, scan_forward ts t fuel (Z.of_nat i) idx = Ok (Z.of_nat k - 1)%Z /\
    (i <= k <= length ts)%nat /\
    (forall j tj, nth_error ts j = Some tj -> (i <= j < k)%nat -> tj <= t) /\
    (forall tk, nth_error ts k = Some tk -> t < tk).
Proof.
  induction fuel as [|f IH]; intros i idx Hlen Hidx.
  - exists i. cbn [scan_forward]. subst idx. repeat split; try lia.
    intros tk Hk. assert (i < length ts)%nat by (apply nth_error_Some; congruence). lia.
  - cbn [scan_forward]. rewrite vec_at_nat.
    destruct (nth_error_lt_Some ts i) as [v Hv]; [lia|]. rewrite Hv. cbn [obind].
    destruct (Qltb t v) eqn:E.
    + apply Qltb_true in E. exists i. repeat split; try lia.
      intros tk Hk. rewrite Hv in Hk. injection Hk as <-. exact E.
    + apply Qltb_false in E.
      destruct (IH (S i) (Z.of_nat i)) as (k & Hk & Hr & Hall & Hend); try lia.
      exists k. replace (Z.of_nat i + 1)%Z with (Z.of_nat (S i)) by lia.
      repeat split; try assumption; try lia.
      intros j tj Hj Hjr. destruct (Nat.eq_dec j i) as [->|Hne].
      * rewrite Hv in Hj. injection Hj as <-. exact E.
      * apply (Hall j); [exact Hj|lia].
Qed.

(** On any non-empty array, sorted or not, a look-up with a non-negative cached index succeeds,
    stays in range and stores a non-negative index. *)
Lemma findIndex_total ts t hint :
  ts <> [] -> (0 <= hint)%Z ->
  exists k, findIndex ts t hint = (Z.of_nat k, Ok (Z.of_nat k)) /\ (k < length ts)%nat.
Proof.
  intros Hne Hh. assert (Hlen : (0 < length ts)%nat) by (destruct ts; [congruence|simpl; lia]).
  unfold findIndex.
  set (h := clamp_hint ts hint).
  assert (Hhr : (0 <= h < Z.of_nat (length ts))%Z) by (unfold h, clamp_hint; lia).
  rewrite (vec_at_nat' ts h (Z.to_nat h)) by lia.
  destruct (nth_error_lt_Some ts (Z.to_nat h)) as [v Hv]; [lia|]. rewrite Hv.
  destruct (Qltb t v) eqn:E.
  - destruct (scan_backward_spec ts t (Z.to_nat h)) as (k & Hk & Hle & _ & _); [lia|].
    rewrite Hk. destruct (Z.ltb_spec (Z.of_nat k) 0); [lia|]. exists k. split; [reflexivity|lia].
  - apply Qltb_false in E.
    destruct (length ts - Z.to_nat h)%nat as [|f] eqn:Ef; [lia|].
    cbn [scan_forward]. rewrite (vec_at_nat' ts h (Z.to_nat h)) by lia. rewrite Hv. cbn [obind].
    assert (Hq : Qltb t v = false) by (apply Qltb_false; exact E). rewrite Hq.
    destruct (scan_forward_spec ts t f (S (Z.to_nat h)) h) as (k & Hk & Hr & _ & _); try lia.
    replace (h + 1)%Z with (Z.of_nat (S (Z.to_nat h))) by lia. rewrite Hk.
    destruct (Z.ltb_spec (Z.of_nat k - 1) 0); [lia|].
    exists (k - 1)%nat. replace (Z.of_nat (k - 1)) with (Z.of_nat k - 1)%Z by lia.
    split; [reflexivity|lia].
Qed.

Lemma findIndex_correct ts t hint :
  increasing ts -> ts <> [] -> (0 <= hint)%Z ->
  exists k, findIndex ts t hint = (Z.of_nat k, Ok (Z.of_nat k)) /\ is_last_node_before ts t k.
Proof.
  intros Hs Hne Hh. assert (Hlen : (0 < length ts)%nat) by (destruct ts; [congruence|simpl; lia]).
  unfold findIndex.
  set (h := clamp_hint ts hint).
  assert (Hhr : (0 <= h < Z.of_nat (length ts))%Z) by (unfold h, clamp_hint; lia).
  rewrite (vec_at_nat' ts h (Z.to_nat h)) by lia.
  destruct (nth_error_lt_Some ts (Z.to_nat h)) as [v Hv]; [lia|]. rewrite Hv.
  destruct (Qltb t v) eqn:E.
  - apply Qltb_true in E.
    destruct (scan_backward_spec ts t (Z.to_nat h)) as (k & Hk & Hle & Hall & Hend); [lia|].
    rewrite Hk. destruct (Z.ltb_spec (Z.of_nat k) 0); [lia|]. exists k. split; [reflexivity|].
    split; [lia|]. split.
    + intros j tj Hj Hlt. destruct (le_gt_dec j (Z.to_nat h)) as [Hc|Hc].
      * eapply Hall; eauto.
      * eapply Qlt_trans; [exact E|]. eapply sorted_nth; eauto.
    + intros j tj Hj Hjk.
      destruct (nth_error_lt_Some ts k) as [tk Htk]; [lia|].
      destruct (Hend tk Htk) as [Hc|[-> Hc]].
      * left. destruct (Nat.eq_dec j k) as [->|Hn].
        -- rewrite Htk in Hj. injection Hj as <-. exact Hc.
        -- apply Qlt_le_weak. eapply Qlt_le_trans; [|exact Hc].
           eapply (sorted_nth ts Hs j k); eauto; lia.
      * right. split; [reflexivity|]. assert (j = 0%nat) by lia. subst j.
        rewrite Htk in Hj. injection Hj as <-. exact Hc.
  - apply Qltb_false in E.
    destruct (length ts - Z.to_nat h)%nat as [|f] eqn:Ef; [lia|].
    cbn [scan_forward]. rewrite (vec_at_nat' ts h (Z.to_nat h)) by lia. rewrite Hv. cbn [obind].
    assert (Hq : Qltb t v = false) by (apply Qltb_false; exact E). rewrite Hq.
    destruct (scan_forward_spec ts t f (S (Z.to_nat h)) h) as (k & Hk & Hr & Hall & Hend); try lia.
    replace (h + 1)%Z with (Z.of_nat (S (Z.to_nat h))) by lia. rewrite Hk.
    destruct (Z.ltb_spec (Z.of_nat k - 1) 0); [lia|].
    exists (k - 1)%nat. replace (Z.of_nat (k - 1)) with (Z.of_nat k - 1)%Z by lia.
    split; [reflexivity|]. split; [lia|]. split.
    + intros j tj Hj Hlt. assert (Hjl : (j < length ts)%nat) by (apply nth_error_Some; congruence).
      destruct (nth_error_lt_Some ts k) as [tk Htk]; [lia|].
      specialize (Hend tk Htk). destruct (Nat.eq_dec j k) as [->|Hn].
      * rewrite Htk in Hj. injection Hj as <-. exact Hend.
      * eapply Qlt_trans; [exact Hend|]. eapply (sorted_nth ts Hs k j); eauto; lia.
    + intros j tj Hj Hjk. left.
      destruct (lt_eq_lt_dec j (Z.to_nat h)) as [[Hc|Hc]|Hc].
      * apply Qlt_le_weak. eapply Qlt_le_trans; [|exact E].
        eapply (sorted_nth ts Hs j (Z.to_nat h)); eauto.
      * subst j. rewrite Hv in Hj. injection Hj as <-. exact E.
      * apply (Hall j tj Hj). lia.
Qed.

Lemma hint_after_nonneg hist : forall h,
  (0 <= h)%Z -> Forall (fun q => fst q <> []) hist -> (0 <= hint_after h hist)%Z.
Proof.
  induction hist as [|[ts t] r IH]; intros h Hh Hall; [exact Hh|].
  inversion Hall as [|? ? Hne Hr]; subst. cbn [hint_after]. apply IH; [|exact Hr].
  destruct (findIndex_total ts t h Hne Hh) as (k & Hk & _). rewrite Hk. simpl. lia.
Qed.

Lemma is_last_node_unique ts t i j :
  is_last_node_before ts t i -> is_last_node_before ts t j -> i = j.
Proof.
  intros (Hi & Hia & Hib) (Hj & Hja & Hjb).
  destruct (lt_eq_lt_dec i j) as [[H|H]|H]; [|exact H|].
  - destruct (nth_error_lt_Some ts j Hj) as [tj Htj].
    specialize (Hia j tj Htj H). destruct (Hjb j tj Htj (le_n _)) as [Hc|[-> _]]; [lra|lia].
  - destruct (nth_error_lt_Some ts i Hi) as [ti Hti].
    specialize (Hja i ti Hti H). destruct (Hib i ti Hti (le_n _)) as [Hc|[-> _]]; [lra|lia].
Qed.

(** ** interpolate *)

Lemma same_vec_refl v : same_vec v v.
Proof. induction v; constructor; [reflexivity|assumption]. Qed.

Lemma nth_error_split2 {A} (l : list A) i a b :
  nth_error l i = Some a -> nth_error l (S i) = Some b ->
  exists l1 l2, l = l1 ++ a :: b :: l2.
Proof.
  revert i; induction l as [|x l IH]; intros i Ha Hb.
  - destruct i; discriminate.
  - destruct i.
    + simpl in Ha, Hb. injection Ha as ->. destruct l as [|y l]; [discriminate|].
      simpl in Hb. injection Hb as ->. exists [], l. reflexivity.
    + simpl in Ha, Hb. destruct (IH i Ha Hb) as (l1 & l2 & ->).
      exists (x :: l1), l2. reflexivity.
Qed.

Lemma combine_nth_error {A B} (l : list A) (m : list B) i a b :
  nth_error l i = Some a -> nth_error m i = Some b -> nth_error (combine l m) i = Some (a, b).
Proof.
  revert m i; induction l as [|x l IH]; intros m i Ha Hb; destruct i, m; simpl in *; try discriminate.
  - congruence.
  - apply IH; assumption.
Qed.

Lemma combine_length_eq {A B} (l : list A) (m : list B) :
  length l = length m -> length (combine l m) = length l.
Proof. intros H. rewrite combine_length. lia. Qed.

Lemma last_split {A} (l : list A) v :
  nth_error l (length l - 1) = Some v -> exists init, l = init ++ [v].
Proof.
  destruct l as [|x l] using rev_ind; [discriminate|].
  rewrite app_length. simpl. replace (length l + 1 - 1)%nat with (length l) by lia.
  rewrite nth_error_app2 by lia. rewrite Nat.sub_diag. simpl. intros [= ->].
  exists l; reflexivity.
Qed.

Lemma vadd_nth a b k z :
  nth_error (vadd a b) k = Some z ->
  exists x y, nth_error a k = Some x /\ nth_error b k = Some y /\ z = x + y.
Proof.
  revert b k; induction a as [|x a IH]; intros b k H; destruct b, k; simpl in *; try discriminate.
  - injection H as <-. eauto.
  - apply IH; exact H.
Qed.

Lemma vadd_length a b : length a = length b -> length (vadd a b) = length a.
Proof. revert b; induction a; intros [|y b]; simpl; intros; try lia. f_equal. apply IHa. lia. Qed.

Lemma vscale_length s a : length (vscale s a) = length a.
Proof. apply map_length. Qed.

Lemma vscale_nth s a k z :
  nth_error (vscale s a) k = Some z -> exists x, nth_error a k = Some x /\ z = s * x.
Proof.
  unfold vscale. revert k; induction a as [|x a IH]; intros k H; destruct k; simpl in *; try discriminate.
  - injection H as <-. eauto.
  - apply IH; exact H.
Qed.

Lemma same_dim_nth n ds i d : same_dim n ds -> nth_error ds i = Some d -> length d = n.
Proof.
  unfold same_dim. rewrite Forall_forall. intros H Hi. apply H. eapply nth_error_In; eauto.
Qed.

Lemma vec_back_split {A} (l : list A) : l <> [] -> exists v init, vec_back l = Ok v /\ l = init ++ [v]
  /\ nth_error l (length l - 1) = Some v.
Proof.
  intro H. destruct l as [|x l]; [congruence|].
  destruct (nth_error_lt_Some (x :: l) (length (x :: l) - 1)) as [v Hv]; [simpl; lia|].
  destruct (last_split _ _ Hv) as [init Hi].
  exists v, init. unfold vec_back, vec_get. rewrite Hv. auto.
Qed.

Lemma interpolate_correct ty ts ds t hint n :
  increasing ts -> ts <> [] -> length ts = length ds -> same_dim n ds -> (0 <= hint)%Z ->
  exists h r, interpolate ty ts ds t (-1) hint = (h, Ok r) /\ (0 <= h)%Z /\ length r = n /\
    curve_value ty (combine ts ds) t r.
Proof.
  intros Hs Hne Hlen Hdim Hh.
  unfold interpolate.
  assert (Elen : (length ts =? @length vec ds)%nat = true) by (apply Nat.eqb_eq; exact Hlen).
  rewrite Elen. cbn [negb].
  destruct ts as [|t0 ts']; [congruence|]. destruct ds as [|d0 ds']; [discriminate|].
  replace (length (t0 :: ts') =? 0)%nat with false by reflexivity.
  replace (length (d0 :: ds') =? 0)%nat with false by reflexivity.
  cbn iota.
  destruct ds' as [|d1 ds''].
  - (* single sample *)
    destruct ts' as [|? ?]; [|simpl in Hlen; lia]. cbn.
    exists hint, d0. repeat split; try assumption.
    + inversion Hdim; assumption.
    + destruct (Qlt_le_dec t t0) as [Hc|Hc].
      * eapply cv_before; [reflexivity|exact Hc|apply same_vec_refl].
      * eapply (cv_after ty _ t d0 t0 d0 []); [reflexivity|exact Hc|apply same_vec_refl].
  - destruct ts' as [|t1 ts'']; [simpl in Hlen; lia|].
    replace (length (d0 :: d1 :: ds'') =? 1)%nat with false by reflexivity.
    set (ts := t0 :: t1 :: ts'') in *. set (ds := d0 :: d1 :: ds'') in *.
    destruct (findIndex_correct ts t hint Hs Hne Hh) as (k & Hk & Hlast).
    change (-1 =? -1)%Z with true. cbn iota.
    rewrite Hk. cbn [obind].
    exists (Z.of_nat k).
    change (vec_front ts) with (Ok t0 : outcome Q).
    change (vec_front ds) with (Ok d0 : outcome vec).
    cbn [obind].
    destruct (Qltb t t0) eqn:E0.
    { exists d0. repeat split; try lia.
      - exact (same_dim_nth n ds 0 d0 Hdim eq_refl).
      - apply Qltb_true in E0. eapply cv_before; [reflexivity|exact E0|apply same_vec_refl]. }
    apply Qltb_false in E0.
    destruct Hlast as (Hkr & Hgt & Hle).
    destruct (nth_error_lt_Some ts k Hkr) as [tk Htk].
    destruct (nth_error_lt_Some ds k) as [dk Hdk]; [rewrite <- Hlen; exact Hkr|].
    assert (Htkt : tk <= t).
    { destruct (Hle k tk Htk (le_n _)) as [Hc|[-> Hc]]; [exact Hc|].
      simpl in Htk. injection Htk as <-. lra. }
    destruct (Z.eqb_spec (Z.of_nat k) (Z.of_nat (length ts) - 1)) as [Heq|Hneq].
    { destruct (vec_back_split ds) as (v & init & Hb & Hsp & Hnv); [discriminate|].
      rewrite Hb. exists v. repeat split; try lia.
      - eapply same_dim_nth; eauto.
      - assert (Hkn : k = (length ds - 1)%nat) by lia.
        rewrite Hkn in Hdk. rewrite Hnv in Hdk. injection Hdk as <-.
        assert (Hc : nth_error (combine ts ds) (length (combine ts ds) - 1) = Some (tk, v)).
        { rewrite combine_length_eq by exact Hlen. rewrite Hlen. rewrite <- Hkn.
          apply combine_nth_error; [exact Htk|]. rewrite Hkn. exact Hnv. }
        destruct (last_split _ _ Hc) as [ini Hini].
        eapply cv_after; [exact Hini|exact Htkt|apply same_vec_refl]. }
    destruct (nth_error_lt_Some ts (S k)) as [tn Htn]; [lia|].
    destruct (nth_error_lt_Some ds (S k)) as [dn Hdn]; [lia|].
    rewrite (vec_at_nat' ts (Z.of_nat k + 1) (S k)) by lia. rewrite Htn.
    rewrite (vec_at_nat ts k), Htk. cbn [obind].
    assert (Htnt : t < tn) by (eapply Hgt; [exact Htn|lia]).
    destruct (nth_error_split2 (combine ts ds) k (tk, dk) (tn, dn)) as (l1 & l2 & Hsplit).
    { apply combine_nth_error; assumption. }
    { apply combine_nth_error; assumption. }
    destruct ty.
    + rewrite vec_at_nat, Hdk. exists dk. repeat split; try lia.
      * eapply same_dim_nth; eauto.
      * eapply cv_hold; eauto. apply same_vec_refl.
    + rewrite vec_at_nat, Hdk. rewrite (vec_at_nat' ds (Z.of_nat k + 1) (S k)) by lia. rewrite Hdn.
      cbn [obind]. eexists. split; [reflexivity|].
      assert (Hldk : length dk = n) by (eapply same_dim_nth; eauto).
      assert (Hldn : length dn = n) by (eapply same_dim_nth; eauto).
      repeat split; try lia.
      * rewrite vadd_length; rewrite !vscale_length; lia.
      * eapply cv_linear; eauto.
        -- rewrite vadd_length; rewrite !vscale_length; lia.
        -- intros m xi xj x Hxi Hxj Hx.
           apply vadd_nth in Hx. destruct Hx as (a & b & Ha & Hb & ->).
           apply vscale_nth in Ha. destruct Ha as (a' & Ha & ->).
           apply vscale_nth in Hb. destruct Hb as (b' & Hb & ->).
           rewrite Hxi in Ha. injection Ha as <-. rewrite Hxj in Hb. injection Hb as <-.
           assert (Hd : ~ tk - tn == 0) by lra.
           assert (Hd' : ~ tn - tk == 0) by lra.
           field. repeat split; intro; lra.
Qed.

Lemma interpolate_throws ty ts ds t gl hint :
  ts = [] \/ ds = [] \/ length ts <> length ds ->
  interpolate ty ts ds t gl hint = (hint, Throw).
Proof.
  unfold interpolate. intros H.
  destruct (length ts =? 0)%nat eqn:E1; [reflexivity|].
  destruct (length ds =? 0)%nat eqn:E2; [reflexivity|].
  apply Nat.eqb_neq in E1, E2.
  destruct H as [->|[->|H]]; [simpl in E1; lia|simpl in E2; lia|].
  apply Nat.eqb_neq in H. rewrite H. reflexivity.
Qed.

(** At a stored time the stored sample is returned, for both interpolation types. *)
Lemma curve_value_at_node ty pts t r l1 ti di l2 n :
  StronglySorted Qlt (map fst pts) -> Forall (fun p => length (snd p) = n) pts -> length r = n ->
  pts = l1 ++ (ti, di) :: l2 -> ti == t -> curve_value ty pts t r -> same_vec r di.
Proof.
  intros Hs Hn Hrn Hp Hti Hcv.
  assert (Hnode : nth_error (map fst pts) (length l1) = Some ti).
  { rewrite Hp, map_app, nth_error_app2; rewrite map_length; [|lia]. rewrite Nat.sub_diag. reflexivity. }
  assert (Hnd : nth_error pts (length l1) = Some (ti, di)).
  { rewrite Hp, nth_error_app2 by lia. rewrite Nat.sub_diag. reflexivity. }
  assert (Hlt : forall i j a b, (i < j)%nat -> nth_error (map fst pts) i = Some a ->
            nth_error (map fst pts) j = Some b -> a < b) by (apply sorted_nth; exact Hs).
  destruct Hcv as [t0 d0 rest Hpe Ht Hr | tl dl init Hpe Ht Hr | m1 ta da tb db m2 _ Hpe Ha Hb Hr
                  | m1 ta da tb db m2 _ Hpe Ha Hb Hl Hr].
  - exfalso. destruct l1 as [|p l1].
    + rewrite Hp in Hpe. injection Hpe as -> -> ->. lra.
    + assert (t0 < ti); [|lra]. apply (Hlt 0%nat (length (p :: l1))); [simpl; lia| |exact Hnode].
      rewrite Hpe. reflexivity.
  - assert (Hl : nth_error (map fst pts) (length init) = Some tl).
    { rewrite Hpe, map_app, nth_error_app2; rewrite map_length; [|lia]. rewrite Nat.sub_diag. reflexivity. }
    destruct (lt_eq_lt_dec (length l1) (length init)) as [[Hc|Hc]|Hc].
    + specialize (Hlt _ _ _ _ Hc Hnode Hl). lra.
    + assert (Hd : nth_error pts (length init) = Some (tl, dl)).
      { rewrite Hpe, nth_error_app2 by lia. rewrite Nat.sub_diag. reflexivity. }
      rewrite <- Hc, Hnd in Hd. injection Hd as -> ->. exact Hr.
    + exfalso. assert (length l1 < length pts)%nat by (apply nth_error_Some; congruence).
      rewrite Hpe, app_length in H. simpl in H. lia.
  - assert (HA : nth_error (map fst pts) (length m1) = Some ta).
    { rewrite Hpe, map_app, nth_error_app2; rewrite map_length; [|lia]. rewrite Nat.sub_diag. reflexivity. }
    assert (HB : nth_error (map fst pts) (S (length m1)) = Some tb).
    { rewrite Hpe, map_app, nth_error_app2; rewrite map_length; [|lia].
      replace (S (length m1) - length m1)%nat with 1%nat by lia. reflexivity. }
    destruct (lt_eq_lt_dec (length l1) (length m1)) as [[Hc|Hc]|Hc].
    + specialize (Hlt _ _ _ _ Hc Hnode HA). lra.
    + assert (Hd : nth_error pts (length m1) = Some (ta, da)).
      { rewrite Hpe, nth_error_app2 by lia. rewrite Nat.sub_diag. reflexivity. }
      rewrite <- Hc, Hnd in Hd. injection Hd as -> ->. exact Hr.
    + exfalso. destruct (Nat.eq_dec (length l1) (S (length m1))) as [He|He].
      * rewrite He, HB in Hnode. injection Hnode as ->. lra.
      * assert (tb < ti) by (apply (Hlt (S (length m1)) (length l1)); [lia|exact HB|exact Hnode]). lra.
  - assert (HA : nth_error (map fst pts) (length m1) = Some ta).
    { rewrite Hpe, map_app, nth_error_app2; rewrite map_length; [|lia]. rewrite Nat.sub_diag. reflexivity. }
    assert (HB : nth_error (map fst pts) (S (length m1)) = Some tb).
    { rewrite Hpe, map_app, nth_error_app2; rewrite map_length; [|lia].
      replace (S (length m1) - length m1)%nat with 1%nat by lia. reflexivity. }
    destruct (lt_eq_lt_dec (length l1) (length m1)) as [[Hc|Hc]|Hc].
    + specialize (Hlt _ _ _ _ Hc Hnode HA). lra.
    + assert (Hd : nth_error pts (length m1) = Some (ta, da)).
      { rewrite Hpe, nth_error_app2 by lia. rewrite Nat.sub_diag. reflexivity. }
      assert (Hd2 : nth_error pts (S (length m1)) = Some (tb, db)).
      { rewrite Hpe, nth_error_app2 by lia.
        replace (S (length m1) - length m1)%nat with 1%nat by lia. reflexivity. }
      rewrite <- Hc, Hnd in Hd. injection Hd as -> ->.
      rewrite Forall_forall in Hn.
      assert (Hda : length da = n) by (apply (Hn (ta, da)); eapply nth_error_In; exact Hnd).
      assert (Hdb : length db = n) by (apply (Hn (tb, db)); eapply nth_error_In; exact Hd2).
      unfold same_vec.
      assert (Hpt : forall k x y, nth_error r k = Some x -> nth_error da k = Some y -> x == y).
      { intros k x y Hx Hy.
        destruct (nth_error_lt_Some db k) as [z Hz].
        { rewrite Hdb, <- Hda. apply nth_error_Some. congruence. }
        rewrite (Hr k y z x Hy Hz Hx).
        assert (Hne : ~ tb - ta == 0) by lra.
        assert (Hzero : t - ta == 0) by lra. rewrite Hzero. field. exact Hne. }
      clear -Hpt Hl. revert da Hpt Hl. induction r as [|x r IH]; intros [|y da] Hpt Hl; simpl in Hl; try lia.
      * constructor.
      * constructor.
        -- apply (Hpt 0%nat x y); reflexivity.
        -- apply IH; [|lia]. intros k a b Ha Hb. apply (Hpt (S k) a b); assumption.
    + exfalso. destruct (Nat.eq_dec (length l1) (S (length m1))) as [He|He].
      * rewrite He, HB in Hnode. injection Hnode as ->. lra.
      * assert (tb < ti) by (apply (Hlt (S (length m1)) (length l1)); [lia|exact HB|exact Hnode]). lra.
Qed.
