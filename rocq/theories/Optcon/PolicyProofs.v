From Coq Require Import List ZArith QArith Sorted Lqa Lia.
From Verif Require Import Base.Outcome Base.Rounding Core.InterpModel Core.InterpSpec Core.InterpProofs
  Core.TrajProofs Optcon.PolicyModel Optcon.PolicySpec.
Import ListNotations.
Open Scope Q_scope.

Notation Zq k := (inject_Z (Z.of_nat k)).

Lemma Zq_S k : Zq (S k) == Zq k + 1.
Proof. rewrite Nat2Z.inj_succ. unfold Z.succ. rewrite inject_Z_plus. reflexivity. Qed.
Lemma Zq_lt a b : (a < b)%nat -> Zq a < Zq b.
Proof. intro H. rewrite <- Zlt_Qlt. lia. Qed.
Lemma Zq_le a b : (a <= b)%nat -> Zq a <= Zq b.
Proof. intro H. rewrite <- Zle_Qle. lia. Qed.
Lemma Zq_plus a b : Zq (a + b) == Zq a + Zq b.
Proof. rewrite Nat2Z.inj_add, inject_Z_plus. reflexivity. Qed.

Definition gridl (dt : Q) (a n : nat) : list Q := map (fun k => Zq k * dt) (seq a n).

Lemma grid_len dt n s : on_grid dt n s -> length (tr_time s) = n /\ length (tr_data s) = n.
Proof.
  intros (H & H2 & _). split; [|exact H2]. apply Forall2_len in H. rewrite map_length, seq_length in H.
  exact H.
Qed.

Lemma Forall2_nth {A B} (P : A -> B -> Prop) l m : Forall2 P l m ->
  forall k a, nth_error l k = Some a -> exists b, nth_error m k = Some b /\ P a b.
Proof.
  induction 1 as [|x y l m Hxy H IH]; intros [|k] a Hk; simpl in *; try discriminate.
  - injection Hk as <-. eauto.
  - eauto.
Qed.

Lemma nth_error_seq a n k : (k < n)%nat -> nth_error (seq a n) k = Some (a + k)%nat.
Proof.
  revert a k. induction n as [|n IH]; intros a k H; [lia|]. destruct k; simpl.
  - f_equal. lia.
  - rewrite IH by lia. f_equal. lia.
Qed.

Lemma grid_time dt n s k t : on_grid dt n s -> nth_error (tr_time s) k = Some t -> t == Zq k * dt.
Proof.
  intros H Hk. pose proof (grid_len _ _ _ H) as [Hl _]. destruct H as (H & _ & _).
  destruct (Forall2_nth _ _ _ H k t Hk) as (b & Hb & He). rewrite nth_error_map in Hb.
  assert (k < n)%nat by (rewrite <- Hl; apply nth_error_Some; congruence).
  rewrite nth_error_seq in Hb by lia. simpl in Hb. injection Hb as <-. exact He.
Qed.

Lemma sorted_gridl dt n : 0 < dt -> forall a l, Forall2 Qeq l (gridl dt a n) -> StronglySorted Qlt l.
Proof.
  intro Hdt. induction n as [|n IH]; intros a l H; unfold gridl in *; simpl in H.
  - inversion H. constructor.
  - inversion H as [|x y l' m' Hxy Hr]; subst. constructor; [eapply IH; eauto|].
    clear IH H. rewrite Forall_forall. intros z Hz.
    apply In_nth_error in Hz. destruct Hz as [k Hk].
    destruct (Forall2_nth _ _ _ Hr k z Hk) as (b & Hb & He). rewrite nth_error_map in Hb.
    destruct (nth_error (seq (S a) n) k) as [j|] eqn:Ej; [|discriminate].
    simpl in Hb. injection Hb as <-. rewrite Hxy, He.
    assert (a < j)%nat. { apply nth_error_In in Ej. apply in_seq in Ej. lia. }
    apply Qmult_lt_compat_r; [exact Hdt|]. apply Zq_lt. assumption.
Qed.

Lemma grid_increasing dt n s : 0 < dt -> on_grid dt n s -> increasing (tr_time s).
Proof. intros Hdt (H & _ & _). eapply (sorted_gridl dt n Hdt 0); exact H. Qed.

(** look-up on a grid *)
Lemma grid_index dt n s delay : 0 < dt -> (1 <= n)%nat -> on_grid dt n s ->
  exists k s', traj_index delay s = (s', Ok (Z.of_nat k)) /\ (k < n)%nat /\ whole_steps dt n delay k /\
    tr_time s' = tr_time s /\ tr_data s' = tr_data s /\ on_grid dt n s'.
Proof.
  intros Hdt Hn Hg. pose proof (grid_len _ _ _ Hg) as [Hl Hd].
  pose proof (grid_increasing _ _ _ Hdt Hg) as Hinc.
  pose proof Hg as (Hg1 & Hg2 & Hg3).
  destruct (findIndex_correct (tr_time s) delay (tr_hint s) Hinc) as (k & Hk & H1 & H2 & H3).
  { intro Hc. rewrite Hc in Hl. simpl in Hl. lia. }
  { exact Hg3. }
  exists k. eexists. split; [unfold traj_index; rewrite Hk; reflexivity|].
  rewrite Hl in H1. split; [exact H1|]. split; [|].
  - split; [lia|]. split.
    + destruct (nth_error_lt_Some (tr_time s) k) as [t Ht]; [lia|].
      pose proof (grid_time _ _ _ _ _ Hg Ht) as He.
      destruct (H3 k t Ht (le_n _)) as [Hc|[-> Hc]].
      * left. lra.
      * right. split; [reflexivity|]. change (Zq 0) with 0 in He. lra.
    + intro Hlt. destruct (nth_error_lt_Some (tr_time s) (S k)) as [t Ht]; [lia|].
      pose proof (grid_time _ _ _ _ _ Hg Ht) as He. specialize (H2 (S k) t Ht).
      assert (delay < t) by (apply H2; lia). lra.
  - cbn. split; [reflexivity|]. split; [reflexivity|]. repeat split; cbn; auto. lia.
Qed.

(** truncation *)
Lemma skipn_seq a n k : skipn k (seq a n) = seq (a + k) (n - k).
Proof.
  revert a n. induction k as [|k IH]; intros a n; simpl.
  - rewrite Nat.add_0_r, Nat.sub_0_r. reflexivity.
  - destruct n as [|n]; [reflexivity|]. simpl. rewrite IH. f_equal; lia.
Qed.

Lemma shift_grid dt k n : forall l a, Forall2 Qeq l (gridl dt (a + k) n) ->
  Forall2 Qeq (map (fun v => v + - (Zq k * dt)) l) (gridl dt a n).
Proof.
  unfold gridl. induction n as [|n IH]; intros l a H; simpl in *.
  - inversion H. constructor.
  - inversion H as [|x y l' m' Hxy Hr]; subst. simpl. constructor.
    + rewrite Hxy, Zq_plus. ring.
    + apply (IH l' (S a)). exact Hr.
Qed.

Lemma grid_erase dt n s k : (k <= n)%nat -> on_grid dt n s ->
  exists s', traj_erase_front k (Zq k * dt) s = Ok s' /\ on_grid dt (n - k) s' /\
    tr_data s' = skipn k (tr_data s).
Proof.
  intros Hk Hg. pose proof (grid_len _ _ _ Hg) as [Hl Hd]. destruct Hg as (H1 & H2 & H3).
  unfold traj_erase_front, vec_erase_front. rewrite Hl, Hd.
  assert (E : (k <=? n)%nat = true) by (apply Nat.leb_le; exact Hk). rewrite E. cbn [obind].
  eexists. split; [reflexivity|]. split; [|reflexivity].
  repeat split; cbn [traj_shift tr_time tr_data tr_hint]; auto.
  - apply shift_grid. unfold gridl. simpl.
    pose proof (Forall2_skipn _ k _ _ H1) as Hs.
    rewrite skipn_map, skipn_seq in Hs. exact Hs.
  - rewrite skipn_length. lia.
Qed.

(** extension *)
Lemma nth_snoc_lt {A} (l : list A) x k d : (k < length l)%nat -> nth k (l ++ [x]) d = nth k l d.
Proof. intro H. apply app_nth1. exact H. Qed.

Lemma seq_snoc a n : seq a (S n) = seq a n ++ [(a + n)%nat].
Proof. apply seq_S. Qed.

Lemma grid_push dt n s d : (1 <= n)%nat -> on_grid dt n s ->
  exists s', traj_push d dt false s = Ok s' /\ on_grid dt (S n) s' /\ tr_data s' = tr_data s ++ [d].
Proof.
  intros Hn Hg. pose proof (grid_len _ _ _ Hg) as [Hl Hd].
  assert (Hne : tr_time s <> []) by (intro Hc; rewrite Hc in Hl; simpl in Hl; lia).
  destruct (vec_back_split _ Hne) as (b & init & Hb & Hi & Hnb).
  assert (Hbt : b == Zq (n - 1) * dt).
  { eapply (grid_time dt n s (n - 1)); [exact Hg|]. rewrite <- Hl. exact Hnb. }
  destruct Hg as (H1 & H2 & H3).
  unfold traj_push. rewrite Hb. cbn [obind]. eexists. split; [reflexivity|]. split; [|reflexivity].
  unfold on_grid. cbn [tr_time tr_data tr_hint]. split; [|split].
  - rewrite seq_snoc, map_app. apply Forall2_app; [exact H1|]. simpl. constructor; [|constructor].
    rewrite Hbt. destruct n as [|n]; [lia|]. rewrite Zq_S.
    replace (S n - 1)%nat with n by lia. ring.
  - rewrite app_length. simpl. lia.
  - exact H3.
Qed.

Lemma vec_back_last {A} (l : list A) d : l <> [] -> vec_back l = Ok (last l d).
Proof.
  intro H. destruct (vec_back_split l H) as (v & init & Hv & Hi & _). rewrite Hv, Hi, last_last. reflexivity.
Qed.

Lemma extend_grid dt m : forall N p, (1 <= N)%nat -> policy_on_grid dt N p ->
  exists p', policy_extend m dt p = Ok p' /\ policy_on_grid dt (N + m) p' /\
    tr_data (pol_fb p') = tr_data (pol_fb p) ++ repeat (last (tr_data (pol_fb p)) []) m /\
    tr_data (pol_ff p') = tr_data (pol_ff p) ++ repeat (last (tr_data (pol_ff p)) []) m /\
    tr_data (pol_x p') = tr_data (pol_x p) ++ repeat (last (tr_data (pol_x p)) []) m.
Proof.
  induction m as [|m IH]; intros N p HN Hp.
  - exists p. cbn. rewrite !app_nil_r, Nat.add_0_r. auto.
  - cbn [policy_extend]. destruct Hp as (Hfb & Hff & Hx).
    pose proof (grid_len _ _ _ Hfb) as [_ L1]. pose proof (grid_len _ _ _ Hff) as [_ L2].
    pose proof (grid_len _ _ _ Hx) as [_ L3].
    rewrite (vec_back_last (tr_data (pol_fb p)) []) by (intro Hc; rewrite Hc in L1; simpl in L1; lia).
    rewrite (vec_back_last (tr_data (pol_ff p)) []) by (intro Hc; rewrite Hc in L2; simpl in L2; lia).
    rewrite (vec_back_last (tr_data (pol_x p)) []) by (intro Hc; rewrite Hc in L3; simpl in L3; lia).
    cbn [obind].
    destruct (grid_push dt N (pol_fb p) (last (tr_data (pol_fb p)) []) HN Hfb) as (a & Ea & Ga & Da).
    destruct (grid_push dt N (pol_ff p) (last (tr_data (pol_ff p)) []) HN Hff) as (b & Eb & Gb & Db).
    destruct (grid_push dt (S N) (pol_x p) (last (tr_data (pol_x p)) []) ltac:(lia) Hx) as (c & Ec & Gc & Dc).
    rewrite Ea. cbn [obind]. rewrite Eb. cbn [obind]. rewrite Ec. cbn [obind].
    destruct (IH (S N) (mk_policy a b c)) as (p' & E & G & D1 & D2 & D3); [lia|repeat split; try apply Ga; try apply Gb; try apply Gc|].
    exists p'. split; [exact E|]. replace (N + S m)%nat with (S N + m)%nat by lia.
    split; [exact G|]. cbn [pol_fb pol_ff pol_x] in *.
    rewrite D1, D2, D3, Da, Db, Dc, !last_last, <- !app_assoc. auto.
Qed.

Lemma removelast_firstn' {A} (l : list A) : removelast l = firstn (length l - 1) l.
Proof.
  destruct l as [|a l] using rev_ind; [reflexivity|].
  rewrite removelast_last, app_length. simpl. replace (length l + 1 - 1)%nat with (length l) by lia.
  rewrite firstn_app, Nat.sub_diag, firstn_all, firstn_O, app_nil_r. reflexivity.
Qed.

Lemma grid_pop dt n s : (1 <= n)%nat -> on_grid dt n s ->
  exists s', traj_pop s = Ok s' /\ on_grid dt (n - 1) s' /\ tr_data s' = firstn (n - 1) (tr_data s).
Proof.
  intros Hn Hg. pose proof (grid_len _ _ _ Hg) as [Hl Hd]. destruct Hg as (H1 & H2 & H3).
  unfold traj_pop, vec_pop.
  destruct (tr_time s) as [|t0 tr] eqn:Et; [simpl in Hl; lia|]. rewrite <- Et in *.
  destruct (tr_data s) as [|d0 dr] eqn:Ed; [simpl in Hd; lia|]. rewrite <- Ed in *.
  cbn [obind]. eexists. split; [reflexivity|]. cbn [tr_data].
  assert (Hr : removelast (tr_data s) = firstn (n - 1) (tr_data s))
    by (rewrite removelast_firstn', Hd; reflexivity).
  split; [|exact Hr]. unfold on_grid. cbn [tr_time tr_data tr_hint]. rewrite Hr. split; [|split].
  - apply Forall2_removelast in H1. destruct n as [|n]; [lia|].
    rewrite seq_snoc, map_app in H1. simpl map in H1 at 2. rewrite removelast_last in H1.
    replace (S n - 1)%nat with n by lia. exact H1.
  - rewrite firstn_length. lia.
  - exact H3.
Qed.

Lemma shorten_grid dt m : forall N p, (m < N)%nat -> policy_on_grid dt N p ->
  exists p', policy_shorten m p = Ok p' /\ policy_on_grid dt (N - m) p' /\
    tr_data (pol_fb p') = firstn (N - m) (tr_data (pol_fb p)) /\
    tr_data (pol_ff p') = firstn (N - m) (tr_data (pol_ff p)) /\
    tr_data (pol_x p') = firstn (S (N - m)) (tr_data (pol_x p)).
Proof.
  induction m as [|m IH]; intros N p HN Hp.
  - exists p. cbn [policy_shorten]. rewrite Nat.sub_0_r. split; [reflexivity|]. split; [exact Hp|].
    destruct Hp as (H1 & H2 & H3). apply grid_len in H1, H2, H3.
    rewrite !firstn_all2 by lia. auto.
  - cbn [policy_shorten]. destruct Hp as (Hfb & Hff & Hx).
    destruct (grid_pop dt N (pol_fb p) ltac:(lia) Hfb) as (a & Ea & Ga & Da).
    destruct (grid_pop dt N (pol_ff p) ltac:(lia) Hff) as (b & Eb & Gb & Db).
    destruct (grid_pop dt (S N) (pol_x p) ltac:(lia) Hx) as (c & Ec & Gc & Dc).
    rewrite Ea. cbn [obind]. rewrite Eb. cbn [obind]. rewrite Ec. cbn [obind].
    destruct (IH (N - 1)%nat (mk_policy a b c)) as (p' & E & G & D1 & D2 & D3).
    + lia.
    + split; [exact Ga|]. split; [exact Gb|]. replace (S (N - 1)) with (S N - 1)%nat by lia. exact Gc.
    + exists p'. split; [exact E|]. cbn [pol_fb pol_ff pol_x] in *.
      replace (N - S m)%nat with (N - 1 - m)%nat by lia. split; [exact G|].
      rewrite D1, D2, D3, Da, Db, Dc, !firstn_firstn.
      repeat split; f_equal; lia.
Qed.

(** moved samples *)
Lemma list_ext_nth {A} (l m : list A) d : length l = length m ->
  (forall k, (k < length l)%nat -> nth k l d = nth k m d) -> l = m.
Proof.
  revert m. induction l as [|a l IH]; intros [|b m] Hl H; simpl in *; try lia; [reflexivity|].
  f_equal.
  - apply (H 0%nat). lia.
  - apply IH; [lia|]. intros k Hk. apply (H (S k)). lia.
Qed.

Lemma moved_length s K data : length (moved s K data) = K.
Proof. unfold moved. rewrite map_length, seq_length. reflexivity. Qed.

Lemma moved_nth s K data k : (k < K)%nat ->
  nth k (moved s K data) [] = nth (Nat.min (k + s) (length data - 1)) data [].
Proof.
  intro H. unfold moved.
  rewrite (nth_indep _ [] (nth (Nat.min (0 + s) (length data - 1)) data []))
    by (rewrite map_length, seq_length; exact H).
  rewrite (map_nth (fun k => nth (Nat.min (k + s) (length data - 1)) data []) (seq 0 K) 0%nat k).
  rewrite seq_nth by exact H. reflexivity.
Qed.

Lemma nth_skipn' {A} s (l : list A) k d : nth k (skipn s l) d = nth (s + k) l d.
Proof.
  revert l. induction s as [|s IH]; intro l; [reflexivity|]. destruct l as [|a l]; simpl.
  - destruct k; reflexivity.
  - apply IH.
Qed.

Lemma last_nth {A} (l : list A) d : last l d = nth (length l - 1) l d.
Proof.
  destruct l as [|a l] using rev_ind; [reflexivity|].
  rewrite last_last, app_length. simpl. rewrite app_nth2 by lia.
  replace (length l + 1 - 1 - length l)%nat with 0%nat by lia. reflexivity.
Qed.

Lemma nth_repeat' {A} (a d : A) m k : (k < m)%nat -> nth k (repeat a m) d = a.
Proof. revert k. induction m as [|m IH]; intros [|k] H; simpl; try lia; auto. apply IH. lia. Qed.

Lemma nth_firstn' {A} (l : list A) n k d : (k < n)%nat -> nth k (firstn n l) d = nth k l d.
Proof.
  revert n k. induction l as [|a l IH]; intros [|n] k H; simpl; try lia.
  - reflexivity.
  - destruct k; [reflexivity|]. apply IH. lia.
Qed.

Lemma moved_extend s m (data : list vec) : (s < length data)%nat ->
  skipn s data ++ repeat (last (skipn s data) []) m = moved s (length data - s + m) data.
Proof.
  intro Hs. apply (list_ext_nth _ _ []).
  - rewrite moved_length, app_length, repeat_length, skipn_length. reflexivity.
  - intros k Hk. rewrite app_length, repeat_length, skipn_length in Hk.
    rewrite moved_nth by exact Hk.
    destruct (lt_dec k (length data - s)) as [Hlt|Hge].
    + rewrite app_nth1 by (rewrite skipn_length; exact Hlt). rewrite nth_skipn'.
      f_equal. lia.
    + rewrite app_nth2 by (rewrite skipn_length; lia). rewrite nth_repeat' by (rewrite skipn_length; lia).
      rewrite last_nth, nth_skipn', skipn_length. f_equal. lia.
Qed.

Lemma moved_firstn s K (data : list vec) : (K <= length data - s)%nat ->
  firstn K (skipn s data) = moved s K data.
Proof.
  intro HK. apply (list_ext_nth _ _ []).
  - rewrite moved_length, firstn_length, skipn_length. lia.
  - intros k Hk. rewrite firstn_length, skipn_length in Hk.
    rewrite nth_firstn' by lia. rewrite moved_nth by lia. rewrite nth_skipn'. f_equal. lia.
Qed.

Lemma moved_all s (data : list vec) : skipn s data = moved s (length data - s) data.
Proof.
  rewrite <- moved_firstn by lia. rewrite firstn_all2; [reflexivity|]. rewrite skipn_length. lia.
Qed.

Lemma size_grid dt n s : on_grid dt n s -> traj_size s = Ok n.
Proof.
  intro H. apply grid_len in H. destruct H as [H1 H2]. unfold traj_size. rewrite H1, H2, Nat.eqb_refl.
  reflexivity.
Qed.

Lemma truncate_all dt N p k : (k < N)%nat -> policy_on_grid dt N p ->
  exists fb ff xr,
    traj_erase_front k (Zq k * dt) (pol_ff p) = Ok ff /\
    traj_erase_front k (Zq k * dt) (pol_fb p) = Ok fb /\
    traj_erase_front k (Zq k * dt) (pol_x p) = Ok xr /\
    policy_on_grid dt (N - k) (mk_policy fb ff xr) /\
    tr_data fb = skipn k (tr_data (pol_fb p)) /\ tr_data ff = skipn k (tr_data (pol_ff p)) /\
    tr_data xr = skipn k (tr_data (pol_x p)).
Proof.
  intros Hk (Hfb & Hff & Hx).
  destruct (grid_erase dt N (pol_fb p) k ltac:(lia) Hfb) as (a & Ea & Ga & Da).
  destruct (grid_erase dt N (pol_ff p) k ltac:(lia) Hff) as (b & Eb & Gb & Db).
  destruct (grid_erase dt (S N) (pol_x p) k ltac:(lia) Hx) as (c & Ec & Gc & Dc).
  exists a, b, c. repeat (split; [assumption|]). split; [|auto].
  split; [exact Ga|]. split; [exact Gb|]. replace (S (N - k)) with (S N - k)%nat by lia. exact Gc.
Qed.

Lemma on_grid_wholesteps_unique dt N delay a b : 0 < dt ->
  whole_steps dt N delay a -> whole_steps dt N delay b -> a = b.
Proof.
  intros Hdt (A1 & A2 & A3) (B1 & B2 & B3).
  destruct (lt_eq_lt_dec a b) as [[H|H]|H]; [|exact H|].
  - exfalso. assert (Hl : delay < Zq (S a) * dt) by (apply A3; lia).
    destruct B2 as [B2|[-> _]]; [|lia].
    assert (Zq (S a) * dt <= Zq b * dt) by (apply Qmult_le_compat_r; [apply Zq_le; lia|lra]). lra.
  - exfalso. assert (Hl : delay < Zq (S b) * dt) by (apply B3; lia).
    destruct A2 as [A2|[-> _]]; [|lia].
    assert (Zq (S b) * dt <= Zq a * dt) by (apply Qmult_le_compat_r; [apply Zq_le; lia|lra]). lra.
Qed.

Lemma warmstart_correct dt delay newT N p :
  0 < dt -> (1 <= N)%nat -> policy_on_grid dt N p ->
  exists p' s, designWarmStartingPolicy dt delay newT p = Ok p' /\
    whole_steps dt N delay s /\
    let K := Nat.max 1 (Z.to_nat (lround (newT / dt))) in
    policy_on_grid dt K p' /\
    tr_data (pol_fb p') = moved s K (tr_data (pol_fb p)) /\
    tr_data (pol_ff p') = moved s K (tr_data (pol_ff p)) /\
    tr_data (pol_x p') = moved s (S K) (tr_data (pol_x p)).
Proof.
  intros Hdt HN Hp. pose proof Hp as (Hfb & Hff & Hx).
  pose proof (grid_len _ _ _ Hfb) as [_ L1]. pose proof (grid_len _ _ _ Hff) as [_ L2].
  pose proof (grid_len _ _ _ Hx) as [_ L3].
  unfold designWarmStartingPolicy. rewrite (size_grid _ _ _ Hff). cbn [obind].
  destruct (grid_index dt N (pol_ff p) delay Hdt HN Hff) as (k & ff0 & Ei & Hk & Hw & T0 & D0 & G0).
  rewrite Ei. cbn [obind]. replace (Z.min (Z.of_nat k) (Z.of_nat N - 1)) with (Z.of_nat k) by lia.
  set (K := Nat.max 1 (Z.to_nat (lround (newT / dt)))).
  assert (HK : Z.max 1 (lround (newT / dt)) = Z.of_nat K) by (unfold K; lia). rewrite HK.
  assert (HK1 : (1 <= K)%nat) by (unfold K; lia).
  cbn [pol_fb pol_ff pol_x].
  set (p0 := mk_policy (pol_fb p) ff0 (pol_x p)).
  assert (Hp0 : policy_on_grid dt N p0) by (split; [exact Hfb|split; [exact G0|exact Hx]]).
  (* state after truncation *)
  assert (Htr : exists p1, 
    (if (0 <? Z.of_nat k)%Z then
              do ff <- traj_erase_front (Z.to_nat (Z.of_nat k)) (Zq k * dt) ff0 ;;
              do fb <- traj_erase_front (Z.to_nat (Z.of_nat k)) (Zq k * dt) (pol_fb p) ;;
              do xr <- traj_erase_front (Z.to_nat (Z.of_nat k)) (Zq k * dt) (pol_x p) ;;
              Ok (mk_policy fb ff xr, (Z.of_nat N - Z.of_nat k)%Z)
            else Ok (p0, Z.of_nat N)) = Ok (p1, Z.of_nat (N - k)) /\
    policy_on_grid dt (N - k) p1 /\
    tr_data (pol_fb p1) = skipn k (tr_data (pol_fb p)) /\
    tr_data (pol_ff p1) = skipn k (tr_data (pol_ff p)) /\
    tr_data (pol_x p1) = skipn k (tr_data (pol_x p))).
  { destruct k as [|k].
    - exists p0. simpl. rewrite Nat.sub_0_r. rewrite D0. auto.
    - destruct (Z.ltb_spec 0 (Z.of_nat (S k))); [|lia]. rewrite Nat2Z.id.
      destruct (truncate_all dt N p0 (S k) Hk Hp0) as (fb & ff & xr & E1 & E2 & E3 & G & D1 & D2 & D3).
      cbn [pol_fb pol_ff pol_x p0] in *.
      rewrite E1. cbn [obind]. rewrite E2. cbn [obind]. rewrite E3. cbn [obind].
      exists (mk_policy fb ff xr). replace (Z.of_nat N - Z.of_nat (S k))%Z with (Z.of_nat (N - S k)) by lia.
      split; [reflexivity|]. split; [exact G|]. cbn. rewrite D2, D0 in *. auto. }
  destruct Htr as (p1 & E1 & G1 & D1 & D2 & D3).
  change (inject_Z (Z.of_nat k)) with (Zq k). fold p0. rewrite E1. cbn [obind].
  assert (Hfin : exists p',
     (if (Z.of_nat (N - k) <? Z.of_nat K)%Z then policy_extend (Z.to_nat (Z.of_nat K - Z.of_nat (N - k))) dt p1
      else if (Z.of_nat K <? Z.of_nat (N - k))%Z then policy_shorten (Z.to_nat (Z.of_nat (N - k) - Z.of_nat K)) p1
      else Ok p1) = Ok p' /\ policy_on_grid dt K p' /\
    tr_data (pol_fb p') = moved k K (tr_data (pol_fb p)) /\
    tr_data (pol_ff p') = moved k K (tr_data (pol_ff p)) /\
    tr_data (pol_x p') = moved k (S K) (tr_data (pol_x p))).
  { destruct (Z.ltb_spec (Z.of_nat (N - k)) (Z.of_nat K)) as [Hlt|Hge].
    - replace (Z.to_nat (Z.of_nat K - Z.of_nat (N - k))) with (K - (N - k))%nat by lia.
      destruct (extend_grid dt (K - (N - k)) (N - k) p1 ltac:(lia) G1) as (p' & E & G & X1 & X2 & X3).
      exists p'. split; [exact E|]. replace (N - k + (K - (N - k)))%nat with K in G by lia.
      split; [exact G|]. rewrite X1, X2, X3, D1, D2, D3.
      rewrite !moved_extend by lia. rewrite L1, L2, L3.
      repeat split; f_equal; lia.
    - destruct (Z.ltb_spec (Z.of_nat K) (Z.of_nat (N - k))) as [Hlt|Hge2].
      + replace (Z.to_nat (Z.of_nat (N - k) - Z.of_nat K)) with (N - k - K)%nat by lia.
        destruct (shorten_grid dt (N - k - K) (N - k) p1 ltac:(lia) G1) as (p' & E & G & X1 & X2 & X3).
        exists p'. split; [exact E|]. replace (N - k - (N - k - K))%nat with K in * by lia.
        split; [exact G|]. rewrite X1, X2, X3, D1, D2, D3.
        rewrite !moved_firstn by lia. auto.
      + exists p1. split; [reflexivity|]. assert (HKe : (N - k = K)%nat) by lia.
        rewrite HKe in G1. split; [exact G1|]. rewrite D1, D2, D3, !moved_all, L1, L2, L3.
        repeat split; f_equal; lia. }
  destruct Hfin as (p' & E2 & G2 & F1 & F2 & F3). rewrite E2. cbn [obind].
  rewrite (size_grid dt K (pol_ff p')) by apply G2. cbn [obind].
  destruct (Nat.eqb_spec K 0); [lia|].
  exists p', k. split; [reflexivity|]. split; [exact Hw|]. cbn zeta. auto.
Qed.

Lemma truncate_correct dt delay N p :
  0 < dt -> (1 <= N)%nat -> policy_on_grid dt N p ->
  exists p' s eff, truncateSolutionFront dt delay p = Ok (p', eff) /\
    whole_steps dt N delay s /\ eff == Zq s * dt /\ (0 <= delay -> eff <= delay) /\
    policy_on_grid dt (N - s) p' /\
    tr_data (pol_fb p') = skipn s (tr_data (pol_fb p)) /\
    tr_data (pol_ff p') = skipn s (tr_data (pol_ff p)) /\
    tr_data (pol_x p') = skipn s (tr_data (pol_x p)).
Proof.
  intros Hdt HN Hp. pose proof Hp as (Hfb & Hff & Hx).
  unfold truncateSolutionFront. rewrite (size_grid _ _ _ Hff). cbn [obind].
  destruct (grid_index dt N (pol_ff p) delay Hdt HN Hff) as (k & ff0 & Ei & Hk & Hw & T0 & D0 & G0).
  rewrite Ei. cbn [obind]. replace (Z.min (Z.of_nat k) (Z.of_nat N - 1)) with (Z.of_nat k) by lia.
  cbn [pol_fb pol_ff pol_x].
  set (p0 := mk_policy (pol_fb p) ff0 (pol_x p)).
  assert (Hp0 : policy_on_grid dt N p0) by (split; [exact Hfb|split; [exact G0|exact Hx]]).
  assert (Heff : 0 <= delay -> Zq k * dt <= delay).
  { intro H0. destruct Hw as (_ & [Hw|[_ Hw]] & _); [exact Hw|lra]. }
  destruct k as [|k].
  - simpl. exists p0, 0%nat. eexists. split; [reflexivity|]. split; [exact Hw|].
    split; [reflexivity|]. split; [exact Heff|]. rewrite Nat.sub_0_r. split; [exact Hp0|].
    simpl. auto.
  - destruct (Z.ltb_spec 0 (Z.of_nat (S k))); [|lia].
    destruct (Z.ltb_spec (Z.of_nat (S k)) (Z.of_nat N)); [|lia]. cbn [andb]. rewrite Nat2Z.id.
    destruct (truncate_all dt N p0 (S k) Hk Hp0) as (fb & ff & xr & E1 & E2 & E3 & G & D1 & D2 & D3).
    cbn [pol_fb pol_ff pol_x p0] in *.
    rewrite E2. cbn [obind]. rewrite E1. cbn [obind]. rewrite E3. cbn [obind].
    exists (mk_policy fb ff xr), (S k). eexists. split; [reflexivity|]. split; [exact Hw|].
    split; [reflexivity|]. split; [exact Heff|]. split; [exact G|]. cbn. rewrite D2, D0 in *. auto.
Qed.
