(** Proofs about the shot rollout. *)
From Coq Require Import List Arith Bool Lia.
From Verif.Optcon Require Import MpModel MpSpec RolloutModel.
Import ListNotations.

Lemma upd_length {A} (l : list A) i v : length (upd l i v) = length l.
Proof. revert i; induction l as [|a l IH]; intros [|i]; cbn; auto. Qed.
Lemma nth_upd_same {A} (l : list A) i v d : i < length l -> nth i (upd l i v) d = v.
Proof. revert i; induction l as [|a l IH]; intros [|i] H; cbn in *; try lia; auto. apply IH. lia. Qed.
Lemma nth_upd_other {A} (l : list A) i j v d : i <> j -> nth i (upd l j v) d = nth i l d.
Proof. revert i j; induction l as [|a l IH]; intros [|i] [|j] H; cbn in *; try lia; auto. Qed.
Lemma nth_upd_if {A} (l : list A) i j v d : nth i (upd l j v) d = if (i =? j) && (j <? length l) then v else nth i l d.
Proof.
  destruct (Nat.eqb_spec i j) as [->|Hne]; cbn [andb]; [|now apply nth_upd_other].
  destruct (Nat.ltb_spec j (length l)) as [H|H]; [now apply nth_upd_same|].
  rewrite !nth_overflow; auto. now rewrite upd_length.
Qed.
Lemma upd_upd {A} (l : list A) i v w : upd (upd l i v) i w = upd l i w.
Proof. revert i; induction l as [|a l IH]; intros [|i]; cbn; auto. now rewrite IH. Qed.
Lemma upd_comm {A} (l : list A) i j v w : i <> j -> upd (upd l i v) j w = upd (upd l j w) i v.
Proof. revert i j; induction l as [|a l IH]; intros [|i] [|j] H; cbn; auto; try lia. f_equal. apply IH. lia. Qed.

Section RolloutProofs.
Variables V U : Type.
Variable v0 : V.
Variable u0 : U.
Variable dyn : nat -> V -> U -> V.
Variable closed : bool.
Variable fb : nat -> V -> U -> U.
Variable sub : V -> V -> V.
Variable zero : V.
Variable nanV : V -> bool.
Variable nanU : U -> bool.
Variable K : nat.
Variable single : bool.
Variable Kshot : nat.
Notation traj := (traj V U).
Notation gx := (gx v0). Notation gu := (gu u0). Notation gs := (gs v0). Notation gd := (gd v0).
Notation perShot := (perShot K single Kshot).
Notation body := (body v0 u0 dyn closed fb K).
Notation t_nan := (t_nan v0 u0 nanV nanU).
Notation shot_loop := (shot_loop v0 u0 dyn closed fb nanV nanU K).
Notation rollout1 := (rolloutSingleShot v0 u0 dyn closed fb nanV nanU K single Kshot).
Notation defect := (computeSingleDefect v0 sub K Kshot).
Notation k_stop := (k_stop K single Kshot).
Notation starts := (starts K single Kshot).

Definition sized (r : traj) : Prop :=
  length (r_x r) = S K /\ length (r_u r) = K /\ length (r_xs r) = S K /\ length (r_d r) = S K.

Ltac unf := unfold RolloutModel.gx, RolloutModel.gu, RolloutModel.gs, RolloutModel.gd, RolloutModel.sx,
  RolloutModel.su, RolloutModel.ss, RolloutModel.sd in *; cbn [r_x r_u r_xs r_d] in *.

(** Effect of one pass through the loop body. *)
Lemma body_spec k i r : k <= i -> i < K -> sized r ->
  let r' := body k i r in
  let xi := if k <? i then gs r (i - 1) else gs r i in
  let ui := if closed then fb i xi (gu r i) else gu r i in
  sized r' /\ r_d r' = r_d r /\
  gs r' i = dyn i xi ui /\ gu r' i = ui /\ (k < i -> gx r' i = xi) /\
  (forall j, j <> i -> gs r' j = gs r j) /\ (forall j, j <> i -> gu r' j = gu r j) /\
  (forall j, (j <> i \/ j <= k) -> j <> K -> gx r' j = gx r j) /\ (gx r' K = if i =? K - 1 then gs r' i else gx r K).
Proof.
  intros Hki HiK (L1 & L2 & L3 & L4). cbn zeta.
  unfold RolloutModel.body, w_term, w_prop, w_state, w_feedback, w_copy, sized.
  destruct (Nat.ltb_spec k i) as [Hlt|Hge]; destruct closed; destruct (Nat.eqb_spec i (K - 1)) as [He|Hne]; unf;
    repeat split; rewrite ?upd_length; auto; try lia; intros; rewrite ?nth_upd_if, ?upd_length;
    repeat match goal with
           | |- context [?a =? ?b] => destruct (Nat.eqb_spec a b); try lia
           | |- context [?a <? ?b] => destruct (Nat.ltb_spec a b); try lia
           end; cbn [andb]; try lia; try (repeat f_equal; lia); auto.
Qed.

(** State of the shot that starts at [k] with stages below [m] done. *)
Definition shot_inv (k m : nat) (r0 r : traj) : Prop :=
  sized r /\ r_d r = r_d r0 /\
  (forall i, k <= i < m -> gs r i = dyn i (gx r i) (gu r i) /\ gu r i = (if closed then fb i (gx r i) (gu r0 i) else gu r0 i)) /\
  (forall i, k < i < m -> gx r i = gs r (i - 1)) /\
  (m = k -> gs r k = gx r k) /\ (m = K -> k < m -> gx r K = gs r (K - 1)) /\
  (forall i, ~ (k <= i < m) -> gu r i = gu r0 i) /\ (forall i, ~ (k <= i < m) -> i <> k -> gs r i = gs r0 i) /\
  (forall i, ~ (k < i < m) -> (i = K -> m < K) -> gx r i = gx r0 i).

Lemma shot_loop_spec k n m r0 r : m + n <= K -> k <= m -> shot_inv k m r0 r ->
  let res := shot_loop k (seq m n) r in snd res = true -> shot_inv k (m + n) r0 (fst res).
Proof.
  cbn zeta. revert m r. induction n as [|n IH]; intros m r Hn Hk HI.
  - cbn. now rewrite Nat.add_0_r.
  - cbn [seq RolloutModel.shot_loop]. destruct (t_nan m (body k m r)); [discriminate|].
    replace (m + S n) with (S m + n) by lia. apply IH; [lia|lia|].
    destruct HI as (HS & Hd & HA & HB & HC & HD & HE & HF & HG).
    destruct (body_spec k m r Hk ltac:(lia) HS) as (B1 & B2 & B3 & B4 & B5 & B6 & B7 & B8 & B9).
    set (r' := body k m r) in *.
    assert (Hxm : gx r' m = if k <? m then gs r (m - 1) else gs r m).
    { destruct (Nat.ltb_spec k m) as [Hlt|Hge]; [now apply B5|]. rewrite B8 by lia. assert (m = k) by lia. subst m. symmetry. now apply HC. }
    repeat split; try apply B1.
    + congruence.
    + destruct (Nat.eq_dec i m) as [->|Hi]; [rewrite B4, Hxm; exact B3|].
      rewrite B6, B7 by auto. rewrite (B8 i) by lia. apply HA. lia.
    + destruct (Nat.eq_dec i m) as [->|Hi]; [rewrite B4, Hxm, (HE m) by lia; reflexivity|].
      rewrite B7 by auto. rewrite (B8 i) by lia. apply HA. lia.
    + intros i Hi. destruct (Nat.eq_dec i m) as [->|Hne].
      * rewrite Hxm. destruct (Nat.ltb_spec k m); [|lia]. rewrite B6 by lia. reflexivity.
      * rewrite (B8 i) by lia. rewrite B6 by lia. apply HB. lia.
    + lia.
    + intros HK _. rewrite B9. destruct (Nat.eqb_spec m (K - 1)); [now subst|lia].
    + intros i Hi. rewrite B7 by lia. apply HE. lia.
    + intros i Hi Hik. rewrite B6 by lia. apply HF; lia.
    + intros i Hi HiK. destruct (Nat.eq_dec i K) as [->|Hne].
      * rewrite B9. destruct (Nat.eqb_spec m (K - 1)); [lia|]. apply HG; lia.
      * rewrite (B8 i) by lia. apply HG; lia.
Qed.

Lemma k_stop_bounds k : k < K -> 0 < perShot -> k < k_stop k <= K.
Proof. unfold RolloutModel.k_stop. lia. Qed.

Lemma rollout1_spec k r : k < K -> 0 < perShot -> sized r -> snd (rollout1 k r) = true ->
  shot_inv k (k_stop k) r (fst (rollout1 k r)).
Proof.
  intros Hk Hp HS Hgood. pose proof (k_stop_bounds k Hk Hp) as Hb. unfold rolloutSingleShot, shot_stages in *.
  replace (k_stop k) with (k + (k_stop k - k)) at 1 by lia.
  apply (shot_loop_spec k (k_stop k - k) k r); auto; try lia.
  destruct HS as (L1 & L2 & L3 & L4). unf.
  repeat split; unf; rewrite ?upd_length; auto; try lia; intros; try lia.
  - rewrite nth_upd_same by lia. reflexivity.
  - rewrite nth_upd_other by lia. reflexivity.
Qed.

(** All shots, starting at [k]. *)
Hypothesis Hsub : forall v, sub v v = zero.
Definition starts_shot (i : nat) : bool := i mod perShot =? 0.
Definition all_inv (m : nat) (r0 r : traj) : Prop :=
  sized r /\
  (forall i, i < m -> gs r i = dyn i (gx r i) (gu r i) /\ gu r i = (if closed then fb i (gx r i) (gu r0 i) else gu r0 i)) /\
  (forall i, i < m -> gx r i = if starts_shot i then gx r0 i else gs r (i - 1)) /\
  (m = K -> gx r K = gs r (K - 1)) /\
  (forall i, i < m -> gd r i = if starts_shot (S i) && (S i <? K) then sub (gs r i) (gx r (S i)) else zero) /\
  (forall i, m <= i -> gu r i = gu r0 i) /\ (forall i, m <= i -> (i = K -> m < K) -> gx r i = gx r0 i) /\
  (forall i, m <= i <= K -> gd r i = zero).

Lemma mod_between a i p : 0 < p -> a mod p = 0 -> a < i < a + p -> i mod p <> 0.
Proof.
  intros Hp Ha Hi. apply Nat.mod_divides in Ha; [|lia]. destruct Ha as [c ->].
  intros H. apply Nat.mod_divides in H; [|lia]. destruct H as [e ->].
  assert (c < e) by (apply (Nat.mul_lt_mono_pos_l p); lia).
  assert (e < S c) by (apply (Nat.mul_lt_mono_pos_l p); rewrite ?Nat.mul_succ_r; lia). lia.
Qed.

Lemma defect_spec k r : k < K -> 0 < Kshot -> sized r ->
  let r' := defect k r in
  sized r' /\ r_x r' = r_x r /\ r_u r' = r_u r /\ r_xs r' = r_xs r /\
  (forall i, gd r' i = if (S i =? k_next K Kshot k) && (k_next K Kshot k <? K) then sub (gs r i) (gx r (S i)) else gd r i).
Proof.
  intros Hk Hs (L1 & L2 & L3 & L4). cbn zeta. unfold RolloutModel.computeSingleDefect.
  assert (Hkn : k < k_next K Kshot k) by (unfold k_next; lia).
  destruct (Nat.ltb_spec (k_next K Kshot k) K) as [Hn|Hn]; unfold sized; unf; rewrite ?upd_length; repeat split; auto; intros i.
  - destruct (Nat.eqb_spec (S i) (k_next K Kshot k)) as [He|He]; cbn [andb].
    + rewrite <- He. cbn [Nat.sub]. rewrite Nat.sub_0_r. rewrite nth_upd_same by lia. reflexivity.
    + rewrite nth_upd_other by lia. reflexivity.
  - now rewrite andb_false_r.
Qed.

Lemma one_shot k r0 r : k < K -> 0 < Kshot -> k mod perShot = 0 -> all_inv k r0 r -> snd (rollout1 k r) = true ->
  all_inv (k_stop k) r0 (defect k (fst (rollout1 k r))).
Proof.
  intros Hk Hs Hmod HI Hgood.
  assert (Hp : 0 < perShot) by (unfold RolloutModel.perShot; destruct single; lia).
  destruct HI as (HS & HA & HB & HC & HD & HE & HF & HG).
  pose proof (k_stop_bounds k Hk Hp) as Hb.
  destruct (rollout1_spec k r Hk Hp HS Hgood) as (S1 & S2 & S3 & S4 & S5 & S6 & S7 & S8 & S9).
  set (r1 := fst (rollout1 k r)) in *.
  destruct (defect_spec k r1 Hk Hs S1) as (D1 & Dx & Du & Ds & Dd). set (r2 := defect k r1) in *.
  assert (Ex : forall i, gx r2 i = gx r1 i) by (intros; unf; now rewrite Dx).
  assert (Eu : forall i, gu r2 i = gu r1 i) by (intros; unf; now rewrite Du).
  assert (Es : forall i, gs r2 i = gs r1 i) by (intros; unf; now rewrite Ds).
  assert (Ed : forall i, gd r1 i = gd r i) by (intros; unf; now rewrite S2).
  assert (Hst : k_stop k = Nat.min (k + perShot) K) by reflexivity.
  split; [exact D1|]. repeat split.
  - rewrite Es, Ex, Eu. destruct (Nat.lt_ge_cases i k) as [Hi|Hi]; [|apply S3; lia].
    rewrite (S8 i), (S9 i), (S7 i) by lia. apply HA. lia.
  - rewrite Ex, Eu. destruct (Nat.lt_ge_cases i k) as [Hi|Hi].
    + rewrite (S9 i), (S7 i) by lia. apply HA. lia.
    + destruct (S3 i ltac:(lia)) as [_ Q]. rewrite Q. rewrite (HE i Hi). reflexivity.
  - intros i Hi. rewrite Ex, Es. destruct (Nat.lt_ge_cases i k) as [Hik|Hik].
    + rewrite (S9 i) by lia. rewrite HB by lia. destruct (starts_shot i); auto. rewrite (S8 (i - 1)) by lia. reflexivity.
    + unfold starts_shot. destruct (Nat.eq_dec i k) as [->|Hne].
      * rewrite Hmod, Nat.eqb_refl. rewrite (S9 k) by lia. apply HF; lia.
      * destruct (Nat.eqb_spec (i mod perShot) 0) as [H0|H0]; [exfalso; revert H0; apply (mod_between k); lia|].
        apply S4. lia.
  - intros HK. rewrite Ex, Es. apply S6; lia.
  - intros i Hi. rewrite Dd, Es, Ex. unfold starts_shot.
    destruct (Nat.lt_ge_cases i k) as [Hik|Hik].
    + destruct (Nat.eqb_spec (S i) (k_next K Kshot k)) as [He|He]; [unfold k_next in He; lia|]. cbn [andb].
      rewrite Ed, HD by lia. unfold starts_shot. rewrite (S8 i) by lia. rewrite (S9 (S i)); [reflexivity|lia|lia].
    + rewrite Ed, HG by lia.
      destruct (Nat.eqb_spec (S i mod perShot) 0) as [Hm|Hm].
      * assert (HSi : S i = k + perShot).
        { destruct (Nat.lt_ge_cases (S i) (k + perShot)); [exfalso; revert Hm; apply (mod_between k); lia|lia]. }
        cbn [andb]. unfold k_next. destruct (Nat.ltb_spec (S i) K) as [HK|HK].
        -- assert (Hns : perShot = Kshot).
           { unfold RolloutModel.perShot in *. destruct single; lia. }
           rewrite <- Hns, <- HSi. rewrite Nat.min_r by lia. rewrite Nat.eqb_refl. destruct (Nat.ltb_spec (S i) K); [reflexivity|lia].
        -- destruct (Nat.ltb_spec (Nat.min K (k + Kshot)) K); [|now rewrite andb_false_r].
           destruct (Nat.eqb_spec (S i) (Nat.min K (k + Kshot))); [lia|reflexivity].
      * cbn [andb]. destruct (Nat.eqb_spec (S i) (k_next K Kshot k)) as [He|He]; [|reflexivity].
        destruct (Nat.ltb_spec (k_next K Kshot k) K) as [HK|HK]; [|reflexivity]. cbn [andb].
        (* single shooting: the entry is the difference of equal states *)
        assert (Hlt : S i < k_stop k).
        { destruct (Nat.eq_dec (S i) (k_stop k)) as [E|E]; [|lia]. exfalso.
          apply Hm. rewrite E, Hst. rewrite He in E. rewrite Nat.min_l by lia.
          rewrite <- Nat.add_mod_idemp_r by lia. rewrite Nat.mod_same by lia. now rewrite Nat.add_0_r. }
        rewrite (S4 (S i)) by lia. cbn [Nat.sub]. rewrite Nat.sub_0_r. apply Hsub.
  - intros i Hi. rewrite Eu, (S7 i) by lia. apply HE. lia.
  - intros i Hi HK. rewrite Ex, (S9 i) by lia. apply HF; lia.
  - intros i Hi. rewrite Dd, Ed. destruct (Nat.eqb_spec (S i) (k_next K Kshot k)) as [He|He]; [|apply HG; lia].
    destruct (Nat.ltb_spec (k_next K Kshot k) K) as [HK|HK]; [|apply HG; lia]. exfalso.
    unfold k_next in *. unfold RolloutModel.perShot in *. destruct single; lia.
Qed.

Notation shots_checked := (shots_checked v0 u0 dyn closed fb sub nanV nanU K single Kshot).
Lemma all_shots fuel k r0 r r' : 0 < Kshot -> 0 < K -> k mod perShot = 0 -> K <= k + fuel -> all_inv (Nat.min k K) r0 r ->
  shots_checked (starts fuel k (K - 1)) r = (r', true) -> all_inv K r0 r'.
Proof.
  intros Hs HK. revert k r. induction fuel as [|fuel IH]; intros k r Hmod Hf HI; cbn.
  - intros E. injection E as <-. rewrite Nat.min_r in HI by lia. exact HI.
  - destruct (Nat.leb_spec k (K - 1)) as [Hk|Hk].
    + cbn. destruct (rollout1 k r) as [r1 good] eqn:E1. destruct good; [|discriminate].
      intros E. apply (IH (k + perShot) (defect k r1)); auto.
      * rewrite <- Nat.add_mod_idemp_r by (unfold RolloutModel.perShot; destruct single; lia).
        rewrite Nat.mod_same by (unfold RolloutModel.perShot; destruct single; lia). now rewrite Nat.add_0_r.
      * enough (0 < perShot) by lia. unfold RolloutModel.perShot; destruct single; lia.
      * rewrite Nat.min_l in HI by lia. pose proof (one_shot k r0 r ltac:(lia) Hs Hmod HI) as H. rewrite E1 in H. cbn in H. now apply H.
    + intros E. injection E as <-. rewrite Nat.min_r in HI by lia. exact HI.
Qed.

Lemma all_inv_start r : 0 < K -> sized r -> all_inv 0 r (MkTraj (r_x r) (r_u r) (r_xs r) (map (fun _ => zero) (r_d r))).
Proof.
  intros HK (L1 & L2 & L3 & L4). unfold all_inv, sized. unf. rewrite map_length. repeat split; auto; try lia; intros; try lia.
  - rewrite (nth_indep _ v0 zero) by (rewrite map_length; lia). exact (map_nth (fun _ => zero) (r_d r) zero i).
Qed.

(** ** The worker's version. *)
Notation mstate := (mstate V U).
Notation shot_micro := (shot_micro v0 u0 dyn closed fb sub nanV nanU K single Kshot).
Notation stage_micro := (stage_micro v0 u0 dyn closed fb nanV nanU K).
Notation rollout_micro := (rollout_micro v0 u0 dyn closed fb sub nanV nanU K single Kshot).

Lemma apply_all_app' {D} (fs gs : list (D -> D)) d : apply_all (fs ++ gs) d = apply_all gs (apply_all fs d).
Proof. revert d; induction fs; intro d; cbn; auto. Qed.

Lemma guarded_on k f (r : traj) fl : nth k fl false = true -> guarded k f (r, fl) = (f r, fl).
Proof. intros H. unfold guarded, running. cbn [fst snd]. now rewrite H. Qed.
Lemma guarded_off k f (r : traj) fl : nth k fl false = false -> guarded k f (r, fl) = (r, fl).
Proof. intros H. unfold guarded, running. cbn [fst snd]. now rewrite H. Qed.

Lemma stage_run k i r fl : apply_all (stage_micro k i) (r, fl) =
  if nth k fl false then (body k i r, if t_nan i (body k i r) then upd fl k false else fl) else (r, fl).
Proof.
  unfold RolloutModel.stage_micro. cbn [apply_all]. destruct (nth k fl false) eqn:E.
  - rewrite !(guarded_on _ _ _ _ E). unfold m_check, running. cbn [fst snd]. rewrite E. cbn [andb].
    fold (body k i r). destruct (t_nan i (body k i r)); reflexivity.
  - rewrite !(guarded_off _ _ _ _ E). unfold m_check, running. cbn [fst snd]. now rewrite E.
Qed.

Lemma stages_skip k is r fl : nth k fl false = false -> apply_all (concat (map (stage_micro k) is)) (r, fl) = (r, fl).
Proof.
  intros H. induction is as [|i is IH]; [reflexivity|]. cbn [map concat]. rewrite apply_all_app', stage_run, H. exact IH.
Qed.

Lemma stages_run k is r fl : k < length fl ->
  apply_all (concat (map (stage_micro k) is)) (r, upd fl k true) =
  (fst (shot_loop k is r), upd fl k (snd (shot_loop k is r))).
Proof.
  intros Hk. revert r. induction is as [|i is IH]; intros r; [reflexivity|].
  cbn [map concat]. rewrite apply_all_app', stage_run, nth_upd_same by auto. cbn [RolloutModel.shot_loop].
  destruct (t_nan i (body k i r)).
  - rewrite stages_skip; [now rewrite upd_upd|]. apply nth_upd_same. now rewrite upd_length.
  - apply IH.
Qed.

Lemma shot_run k r fl : k < length fl ->
  apply_all (shot_micro k) (r, fl) = (defect k (fst (rollout1 k r)), upd fl k (snd (rollout1 k r))).
Proof.
  intros Hk. unfold RolloutModel.shot_micro. cbn [apply_all]. rewrite apply_all_app'. unfold m_init1, m_init2. cbn [fst snd].
  rewrite stages_run by auto. reflexivity.
Qed.

Definition do_shots (ks : list nat) (r : traj) : traj := fold_left (fun r k => defect k (fst (rollout1 k r))) ks r.

Lemma seq_run ks r fl : (forall k, In k ks -> k < length fl) ->
  fst (apply_all (concat (map (rollout_micro Shots) ks)) (r, fl)) = do_shots (filter starts_shot ks) r.
Proof.
  revert r fl. induction ks as [|k ks IH]; intros r fl H; [reflexivity|].
  cbn [map concat filter]. rewrite apply_all_app'. unfold starts_shot at 1. cbn [RolloutModel.rollout_micro].
  destruct (k mod perShot =? 0).
  - rewrite shot_run by (apply H; now left). rewrite IH; [reflexivity|]. intros k' Hk'. rewrite upd_length. apply H. now right.
  - apply IH. intros; apply H; now right.
Qed.

Lemma filter_none {A} (f : A -> bool) l : (forall x, In x l -> f x = false) -> filter f l = [].
Proof. induction l as [|a l IH]; intros H; cbn; auto. rewrite H by now left. apply IH. intros; apply H; now right. Qed.

Lemma starts_filter fuel k n : 0 < perShot -> k mod perShot = 0 -> n <= fuel ->
  filter starts_shot (seq k n) = starts fuel k (k + n - 1) \/ n = 0.
Proof.
  intros Hp. revert k n. induction fuel as [|fuel IH]; intros k n Hmod Hn; [right; lia|].
  destruct n as [|n]; [now right|]. left. cbn [seq filter RolloutModel.starts]. unfold starts_shot at 1. rewrite Hmod, Nat.eqb_refl.
  destruct (Nat.leb_spec k (k + S n - 1)) as [_|H]; [|lia]. f_equal.
  assert (Hmod' : (k + perShot) mod perShot = 0).
  { rewrite <- Nat.add_mod_idemp_r by lia. rewrite Nat.mod_same by lia. now rewrite Nat.add_0_r. }
  destruct (Nat.le_gt_cases (S n) perShot) as [Hle|Hgt].
  - rewrite filter_none.
    + destruct fuel as [|fuel]; [reflexivity|]. cbn. destruct (Nat.leb_spec (k + perShot) (k + S n - 1)); [lia|reflexivity].
    + intros x Hx. apply in_seq in Hx. unfold starts_shot. destruct (Nat.eqb_spec (x mod perShot) 0) as [H0|H0]; auto.
      exfalso. revert H0. apply (mod_between k); lia.
  - replace (seq (S k) n) with (seq (S k) (perShot - 1) ++ seq (k + perShot) (S n - perShot))
      by (replace (k + perShot) with (S k + (perShot - 1)) by lia; rewrite <- seq_app; f_equal; lia).
    rewrite filter_app, filter_none.
    + cbn [app]. destruct (IH (k + perShot) (S n - perShot) Hmod' ltac:(lia)) as [E|E]; [|lia].
      rewrite E. f_equal. lia.
    + intros x Hx. apply in_seq in Hx. unfold starts_shot. destruct (Nat.eqb_spec (x mod perShot) 0) as [H0|H0]; auto.
      exfalso. revert H0. apply (mod_between k); lia.
Qed.

(** Elementary writes of different shots commute. *)
Definition shot_op (k : nat) (f : mstate -> mstate) : Prop :=
  f = m_init1 k \/ f = m_init2 v0 k \/ f = m_defect v0 sub K Kshot k \/
  exists a, k <= a < k_stop k /\
   (f = guarded k (w_copy v0 k a) \/ f = guarded k (w_feedback v0 u0 closed fb a) \/ f = guarded k (w_state v0 k a) \/
    f = guarded k (w_prop v0 u0 dyn a) \/ f = guarded k (w_term v0 K a) \/ f = m_check v0 u0 nanV nanU k a).

Lemma shot_ops k f : In f (shot_micro k) -> shot_op k f.
Proof.
  unfold RolloutModel.shot_micro. cbn [In]. intros [<-|[<-|H]]; [left; auto|right; left; auto|].
  apply in_app_iff in H. destruct H as [H|[<-|[]]]; [|right; right; left; auto].
  right; right; right. apply in_concat in H. destruct H as (l & Hl & Hf). apply in_map_iff in Hl. destruct Hl as (a & <- & Ha).
  unfold shot_stages in Ha. apply in_seq in Ha. exists a. split; [lia|]. cbn in Hf.
  decompose [or] Hf; subst; auto 10. contradiction.
Qed.

Lemma ops_commute i j f g m : 0 < Kshot -> i mod perShot = 0 -> j mod perShot = 0 -> i < j -> j < K ->
  shot_op i f -> shot_op j g -> f (g m) = g (f m).
Proof.
  intros Hs Hi Hj Hij HjK.
  assert (Hp : 0 < perShot) by (unfold RolloutModel.perShot; destruct single; lia).
  assert (Hgap : i + perShot <= j).
  { destruct (Nat.le_gt_cases (i + perShot) j); auto. exfalso. revert Hj. apply (mod_between i); lia. }
  assert (HpK : perShot = Kshot) by (unfold RolloutModel.perShot in *; destruct single; lia).
  assert (Hsi : k_stop i <= j) by (unfold RolloutModel.k_stop; lia).
  assert (Hsj : k_stop j <= K) by (unfold RolloutModel.k_stop; lia).
  assert (Hni : i < k_next K Kshot i <= j) by (unfold k_next; rewrite <- HpK; lia).
  assert (Hnj : j < k_next K Kshot j <= K) by (unfold k_next; lia).
  destruct m as [[x u xs d] fl].
  unfold shot_op, m_init1, m_init2, m_defect, computeSingleDefect, guarded, w_copy, w_feedback, w_state, w_prop, w_term,
    m_check, RolloutModel.t_nan, running.
  set (ni := k_next K Kshot i) in *. set (nj := k_next K Kshot j) in *. set (si := k_stop i) in *. set (sj := k_stop j) in *.
  clearbody ni nj si sj.
  intros Hf Hg.
  destruct Hf as [->|[->|[->|(a & Ha & Hf)]]]; [| | |decompose [or] Hf; clear Hf; subst f];
  (destruct Hg as [->|[->|[->|(b & Hb & Hg)]]]; [| | |decompose [or] Hg; clear Hg; subst g]).
  all: cbn [fst snd].
  all: repeat match goal with
         | |- context [?p <? ?q] => destruct (Nat.ltb_spec p q); try lia
         | |- context [?p =? ?q] => destruct (Nat.eqb_spec p q); try lia
         end; cbn [fst snd].
  all: try (destruct closed); unf; cbn [fst snd].
  all: repeat (progress (rewrite ?nth_upd_other by lia; cbn [fst snd andb r_x r_u r_xs r_d]) ||
    match goal with
    | H : ?c = _ |- context [if ?c then _ else _] => rewrite H
    | |- context [if ?c then _ else _] => lazymatch c with context [if _ then _ else _] => fail | _ => destruct c eqn:? end
    end).
  all: try reflexivity.
  all: match goal with |- context [upd (upd ?l ?p ?v) ?q ?w] => rewrite (upd_comm l p q v w) by lia; reflexivity end.
Qed.

Lemma shots_commute lo hi : 0 < Kshot -> hi < K -> stages_commute rollout_micro Shots lo hi.
Proof.
  intros Hs HK i j f g m Hi Hj Hne Hf Hg. cbn in Hf, Hg.
  destruct (Nat.eqb_spec (i mod perShot) 0) as [Mi|]; [|destruct Hf].
  destruct (Nat.eqb_spec (j mod perShot) 0) as [Mj|]; [|destruct Hg].
  apply shot_ops in Hf, Hg.
  destruct (Nat.lt_ge_cases i j) as [Hlt|Hge].
  - apply (ops_commute i j); auto; lia.
  - symmetry. apply (ops_commute j i); auto; lia.
Qed.

(** The sequential loop of the single-threaded solver. *)
Lemma rolloutShots_starts first last r : 0 < perShot -> first mod perShot = 0 -> first <= last ->
  rolloutShots v0 u0 dyn closed fb sub nanV nanU K single Kshot first last r = do_shots (filter starts_shot (seq first (S last - first))) r.
Proof.
  intros Hp Hm Hle. unfold rolloutShots, do_shots. f_equal.
  destruct (starts_filter (S last) first (S last - first) Hp Hm ltac:(lia)) as [E|E]; [|lia].
  rewrite E. f_equal. lia.
Qed.

End RolloutProofs.
