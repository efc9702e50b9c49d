(** Proofs about the LQ sub-problem: box storage refines the specification. *)
From Coq Require Import Reals Lra Lia List Bool Arith ZArith.
From Verif Require Import Base.Outcome Base.RVec Optcon.DmsModel Optcon.DmsProofs
  Optcon.ConstraintModel Optcon.LqocModel Optcon.LqocSpec.
Import ListNotations.
Local Open Scope R_scope.

Lemma vec_set_inv {A} (l : list A) : forall i v l', vec_set l i v = Ok l' ->
  (i < length l)%nat /\ length l' = length l /\
  forall j d, nth j l' d = if (j =? i)%nat then v else nth j l d.
Proof.
  induction l as [|a l IH]; intros [|i] v l' H; simpl in H; try discriminate.
  - apply Ok_inj in H. subst l'. simpl. split; [lia|]. split; [auto|]. intros [|j] d; auto.
  - destruct (vec_set l i v) eqn:E; cbn [obind] in H; try discriminate. apply Ok_inj in H. subst l'.
    destruct (IH _ _ _ E) as (A1 & A2 & A3). simpl. split; [lia|]. split; [lia|].
    intros [|j] d; simpl; auto.
Qed.

Lemma vec_set_some {A} (l : list A) : forall i v, (i < length l)%nat -> exists l', vec_set l i v = Ok l'.
Proof.
  induction l as [|a l IH]; intros [|i] v H; simpl in *; try lia; [eauto|].
  destruct (IH i v) as (l' & ->); [lia|]. cbn [obind]. eauto.
Qed.

Lemma vec_set_not_throw {A} (l : list A) : forall i v, vec_set l i v <> Throw.
Proof.
  induction l as [|a l IH]; intros [|i] v; simpl; try discriminate.
  specialize (IH i v). destruct (vec_set l i v); cbn [obind]; congruence.
Qed.

Lemma vec_get_inv {A} (l : list A) i v : vec_get l i = Ok v -> (i < length l)%nat /\ forall d, nth i l d = v.
Proof.
  unfold vec_get. destruct (nth_error l i) eqn:E; intros H; [|discriminate]. apply Ok_inj in H. subst a.
  split; [apply nth_error_Some; congruence|]. intros d. now apply nth_error_nth.
Qed.
Lemma vec_get_not_throw {A} (l : list A) i : vec_get l i <> Throw.
Proof. unfold vec_get. destruct (nth_error l i); discriminate. Qed.

Ltac obind_inv H :=
  match type of H with obind ?a _ = Ok _ =>
    let E := fresh "E" in destruct a eqn:E; cbn [obind] in H; try discriminate H end.

Lemma readAt_inv dim v j r : readAt dim v j = Ok r ->
  (0 <= j < Z.of_nat dim)%Z /\ r = v (Z.to_nat j).
Proof.
  unfold readAt. destruct (0 <=? j)%Z eqn:E1; destruct (j <? Z.of_nat dim)%Z eqn:E2; cbn [andb]; intros H;
    try discriminate. apply Ok_inj in H. lia || (split; [lia|auto]).
Qed.

Lemma assign_spec dim lb ub sp nom k : forall i Iv L U I' L' U',
  assignBounds dim lb ub sp nom k i Iv L U = Ok (I', L', U') ->
  length I' = length Iv /\ length L' = length L /\ length U' = length U /\
  (forall j, (j < i)%nat -> nth j I' 0%Z = nth j Iv 0%Z /\ nth j L' 0 = nth j L 0 /\ nth j U' 0 = nth j U 0) /\
  (forall j, (i <= j < i + k)%nat -> nth j I' 0%Z = nth j sp 0%Z /\
     nth j L' 0 = nth j lb 0 - nom (Z.to_nat (nth j sp 0%Z)) /\
     nth j U' 0 = nth j ub 0 - nom (Z.to_nat (nth j sp 0%Z))).
Proof.
  induction k as [|k IH]; intros i Iv L U I' L' U' H; cbn [assignBounds] in H.
  - apply Ok_inj in H. injection H as <- <- <-. do 3 (split; [reflexivity|]). split; intros j Hj; [auto|lia].
  - obind_inv H. obind_inv H. obind_inv H. obind_inv H. obind_inv H. obind_inv H. obind_inv H.
    apply vec_get_inv in E as [_ E]. apply vec_set_inv in E0 as (A1 & A2 & A3).
    apply vec_get_inv in E1 as [_ E1]. apply readAt_inv in E2 as [_ E2].
    apply vec_set_inv in E3 as (B1 & B2 & B3). apply vec_get_inv in E4 as [_ E4].
    apply vec_set_inv in E5 as (C1 & C2 & C3).
    destruct (IH _ _ _ _ _ _ _ H) as (L1 & L2 & L3 & H1 & H2).
    split; [lia|]. split; [lia|]. split; [lia|]. split.
    + intros j Hj. destruct (H1 j) as (P1 & P2 & P3); [lia|]. rewrite P1, P2, P3, A3, B3, C3.
      destruct (Nat.eqb_spec j i); [lia|auto].
    + intros j Hj. destruct (Nat.eq_dec j i) as [->|Hn].
      * destruct (H1 i) as (P1 & P2 & P3); [lia|]. rewrite P1, P2, P3, A3, B3, C3, Nat.eqb_refl.
        rewrite E, E1, E4, E2. auto.
      * apply H2. lia.
Qed.

Lemma assign_total dim lb ub sp nom k : forall i Iv L U,
  (i + k <= length sp)%nat -> (i + k <= length lb)%nat -> (i + k <= length ub)%nat ->
  (i + k <= length Iv)%nat -> (i + k <= length L)%nat -> (i + k <= length U)%nat ->
  (forall j, (i <= j < i + k)%nat -> (0 <= nth j sp 0 < Z.of_nat dim)%Z) ->
  exists r, assignBounds dim lb ub sp nom k i Iv L U = Ok r.
Proof.
  induction k as [|k IH]; intros i Iv L U H1 H2 H3 H4 H5 H6 Hs; cbn [assignBounds]; [eauto|].
  rewrite (vec_get_nth sp i 0%Z), (vec_get_nth lb i 0), (vec_get_nth ub i 0) by lia. cbn [obind].
  destruct (vec_set_some Iv i (nth i sp 0%Z)) as (I' & E); [lia|]. rewrite E. cbn [obind].
  assert (Hi := Hs i ltac:(lia)). unfold readAt.
  replace (0 <=? nth i sp 0)%Z with true by (symmetry; apply Z.leb_le; lia).
  replace (nth i sp 0 <? Z.of_nat dim)%Z with true by (symmetry; apply Z.ltb_lt; lia).
  cbn [andb obind].
  edestruct (vec_set_some L i) as (L' & E'); [lia|]. rewrite E'. cbn [obind].
  edestruct (vec_set_some U i) as (U' & E''); [lia|]. rewrite E''. cbn [obind].
  apply vec_set_inv in E as (_ & A & _). apply vec_set_inv in E' as (_ & B & _).
  apply vec_set_inv in E'' as (_ & C & _).
  apply IH; try lia. intros j Hj. apply Hs. lia.
Qed.

Lemma assign_not_throw dim lb ub sp nom k : forall i Iv L U,
  assignBounds dim lb ub sp nom k i Iv L U <> Throw.
Proof.
  induction k as [|k IH]; intros i Iv L U; cbn [assignBounds]; [discriminate|].
  destruct (vec_get sp i) eqn:E; cbn [obind]; [|destruct (vec_get_not_throw _ _ E)|discriminate].
  destruct (vec_set Iv i v) eqn:E0; cbn [obind]; [|destruct (vec_set_not_throw _ _ _ E0)|discriminate].
  destruct (vec_get lb i) eqn:E1; cbn [obind]; [|destruct (vec_get_not_throw _ _ E1)|discriminate].
  unfold readAt. destruct (_ && _); cbn [obind]; [|discriminate].
  destruct (vec_set L i _) eqn:E2; cbn [obind]; [|destruct (vec_set_not_throw _ _ _ E2)|discriminate].
  destruct (vec_get ub i) eqn:E3; cbn [obind]; [|destruct (vec_get_not_throw _ _ E3)|discriminate].
  destruct (vec_set U i _) eqn:E4; cbn [obind]; [|destruct (vec_set_not_throw _ _ _ E4)|discriminate].
  apply IH.
Qed.

(** ** The storage represents a specification *)

Definition shaped (dim cnt : nat) (b : boxes) : Prop :=
  length (bx_n b) = cnt /\ length (bx_I b) = cnt /\ length (bx_lb b) = cnt /\ length (bx_ub b) = cnt /\
  forall k, (k < cnt)%nat -> length (nth k (bx_I b) []) = dim /\ length (nth k (bx_lb b) []) = dim /\
    length (nth k (bx_ub b) []) = dim.

Definition stores (b : boxes) (k : nat) (o : option boxspec) : Prop :=
  match o with
  | None => nth k (bx_n b) 0%nat = 0%nat
  | Some s => nth k (bx_n b) 0%nat = length (bs_sp s) /\
      forall i, (i < length (bs_sp s))%nat ->
        nth i (nth k (bx_I b) []) 0%Z = nth i (bs_sp s) 0%Z /\
        nth i (nth k (bx_lb b) []) 0 = nth i (bs_lb s) 0 - bs_nom s (Z.to_nat (nth i (bs_sp s) 0%Z)) /\
        nth i (nth k (bx_ub b) []) 0 = nth i (bs_ub s) 0 - bs_nom s (Z.to_nat (nth i (bs_sp s) 0%Z))
  end.

Lemma stores_feasible b k o : stores b k o -> forall d, feasible b k d <-> absolute o d.
Proof.
  unfold stores, feasible, absolute. destruct o as [s|]; intros H d.
  - destruct H as [Hn H]. rewrite Hn. split; intros F i Hi; specialize (F i Hi);
      destruct (H i Hi) as (E1 & E2 & E3); [|cbn zeta in F]; rewrite ?E1, ?E2, ?E3 in *; cbn zeta; lra.
  - rewrite H. split; auto. intros _ i Hi. lia.
Qed.

Definition represents (dim cnt : nat) (b : boxes) (f : nat -> option boxspec) : Prop :=
  shaped dim cnt b /\ forall k, (k < cnt)%nat -> stores b k (f k).

Lemma store_spec dim cnt nC lb ub sp nom k b b' f : represents dim cnt b f -> length sp = nC ->
  storeBox dim nC lb ub sp nom k b = Ok b' ->
  (k < cnt)%nat /\ represents dim cnt b' (only f k (Some (mkSpec sp lb ub nom))).
Proof.
  intros ((S1 & S2 & S3 & S4 & S5) & Hf) Hl H. unfold storeBox in H.
  obind_inv H. obind_inv H. obind_inv H. obind_inv H. obind_inv H. destruct v3 as [[I' L'] U'].
  obind_inv H. obind_inv H. obind_inv H. apply Ok_inj in H. subst b'.
  apply vec_set_inv in E as (K1 & K2 & K3). apply vec_get_inv in E0 as [_ G1].
  apply vec_get_inv in E1 as [_ G2]. apply vec_get_inv in E2 as [_ G3].
  apply vec_set_inv in E4 as (_ & M2 & M3). apply vec_set_inv in E5 as (_ & N2 & N3).
  apply vec_set_inv in E6 as (_ & O2 & O3).
  destruct (assign_spec _ _ _ _ _ _ _ _ _ _ _ _ _ E3) as (A1 & A2 & A3 & _ & A5).
  split; [lia|]. split.
  - split; [simpl; lia|]. split; [simpl; lia|]. split; [simpl; lia|]. split; [simpl; lia|].
    intros j Hj. cbn [bx_I bx_lb bx_ub]. rewrite M3, N3, O3.
    destruct (S5 j Hj) as (T1 & T2 & T3). destruct (Nat.eqb_spec j k) as [->|]; auto.
    rewrite (G1 []) in T1. rewrite (G2 []) in T2. rewrite (G3 []) in T3. lia.
  - intros j Hj. unfold only. destruct (Nat.eqb_spec j k) as [->|Hn].
    + cbn [stores bs_sp bs_lb bs_ub bs_nom bx_n bx_I bx_lb bx_ub].
      rewrite K3, M3, N3, O3, Nat.eqb_refl. split; [lia|]. intros i Hi. apply A5. lia.
    + specialize (Hf j Hj). destruct (f j) as [s|]; cbn [stores bx_n bx_I bx_lb bx_ub] in *;
        rewrite K3; [rewrite M3, N3, O3|]; destruct (Nat.eqb_spec j k); try lia; auto.
Qed.

Lemma store_total dim cnt nC lb ub sp nom k b f : represents dim cnt b f -> (k < cnt)%nat ->
  length sp = nC -> length lb = nC -> length ub = nC -> (nC <= dim)%nat ->
  (forall j, In j sp -> (0 <= j < Z.of_nat dim)%Z) -> exists b', storeBox dim nC lb ub sp nom k b = Ok b'.
Proof.
  intros ((S1 & S2 & S3 & S4 & S5) & Hf) Hk L1 L2 L3 Hd Hs. unfold storeBox.
  destruct (vec_set_some (bx_n b) k nC) as (n' & ->); [lia|]. cbn [obind].
  rewrite (vec_get_nth _ k []), (vec_get_nth (bx_lb b) k []), (vec_get_nth (bx_ub b) k []) by lia. cbn [obind].
  destruct (S5 k Hk) as (T1 & T2 & T3).
  edestruct (assign_total dim lb ub sp nom nC 0) as ([[I' L'] U'] & ->); try (simpl; lia).
  { intros j Hj. apply Hs, nth_In. lia. }
  cbn [obind].
  destruct (vec_set_some (bx_I b) k I') as (? & ->); [lia|]. cbn [obind].
  destruct (vec_set_some (bx_lb b) k L') as (? & ->); [lia|]. cbn [obind].
  destruct (vec_set_some (bx_ub b) k U') as (? & ->); [lia|]. cbn [obind]. eauto.
Qed.

Lemma store_not_throw dim nC lb ub sp nom k b : storeBox dim nC lb ub sp nom k b <> Throw.
Proof.
  unfold storeBox.
  destruct (vec_set _ _ _) eqn:E; cbn [obind]; [|destruct (vec_set_not_throw _ _ _ E)|discriminate].
  destruct (vec_get _ _) eqn:E0; cbn [obind]; [|destruct (vec_get_not_throw _ _ E0)|discriminate].
  destruct (vec_get (bx_lb b) _) eqn:E1; cbn [obind]; [|destruct (vec_get_not_throw _ _ E1)|discriminate].
  destruct (vec_get (bx_ub b) _) eqn:E2; cbn [obind]; [|destruct (vec_get_not_throw _ _ E2)|discriminate].
  destruct (assignBounds _ _ _ _ _ _ _ _ _ _) as [[[I' L'] U']| |] eqn:E3; cbn [obind];
    [|destruct (assign_not_throw _ _ _ _ _ _ _ _ _ _ E3)|discriminate].
  destruct (vec_set (bx_I b) _ _) eqn:E4; cbn [obind]; [|destruct (vec_set_not_throw _ _ _ E4)|discriminate].
  destruct (vec_set (bx_lb b) _ _) eqn:E5; cbn [obind]; [|destruct (vec_set_not_throw _ _ _ E5)|discriminate].
  destruct (vec_set (bx_ub b) _ _) eqn:E6; cbn [obind]; [|destruct (vec_set_not_throw _ _ _ E6)|discriminate].
  discriminate.
Qed.

Lemma last_nth {A} (l : list A) d : last l d = nth (length l - 1) l d.
Proof.
  induction l as [|a l IH]; auto. destruct l as [|b l]; [reflexivity|].
  change (last (a :: b :: l) d) with (last (b :: l) d). rewrite IH. simpl. now rewrite Nat.sub_0_r.
Qed.

Lemma badConfig_spec dim nC lb ub sp bad : badConfig dim nC lb ub sp = Ok bad ->
  bad = negb (accepted dim nC lb ub sp) /\
  (bad = false -> length sp = nC /\ length lb = nC /\ length ub = nC).
Proof.
  unfold badConfig, accepted.
  destruct (Nat.eqb_spec (length lb) (length ub)); cbn [negb orb andb];
    [|intros H; apply Ok_inj in H; subst bad; split; [auto|discriminate]].
  destruct (Nat.eqb_spec (length lb) nC); cbn [negb orb andb];
    [|intros H; apply Ok_inj in H; subst bad; split; [auto|discriminate]].
  destruct (Nat.eqb_spec (length sp) nC); cbn [negb orb andb];
    [|intros H; apply Ok_inj in H; subst bad; split; [auto|discriminate]].
  unfold vec_back. destruct sp as [|a sp]; [discriminate|].
  rewrite (vec_get_nth _ _ 0%Z) by (simpl; lia). cbn [obind]. intros H. apply Ok_inj in H. subst bad.
  rewrite last_nth. split; [|intros _; lia].
  destruct (Z.ltb_spec (Z.of_nat dim - 1) (nth (length (a :: sp) - 1) (a :: sp) 0%Z));
    destruct (Z.leb_spec (nth (length (a :: sp) - 1) (a :: sp) 0%Z) (Z.of_nat dim - 1)); auto; lia.
Qed.
Lemma badConfig_not_throw dim nC lb ub sp : badConfig dim nC lb ub sp <> Throw.
Proof.
  unfold badConfig. destruct (_ || _ || _); [discriminate|]. unfold vec_back.
  destruct sp as [|a sp]; [discriminate|]. rewrite (vec_get_nth _ _ 0%Z) by (simpl; lia). discriminate.
Qed.
Lemma badConfig_good dim nC lb ub sp : length sp = nC -> length lb = nC -> length ub = nC ->
  (0 < nC)%nat -> (forall j, In j sp -> (0 <= j < Z.of_nat dim)%Z) -> badConfig dim nC lb ub sp = Ok false.
Proof.
  intros L1 L2 L3 Hn Hs. unfold badConfig. rewrite L1, L2, L3, !Nat.eqb_refl. cbn [negb orb].
  unfold vec_back. destruct sp as [|a sp]; [simpl in L1; lia|].
  rewrite (vec_get_nth _ _ 0%Z) by (simpl; lia). cbn [obind]. f_equal.
  apply Z.ltb_ge. enough (nth (length (a :: sp) - 1) (a :: sp) 0 < Z.of_nat dim)%Z by lia.
  apply Hs. apply nth_In. simpl; lia.
Qed.

Lemma represents_ext dim cnt b f g : (forall k, (k < cnt)%nat -> f k = g k) -> represents dim cnt b f ->
  represents dim cnt b g.
Proof. intros E [H1 H2]. split; auto. intros k Hk. rewrite <- E; auto. Qed.

(** setBox as a whole. *)
Lemma setBox_spec dim K cnt k nC lb ub sp nom b f : represents dim cnt b f ->
  match setBox dim K k nC lb ub sp nom b with
  | Ok b' => accepted dim nC lb ub sp = true /\ (k < K)%nat /\
             represents dim cnt b' (only f k (Some (mkSpec sp lb ub nom)))
  | Throw => accepted dim nC lb ub sp && (k <? K)%nat = false
  | UB => True
  end.
Proof.
  intros Hr. unfold setBox. destruct (badConfig dim nC lb ub sp) as [bad| |] eqn:E; cbn [obind]; auto;
    [|destruct (badConfig_not_throw _ _ _ _ _ E)].
  apply badConfig_spec in E as [E1 E2]. destruct bad.
  - destruct (accepted dim nC lb ub sp); [discriminate|reflexivity].
  - destruct (accepted dim nC lb ub sp) eqn:Ea; [|discriminate].
    destruct (Nat.leb_spec K k).
    + cbn [andb]. apply Nat.ltb_ge; auto.
    + destruct (storeBox dim nC lb ub sp nom k b) as [b'| |] eqn:Es; auto.
      * destruct (E2 eq_refl) as (L & _). destruct (store_spec _ _ _ _ _ _ _ _ _ _ _ Hr L Es). auto.
      * destruct (store_not_throw _ _ _ _ _ _ _ _ Es).
Qed.

Lemma setBoxesFrom_spec dim K cnt nC lb ub sp noms k : forall i b f,
  represents dim cnt b f -> (i + k <= K)%nat ->
  match setBoxesFrom dim K k i nC lb ub sp noms b with
  | Ok b' => (k = 0%nat \/ accepted dim nC lb ub sp = true) /\
             represents dim cnt b' (fun j => if ((i <=? j) && (j <? i + k))%nat
                                          then Some (mkSpec sp lb ub (nth j noms rzero)) else f j)
  | Throw => accepted dim nC lb ub sp = false
  | UB => True
  end.
Proof.
  induction k as [|k IH]; intros i b f Hr Hk; cbn [setBoxesFrom].
  - split; [auto|]. eapply represents_ext; [|exact Hr]. intros j _. cbn beta.
    destruct (Nat.leb_spec i j); destruct (Nat.ltb_spec j (i + 0)); auto; lia.
  - destruct (vec_get noms i) eqn:E; cbn [obind]; auto; [|destruct (vec_get_not_throw _ _ E)].
    apply vec_get_inv in E as [_ E].
    pose proof (setBox_spec dim K cnt i nC lb ub sp v b f Hr) as H.
    destruct (setBox dim K i nC lb ub sp v b) as [b'| |]; cbn [obind]; auto.
    + destruct H as (Ha & Hi & Hr'). specialize (IH (S i) b' _ Hr').
      destruct (setBoxesFrom dim K k (S i) nC lb ub sp noms b') as [b''| |]; auto; [|apply IH; lia].
      destruct IH as [_ IH]; [lia|]. split; [auto|]. eapply represents_ext; [|exact IH].
      intros j _. cbn beta. unfold only.
      destruct (Nat.leb_spec (S i) j); destruct (Nat.ltb_spec j (S i + k)); cbn [andb];
        destruct (Nat.leb_spec i j); destruct (Nat.ltb_spec j (i + S k)); cbn [andb]; try lia; auto;
        destruct (Nat.eqb_spec j i); try lia; auto. subst j. now rewrite E.
    + destruct (Nat.ltb_spec i K); [|lia]. rewrite andb_true_r in H. exact H.
Qed.

Lemma nth_resize {A} (d e : A) N l k : (k < N)%nat -> nth k (resize d N l) e =
  if (k <? length l)%nat then nth k l e else d.
Proof.
  intros H. unfold resize. destruct (Nat.ltb_spec k (length l)).
  - rewrite app_nth1 by (rewrite firstn_length; lia).
    rewrite <- (firstn_skipn N l) at 2. rewrite app_nth1 by (rewrite firstn_length; lia). auto.
  - rewrite app_nth2 by (rewrite firstn_length; lia). rewrite firstn_length.
    assert (Hr : forall (a : A) q i, (i < q)%nat -> nth i (repeat a q) e = a).
    { intros a q. induction q; intros [|i] Hi; simpl; try lia; auto. apply IHq. lia. }
    apply Hr. lia.
Qed.
Lemma resize_length {A} (d : A) N l : length (resize d N l) = N.
Proof. unfold resize. rewrite app_length, firstn_length, repeat_length. lia. Qed.

Lemma resize_spec dim cnt N b f : represents dim cnt b f ->
  represents dim N (resizeBoxes dim N b) (fun k => if (k <? Nat.min N cnt)%nat then f k else None).
Proof.
  intros ((S1 & S2 & S3 & S4 & S5) & Hf). split.
  - unfold resizeBoxes, shaped. cbn [bx_n bx_I bx_lb bx_ub]. rewrite !resize_length.
    do 4 (split; [auto|]). intros k Hk. rewrite !nth_resize, S2, S3, S4 by auto.
    destruct (Nat.ltb_spec k cnt); [apply S5; auto|]. rewrite !repeat_length. auto.
  - intros k Hk. destruct (Nat.ltb_spec k (Nat.min N cnt)) as [Hl|Hl].
    + specialize (Hf k ltac:(lia)). unfold resizeBoxes.
      destruct (f k) as [s|]; cbn [stores bx_n bx_I bx_lb bx_ub] in *.
      * rewrite !nth_resize, S1, S2, S3, S4 by auto. destruct (Nat.ltb_spec k cnt); [auto|lia].
      * rewrite nth_resize, S1 by auto. destruct (Nat.ltb_spec k cnt); [auto|lia].
    + cbn [stores resizeBoxes bx_n]. rewrite nth_resize, S1 by auto.
      destruct (Nat.ltb_spec k cnt); [lia|auto].
Qed.

Lemma clear_spec dim cnt b f : represents dim cnt b f -> represents dim cnt (clearBoxes b) (fun _ => None).
Proof.
  intros ((S1 & S2 & S3 & S4 & S5) & Hf). split.
  - unfold clearBoxes, shaped. cbn [bx_n bx_I bx_lb bx_ub]. rewrite repeat_length. auto 10.
  - intros k Hk. cbn [stores clearBoxes bx_n]. apply nth_repeat.
Qed.

Lemma empty_spec dim f : represents dim 0 noBoxes f.
Proof. split; [|intros; lia]. unfold shaped. simpl. do 4 (split; [auto|]). intros; lia. Qed.
