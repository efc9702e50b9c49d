(** Lemmas about the discrete constraints. *)
From Coq Require Import Reals Lra Lia List Bool Arith ZArith.
From Verif Require Import Base.Outcome Base.RVec Optcon.DmsModel Optcon.DmsSpec Optcon.DmsProofs
  Optcon.DmsSplineModel Optcon.ConstraintModel Optcon.ConstraintSpec Optcon.ConstraintProofs
  Optcon.NlpModel Optcon.NlpSpec.
Import ListNotations.
Local Open Scope R_scope.

(** ** Sparse forms side by side *)

(** Columns of a sparse form inside an interval. *)
Definition sparse_at nr nc (lo hi : nat) D rows cols vals :=
  sparse_form nr nc D rows cols vals /\ forall c, In c cols -> (lo <= c < hi)%nat.

Lemma sparse_shift nr k nc o D rows cols vals : (o + k <= nc)%nat ->
  sparse_form nr k D rows cols vals ->
  sparse_at nr nc o (o + k)
    (fun r c => if ((o <=? c) && (c <? o + k))%nat then D r (c - o)%nat else 0)
    rows (map (fun i => o + i)%nat cols) vals.
Proof.
  intros Ho (L1 & L2 & H1 & H2 & H3).
  assert (N : forall i, (i < length vals)%nat ->
    nth i (map (fun i => o + i)%nat cols) 0%nat = (o + nth i cols 0)%nat).
  { intros i Hi. set (f := fun i => (o + i)%nat).
    rewrite (nth_indep _ 0%nat (f 0%nat)) by (rewrite map_length; lia). now rewrite map_nth. }
  split; [split; [exact L1|]; split; [now rewrite map_length|]; split; [|split]|].
  - intros i Hi. destruct (H1 i Hi) as (A & B & C). rewrite N by auto.
    split; [exact A|]. split; [lia|].
    replace (o <=? o + nth i cols 0)%nat with true by (symmetry; apply Nat.leb_le; lia).
    replace (o + nth i cols 0 <? o + k)%nat with true by (symmetry; apply Nat.ltb_lt; lia).
    cbn [andb]. replace (o + nth i cols 0 - o)%nat with (nth i cols 0%nat) by lia. exact C.
  - intros i i' Hi Hi' E E'. rewrite !N in E' by auto. apply H2; auto; lia.
  - intros r c Hr Hc Hn. destruct (Nat.leb_spec o c); cbn [andb]; [|reflexivity].
    destruct (Nat.ltb_spec c (o + k)); [|reflexivity]. apply H3; [auto|lia|].
    intros i Hi Er Ec. apply (Hn i Hi Er). rewrite N by auto. lia.
  - intros c Hc. apply in_map_iff in Hc as (i & <- & Hi).
    destruct (In_nth _ _ 0%nat Hi) as (j & Hj & <-). destruct (H1 j) as (_ & B & _); lia.
Qed.

Lemma sparse_beside nr nc lo mid hi D1 D2 r1 c1 v1 r2 c2 v2 : (lo <= mid <= hi)%nat ->
  sparse_at nr nc lo mid D1 r1 c1 v1 -> sparse_at nr nc mid hi D2 r2 c2 v2 ->
  sparse_at nr nc lo hi (fun r c => D1 r c + D2 r c) (r1 ++ r2) (c1 ++ c2) (v1 ++ v2).
Proof.
  intros Hm [(L1 & L2 & H1 & H2 & H3) Hc1] [(L1' & L2' & H1' & H2' & H3') Hc2].
  assert (B1 : forall i, (i < length v1)%nat -> (lo <= nth i c1 0 < mid)%nat)
    by (intros i Hi; apply Hc1, nth_In; lia).
  assert (B2 : forall i, (i < length v2)%nat -> (mid <= nth i c2 0 < hi)%nat)
    by (intros i Hi; apply Hc2, nth_In; lia).
  assert (Z1 : forall r c, (r < nr)%nat -> (c < nc)%nat -> (mid <= c)%nat -> D1 r c = 0).
  { intros r c Hr Hc Hmc. apply H3; auto. intros i Hi _ E. specialize (B1 i Hi). lia. }
  assert (Z2 : forall r c, (r < nr)%nat -> (c < nc)%nat -> (c < mid)%nat -> D2 r c = 0).
  { intros r c Hr Hc Hmc. apply H3'; auto. intros i Hi _ E. specialize (B2 i Hi). lia. }
  assert (S : forall i, (i < length (v1 ++ v2))%nat ->
     (i < length v1)%nat /\ nth i (r1 ++ r2) 0%nat = nth i r1 0%nat /\
       nth i (c1 ++ c2) 0%nat = nth i c1 0%nat /\ nth i (v1 ++ v2) 0 = nth i v1 0 \/
     (i - length v1 < length v2)%nat /\ (length v1 <= i)%nat /\
       nth i (r1 ++ r2) 0%nat = nth (i - length v1) r2 0%nat /\
       nth i (c1 ++ c2) 0%nat = nth (i - length v1) c2 0%nat /\
       nth i (v1 ++ v2) 0 = nth (i - length v1) v2 0).
  { intros i Hi. rewrite app_length in Hi. destruct (lt_dec i (length v1)).
    - left. rewrite !app_nth1 by lia. auto.
    - right. rewrite !app_nth2 by lia. rewrite L1, L2. repeat split; auto; lia. }
  split; [split; [rewrite !app_length; lia|]; split; [rewrite !app_length; lia|]; split; [|split]|].
  - intros i Hi. destruct (S i Hi) as [(A & -> & -> & ->)|(A & _ & -> & -> & ->)].
    + destruct (H1 i A) as (E1 & E2 & E3). rewrite Z2 by (auto; apply B1; auto).
      rewrite Rplus_0_r. auto.
    + destruct (H1' _ A) as (E1 & E2 & E3). rewrite Z1 by (auto; apply B2; auto).
      rewrite Rplus_0_l. auto.
  - intros i i' Hi Hi' Er Ec.
    destruct (S i Hi) as [(A & R1 & C1 & _)|(A & A0 & R1 & C1 & _)];
    destruct (S i' Hi') as [(A' & R2 & C2 & _)|(A' & A0' & R2 & C2 & _)];
    rewrite R1, R2 in Er; rewrite C1, C2 in Ec.
    + apply H2; auto.
    + specialize (B1 i A). specialize (B2 _ A'). lia.
    + specialize (B1 i' A'). specialize (B2 _ A). lia.
    + assert (i - length v1 = i' - length v1)%nat by (apply H2'; auto). lia.
  - intros r c Hr Hc Hn.
    assert (E1 : D1 r c = 0).
    { apply H3; auto. intros i Hi Er Ec. specialize (Hn i). rewrite app_length in Hn.
      specialize (Hn ltac:(lia)). rewrite !app_nth1 in Hn by lia. exact (Hn Er Ec). }
    assert (E2 : D2 r c = 0).
    { apply H3'; auto. intros i Hi Er Ec. specialize (Hn (length v1 + i)%nat). rewrite app_length in Hn.
      specialize (Hn ltac:(lia)). rewrite <- L1 in Hn at 1. rewrite app_nth2_plus in Hn.
      rewrite <- L2 in Hn at 1. rewrite app_nth2_plus in Hn. exact (Hn Er Ec). }
    rewrite E1, E2. lra.
  - intros c Hc. apply in_app_or in Hc as [Hc|Hc]; [specialize (Hc1 c Hc)|specialize (Hc2 c Hc)]; lia.
Qed.

Lemma sparse_at_ext nr nc lo hi D D' rows cols vals :
  (forall r c, (r < nr)%nat -> (c < nc)%nat -> D r c = D' r c) ->
  sparse_at nr nc lo hi D rows cols vals -> sparse_at nr nc lo hi D' rows cols vals.
Proof. intros E [A B]. split; auto. eapply sparse_ext; eauto. Qed.

(** ** Blocks *)
Definition blockRows rows cols : list nat :=
  concat (map (fun r => map (fun _ => r) (seq 0 cols)) (seq 0 rows)).
Definition blockCols o rows cols : list nat := concat (map (fun _ : nat => seq o cols) (seq 0 rows)).
Definition blockVals rows cols (M : rmat) : list R :=
  concat (map (fun r => map (M r) (seq 0 cols)) (seq 0 rows)).

Lemma sparse_row k (f : nat -> R) :
  sparse_form 1 k (fun _ => f) (map (fun _ => 0%nat) (seq 0 k)) (seq 0 k) (map f (seq 0 k)).
Proof.
  unfold sparse_form. rewrite !map_length, seq_length.
  split; [auto|]. split; [auto|]. split; [|split].
  - intros i Hi. rewrite !nth_map_seq, seq_nth by auto. simpl. auto with arith.
  - intros i i' Hi Hi' _ E. rewrite !seq_nth in E by auto. exact E.
  - intros r c Hr Hc Hn. exfalso. apply (Hn c Hc).
    + rewrite nth_map_seq by auto. lia.
    + now rewrite seq_nth.
Qed.

Lemma sparse_block rows cols M :
  sparse_form rows cols M (blockRows rows cols) (blockCols 0 rows cols) (blockVals rows cols M).
Proof.
  induction rows as [|k IH].
  - apply sparse_empty. intros; lia.
  - unfold blockRows, blockCols, blockVals. rewrite seq_S, !map_app, !concat_app.
    cbn [map concat Nat.add]. rewrite !app_nil_r.
    replace (map (fun _ : nat => k) (seq 0 cols)) with
      (map (fun i => i + k)%nat (map (fun _ : nat => 0%nat) (seq 0 cols)))
      by (rewrite map_map; reflexivity).
    rewrite <- Nat.add_1_r.
    eapply sparse_ext; [|exact (sparse_app k 1 cols M (fun _ => M k) _ _ _ _ _ _ IH (sparse_row cols (M k)))].
    intros r c Hr Hc. cbv beta. destruct (Nat.ltb_spec r k); auto. replace r with k by lia. auto.
Qed.

Lemma map_add_seq o k : map (fun i => o + i)%nat (seq 0 k) = seq o k.
Proof.
  revert o. induction k as [|k IH]; intros o; [reflexivity|]. cbn [seq map]. rewrite Nat.add_0_r.
  f_equal. rewrite <- seq_shift, map_map. rewrite <- (IH (S o)). apply map_ext. intros; lia.
Qed.

Lemma blockCols_shift o rows cols :
  blockCols o rows cols = map (fun i => o + i)%nat (blockCols 0 rows cols).
Proof.
  unfold blockCols. rewrite concat_map, map_map. f_equal. apply map_ext. intros _.
  symmetry. apply map_add_seq.
Qed.
Lemma block_lengths o rows cols M : length (blockRows rows cols) = (rows * cols)%nat /\
  length (blockCols o rows cols) = (rows * cols)%nat /\
  length (blockVals rows cols M) = (rows * cols)%nat.
Proof.
  unfold blockRows, blockCols, blockVals. generalize 0%nat at 2 3 5 as a.
  induction rows as [|k IH]; intros a; [auto|]. cbn [seq map concat].
  rewrite !app_length, !map_length, !seq_length. destruct (IH (S a)) as (-> & -> & ->). auto.
Qed.

Lemma sparse_block_at nc o rows cols M : (o + cols <= nc)%nat ->
  sparse_at rows nc o (o + cols)
    (fun r c => if ((o <=? c) && (c <? o + cols))%nat then M r (c - o)%nat else 0)
    (blockRows rows cols) (blockCols o rows cols) (blockVals rows cols M).
Proof. intros H. rewrite blockCols_shift. apply sparse_shift; auto. apply sparse_block. Qed.

Lemma sparse_diag_at nc o k : (o + k <= nc)%nat ->
  sparse_at k nc o (o + k)
    (fun r c => if ((o <=? c) && (c <? o + k))%nat then delta r (c - o)%nat else 0)
    (seq 0 k) (seq o k) (repeat 1 k).
Proof.
  intros H. rewrite <- (map_add_seq o k). apply sparse_shift; auto.
  pose proof (sparse_units k (seq 0 k)) as S. rewrite seq_length in S.
  eapply sparse_ext; [|apply S; intros j Hj; apply in_seq in Hj; lia].
  intros r c Hr Hc. rewrite entry_units by (rewrite seq_length; auto). rewrite seq_nth by auto.
  unfold delta. simpl. rewrite Nat.eqb_sym. reflexivity.
Qed.

Lemma dataOf_rows rows cols M : dataOf cols rows (rtr (ropp M)) = blockVals rows cols (neg M).
Proof. reflexivity. Qed.

(** ** Writing segments *)
Lemma assign_mid {A} (a b v c : list A) : length v = length b ->
  assignSegment (length a) (length b) v (a ++ b ++ c) = Ok (a ++ v ++ c).
Proof. intros H. unfold assignSegment. rewrite H, Nat.eqb_refl. now apply setSegment_mid. Qed.

Lemma assign_next {A} (a v buf : list A) k : length v = k -> (length a + k <= length buf)%nat ->
  assignSegment (length a) k v (a ++ skipn (length a) buf) =
  Ok ((a ++ v) ++ skipn (length (a ++ v)) buf).
Proof.
  intros <- H. rewrite app_length.
  rewrite <- (firstn_skipn (length v) (skipn (length a) buf)), skipn_skipn.
  assert (L : length v = length (firstn (length v) (skipn (length a) buf))).
  { rewrite firstn_length, skipn_length. lia. }
  rewrite L at 1. rewrite assign_mid by auto. now rewrite <- app_assoc.
Qed.

Lemma skipn_all_nil {A} (buf : list A) k : length buf = k -> skipn k buf = [].
Proof. intros <-. apply skipn_all. Qed.

(** ** Stacking *)
Record blk := mkBlk { bk : nat; bD : rmat; br : list nat; bc : list nat; bv : list R }.
Definition blk_ok nc b := sparse_form (bk b) nc (bD b) (br b) (bc b) (bv b).
Fixpoint offRows (off : nat) (l : list blk) : list nat :=
  match l with
  | [] => []
  | b :: r => map (fun i => i + off)%nat (br b) ++ offRows (off + bk b) r
  end.
Lemma offRows_shift l : forall a off, offRows (a + off) l = map (fun i => i + a)%nat (offRows off l).
Proof.
  induction l as [|b l IH]; intros a off; cbn [offRows]; [reflexivity|].
  rewrite map_app, map_map. f_equal; [apply map_ext; intros; lia|].
  rewrite <- IH. f_equal. lia.
Qed.
Lemma offRows_app a : forall off b, offRows off (a ++ b) = offRows off a ++ offRows (off + list_sum (map bk a)) b.
Proof.
  induction a as [|x a IH]; intros off b; cbn [offRows app map list_sum fold_right].
  - now rewrite Nat.add_0_r.
  - rewrite IH, <- app_assoc. do 3 f_equal. unfold list_sum. cbn [fold_right]. lia.
Qed.
Lemma offRows_length l : (forall b, In b l -> length (br b) = length (bv b)) -> forall off,
  length (offRows off l) = length (concat (map bv l)).
Proof.
  induction l as [|b l IH]; intros H off; [reflexivity|]. cbn [offRows map concat].
  rewrite !app_length, map_length, IH, H; auto; [left; auto|]. intros; apply H; right; auto.
Qed.

Lemma stack_ok nc l : Forall (blk_ok nc) l ->
  sparse_form (list_sum (map bk l)) nc (stacked (map (fun b => (bk b, bD b)) l))
    (offRows 0 l) (concat (map bc l)) (concat (map bv l)).
Proof.
  induction 1 as [|b l Hb Hl IH].
  - apply sparse_empty. intros; simpl in *; lia.
  - cbn [map offRows concat stacked]. change (list_sum (bk b :: map bk l)) with (bk b + list_sum (map bk l))%nat.
    rewrite Nat.add_comm with (n := 0%nat), (offRows_shift l (bk b) 0).
    replace (map (fun i => (i + 0)%nat) (br b)) with (br b)
      by (rewrite <- (map_id (br b)) at 1; apply map_ext; intros; lia).
    exact (sparse_app (bk b) (list_sum (map bk l)) nc _ _ _ _ _ _ _ _ Hb IH).
Qed.

(** ** The loops of DiscreteConstraintContainerBase *)
Lemma writeAll_spec {A} (k : discrete -> nat) (v : discrete -> outcome (list A)) l xs :
  Forall2 (fun c x => v c = Ok x /\ length x = k c) l xs -> forall a buf,
  (length a + list_sum (map k l) <= length buf)%nat ->
  writeAll k v l (length a) (a ++ skipn (length a) buf) =
  Ok ((a ++ concat xs) ++ skipn (length (a ++ concat xs)) buf).
Proof.
  induction 1 as [|c x l xs [E L] F IH]; intros a buf H; cbn [writeAll concat].
  - now rewrite !app_nil_r.
  - cbn [map] in H. change (list_sum (k c :: map k l)) with (k c + list_sum (map k l))%nat in H.
    rewrite E. cbn [obind]. rewrite (assign_next a x buf (k c) L) by lia. cbn [obind].
    replace (length a + k c)%nat with (length (a ++ x)) by (rewrite app_length; lia).
    rewrite IH by (rewrite app_length; lia). now rewrite !app_assoc.
Qed.

Lemma Forall2_imp {A B} (P Q : A -> B -> Prop) : (forall a b, P a b -> Q a b) ->
  forall l l', Forall2 P l l' -> Forall2 Q l l'.
Proof. induction 2; constructor; auto. Qed.

Lemma concat_sum {A B} (k : A -> nat) (l : list A) (xs : list (list B)) :
  Forall2 (fun c x => length x = k c) l xs -> length (concat xs) = list_sum (map k l).
Proof.
  induction 1 as [|c x l xs E F IH]; [reflexivity|]. cbn [concat map]. rewrite app_length, IH, E. reflexivity.
Qed.

Lemma writeAll_all {A} (k : discrete -> nat) (v : discrete -> outcome (list A)) l xs buf :
  Forall2 (fun c x => v c = Ok x /\ length x = k c) l xs -> length buf = list_sum (map k l) ->
  writeAll k v l 0 buf = Ok (concat xs) /\ length (concat xs) = list_sum (map k l).
Proof.
  intros F H. assert (L : length (concat xs) = list_sum (map k l)).
  { apply concat_sum. revert F. apply Forall2_imp. tauto. }
  split; [|exact L].
  pose proof (writeAll_spec k v l xs F [] buf ltac:(simpl; lia)) as E. cbn [app length skipn] in E.
  rewrite skipn_all_nil, app_nil_r in E by lia. exact E.
Qed.

Lemma patternAll_spec l bs :
  Forall2 (fun c b => (forall ir jc, length ir = d_nnz c -> length jc = d_nnz c ->
      d_pattern c ir jc = Ok (br b, bc b)) /\ length (br b) = d_nnz c /\ length (bc b) = d_nnz c /\
      d_size c = bk b) l bs ->
  forall count a a' ir jc,
  (length a + nonZerosCount l <= length ir)%nat -> (length a + nonZerosCount l <= length jc)%nat ->
  length a' = length a ->
  patternAll l (length a) count (a ++ skipn (length a) ir) (a' ++ skipn (length a') jc) =
  Ok ((a ++ offRows count bs) ++ skipn (length (a ++ offRows count bs)) ir,
      (a' ++ concat (map bc bs)) ++ skipn (length (a' ++ concat (map bc bs))) jc).
Proof.
  induction 1 as [|c b l bs (P & L1 & L2 & K) F IH]; intros count a a' ir jc H1 H2 La;
    cbn [patternAll offRows map concat].
  - now rewrite !app_nil_r.
  - unfold nonZerosCount in *. cbn [map] in H1, H2.
    change (list_sum (d_nnz c :: map d_nnz l)) with (d_nnz c + list_sum (map d_nnz l))%nat in H1, H2.
    rewrite P by apply repeat_length. cbn [obind fst snd].
    rewrite assign_next by (rewrite ?map_length; lia). cbn [obind].
    rewrite <- La. rewrite (assign_next a') by lia. cbn [obind].
    replace (length a' + d_nnz c)%nat with (length (a ++ map (fun i => (i + count)%nat) (br b)))
      by (rewrite app_length, map_length; lia).
    rewrite IH by (rewrite ?app_length, ?map_length; lia).
    rewrite K, !app_assoc. reflexivity.
Qed.

(** ** Columns of the decision vector *)
Section Node.
Variables n m : nat.

Lemma at_node_cases k JS JU r c : (n + m <> 0)%nat ->
  at_node n m k JS JU r c =
  (if ((k * (n + m) <=? c) && (c <? k * (n + m) + n))%nat then JS r (c - k * (n + m))%nat else 0) +
  (if ((k * (n + m) + n <=? c) && (c <? k * (n + m) + n + m))%nat then JU r (c - (k * (n + m) + n))%nat
   else 0).
Proof.
  intros H. unfold at_node. pose proof (Nat.div_mod c (n + m) H) as E. rewrite Nat.mul_comm in E.
  pose proof (Nat.mod_upper_bound c (n + m) H) as B.
  set (q := (c / (n + m))%nat) in *. set (o := (c mod (n + m))%nat) in *. clearbody q o. subst c.
  destruct (Nat.eqb_spec q k) as [->|Hk].
  - replace (k * (n + m) + o - k * (n + m))%nat with o by lia.
    replace (k * (n + m) + o - (k * (n + m) + n))%nat with (o - n)%nat by lia.
    replace (k * (n + m) <=? k * (n + m) + o)%nat with true by (symmetry; apply Nat.leb_le; lia).
    replace (k * (n + m) + o <? k * (n + m) + n + m)%nat with true by (symmetry; apply Nat.ltb_lt; lia).
    cbn [andb]. rewrite andb_true_r.
    destruct (Nat.ltb_spec o n).
    + replace (k * (n + m) + o <? k * (n + m) + n)%nat with true by (symmetry; apply Nat.ltb_lt; lia).
      replace (k * (n + m) + n <=? k * (n + m) + o)%nat with false by (symmetry; apply Nat.leb_gt; lia). lra.
    + replace (k * (n + m) + o <? k * (n + m) + n)%nat with false by (symmetry; apply Nat.ltb_ge; lia).
      replace (k * (n + m) + n <=? k * (n + m) + o)%nat with true by (symmetry; apply Nat.leb_le; lia). lra.
  - assert (C : (q * (n + m) + o < k * (n + m) \/ k * (n + m) + n + m <= q * (n + m) + o)%nat).
    { destruct (lt_dec q k).
      - left. assert (S q * (n + m) <= k * (n + m))%nat by (apply Nat.mul_le_mono_r; lia). simpl in *. lia.
      - right. assert (S k * (n + m) <= q * (n + m))%nat by (apply Nat.mul_le_mono_r; lia). simpl in *. lia. }
    destruct C as [C|C].
    + replace (k * (n + m) <=? q * (n + m) + o)%nat with false by (symmetry; apply Nat.leb_gt; lia).
      replace (k * (n + m) + n <=? q * (n + m) + o)%nat with false by (symmetry; apply Nat.leb_gt; lia).
      cbn [andb]. lra.
    + replace (q * (n + m) + o <? k * (n + m) + n)%nat with false by (symmetry; apply Nat.ltb_ge; lia).
      replace (q * (n + m) + o <? k * (n + m) + n + m)%nat with false by (symmetry; apply Nat.ltb_ge; lia).
      rewrite !andb_false_r. lra.
Qed.

Lemma at_node_zero k JS JU r c : (n + m <> 0)%nat ->
  (forall j, (j < n)%nat -> JS r j = 0) -> (forall j, (j < m)%nat -> JU r j = 0) ->
  at_node n m k JS JU r c = 0.
Proof.
  intros H H1 H2. unfold at_node. pose proof (Nat.mod_upper_bound c (n + m) H).
  destruct (_ =? k)%nat; auto. destruct (Nat.ltb_spec (c mod (n + m)) n); [apply H1|apply H2]; lia.
Qed.

(** A state block and a control block at one node. *)
Lemma sparse_node N k nr JS JU r1 c1 v1 r2 c2 v2 : (k <= N)%nat ->
  sparse_form nr n JS r1 c1 v1 -> sparse_form nr m JU r2 c2 v2 ->
  sparse_at nr ((N + 1) * (n + m)) (k * (n + m)) ((k + 1) * (n + m)) (at_node n m k JS JU) (r1 ++ r2)
    (map (fun i => k * (n + m) + i)%nat c1 ++ map (fun i => k * (n + m) + n + i)%nat c2) (v1 ++ v2).
Proof.
  intros Hk S1 S2.
  assert (B : ((k + 1) * (n + m) <= (N + 1) * (n + m))%nat) by (apply Nat.mul_le_mono_r; lia).
  replace ((k + 1) * (n + m))%nat with (k * (n + m) + n + m)%nat in * by lia.
  assert (T1 := sparse_shift nr n ((N + 1) * (n + m)) (k * (n + m)) JS r1 c1 v1 ltac:(lia) S1).
  assert (T2 := sparse_shift nr m ((N + 1) * (n + m)) (k * (n + m) + n) JU r2 c2 v2 ltac:(lia) S2).
  eapply sparse_at_ext; [|refine (sparse_beside _ _ _ _ _ _ _ _ _ _ _ _ _ _ T1 T2); lia].
  intros r c Hr Hc. cbv beta. symmetry. apply at_node_cases. intros E. rewrite E in Hc. lia.
Qed.
End Node.

Lemma assign_first {A} (v buf : list A) k : length v = k -> (k <= length buf)%nat ->
  assignSegment 0 k v buf = Ok (v ++ skipn (length v) buf).
Proof. intros E H. exact (assign_next [] v buf k E H). Qed.
Lemma assign_next' {A} (a v buf : list A) i k : i = length a -> length v = k ->
  (length a + k <= length buf)%nat ->
  assignSegment i k v (a ++ skipn (length a) buf) = Ok ((a ++ v) ++ skipn (length (a ++ v)) buf).
Proof. intros ->. apply assign_next. Qed.

Section Continuity.
Variables n m : nat.

Definition contRows sp : list nat :=
  blockRows n n ++ blockRows n m ++ seq 0 n ++
  match sp with ZERO_ORDER_HOLD => [] | PIECEWISE_LINEAR => blockRows n m end.
Definition contCols sp i : list nat :=
  blockCols (i * (n + m)) n n ++ blockCols (i * (n + m) + n) n m ++ seq ((i + 1) * (n + m)) n ++
  match sp with ZERO_ORDER_HOLD => [] | PIECEWISE_LINEAR => blockCols ((i + 1) * (n + m) + n) n m end.
Definition contVals sp (d : shotData) : list R :=
  blockVals n n (neg (sd_S d)) ++ blockVals n m (neg (sd_Q d)) ++ repeat 1 n ++
  match sp with ZERO_ORDER_HOLD => [] | PIECEWISE_LINEAR => blockVals n m (neg (sd_Q1 d)) end.

Definition sens1 sp (d : shotData) : rmat :=
  match sp with ZERO_ORDER_HOLD => fun _ _ => 0 | PIECEWISE_LINEAR => sd_Q1 d end.

Lemma cont_sparse sp N i d : (i < N)%nat ->
  sparse_form n ((N + 1) * (n + m))
    (continuity_jacobian n m i (sd_S d) (sd_Q d) (sens1 sp d)) (contRows sp) (contCols sp i) (contVals sp d).
Proof.
  intros Hi.
  assert (S1 := sparse_node n m N i n _ _ _ _ _ _ _ _ (Nat.lt_le_incl _ _ Hi)
    (sparse_block n n (neg (sd_S d))) (sparse_block n m (neg (sd_Q d)))).
  assert (D : sparse_form n n delta (seq 0 n) (seq 0 n) (repeat 1 n)).
  { destruct (sparse_diag_at n 0 n (le_n _)) as [D _]. eapply sparse_ext; [|exact D].
    intros r c Hr Hc. cbv beta. replace (c <? 0 + n)%nat with true by (symmetry; apply Nat.ltb_lt; lia).
    cbn [Nat.leb andb]. now rewrite Nat.sub_0_r. }
  assert (Q : sparse_form n m (neg (sens1 sp d))
    match sp with ZERO_ORDER_HOLD => [] | PIECEWISE_LINEAR => blockRows n m end
    match sp with ZERO_ORDER_HOLD => [] | PIECEWISE_LINEAR => blockCols 0 n m end
    match sp with ZERO_ORDER_HOLD => [] | PIECEWISE_LINEAR => blockVals n m (neg (sd_Q1 d)) end).
  { destruct sp; [apply sparse_empty; intros; unfold neg, sens1; lra|apply sparse_block]. }
  assert (Hi' : (i + 1 <= N)%nat) by lia.
  assert (S2 := sparse_node n m N (i + 1) n _ _ _ _ _ _ _ _ Hi' D Q).
  destruct (sparse_beside n _ (i * (n + m)) ((i + 1) * (n + m)) ((i + 1 + 1) * (n + m))
    _ _ _ _ _ _ _ _ ltac:(split; apply Nat.mul_le_mono_r; lia) S1 S2) as [S _].
  unfold contRows, contCols, contVals.
  rewrite <- !app_assoc in S. rewrite <- !blockCols_shift, map_add_seq in S.
  destruct sp; cbn [map] in *; rewrite <- ?blockCols_shift in S; exact S.
Qed.

Lemma contRows_length sp : length (contRows sp) = contNnz n m sp.
Proof.
  unfold contRows, contNnz. rewrite !app_length, seq_length.
  destruct (block_lengths 0 n n (fun _ _ => 0)) as (-> & _). destruct sp;
  destruct (block_lengths 0 n m (fun _ _ => 0)) as (-> & _); simpl; lia.
Qed.

Lemma contJac_spec sp d junk : length junk = contNnz n m sp ->
  contJac n m sp d junk = Ok (contVals sp d) /\ length (contVals sp d) = contNnz n m sp.
Proof.
  intros L. unfold contJac, contVals. rewrite !dataOf_rows.
  destruct (block_lengths 0 n n (neg (sd_S d))) as (_ & _ & E1).
  destruct (block_lengths 0 n m (neg (sd_Q d))) as (_ & _ & E2).
  destruct (block_lengths 0 n m (neg (sd_Q1 d))) as (_ & _ & E3).
  assert (LV : length (blockVals n n (neg (sd_S d)) ++ blockVals n m (neg (sd_Q d)) ++ repeat 1 n ++
    match sp with ZERO_ORDER_HOLD => [] | PIECEWISE_LINEAR => blockVals n m (neg (sd_Q1 d)) end) =
    contNnz n m sp).
  { rewrite !app_length, E1, E2, repeat_length. unfold contNnz. destruct sp; cbn [length]; lia. }
  split; [|exact LV].
  assert (Hn : (n * n + n * m + n <= length junk)%nat) by (rewrite L; unfold contNnz; destruct sp; lia).
  rewrite assign_first by (auto; lia). cbn [obind].
  rewrite assign_next' by (auto; lia). cbn [obind].
  rewrite assign_next' by (rewrite ?repeat_length, ?app_length; lia). cbn [obind].
  destruct sp.
  - rewrite <- !app_assoc. rewrite !app_nil_r in *. rewrite skipn_all_nil by lia. now rewrite app_nil_r.
  - rewrite assign_next' by (rewrite ?app_length, ?repeat_length; unfold contNnz in L; lia).
    rewrite <- !app_assoc. rewrite skipn_all_nil by lia. now rewrite app_nil_r.
Qed.

Lemma contPattern_spec sp N l g w i ir jc : holds n m N l g w -> (i < N)%nat ->
  length ir = contNnz n m sp -> length jc = contNnz n m sp ->
  contPattern n m sp w i ir jc = Ok (contRows sp, contCols sp i).
Proof.
  intros H Hi L L'. unfold contPattern.
  rewrite !(holds_state_index n m N l g w _ H), !(holds_control_index n m N l g w _ H).
  replace (i <=? N)%nat with true by (symmetry; apply Nat.leb_le; lia).
  replace (i + 1 <=? N)%nat with true by (symmetry; apply Nat.leb_le; lia). cbn [obind].
  destruct (block_lengths (i * (n + m)) n n (fun _ _ => 0)) as (A1 & A2 & _).
  destruct (block_lengths (i * (n + m) + n) n m (fun _ _ => 0)) as (B1 & B2 & _).
  destruct (block_lengths ((i + 1) * (n + m) + n) n m (fun _ _ => 0)) as (_ & C2 & _).
  assert (Hn : (n * n + n * m + n <= length ir)%nat) by (rewrite L; unfold contNnz; destruct sp; lia).
  assert (Hn' : (n * n + n * m + n <= length jc)%nat) by (rewrite L'; unfold contNnz; destruct sp; lia).
  assert (R : forall o rows cols, concat (map (fun row => map (fun _ : nat => row) (seq o cols)) (seq 0 rows)) =
    blockRows rows cols).
  { intros o rows cols. unfold blockRows. f_equal. apply map_ext. intros r.
    rewrite <- (map_add_seq o cols), map_map. reflexivity. }
  pose proof (contRows_length sp) as LR.
  assert (LC : length (contCols sp i) = contNnz n m sp).
  { unfold contCols, contNnz. rewrite !app_length, A2, B2, seq_length. destruct sp; cbn [length]; lia. }
  unfold contRows, contCols in *.
  unfold genBlock, genDiagonal. rewrite !R, map_add_seq.
  change (concat (map (fun _ : nat => seq (i * (n + m)) n) (seq 0 n))) with (blockCols (i * (n + m)) n n).
  change (concat (map (fun _ : nat => seq (i * (n + m) + n) m) (seq 0 n))) with (blockCols (i * (n + m) + n) n m).
  change (concat (map (fun _ : nat => seq ((i + 1) * (n + m) + n) m) (seq 0 n)))
    with (blockCols ((i + 1) * (n + m) + n) n m).
  rewrite !assign_first by (auto; lia). cbn [obind].
  rewrite !assign_next' by (auto; simpl; lia). cbn [obind].
  rewrite !assign_next' by (rewrite ?seq_length, ?app_length; simpl; lia). cbn [obind].
  destruct sp.
  - rewrite <- !app_assoc. rewrite !app_nil_r in *. rewrite !skipn_all_nil by lia. now rewrite !app_nil_r.
  - rewrite !assign_next' by (rewrite ?app_length, ?seq_length; unfold contNnz in L, L'; simpl; lia).
    cbn [obind]. rewrite <- !app_assoc. rewrite !skipn_all_nil by lia. now rewrite !app_nil_r.
Qed.

Lemma vsub_length a b : length a = length b -> length (vsub a b) = length a.
Proof. intros H. unfold vsub. rewrite map_length, combine_length. lia. Qed.
Lemma vsub_nth a b r : length a = length b -> (r < length a)%nat ->
  nth r (vsub a b) 0 = nth r a 0 - nth r b 0.
Proof.
  intros H Hr. unfold vsub. set (f := fun p : R * R => fst p - snd p).
  rewrite (nth_indep _ 0 (f (0, 0))) by (rewrite map_length, combine_length; lia).
  rewrite map_nth, combine_nth by auto. reflexivity.
Qed.

Lemma continuity_reports sp N l g w i d junk : holds n m N l g w -> (i < N)%nat ->
  length (sd_x d) = n -> length junk = contNnz n m sp ->
  reports ((N + 1) * (n + m)) (continuity n m sp w i d junk)
    (mkMeaning (vsub (fst (nth (i + 1) l dflt)) (sd_x d)) (repeat 0 n) (repeat 0 n)
       (continuity_jacobian n m i (sd_S d) (sd_Q d) (sens1 sp d))).
Proof.
  intros H Hi Lx Lj. unfold reports, continuity. cbn [d_eval d_lb d_ub d_size d_nnz d_jac d_pattern mv mlo mup mD].
  rewrite (holds_get_state n m N l g w _ H) by lia. cbn [obind].
  assert (Ls : length (fst (nth (i + 1) l dflt)) = n).
  { destruct H as (_ & _ & _ & _ & _ & _ & [LL D] & _). apply D, nth_In. lia. }
  do 3 (split; [reflexivity|]). rewrite vsub_length, repeat_length by lia.
  do 3 (split; [lia|]).
  destruct (contJac_spec sp d junk Lj) as [E L].
  exists (contRows sp), (contCols sp i), (contVals sp d).
  split; [exact E|]. split; [exact L|]. split; [|now apply cont_sparse].
  intros ir jc. now apply contPattern_spec with (N := N) (l := l) (g := g).
Qed.

Lemma init_reports N l g w x0 : holds n m N l g w -> length x0 = n ->
  reports ((N + 1) * (n + m)) (initState n x0 w)
    (mkMeaning (vsub (fst (nth 0 l dflt)) x0) (repeat 0 n) (repeat 0 n)
       (at_node n m 0 delta (fun _ _ => 0))).
Proof.
  intros H Lx. unfold reports, initState. cbn [d_eval d_lb d_ub d_size d_nnz d_jac d_pattern mv mlo mup mD].
  rewrite (holds_get_state n m N l g w _ H) by lia. cbn [obind].
  assert (Ls : length (fst (nth 0 l dflt)) = n).
  { destruct H as (_ & _ & _ & _ & _ & _ & [LL D] & _). apply D, nth_In. lia. }
  do 3 (split; [reflexivity|]). rewrite vsub_length, repeat_length by lia.
  do 3 (split; [lia|]).
  exists (seq 0 n), (seq 0 n), (repeat 1 n).
  split; [reflexivity|]. split; [apply repeat_length|]. split.
  - intros ir jc L L'. rewrite (holds_state_index n m N l g w _ H). cbn [Nat.leb obind Nat.mul].
    unfold genDiagonal. rewrite map_add_seq, !assign_first by (rewrite ?seq_length; lia).
    cbn [obind]. rewrite seq_length, !skipn_all_nil by lia. now rewrite !app_nil_r.
  - assert (D : sparse_form n n delta (seq 0 n) (seq 0 n) (repeat 1 n)).
    { destruct (sparse_diag_at n 0 n (le_n _)) as [D _]. eapply sparse_ext; [|exact D].
      intros r c Hr Hc. cbv beta. replace (c <? 0 + n)%nat with true by (symmetry; apply Nat.ltb_lt; lia).
      cbn [Nat.leb andb]. now rewrite Nat.sub_0_r. }
    assert (Z : sparse_form n m (fun _ _ => 0) [] [] []) by (apply sparse_empty; auto).
    destruct (sparse_node n m N 0 n _ _ _ _ _ _ _ _ (Nat.le_0_l _) D Z) as [S _].
    cbn [map Nat.mul] in S. rewrite !app_nil_r, map_add_seq in S. exact S.
Qed.
End Continuity.
