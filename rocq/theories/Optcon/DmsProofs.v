(** Proofs for C26 and C27. *)
From Coq Require Import Reals List Bool Arith ZArith Lia Lra.
From Verif Require Import Base.Outcome Base.Scalar Optcon.DmsModel Optcon.DmsSpec.
Import ListNotations.

Lemma vec_set_app {A} (a : list A) x b v : vec_set (a ++ x :: b) (length a) v = Ok (a ++ v :: b).
Proof. induction a as [|y a IH]; simpl; [reflexivity|]. now rewrite IH. Qed.

Lemma vec_get_app {A} (a : list A) x b : vec_get (a ++ x :: b) (length a) = Ok x.
Proof. unfold vec_get. rewrite nth_error_app2 by lia. now rewrite Nat.sub_diag. Qed.

Lemma vec_get_nth {A} (l : list A) i d : (i < length l)%nat -> vec_get l i = Ok (nth i l d).
Proof. intros H. unfold vec_get. rewrite (nth_error_nth' l d H). reflexivity. Qed.

Lemma vec_get_ub {A} (l : list A) i : (length l <= i)%nat -> vec_get l i = UB.
Proof. intros H. unfold vec_get. apply nth_error_None in H. now rewrite H. Qed.

(** ** Grid *)

Lemma fill_spec {S} (f : nat -> S) k : forall a b, (k <= length b)%nat ->
  fill S f (length a) k (a ++ b) = Ok (a ++ map f (seq (length a) k) ++ skipn k b).
Proof.
  induction k as [|k IH]; intros a b Hk; simpl; [reflexivity|].
  destruct b as [|x b]; simpl in *; [lia|]. rewrite vec_set_app. cbn [obind].
  specialize (IH (a ++ [f (length a)]) b ltac:(lia)).
  rewrite app_length, Nat.add_1_r, <- app_assoc in IH. simpl in IH. rewrite IH.
  now rewrite <- app_assoc.
Qed.

Definition gridTimes {S} (ops : scalar_ops S) of_nat (N : nat) (T : S) : list S :=
  map (fun i => s_mul ops (of_nat i) (s_div ops T (of_nat N))) (seq 0 (N + 1)).

Lemma makeUniformGrid_spec {S} (ops : scalar_ops S) of_nat N T t :
  length t = (N + 1)%nat ->
  makeUniformGrid S ops of_nat (mkGrid N T t) = Ok (mkGrid N T (gridTimes ops of_nat N T)).
Proof.
  intros Hl. unfold makeUniformGrid. cbn [g_N g_T g_t].
  pose proof (fill_spec (fun i => s_mul ops (of_nat i) (s_div ops T (of_nat N))) (N + 1) [] t
    ltac:(lia)) as E. cbn [app length] in E. rewrite E.
  cbn [obind]. rewrite skipn_all2 by lia. now rewrite app_nil_r.
Qed.

Lemma gridTimes_nth N T i : (i <= N)%nat ->
  nth i (gridTimes Rops INR N T) 0%R = (INR i * (T / INR N))%R.
Proof.
  intros H. unfold gridTimes.
  set (f := fun i => s_mul Rops (INR i) (s_div Rops T (INR N))).
  rewrite (nth_indep _ _ (f 0%nat)) by (rewrite map_length, seq_length; lia).
  rewrite (map_nth f), seq_nth by lia. reflexivity.
Qed.

Lemma gridTimes_length {S} (ops : scalar_ops S) of_nat N T :
  length (gridTimes ops of_nat N T) = (N + 1)%nat.
Proof. unfold gridTimes. now rewrite map_length, seq_length. Qed.

Local Open Scope R_scope.

Lemma gridTimes_partition N T : (1 <= N)%nat -> 0 < T ->
  partitions N T (gridTimes Rops INR N T) /\ uniform N T (gridTimes Rops INR N T).
Proof.
  intros HN HT.
  assert (HI : 0 < INR N) by (apply lt_0_INR; lia).
  repeat split.
  - rewrite gridTimes_length. lia.
  - rewrite gridTimes_nth by lia. simpl. lra.
  - rewrite gridTimes_nth by lia. field. lra.
  - intros i Hi. rewrite !gridTimes_nth by lia. rewrite S_INR.
    assert (0 < T / INR N) by (apply Rdiv_lt_0_compat; lra). lra.
  - intros i Hi. rewrite gridTimes_nth by lia. field. lra.
Qed.

(** Prefix sums. *)
Fixpoint sums (a : R) (h : list R) : list R :=
  match h with
  | [] => []
  | d :: r => (a + d) :: sums (a + d) r
  end.

Lemma sums_length h : forall a, length (sums a h) = length h.
Proof. induction h; intros; simpl; auto. Qed.

Lemma updateLoop_spec h : forall pre a post, (length h <= length post)%nat ->
  updateLoop R Rops h (length pre) (pre ++ a :: post) =
  Ok (pre ++ a :: sums a h ++ skipn (length h) post).
Proof.
  induction h as [|d h IH]; intros pre a post Hl; simpl; [reflexivity|].
  rewrite vec_get_app. cbn [obind].
  destruct post as [|x post]; simpl in Hl; [lia|].
  replace (pre ++ a :: x :: post) with ((pre ++ [a]) ++ x :: post) by now rewrite <- app_assoc.
  replace (length pre + 1)%nat with (length (pre ++ [a])) by now rewrite app_length.
  rewrite vec_set_app. cbn [obind].
  rewrite IH by lia. rewrite <- !app_assoc. reflexivity.
Qed.

Lemma updateTimeGrid_spec h N T t : length t = S N -> length h = N ->
  rUpdateTimeGrid h (mkGrid N T t) = Ok (mkGrid N T (0 :: sums 0 h)).
Proof.
  intros Ht Hh. destruct t as [|a t]; [discriminate|]. simpl in Ht.
  unfold rUpdateTimeGrid, updateTimeGrid. cbn [g_t g_N g_T vec_set obind].
  pose proof (updateLoop_spec h [] (s_zero Rops) t ltac:(lia)) as E. cbn [app length] in E.
  rewrite E. cbn [obind].
  rewrite skipn_all2 by lia. now rewrite app_nil_r.
Qed.

Lemma sums_nth h : forall a i, (i < length h)%nat ->
  nth i (sums a h) 0 = nth i (a :: sums a h) 0 + nth i h 0.
Proof.
  induction h as [|d h IH]; intros a i Hi; simpl in *; [lia|].
  destruct i as [|i]; [reflexivity|]. rewrite IH by lia. reflexivity.
Qed.

Lemma sums_last h : forall a, nth (length h) (a :: sums a h) 0 = a + fold_right Rplus 0 h.
Proof.
  induction h as [|d h IH]; intros a; simpl; [lra|]. specialize (IH (a + d)). simpl in IH.
  rewrite IH. lra.
Qed.

(** Telescoping. *)
Lemma telescope (t : list R) : forall N, (N < length t)%nat ->
  fold_right Rplus 0 (map (fun i => nth (S i) t 0 - nth i t 0) (seq 0 N)) =
  nth N t 0 - nth 0 t 0.
Proof.
  induction N as [|N IH]; intros H.
  - simpl. lra.
  - rewrite seq_S, map_app, fold_right_app. simpl.
    assert (E : forall l b, fold_right Rplus b l = fold_right Rplus 0 l + b).
    { induction l as [|x l IHl]; intros b; simpl; [lra|]. rewrite IHl. lra. }
    rewrite E, IH by lia. simpl. destruct t as [|x t]; simpl; lra.
Qed.

(** ** Layout *)
Local Open Scope nat_scope.

Lemma buildMaps_find n m k : forall i cur j,
  mapFind j (fst (buildMaps n m i k cur)) =
    (if (i <=? j) && (j <? i + k) then Ok (cur + (j - i) * (n + m)) else UB) /\
  mapFind j (snd (buildMaps n m i k cur)) =
    (if (i <=? j) && (j <? i + k) then Ok (cur + (j - i) * (n + m) + n) else UB).
Proof.
  induction k as [|k IH]; intros i cur j.
  - simpl. replace ((i <=? j) && (j <? i + 0)) with false; [auto|].
    symmetry. apply andb_false_iff. destruct (Nat.leb_spec i j); auto. right.
    apply Nat.ltb_ge. lia.
  - cbn [buildMaps]. specialize (IH (S i) (cur + n + m) j).
    destruct (buildMaps n m (S i) k (cur + n + m)) as [s c]. cbn [fst snd] in *.
    cbn [mapFind]. destruct (Nat.eqb_spec i j) as [->|Hne].
    + replace ((j <=? j) && (j <? j + S k)) with true.
      * rewrite Nat.sub_diag. split; f_equal; lia.
      * symmetry. apply andb_true_iff. split; [apply Nat.leb_le|apply Nat.ltb_lt]; lia.
    + destruct IH as [-> ->].
      replace ((S i <=? j) && (j <? S i + k)) with ((i <=? j) && (j <? i + S k)).
      * destruct ((i <=? j) && (j <? i + S k)) eqn:E; auto.
        apply andb_true_iff in E. destruct E as [E1 E2].
        apply Nat.leb_le in E1. apply Nat.ltb_lt in E2.
        assert (j - i = S (j - S i)) by lia. rewrite H. split; f_equal; lia.
      * apply eq_true_iff_eq.
        rewrite !andb_true_iff, !Nat.leb_le, !Nat.ltb_lt. lia.
Qed.

Lemma flatten_cons p l : flatten (p :: l) = fst p ++ snd p ++ flatten l.
Proof. unfold flatten. simpl. now rewrite <- app_assoc. Qed.

Lemma flatten_app a b : flatten (a ++ b) = flatten a ++ flatten b.
Proof. unfold flatten. now rewrite map_app, concat_app. Qed.

Lemma flatten_length n m l :
  (forall p, In p l -> length (fst p) = n /\ length (snd p) = m) ->
  length (flatten l) = length l * (n + m).
Proof.
  induction l as [|p l IH]; intros H; [reflexivity|].
  rewrite flatten_cons, !app_length, IH by (intros; apply H; now right).
  destruct (H p (or_introl eq_refl)) as [-> ->]. simpl. lia.
Qed.

Lemma skipn_skipn {A} (l : list A) : forall a b, skipn a (skipn b l) = skipn (b + a) l.
Proof.
  induction l as [|x l IH]; intros a b; [now rewrite !skipn_nil|].
  destruct b; simpl; [reflexivity|]. apply IH.
Qed.

(** Every vector of the right length is the flattening of nodes. *)
Lemma flatten_surj n m : forall N w, length w = N * (n + m) ->
  exists l, flatten l = w /\ length l = N /\
            forall p, In p l -> length (fst p) = n /\ length (snd p) = m.
Proof.
  induction N as [|N IH]; intros w Hw.
  - exists []. destruct w; [|discriminate]. repeat split; contradiction.
  - destruct (IH (skipn (n + m) w)) as (l & E & Hl & Hd).
    { rewrite skipn_length, Hw. simpl. lia. }
    exists ((firstn n w, firstn m (skipn n w)) :: l). repeat split.
    + rewrite flatten_cons, E. cbn [fst snd].
      rewrite <- (firstn_skipn n w) at 4. f_equal.
      rewrite <- (firstn_skipn m (skipn n w)) at 2. f_equal.
      rewrite skipn_skipn. reflexivity.
    + simpl. congruence.
    + destruct H as [<-|H]; [|now apply Hd]. cbn [fst]. rewrite firstn_length, Hw. simpl. lia.
    + destruct H as [<-|H]; [|now apply Hd]. cbn [snd].
      rewrite firstn_length, skipn_length, Hw. simpl. lia.
Qed.

Lemma firstn_app_exact {A} (a b : list A) : firstn (length a) (a ++ b) = a.
Proof. rewrite firstn_app, Nat.sub_diag, firstn_all. simpl. now rewrite app_nil_r. Qed.
Lemma skipn_app_exact {A} (a b : list A) : skipn (length a) (a ++ b) = b.
Proof. rewrite skipn_app, skipn_all, Nat.sub_diag. reflexivity. Qed.

Lemma segment_mid {A} (a b c : list A) : segment (length a) (length b) (a ++ b ++ c) = Ok b.
Proof.
  unfold segment. replace (length a + length b <=? length (a ++ b ++ c)) with true
    by (symmetry; apply Nat.leb_le; rewrite !app_length; lia).
  now rewrite skipn_app_exact, firstn_app_exact.
Qed.

Lemma setSegment_mid {A} (a b b' c : list A) : length b' = length b ->
  setSegment (length a) b' (a ++ b ++ c) = Ok (a ++ b' ++ c).
Proof.
  intros H. unfold setSegment.
  replace (length a + length b' <=? length (a ++ b ++ c)) with true
    by (symmetry; apply Nat.leb_le; rewrite !app_length; lia).
  rewrite firstn_app_exact. do 3 f_equal.
  replace (length a + length b') with (length (a ++ b)) by (rewrite app_length; lia).
  now rewrite app_assoc, skipn_app_exact.
Qed.

Lemma split_nth {A} (l : list A) i d : i < length l ->
  l = firstn i l ++ nth i l d :: skipn (S i) l.
Proof.
  revert i. induction l as [|x l IH]; intros [|i] H; simpl in *; try lia; auto.
  f_equal. apply IH. lia.
Qed.

Lemma replace_split {A} (a : list A) x b v : replace (length a) v (a ++ x :: b) = a ++ v :: b.
Proof. induction a; simpl; congruence. Qed.

Lemma replace_length {A} (v : A) l : forall i, length (replace i v l) = length l.
Proof. induction l as [|x l IH]; intros [|i]; simpl; auto. Qed.

Lemma replace_in {A} (v : A) l : forall i p, In p (replace i v l) -> p = v \/ In p l.
Proof.
  induction l as [|x l IH]; intros [|i] p; simpl; auto.
  - intros [<-|H]; auto.
  - intros [<-|H]; auto. apply IH in H. tauto.
Qed.

Lemma replace_nth {A} (v d : A) l : forall i j, i < length l ->
  nth j (replace i v l) d = if j =? i then v else nth j l d.
Proof.
  induction l as [|x l IH]; intros [|i] [|j] H; simpl in *; try lia; auto.
  apply IH. lia.
Qed.

Lemma firstn_replace {A} (v : A) l : forall i, i < length l ->
  firstn (S i) (replace i v l) = firstn i l ++ [v].
Proof.
  induction l as [|x l IH]; intros [|i] H; cbn [length] in H; try lia; [reflexivity|].
  cbn [replace]. change (x :: firstn (S i) (replace i v l) = x :: firstn i l ++ [v]).
  f_equal. apply IH. lia.
Qed.

Lemma replace_replace {A} (v w : A) l : forall i, replace i v (replace i w l) = replace i v l.
Proof. induction l as [|x l IH]; intros [|i]; simpl; congruence. Qed.

Section Nodes.
Variables n m : nat.
Let dims (l : list node) := forall p, In p l -> length (fst p) = n /\ length (snd p) = m.
Definition dflt : node := ([], []).

Lemma node_split l i : dims l -> i < length l ->
  exists a b, flatten l = a ++ fst (nth i l dflt) ++ snd (nth i l dflt) ++ b /\
    length a = i * (n + m) /\ length (fst (nth i l dflt)) = n /\
    length (snd (nth i l dflt)) = m /\
    forall v, flatten (replace i v l) = a ++ fst v ++ snd v ++ b.
Proof.
  intros Hd Hi. exists (flatten (firstn i l)), (flatten (skipn (S i) l)).
  assert (Hin : In (nth i l dflt) l) by now apply nth_In.
  destruct (Hd _ Hin) as [H1 H2].
  split; [|split; [|split; [|split]]]; auto.
  - rewrite (split_nth l i dflt Hi) at 1. now rewrite flatten_app, flatten_cons.
  - rewrite (flatten_length n m).
    + rewrite firstn_length. lia.
    + intros p Hp. apply Hd. rewrite <- (firstn_skipn i l). apply in_or_app. now left.
  - intros v. rewrite (split_nth l i dflt Hi) at 1.
    replace i with (length (firstn i l)) at 1 by (rewrite firstn_length; lia).
    rewrite replace_split. now rewrite flatten_app, flatten_cons.
Qed.

Lemma node_state l i : dims l -> i < length l ->
  segment (i * (n + m)) n (flatten l) = Ok (fst (nth i l dflt)).
Proof.
  intros Hd Hi. destruct (node_split l i Hd Hi) as (a & b & E & La & L1 & L2 & _).
  rewrite E, <- La, <- L1. apply segment_mid.
Qed.

Lemma node_control l i : dims l -> i < length l ->
  segment (i * (n + m) + n) m (flatten l) = Ok (snd (nth i l dflt)).
Proof.
  intros Hd Hi. destruct (node_split l i Hd Hi) as (a & b & E & La & L1 & L2 & _).
  rewrite E, <- La, <- L2. rewrite <- L1 at 1.
  replace (length a + length (fst (nth i l dflt))) with
    (length (a ++ fst (nth i l dflt))) by now rewrite app_length.
  rewrite (app_assoc a). apply segment_mid.
Qed.

Lemma set_node_state l i x : dims l -> i < length l -> length x = n ->
  setSegment (i * (n + m)) x (flatten l) = Ok (flatten (replace i (x, snd (nth i l dflt)) l)).
Proof.
  intros Hd Hi Hx. destruct (node_split l i Hd Hi) as (a & b & E & La & L1 & L2 & Hr).
  rewrite Hr, E, <- La. cbn [fst snd]. apply setSegment_mid. lia.
Qed.

Lemma set_node_control l i u : dims l -> i < length l -> length u = m ->
  setSegment (i * (n + m) + n) u (flatten l) =
  Ok (flatten (replace i (fst (nth i l dflt), u) l)).
Proof.
  intros Hd Hi Hu. destruct (node_split l i Hd Hi) as (a & b & E & La & L1 & L2 & Hr).
  rewrite Hr, E, <- La. cbn [fst snd]. rewrite <- L1 at 1.
  replace (length a + length (fst (nth i l dflt))) with
    (length (a ++ fst (nth i l dflt))) by now rewrite app_length.
  rewrite !(app_assoc a). apply setSegment_mid. lia.
Qed.

Lemma dims_replace l i v : dims l -> length (fst v) = n -> length (snd v) = m ->
  dims (replace i v l).
Proof. intros Hd H1 H2 p Hp. apply replace_in in Hp. destruct Hp as [->|Hp]; auto. Qed.

(** An OptVectorDms of N shots holding the given nodes and initial guess. *)
Definition holds (N : nat) (l g : list node) (o : optvec) : Prop :=
  o_x o = flatten l /\ o_init o = flatten g /\ o_N o = N /\ o_numPairs o = N + 1 /\
  o_state o = fst (buildMaps n m 0 (N + 1) 0) /\
  o_control o = snd (buildMaps n m 0 (N + 1) 0) /\
  nodes_ok n m N l /\ nodes_ok n m N g.

Lemma holds_state_index N l g o i : holds N l g o ->
  getStateIndex o i = if i <=? N then Ok (i * (n + m)) else UB.
Proof.
  intros (_ & _ & _ & _ & Hs & _). unfold getStateIndex. rewrite Hs.
  destruct (buildMaps_find n m (N + 1) 0 0 i) as [-> _]. simpl.
  rewrite Nat.sub_0_r. replace (i <? N + 1) with (i <=? N); auto.
  apply eq_true_iff_eq. rewrite Nat.leb_le, Nat.ltb_lt. lia.
Qed.

Lemma holds_control_index N l g o i : holds N l g o ->
  getControlIndex o i = if i <=? N then Ok (i * (n + m) + n) else UB.
Proof.
  intros (_ & _ & _ & _ & _ & Hc & _). unfold getControlIndex. rewrite Hc.
  destruct (buildMaps_find n m (N + 1) 0 0 i) as [_ ->]. simpl.
  rewrite Nat.sub_0_r. replace (i <? N + 1) with (i <=? N); auto.
  apply eq_true_iff_eq. rewrite Nat.leb_le, Nat.ltb_lt. lia.
Qed.

Lemma holds_get_state N l g o i : holds N l g o -> i <= N ->
  getOptimizedState n o i = Ok (fst (nth i l dflt)).
Proof.
  intros H Hi. unfold getOptimizedState. rewrite (holds_state_index _ _ _ _ i H).
  replace (i <=? N) with true by (symmetry; now apply Nat.leb_le). cbn [obind].
  destruct H as (-> & _ & _ & _ & _ & _ & [Hl Hd] & _). apply node_state; auto. lia.
Qed.

Lemma holds_get_control N l g o i : holds N l g o -> i <= N ->
  getOptimizedControl m o i = Ok (snd (nth i l dflt)).
Proof.
  intros H Hi. unfold getOptimizedControl. rewrite (holds_control_index _ _ _ _ i H).
  replace (i <=? N) with true by (symmetry; now apply Nat.leb_le). cbn [obind].
  destruct H as (-> & _ & _ & _ & _ & _ & [Hl Hd] & _). apply node_control; auto. lia.
Qed.

Lemma collect_spec {A} (f : nat -> outcome A) (v : nat -> A) k : forall i,
  (forall j, i <= j < i + k -> f j = Ok (v j)) -> collect f i k = Ok (map v (seq i k)).
Proof.
  induction k as [|k IH]; intros i H; simpl; [reflexivity|].
  rewrite (H i) by lia. cbn [obind]. rewrite IH by (intros; apply H; lia). reflexivity.
Qed.

Lemma map_nth_seq {A B} (h : A -> B) (l : list A) d :
  map (fun i => h (nth i l d)) (seq 0 (length l)) = map h l.
Proof.
  induction l as [|x l IH]; [reflexivity|].
  simpl. rewrite <- seq_shift, map_map. simpl. now rewrite IH.
Qed.

Lemma holds_states N l g o : holds N l g o -> getOptimizedStates n o = Ok (map fst l).
Proof.
  intros H. unfold getOptimizedStates.
  assert (Hn : o_numPairs o = N + 1) by apply H.
  assert (Hl : length l = S N) by apply H.
  rewrite Hn, (collect_spec _ (fun i => fst (nth i l dflt))).
  - pose proof (map_nth_seq fst l dflt) as E. change (length l = S N) in Hl.
    assert (E' : N + 1 = length l) by lia. rewrite E'. f_equal. exact E.
  - intros j Hj. apply (holds_get_state N l g); auto. lia.
Qed.

Lemma holds_inputs N l g o : holds N l g o -> getOptimizedInputs m o = Ok (map snd l).
Proof.
  intros H. unfold getOptimizedInputs.
  assert (Hn : o_numPairs o = N + 1) by apply H.
  assert (Hl : length l = S N) by apply H.
  rewrite Hn, (collect_spec _ (fun i => snd (nth i l dflt))).
  - pose proof (map_nth_seq snd l dflt) as E. change (length l = S N) in Hl.
    assert (E' : N + 1 = length l) by lia. rewrite E'. f_equal. exact E.
  - intros j Hj. apply (holds_get_control N l g); auto. lia.
Qed.

Lemma holds_set N l g o l' : holds N l g o -> nodes_ok n m N l' ->
  holds N l' g (setOptimizationVars (flatten l') o).
Proof.
  intros (H1 & H2 & H3 & H4 & H5 & H6 & H7 & H8) H'. unfold holds; simpl.
  exact (conj eq_refl (conj H2 (conj H3 (conj H4 (conj H5 (conj H6 (conj H' H8))))))).
Qed.

Lemma nodes_ok_replace N l i v : nodes_ok n m N l -> length (fst v) = n -> length (snd v) = m ->
  nodes_ok n m N (replace i v l).
Proof.
  intros [Hl Hd] H1 H2. split; [now rewrite replace_length|]. now apply dims_replace.
Qed.

Lemma holds_write N l g o i x o' : holds N l g o -> i <= N -> length x = n ->
  (do k <- getStateIndex o i ;; do y <- setSegment k x (o_x o) ;; Ok (withX y o)) = Ok o' ->
  holds N (replace i (x, snd (nth i l dflt)) l) g o'.
Proof.
  intros H Hi Hx E. rewrite (holds_state_index _ _ _ _ i H) in E.
  replace (i <=? N) with true in E by (symmetry; now apply Nat.leb_le). cbn [obind] in E.
  pose proof H as (H1 & H2 & H3 & H4 & H5 & H6 & [Hl Hd] & H8).
  rewrite H1, set_node_state in E by (auto; lia). cbn [obind] in E. apply Ok_inj in E. subst o'.
  assert (nodes_ok n m N (replace i (x, snd (nth i l dflt)) l)).
  { apply nodes_ok_replace; [split; auto|exact Hx|]. cbn [snd]. apply (Hd (nth i l dflt)).
    apply nth_In. lia. }
  unfold holds; simpl.
  exact (conj eq_refl (conj H2 (conj H3 (conj H4 (conj H5 (conj H6 (conj H0 H8))))))).
Qed.

(** Guess loops. *)
Definition guess_from (xs us : list (list R)) : list node := combine xs us.

Lemma guessArrayLoop_spec N o xs us l g : holds N l g o ->
  length xs = N + 1 -> length us = N + 1 ->
  (forall x, In x xs -> length x = n) -> (forall u, In u us -> length u = m) ->
  forall k i cur, i + k = N + 1 -> dims cur -> length cur = N + 1 ->
    guessArrayLoop o xs us i k (flatten cur) =
    Ok (flatten (firstn i cur ++ skipn i (combine xs us))).
Proof.
  intros H Lx Lu Dx Du. induction k as [|k IH]; intros i cur Hik Hd Hl.
  - cbn [guessArrayLoop]. assert (i = N + 1) by lia. subst i.
    rewrite firstn_all2 by lia. rewrite skipn_all2 by (rewrite combine_length; lia).
    now rewrite app_nil_r.
  - cbn [guessArrayLoop].
    rewrite (holds_state_index _ _ _ _ i H), (holds_control_index _ _ _ _ i H).
    replace (i <=? N) with true by (symmetry; apply Nat.leb_le; lia). cbn [obind].
    rewrite (vec_get_nth xs i []) by lia. cbn [obind].
    assert (Hx : length (nth i xs []) = n) by (apply Dx, nth_In; lia).
    assert (Hu : length (nth i us []) = m) by (apply Du, nth_In; lia).
    rewrite set_node_state by (auto; lia). cbn [obind].
    rewrite (vec_get_nth us i []) by lia. cbn [obind].
    assert (Hd1 : dims (replace i (nth i xs [], snd (nth i cur dflt)) cur)).
    { apply dims_replace; auto. cbn [snd]. apply Hd. apply nth_In. lia. }
    rewrite set_node_control; auto; [|rewrite replace_length; lia]. cbn [obind].
    rewrite replace_nth by lia. rewrite Nat.eqb_refl. cbn [fst].
    rewrite IH.
    + do 2 f_equal.
      assert (Hc : skipn i (combine xs us) =
        (nth i xs [], nth i us []) :: skipn (S i) (combine xs us)).
      { rewrite <- (combine_nth xs us i [] []) by lia.
        rewrite (split_nth (combine xs us) i ([], [])) at 1 by (rewrite combine_length; lia).
        replace i with (length (firstn i (combine xs us))) at 1
          by (rewrite firstn_length, combine_length; lia).
        apply skipn_app_exact. }
      rewrite Hc.
      assert (Hf : @firstn node (S i) (@replace node i (nth i xs [], nth i us [])
         (@replace node i (nth i xs [], snd (nth i cur dflt)) cur)) =
         @firstn node i cur ++ [(nth i xs [], nth i us [])]).
      { rewrite replace_replace. apply firstn_replace.
        apply (Nat.lt_le_trans _ (N + 1)); [lia|]. rewrite <- Hl. apply le_n. }
      refine (eq_trans (f_equal (fun z => z ++ skipn (S i) (combine xs us)) Hf) _).
      rewrite <- app_assoc. reflexivity.
    + lia.
    + apply dims_replace; auto.
    + now rewrite !replace_length.
Qed.

Lemma guessLoop_spec N o x0 xf u0 l g : holds N l g o -> 1 <= N ->
  length x0 = n -> length xf = n -> length u0 = m ->
  forall k i cur, i + k = N + 1 -> dims cur -> length cur = N + 1 ->
    guessLoop o x0 xf u0 i k (flatten cur) =
    Ok (flatten (firstn i cur ++ map (fun j => (interpolateState x0 xf (j / N), u0)) (seq i k))).
Proof.
  intros H HN Lx Lf Lu.
  assert (Li : forall q, length (interpolateState x0 xf q) = n).
  { intros q. unfold interpolateState. rewrite map_length, combine_length. lia. }
  assert (HP : o_numPairs o = N + 1) by apply H.
  induction k as [|k IH]; intros i cur Hik Hd Hl.
  - cbn [guessLoop seq map]. rewrite firstn_all2 by lia. now rewrite app_nil_r.
  - cbn [guessLoop].
    rewrite (holds_state_index _ _ _ _ i H), (holds_control_index _ _ _ _ i H).
    replace (i <=? N) with true by (symmetry; apply Nat.leb_le; lia). cbn [obind].
    rewrite HP. replace (N + 1 - 1) with N by lia.
    replace (N =? 0) with false by (symmetry; apply Nat.eqb_neq; lia).
    set (v := interpolateState x0 xf (i / N)).
    assert (Lv : length v = n) by apply Li.
    rewrite set_node_state by (auto; lia). cbn [obind].
    assert (Hd1 : dims (replace i (v, snd (nth i cur dflt)) cur)).
    { apply dims_replace; auto. cbn [snd]. apply Hd. apply nth_In. lia. }
    rewrite set_node_control; auto; [|rewrite replace_length; lia]. cbn [obind].
    rewrite replace_nth by lia. rewrite Nat.eqb_refl. cbn [fst].
    rewrite IH.
    + do 2 f_equal. cbn [seq map]. fold v.
      assert (Hf : @firstn node (S i) (@replace node i (v, u0)
         (@replace node i (v, snd (nth i cur dflt)) cur)) = @firstn node i cur ++ [(v, u0)]).
      { rewrite replace_replace. apply firstn_replace.
        apply (Nat.lt_le_trans _ (N + 1)); [lia|]. rewrite <- Hl. apply le_n. }
      refine (eq_trans (f_equal (fun z => z ++ _) Hf) _).
      rewrite <- app_assoc. reflexivity.
    + lia.
    + apply dims_replace; auto.
    + now rewrite !replace_length.
Qed.
End Nodes.
