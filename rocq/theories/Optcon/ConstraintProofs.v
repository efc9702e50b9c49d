(** Proofs about the constraint container. *)
From Coq Require Import Reals Lra Lia List Bool Arith ZArith.
From Verif Require Import Base.Outcome Base.RVec Optcon.DmsModel Optcon.DmsProofs
  Optcon.ConstraintModel Optcon.ConstraintSpec.
Import ListNotations.
Local Open Scope R_scope.

(** ** Sparse forms *)

Lemma sparse_empty nr nc D : (forall r c, (r < nr)%nat -> (c < nc)%nat -> D r c = 0) ->
  sparse_form nr nc D [] [] [].
Proof.
  intros H. repeat split; auto; intros; simpl in *; try lia.
Qed.

Lemma sparse_ext nr nc D D' rows cols vals :
  (forall r c, (r < nr)%nat -> (c < nc)%nat -> D r c = D' r c) ->
  sparse_form nr nc D rows cols vals -> sparse_form nr nc D' rows cols vals.
Proof.
  intros E (L1 & L2 & H1 & H2 & H3). split; [exact L1|]. split; [exact L2|].
  split; [|split; [exact H2|]].
  - intros k Hk. destruct (H1 k Hk) as (A & B & C). rewrite <- E; auto.
  - intros r c Hr Hc Hn. rewrite <- E by auto. apply H3; auto.
Qed.

Lemma sparse_app nr1 nr2 nc D1 D2 r1 c1 v1 r2 c2 v2 :
  sparse_form nr1 nc D1 r1 c1 v1 -> sparse_form nr2 nc D2 r2 c2 v2 ->
  sparse_form (nr1 + nr2) nc (fun r c => if (r <? nr1)%nat then D1 r c else D2 (r - nr1)%nat c)
    (r1 ++ map (fun i => i + nr1)%nat r2) (c1 ++ c2) (v1 ++ v2).
Proof.
  intros (L1 & L2 & H1 & H2 & H3) (L1' & L2' & H1' & H2' & H3').
  assert (LL : length (v1 ++ v2) = (length v1 + length v2)%nat) by apply app_length.
  assert (Nr : forall k, (k < length v1)%nat ->
            nth k (r1 ++ map (fun i => i + nr1)%nat r2) 0%nat = nth k r1 0%nat /\
            nth k (c1 ++ c2) 0%nat = nth k c1 0%nat /\ nth k (v1 ++ v2) 0 = nth k v1 0).
  { intros k Hk. rewrite !app_nth1 by lia. auto. }
  assert (Nr' : forall k, (length v1 <= k < length v1 + length v2)%nat ->
            nth k (r1 ++ map (fun i => i + nr1)%nat r2) 0%nat = (nth (k - length v1) r2 0 + nr1)%nat /\
            nth k (c1 ++ c2) 0%nat = nth (k - length v1) c2 0%nat /\
            nth k (v1 ++ v2) 0 = nth (k - length v1) v2 0).
  { intros k Hk. rewrite !app_nth2 by lia. rewrite L1, L2.
    rewrite (nth_indep (map _ r2) 0%nat (0 + nr1)%nat) by (rewrite map_length; lia).
    rewrite (map_nth (fun i => i + nr1)%nat). auto. }
  unfold sparse_form. rewrite LL, !app_length, map_length.
  split; [lia|]. split; [lia|]. split; [|split].
  - intros k Hk. destruct (lt_dec k (length v1)) as [Hl|Hl].
    + destruct (Nr k Hl) as (-> & -> & ->). destruct (H1 k Hl) as (A & B & C).
      replace (_ <? nr1)%nat with true by (symmetry; apply Nat.ltb_lt; lia). auto with arith.
    + destruct (Nr' k) as (-> & -> & ->); [lia|]. destruct (H1' (k - length v1)%nat) as (A & B & C); [lia|].
      replace (_ <? nr1)%nat with false by (symmetry; apply Nat.ltb_ge; lia).
      rewrite Nat.add_sub. split; [lia|]. auto.
  - intros k k' Hk Hk' Er Ec.
    destruct (lt_dec k (length v1)) as [Hl|Hl]; destruct (lt_dec k' (length v1)) as [Hl'|Hl'].
    + destruct (Nr k Hl) as (A & B & _). destruct (Nr k' Hl') as (A' & B' & _).
      rewrite A, A' in Er. rewrite B, B' in Ec. auto.
    + exfalso. destruct (Nr k Hl) as (A & B & _). destruct (Nr' k') as (A' & B' & _); [lia|].
      rewrite A, A' in Er. destruct (H1 k Hl). lia.
    + exfalso. destruct (Nr k' Hl') as (A & B & _). destruct (Nr' k) as (A' & B' & _); [lia|].
      rewrite A, A' in Er. destruct (H1 k' Hl'). lia.
    + destruct (Nr' k) as (A & B & _); [lia|]. destruct (Nr' k') as (A' & B' & _); [lia|].
      rewrite A, A' in Er. rewrite B, B' in Ec.
      assert (k - length v1 = k' - length v1)%nat by (apply H2'; lia). lia.
  - intros r c Hr Hc Hn. destruct (Nat.ltb_spec r nr1) as [Hl|Hl].
    + apply H3; auto. intros k Hk Er Ec. destruct (Nr k Hk) as (A & B & _).
      apply (Hn k); [lia| |]; congruence.
    + apply H3'; [lia|auto|]. intros k Hk Er Ec.
      destruct (Nr' (k + length v1)%nat) as (A & B & _); [lia|].
      rewrite Nat.add_sub in A, B. apply (Hn (k + length v1)%nat); [lia| |congruence].
      rewrite A, Er. lia.
Qed.

(** ** Terms *)

Section Terms.
Variables n m : nat.
Notation evaluate := (evaluate n m).
Notation size := (size n).
Notation lower := (lower n).
Notation upper := (upper n).
Notation jacobianState := (jacobianState n).
Notation jacobianInput := (jacobianInput n).
Notation nnzState := (nnzState n).
Notation nnzInput := (nnzInput m).
Notation sparseState := (sparseState n).
Notation sparseInput := (sparseInput n m).
Notation patternState := (patternState n).
Notation patternInput := (patternInput n m).

(** Terms as the constructors build them; a user-defined term returns vectors and matrices of the
    size it reports. *)
Inductive built : constraint -> Prop :=
| built_state lb ub sp b : newSparseBox n lb ub sp = Ok b -> built (CState b)
| built_state_all lb ub b : newDenseBox n lb ub = Ok b -> built (CState b)
| built_input lb ub sp b : newSparseBox m lb ub sp = Ok b -> built (CInput b)
| built_input_all lb ub b : newDenseBox m lb ub = Ok b -> built (CInput b)
| built_terminal xF : built (CTerminal xF)
| built_obstacle o : built (CObstacle o)
| built_general g :
    (forall x u t, length (g_eval g x u t) = g_size g /\ length (g_jacS g x u t) = g_size g /\
                   length (g_jacI g x u t) = g_size g) ->
    length (g_lb g) = g_size g -> length (g_ub g) = g_size g -> built (CGeneral g).

Lemma leAll_spec lb : forall ub, length lb = length ub -> leAll lb ub = true ->
  forall r, (r < length lb)%nat -> nth r lb 0 <= nth r ub 0.
Proof.
  induction lb as [|l lb IH]; intros [|u ub] L H r Hr; simpl in *; try lia.
  destruct (Rlt_dec u l); [discriminate|]. destruct r; [lra|]. apply IH; auto; lia.
Qed.

Lemma selected_sum sp : forall i, zeroOne sp = true ->
  length (selected sp i) = Z.to_nat (fold_right Z.add 0%Z sp) /\
  (0 <= fold_right Z.add 0 sp)%Z.
Proof.
  induction sp as [|s sp IH]; intros i H; [split; [reflexivity|simpl; lia]|].
  simpl in H. apply andb_prop in H as [H1 H2]. destruct (IH (S i) H2) as [E P].
  cbn [selected fold_right]. set (z := fold_right Z.add 0%Z sp) in *. clearbody z.
  apply orb_prop in H1 as [H1|H1]; apply Z.eqb_eq in H1; subst s.
  - change (0 =? 1)%Z with false. cbv iota. rewrite E. split; lia.
  - change (1 =? 1)%Z with true. cbv iota. cbn [length]. rewrite E. split; lia.
Qed.

Lemma selectRows_map sp : forall i, selectRows sp i = map runit (selected sp i).
Proof. induction sp as [|s sp IH]; intros i; simpl; auto. destruct (s =? 1)%Z; simpl; now rewrite IH. Qed.

Lemma selected_range sp : forall i j, In j (selected sp i) -> (i <= j < i + length sp)%nat.
Proof.
  induction sp as [|s sp IH]; intros i j H; simpl in *; [tauto|].
  destruct (s =? 1)%Z; [destruct H as [<-|H]; [lia|]|]; apply IH in H; lia.
Qed.

Lemma selected_nodup sp : forall i, NoDup (selected sp i).
Proof.
  induction sp as [|s sp IH]; intros i; simpl; [constructor|].
  destruct (s =? 1)%Z; auto. constructor; auto. intros H. apply selected_range in H. lia.
Qed.

(** What a box constraint is: the components it selects. *)
Definition box_ok (d : nat) (b : box) (idx : list nat) : Prop :=
  b_J b = map runit idx /\ b_size b = length idx /\ selected (b_sp b) 0 = idx /\ NoDup idx /\
  (forall j, In j idx -> (j < d)%nat) /\ length (b_lb b) = length idx /\
  length (b_ub b) = length idx /\ (forall r, (r < length idx)%nat -> nth r (b_lb b) 0 <= nth r (b_ub b) 0).

Lemma sanity_spec k lb ub : sanityCheck k lb ub = Ok tt ->
  length lb = k /\ length ub = k /\ forall r, (r < k)%nat -> nth r lb 0 <= nth r ub 0.
Proof.
  unfold sanityCheck. destruct (Nat.eqb_spec (length lb) k) as [E1|]; cbn [negb orb]; [|discriminate].
  destruct (Nat.eqb_spec (length ub) k) as [E2|]; cbn [negb orb]; [|discriminate].
  destruct (leAll lb ub) eqn:E; [|discriminate]. intros _. split; [auto|]. split; [auto|].
  intros r Hr. apply leAll_spec; auto; lia.
Qed.

Lemma sparse_box_ok d lb ub sp b : newSparseBox d lb ub sp = Ok b -> box_ok d b (selected sp 0).
Proof.
  unfold newSparseBox. destruct (zeroOne sp) eqn:Z; cbn [negb orb]; [|discriminate].
  destruct (Nat.eqb_spec (length sp) d) as [Ed|]; cbn [negb orb]; [|discriminate].
  destruct (sanityCheck _ lb ub) as [[]| |] eqn:E; cbn [obind]; try discriminate.
  intros H. apply Ok_inj in H. subst b. apply sanity_spec in E as (L1 & L2 & L3).
  destruct (selected_sum sp 0 Z) as [Ls _].
  unfold box_ok. simpl. rewrite <- Ls in *. repeat split; auto.
  - apply selectRows_map.
  - apply selected_nodup.
  - intros j Hj. apply selected_range in Hj. lia.
Qed.

Lemma selected_ones d : forall i, selected (repeat 1%Z d) i = seq i d.
Proof. induction d as [|d IH]; intros i; simpl; auto. now rewrite IH. Qed.

Lemma dense_box_ok d lb ub b : newDenseBox d lb ub = Ok b -> box_ok d b (seq 0 d).
Proof.
  unfold newDenseBox. destruct (sanityCheck _ lb ub) as [[]| |] eqn:E; cbn [obind]; try discriminate.
  intros H. apply Ok_inj in H. subst b. apply sanity_spec in E as (L1 & L2 & L3).
  unfold box_ok. simpl. rewrite seq_length. repeat split; auto.
  - apply selected_ones.
  - apply seq_NoDup.
  - intros j Hj. apply in_seq in Hj. lia.
Qed.

Lemma built_box c : built c -> match c with
  | CState b => exists idx, box_ok n b idx
  | CInput b => exists idx, box_ok m b idx
  | _ => True end.
Proof.
  intros []; auto;
    solve [eexists; eapply sparse_box_ok; eassumption | eexists; eapply dense_box_ok; eassumption].
Qed.

Lemma built_lengths c x u t : built c ->
  length (evaluate c x u t) = size c /\ length (lower c) = size c /\ length (upper c) = size c /\
  length (jacobianState c x u t) = size c /\ length (jacobianInput c x u t) = size c.
Proof.
  intros H. pose proof (built_box c H) as Hb. destruct c as [b|b|xF|o|g]; simpl.
  - destruct Hb as (idx & E1 & E2 & _ & _ & _ & L1 & L2 & _). unfold mulVec.
    rewrite E1, !map_length, repeat_length. lia.
  - destruct Hb as (idx & E1 & E2 & _ & _ & _ & L1 & L2 & _). unfold mulVec.
    rewrite E1, !map_length, repeat_length. lia.
  - unfold toList. rewrite !map_length, !repeat_length, !seq_length. auto.
  - auto.
  - inversion H as [| | | | | |? Hl L1 L2]; subst. destruct (Hl x u t) as (A & B & C). auto.
Qed.

Definition entry (D : list rvec) : nat -> nat -> R := fun r c => nth r D rzero c.

Lemma entry_units idx r c : (r < length idx)%nat ->
  entry (map runit idx) r c = if (c =? nth r idx 0)%nat then 1 else 0.
Proof.
  intros H. unfold entry. rewrite (nth_indep _ rzero (runit 0)) by (rewrite map_length; auto).
  now rewrite map_nth.
Qed.

Lemma nth_repeat_lt {A} (a d : A) k : forall i, (i < k)%nat -> nth i (repeat a k) d = a.
Proof. induction k as [|k IH]; intros [|i] H; simpl; try lia; auto. apply IH. lia. Qed.

Lemma sparse_units nc idx : (forall j, In j idx -> (j < nc)%nat) ->
  sparse_form (length idx) nc (entry (map runit idx)) (seq 0 (length idx)) idx
    (repeat 1 (length idx)).
Proof.
  intros Hr. unfold sparse_form. rewrite seq_length, repeat_length.
  split; [auto|]. split; [auto|]. split; [|split].
  - intros k Hk. rewrite seq_nth by auto. simpl. split; [auto|]. split; [apply Hr, nth_In; auto|].
    rewrite entry_units, Nat.eqb_refl by auto. apply nth_repeat_lt; auto.
  - intros k k' Hk Hk' E _. rewrite !seq_nth in E by auto. lia.
  - intros r c H1 H2 Hn. rewrite entry_units by auto. destruct (Nat.eqb_spec c (nth r idx 0%nat)); auto.
    exfalso. apply (Hn r); auto. rewrite seq_nth; auto.
Qed.

Lemma entry_zero k r c : entry (repeat rzero k) r c = 0.
Proof.
  unfold entry. destruct (lt_dec r k).
  - rewrite nth_repeat_lt by auto. reflexivity.
  - rewrite nth_overflow by (rewrite repeat_length; lia). reflexivity.
Qed.

(** The inherited interface (row-major pattern, column-major values) is right for a single row and
    for a single column. *)
Lemma columnMajor_row k (row : rvec) : columnMajor k [row] = map row (seq 0 k).
Proof.
  unfold columnMajor. generalize (seq 0 k) as l.
  induction l as [|j l IH]; simpl in *; auto. now rewrite IH.
Qed.

Lemma nth_map_seq {A} (f : nat -> A) k i d : (i < k)%nat -> nth i (map f (seq 0 k)) d = f i.
Proof.
  intros H. rewrite (nth_indep _ d (f 0%nat)) by (rewrite map_length, seq_length; auto).
  rewrite map_nth, seq_nth; auto.
Qed.

Lemma sparse_block_row k (row : rvec) :
  sparse_form 1 k (entry [row]) (fst (genBlockIndices 1 k)) (snd (genBlockIndices 1 k))
    (columnMajor k [row]).
Proof.
  rewrite columnMajor_row. unfold genBlockIndices. cbn [fst snd seq map concat].
  rewrite !app_nil_r. unfold sparse_form. rewrite !map_length, seq_length.
  split; [auto|]. split; [auto|]. split; [|split].
  - intros i Hi. rewrite (nth_map_seq (fun _ => 0%nat)), seq_nth, nth_map_seq by auto.
    simpl. auto.
  - intros i i' Hi Hi' _ E. rewrite !seq_nth in E by auto. lia.
  - intros r c Hr Hc Hn. exfalso. apply (Hn c); auto.
    + rewrite (nth_map_seq (fun _ => 0%nat)) by auto. lia.
    + rewrite seq_nth; auto.
Qed.

Lemma sparse_block_zero_cols k D :
  sparse_form k 0 D (fst (genBlockIndices k 0)) (snd (genBlockIndices k 0)) [].
Proof.
  unfold genBlockIndices. cbn [fst snd seq map].
  assert (E : forall l : list nat, concat (map (fun _ => @nil nat) l) = []).
  { induction l; simpl; auto. }
  rewrite !E. apply sparse_empty. intros; lia.
Qed.

Lemma sparse_block_column (M : list rvec) :
  sparse_form (length M) 1 (entry M) (fst (genBlockIndices (length M) 1))
    (snd (genBlockIndices (length M) 1)) (columnMajor 1 M).
Proof.
  unfold genBlockIndices, columnMajor. cbn [fst snd seq map concat]. rewrite app_nil_r.
  assert (E1 : forall l : list nat, concat (map (fun r => [r]) l) = l).
  { induction l; simpl; congruence. }
  assert (E2 : forall l : list nat, concat (map (fun _ => [0%nat]) l) = map (fun _ => 0%nat) l).
  { induction l; simpl; congruence. }
  rewrite E1, E2. unfold sparse_form. rewrite !map_length, seq_length.
  split; [auto|]. split; [auto|]. split; [|split].
  - intros i Hi. rewrite (nth_map_seq (fun _ => 0%nat)), seq_nth by auto. simpl.
    split; [auto|]. split; [auto|]. unfold entry.
    rewrite (nth_indep _ 0 (rzero 0%nat)) by (rewrite map_length; auto).
    now rewrite (map_nth (fun row : rvec => row 0%nat)).
  - intros i i' Hi Hi' E _. rewrite !seq_nth in E by auto. lia.
  - intros r c Hr Hc Hn. exfalso. apply (Hn r); auto.
    + rewrite seq_nth; auto.
    + rewrite (nth_map_seq (fun _ => 0%nat)) by auto. lia.
Qed.

(** The terms for which the sparse interface is right: all but user-defined ones with several rows
    and several columns. *)
Definition sparse_ok (c : constraint) : Prop :=
  match c with CGeneral g => (g_size g <= 1 \/ (n <= 1 /\ m <= 1))%nat | _ => True end.

Lemma sparse_inherited k (M : list rvec) : (length M <= 1 \/ k <= 1)%nat ->
  sparse_form (length M) k (entry M) (fst (genBlockIndices (length M) k))
    (snd (genBlockIndices (length M) k)) (columnMajor k M).
Proof.
  intros [H|H].
  - destruct M as [|row [|]]; simpl in H; try lia.
    + unfold genBlockIndices, columnMajor. cbn [length seq map concat fst snd].
      replace (concat (map (fun j => []) (seq 0 k))) with (@nil R).
      * apply sparse_empty. intros; lia.
      * generalize (seq 0 k) as l. induction l; simpl; auto.
    + apply sparse_block_row.
  - destruct k as [|[|k]]; [|apply sparse_block_column|lia].
    apply sparse_block_zero_cols.
Qed.

Lemma genBlock_length k l : length (fst (genBlockIndices k l)) = (k * l)%nat /\
  length (snd (genBlockIndices k l)) = (k * l)%nat.
Proof.
  unfold genBlockIndices. cbn [fst snd]. generalize 0%nat at 2 4 as a. revert k.
  induction k as [|k IH]; intros a; simpl; auto. destruct (IH (S a)) as [A B].
  rewrite !app_length, map_length, A, B, !seq_length. auto.
Qed.

Lemma built_sparse_state c x u t : built c -> sparse_ok c ->
  sparse_form (size c) n (entry (jacobianState c x u t)) (fst (patternState c))
    (snd (patternState c)) (sparseState c x u t) /\ length (sparseState c x u t) = nnzState c.
Proof.
  intros H Hs. pose proof (built_box c H) as Hb.
  pose proof (built_lengths c x u t H) as (_ & _ & _ & LJ & _).
  destruct c as [b|b|xF|o|g]; cbn [ConstraintModel.size ConstraintModel.jacobianState
    ConstraintModel.patternState ConstraintModel.sparseState ConstraintModel.nnzState] in *.
  - destruct Hb as (idx & E1 & E2 & E3 & E4 & E5 & _). unfold boxPattern. cbn [fst snd].
    rewrite E1, E2, E3. split; [apply sparse_units; auto|]. apply repeat_length.
  - split; [|reflexivity]. apply sparse_empty. intros. apply entry_zero.
  - split; [|apply repeat_length]. pose proof (sparse_units n (seq 0 n)) as E.
    rewrite seq_length in E. apply E. intros j Hj. apply in_seq in Hj. lia.
  - split; [apply sparse_block_row|]. rewrite columnMajor_row, map_length, seq_length. lia.
  - assert (Hd : (length (g_jacS g x u t) <= 1 \/ n <= 1)%nat) by (simpl in Hs; lia).
    pose proof (sparse_inherited n (g_jacS g x u t) Hd) as E. rewrite LJ in E.
    split; [exact E|]. destruct E as (L & _). rewrite <- L.
    destruct (genBlock_length (g_size g) n) as [-> _]. lia.
Qed.

Lemma built_sparse_input c x u t : built c -> sparse_ok c -> nnzInput c <> 0%nat ->
  sparse_form (size c) m (entry (jacobianInput c x u t)) (fst (patternInput c))
    (snd (patternInput c)) (sparseInput c x u t) /\ length (sparseInput c x u t) = nnzInput c.
Proof.
  intros H Hs Hz. pose proof (built_box c H) as Hb.
  pose proof (built_lengths c x u t H) as (_ & _ & _ & _ & LJ).
  destruct c as [b|b|xF|o|g]; cbn [ConstraintModel.size ConstraintModel.jacobianInput
    ConstraintModel.patternInput ConstraintModel.sparseInput ConstraintModel.nnzInput] in *.
  - congruence.
  - destruct Hb as (idx & E1 & E2 & E3 & E4 & E5 & _). unfold boxPattern. cbn [fst snd].
    rewrite E1, E2, E3. split; [apply sparse_units; auto|]. apply repeat_length.
  - congruence.
  - split; [apply sparse_block_row|]. rewrite columnMajor_row, map_length, seq_length. lia.
  - assert (Hd : (length (g_jacI g x u t) <= 1 \/ m <= 1)%nat) by (simpl in Hs; lia).
    pose proof (sparse_inherited m (g_jacI g x u t) Hd) as E. rewrite LJ in E.
    split; [exact E|]. destruct E as (L & _). rewrite <- L.
    destruct (genBlock_length (g_size g) m) as [-> _]. lia.
Qed.

Lemma built_input_zero c x u t r k : built c -> nnzInput c = 0%nat -> (k < m)%nat ->
  (r < size c)%nat -> entry (jacobianInput c x u t) r k = 0.
Proof.
  intros H Hz Hk Hr. pose proof (built_box c H) as Hb.
  destruct c as [b|b|xF|o|g]; cbn [ConstraintModel.size ConstraintModel.jacobianInput
    ConstraintModel.nnzInput] in *.
  - apply entry_zero.
  - lia.
  - apply entry_zero.
  - lia.
  - destruct m; [lia|]. destruct (g_size g); [lia|discriminate].
Qed.
Lemma built_state_zero c x u t r k : built c -> nnzState c = 0%nat -> (k < n)%nat ->
  (r < size c)%nat -> entry (jacobianState c x u t) r k = 0.
Proof.
  intros H Hz Hk Hr.
  destruct c as [b|b|xF|o|g]; cbn [ConstraintModel.size ConstraintModel.jacobianState
    ConstraintModel.nnzState] in *; try lia.
  - apply entry_zero.
  - destruct n; [lia|]. destruct (g_size g); [lia|discriminate].
Qed.
Lemma built_size_zero c : built c -> size c = 0%nat -> nnzState c = 0%nat /\ nnzInput c = 0%nat.
Proof. intros H E. destruct c; simpl in *; rewrite ?E; lia. Qed.

(** ** The loops *)

Lemma writeSegments_spec {A} k (v : constraint -> list A) l :
  (forall c, In c l -> length (v c) = k c) -> forall a b c0,
  length b = list_sum (map k l) ->
  writeSegments k v l (length a) (a ++ b ++ c0) = Ok (a ++ concat (map v l) ++ c0).
Proof.
  induction l as [|c l IH]; intros Hv a b c0 Hb; cbn [writeSegments map concat].
  - destruct b; [reflexivity|discriminate].
  - rewrite (Hv c) by (left; auto). rewrite Nat.eqb_refl. cbn [negb].
    cbn [map list_sum fold_right] in Hb. change (fold_right Nat.add 0%nat (map k l)) with (list_sum (map k l)) in Hb.
    replace b with (firstn (k c) b ++ skipn (k c) b) by apply firstn_skipn.
    rewrite <- app_assoc, setSegment_mid
      by (rewrite firstn_length, (Hv c) by (left; auto); lia).
    cbn [obind].
    replace (length a + k c)%nat with (length (a ++ v c)) by (rewrite app_length, (Hv c); auto; left; auto).
    rewrite (app_assoc a (v c)), IH.
    + now rewrite <- !app_assoc.
    + intros; apply Hv; right; auto.
    + rewrite skipn_length. lia.
Qed.

Lemma writeSegments_all {A} k (v : constraint -> list A) l b :
  (forall c, In c l -> length (v c) = k c) -> length b = list_sum (map k l) ->
  writeSegments k v l 0 b = Ok (concat (map v l)).
Proof.
  intros Hv Hb. pose proof (writeSegments_spec k v l Hv [] b [] Hb) as E.
  simpl in E. rewrite !app_nil_r in E. exact E.
Qed.

Lemma writeNonEmpty_filter {A} k (v : constraint -> list A) l : forall count buf,
  writeNonEmpty k v l count buf =
  writeSegments k v (filter (fun c => negb (k c =? 0)%nat) l) count buf.
Proof.
  induction l as [|c l IH]; intros count buf; cbn [writeNonEmpty filter writeSegments]; auto.
  destruct (Nat.eqb_spec (k c) 0) as [E|E]; cbn [negb].
  - apply IH.
  - cbn [writeSegments]. destruct (negb (length (v c) =? k c)); auto.
    destruct (setSegment count (v c) buf); cbn [obind]; auto.
Qed.

Lemma sum_filter (k : constraint -> nat) l :
  list_sum (map k (filter (fun c => negb (k c =? 0)%nat) l)) = list_sum (map k l).
Proof.
  induction l as [|c l IH]; simpl; auto.
  destruct (Nat.eqb_spec (k c) 0) as [E|E]; cbn [negb]; simpl; rewrite <- IH; lia.
Qed.

Lemma writeNonEmpty_all {A} k (v : constraint -> list A) l b :
  (forall c, In c l -> k c <> 0%nat -> length (v c) = k c) -> length b = list_sum (map k l) ->
  writeNonEmpty k v l 0 b =
  Ok (concat (map v (filter (fun c => negb (k c =? 0)%nat) l))).
Proof.
  intros Hv Hb. rewrite writeNonEmpty_filter. apply writeSegments_all.
  - intros c Hc. apply filter_In in Hc as [H1 H2]. apply Hv; auto.
    intros E. rewrite E in H2. discriminate.
  - now rewrite sum_filter.
Qed.

(** The pattern, the values and the stacked dense matrix belong together. *)
Lemma entry_app M1 M2 r c : entry (M1 ++ M2) r c =
  if (r <? length M1)%nat then entry M1 r c else entry M2 (r - length M1) c.
Proof.
  unfold entry. destruct (Nat.ltb_spec r (length M1)).
  - now rewrite app_nth1.
  - now rewrite app_nth2 by lia.
Qed.

Lemma concat_length_sum {A} (f : constraint -> list A) (k : constraint -> nat) l :
  (forall c, In c l -> length (f c) = k c) ->
  length (concat (map f l)) = list_sum (map k l).
Proof.
  induction l as [|c l IH]; intros H; simpl; auto.
  rewrite app_length, (H c (or_introl eq_refl)), IH; auto. intros d Hd. apply H. right; auto.
Qed.

Lemma pattern_spec nc k pat (val : constraint -> list R) (jac : constraint -> list rvec) l :
  (forall c, In c l -> length (jac c) = size c) ->
  (forall c, In c l -> k c <> 0%nat ->
     sparse_form (size c) nc (entry (jac c)) (fst (pat c)) (snd (pat c)) (val c) /\
     length (val c) = k c) ->
  (forall c, In c l -> k c = 0%nat -> forall r j, (r < size c)%nat -> (j < nc)%nat ->
     entry (jac c) r j = 0) ->
  forall pre rows cols vals,
  sparse_form (length pre) nc (entry pre) rows cols vals ->
  exists rows' cols', patternLoop n k pat l (length pre) rows cols = Ok (rows', cols') /\
    sparse_form (length pre + list_sum (map size l)) nc (entry (pre ++ concat (map jac l)))
      rows' cols' (vals ++ concat (map val (filter (fun c => negb (k c =? 0)%nat) l))).
Proof.
  induction l as [|c l IH]; intros Hj Hs Hz pre rows cols vals Hp; cbn [patternLoop map concat].
  - exists rows, cols. split; [reflexivity|]. rewrite !app_nil_r. simpl. rewrite Nat.add_0_r. exact Hp.
  - assert (Hjc : length (jac c) = size c) by (apply Hj; left; auto).
    assert (Hl : length (pre ++ jac c) = (length pre + size c)%nat) by (rewrite app_length; lia).
    assert (IH' : forall rows cols vals,
      sparse_form (length (pre ++ jac c)) nc (entry (pre ++ jac c)) rows cols vals ->
      exists rows' cols', patternLoop n k pat l (length pre + size c) rows cols = Ok (rows', cols') /\
        sparse_form (length pre + list_sum (map size (c :: l))) nc
          (entry (pre ++ jac c ++ concat (map jac l)))
          rows' cols' (vals ++ concat (map val (filter (fun c => negb (k c =? 0)%nat) l)))).
    { intros r0 c0 v0 H0. rewrite <- Hl.
      destruct (IH (fun d Hd => Hj d (or_intror Hd)) (fun d Hd => Hs d (or_intror Hd))
                   (fun d Hd => Hz d (or_intror Hd)) (pre ++ jac c) r0 c0 v0 H0) as (r1 & c1 & E & F).
      exists r1, c1. split; [exact E|]. rewrite Hl, <- !app_assoc in F.
      cbn [map list_sum fold_right].
      change (fold_right Nat.add 0%nat (map size l)) with (list_sum (map size l)).
      rewrite Nat.add_assoc. exact F. }
    cbn [filter]. destruct (Nat.eqb_spec (k c) 0) as [E|E]; cbn [negb].
    + apply IH'. rewrite Hl.
      pose proof (sparse_app _ (size c) nc _ (entry (jac c)) _ _ _ [] [] [] Hp) as F.
      simpl in F. rewrite !app_nil_r in F.
      eapply sparse_ext; [|apply F; apply sparse_empty; intros; apply Hz; auto; left; auto].
      intros r j _ _. now rewrite entry_app.
    + destruct (Hs c (or_introl eq_refl) E) as [Hf Hlen].
      destruct (pat c) as [lr lc] eqn:Ep. cbn [fst snd] in Hf.
      pose proof Hf as (L1 & L2 & _). rewrite L1, L2, Hlen, Nat.eqb_refl. cbn [negb orb].
      destruct (IH' (rows ++ map (fun i => i + length pre)%nat lr) (cols ++ lc) (vals ++ val c))
        as (r1 & c1 & E1 & F1).
      { rewrite Hl. eapply sparse_ext; [|apply sparse_app; [exact Hp|exact Hf]].
        intros r j _ _. now rewrite entry_app. }
      exists r1, c1. split; [exact E1|]. cbn [map concat]. rewrite <- app_assoc in F1. exact F1.
Qed.
End Terms.
