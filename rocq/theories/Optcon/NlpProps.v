(** C29: assembly of the NLP constraints.  C30: the Jacobian of the continuity constraints.
    C49: the discretised path constraints. *)
From Coq Require Import Reals Lra Lia List Bool Arith ZArith.
From Coquelicot Require Import Coquelicot.
From Verif Require Import Base.Outcome Base.RVec Optcon.DmsModel Optcon.DmsSpec Optcon.DmsProofs
  Optcon.DmsProps Optcon.DmsSplineModel Optcon.DmsSplineProps Optcon.ConstraintModel Optcon.ConstraintSpec
  Optcon.ConstraintProofs Optcon.ConstraintProps Optcon.CostProofs
  Optcon.NlpModel Optcon.NlpSpec Optcon.NlpProofs Optcon.NlpDisc.
Import ListNotations.
Local Open Scope R_scope.
Local Notation Forall := List.Forall.
Local Notation Forall2 := List.Forall2.

(** ** C29 *)

(** The first row of constraint j. *)
Definition firstRow (l : list discrete) (j : nat) : nat := list_sum (map d_size (firstn j l)).

Lemma segment_concat {A B} (k : A -> nat) (l : list A) (xs : list (list B)) :
  Forall2 (fun c x => length x = k c) l xs -> forall j c x,
  nth_error l j = Some c -> nth_error xs j = Some x ->
  segment (list_sum (map k (firstn j l))) (k c) (concat xs) = Ok x.
Proof.
  induction 1 as [|c x l xs E F IH]; intros j c' x' Hc Hx; [destruct j; discriminate|].
  destruct j as [|j]; simpl in Hc, Hx.
  - injection Hc as <-. injection Hx as <-. cbn [firstn map list_sum fold_right concat].
    rewrite <- E. exact (segment_mid [] x (concat xs)).
  - specialize (IH j c' x' Hc Hx). cbn [firstn map concat].
    change (list_sum (k c :: map k (firstn j l))) with (k c + list_sum (map k (firstn j l)))%nat.
    unfold segment in *. rewrite app_length, E.
    destruct (Nat.leb_spec (list_sum (map k (firstn j l)) + k c') (length (concat xs))); [|discriminate].
    replace (k c + list_sum (map k (firstn j l)) + k c' <=? k c + length (concat xs))%nat with true
      by (symmetry; apply Nat.leb_le; lia).
    rewrite <- E, skipn_app, skipn_all2 by lia. cbn [app].
    replace (length x + list_sum (map k (firstn j l)) - length x)%nat with (list_sum (map k (firstn j l))) by lia.
    exact IH.
Qed.

Lemma Forall2_map_r {A B C} (P : A -> C -> Prop) (f : B -> C) l xs :
  Forall2 (fun a b => P a (f b)) l xs -> Forall2 P l (map f xs).
Proof. induction 1; constructor; auto. Qed.
Lemma Forall2_conj {A B} (P Q : A -> B -> Prop) l xs :
  Forall2 P l xs -> Forall2 Q l xs -> Forall2 (fun a b => P a b /\ Q a b) l xs.
Proof. induction 1; intros H2; inversion H2; subst; constructor; auto. Qed.

(** For every list of constraints that report what they mean, and whatever the arrays handed over by
    the solver hold: values and bounds of constraint j are rows firstRow j, ..., firstRow j + size - 1;
    the number of triplets is the sum over the constraints; and the triplets are a sparse form of the
    Jacobians below one another, in the same rows. *)
Theorem C29_container nc l ds : Forall2 (reports nc) l ds -> forall buf lo up jb ir jc,
  length buf = constraintsCount l -> length lo = constraintsCount l -> length up = constraintsCount l ->
  length jb = nonZerosCount l -> length ir = nonZerosCount l -> length jc = nonZerosCount l ->
  exists values lower upper rows cols vals,
    evalConstraints l buf = Ok values /\ getBounds l lo up = Ok (lower, upper) /\
    getSparsityPattern l ir jc = Ok (rows, cols) /\ evalSparseJacobian l jb = Ok vals /\
    length values = constraintsCount l /\ length lower = constraintsCount l /\
    length upper = constraintsCount l /\
    (forall j c d, nth_error l j = Some c -> nth_error ds j = Some d ->
       segment (firstRow l j) (d_size c) values = Ok (mv d) /\
       segment (firstRow l j) (d_size c) lower = Ok (mlo d) /\
       segment (firstRow l j) (d_size c) upper = Ok (mup d)) /\
    length vals = list_sum (map d_nnz l) /\
    sparse_form (constraintsCount l) nc
      (stacked (map (fun p => (d_size (fst p), mD (snd p))) (combine l ds))) rows cols vals.
Proof.
  intros F buf lo up jb ir jc L1 L2 L3 L4 L5 L6.
  assert (G : exists bs, Forall2 (fun c b => (forall ir jc, length ir = d_nnz c -> length jc = d_nnz c ->
      d_pattern c ir jc = Ok (br b, bc b)) /\ length (br b) = d_nnz c /\ length (bc b) = d_nnz c /\
      d_size c = bk b) l bs /\ Forall2 (fun c b => d_jac c = Ok (bv b) /\ length (bv b) = d_nnz c) l bs /\
      Forall (blk_ok nc) bs /\
      map (fun b => (bk b, bD b)) bs = map (fun p => (d_size (fst p), mD (snd p))) (combine l ds)).
  { clear - F. induction F as [|c d l ds H F (bs & A & B & C & D)].
    - exists []. repeat split; constructor.
    - destruct H as (_ & _ & _ & _ & _ & _ & rows & cols & vals & E1 & E2 & E3 & E4).
      exists (mkBlk (d_size c) (mD d) rows cols vals :: bs).
      destruct E4 as (K1 & K2 & K3). split; [|split; [|split]].
      + constructor; [|exact A]. cbn [br bc bk]. split; [exact E3|]. split; [lia|]. split; [lia|reflexivity].
      + constructor; [|exact B]. auto.
      + constructor; [|exact C]. split; auto.
      + cbn [map combine fst snd bk bD]. now rewrite D. }
  destruct G as (bs & P1 & P2 & P3 & P4).
  assert (V1 : Forall2 (fun c x => d_eval c = Ok x /\ length x = d_size c) l (map mv ds)).
  { apply Forall2_map_r. revert F. apply Forall2_imp. unfold reports. tauto. }
  assert (V2 : Forall2 (fun c x => d_lb c = Ok x /\ length x = d_size c) l (map mlo ds)).
  { apply Forall2_map_r. revert F. apply Forall2_imp. unfold reports. tauto. }
  assert (V3 : Forall2 (fun c x => d_ub c = Ok x /\ length x = d_size c) l (map mup ds)).
  { apply Forall2_map_r. revert F. apply Forall2_imp. unfold reports. tauto. }
  assert (V4 : Forall2 (fun c x => d_jac c = Ok x /\ length x = d_nnz c) l (map bv bs)).
  { now apply Forall2_map_r. }
  destruct (writeAll_all d_size d_eval l _ buf V1 L1) as [W1 Q1].
  destruct (writeAll_all d_size d_lb l _ lo V2 L2) as [W2 Q2].
  destruct (writeAll_all d_size d_ub l _ up V3 L3) as [W3 Q3].
  destruct (writeAll_all d_nnz d_jac l _ jb V4 L4) as [W4 Q4].
  assert (S := stack_ok nc bs P3). rewrite P4 in S.
  assert (BK : list_sum (map bk bs) = constraintsCount l).
  { clear - P1. unfold constraintsCount. induction P1 as [|c b l bs (_ & _ & _ & E) F IH]; [reflexivity|].
    cbn [map]. rewrite E. unfold list_sum in *. cbn [fold_right]. now rewrite IH. }
  rewrite BK in S.
  assert (PP := patternAll_spec l bs P1 0 [] [] ir jc ltac:(simpl; lia) ltac:(simpl; lia) eq_refl).
  cbn [app length skipn] in PP.
  destruct S as (S1 & S2 & S3).
  assert (NZ : length (concat (map bv bs)) = nonZerosCount l) by exact Q4.
  rewrite !skipn_all_nil, !app_nil_r in PP by lia.
  exists (concat (map mv ds)), (concat (map mlo ds)), (concat (map mup ds)), (offRows 0 bs),
    (concat (map bc bs)), (concat (map bv bs)).
  split; [exact W1|]. split; [unfold getBounds; rewrite W2; cbn [obind]; rewrite W3; reflexivity|].
  split; [exact PP|]. split; [exact W4|]. split; [exact Q1|]. split; [exact Q2|]. split; [exact Q3|].
  split; [|split; [exact Q4|split; auto]].
  intros j c d Hc Hd. unfold firstRow.
  assert (M : forall f : meaning -> list R, nth_error (map f ds) j = Some (f d)) by (intros f; now apply map_nth_error).
  split; [|split]; eapply segment_concat; eauto;
    [revert V1|revert V2|revert V3]; apply Forall2_imp; tauto.
Qed.

(** ** C30 *)

(** For every spline type, number of shots N, shot i, decision vector and sensitivities: the
    continuity constraint reports s_{i+1} - x_i with bounds zero, and its triplets are a sparse form of
    [0 .. -dX/ds_i  -dX/dq_i  I  -dX/dq_{i+1} .. 0], with the last block only for piecewise linear
    controls. *)
Theorem C30_continuity n m sp N l g w i d junk : holds n m N l g w -> (i < N)%nat ->
  length (sd_x d) = n -> length junk = contNnz n m sp ->
  reports ((N + 1) * (n + m)) (continuity n m sp w i d junk)
    (mkMeaning (vsub (fst (nth (i + 1) l dflt)) (sd_x d)) (repeat 0 n) (repeat 0 n)
       (continuity_jacobian n m i (sd_S d) (sd_Q d)
          match sp with ZERO_ORDER_HOLD => fun _ _ => 0 | PIECEWISE_LINEAR => sd_Q1 d end)).
Proof. exact (continuity_reports n m sp N l g w i d junk). Qed.

(** The blocks of that matrix. *)
Theorem C30_blocks n m i XS XQ XQ1 r : (n + m <> 0)%nat ->
  (forall j, (j < n)%nat -> continuity_jacobian n m i XS XQ XQ1 r (colX n m i j) = - XS r j) /\
  (forall j, (j < m)%nat -> continuity_jacobian n m i XS XQ XQ1 r (colU n m i j) = - XQ r j) /\
  (forall j, (j < n)%nat -> continuity_jacobian n m i XS XQ XQ1 r (colX n m (i + 1) j) = if (r =? j)%nat then 1 else 0) /\
  (forall j, (j < m)%nat -> continuity_jacobian n m i XS XQ XQ1 r (colU n m (i + 1) j) = - XQ1 r j) /\
  (forall k j, k <> i -> k <> (i + 1)%nat -> (j < n + m)%nat ->
     continuity_jacobian n m i XS XQ XQ1 r (colX n m k j) = 0).
Proof.
  intros H.
  assert (D : forall k j, (j < n + m)%nat -> ((k * (n + m) + j) / (n + m) = k /\ (k * (n + m) + j) mod (n + m) = j)%nat).
  { intros k j Hj. split.
    - rewrite Nat.div_add_l by auto. rewrite Nat.div_small by auto. lia.
    - rewrite Nat.add_comm, Nat.mod_add by auto. now apply Nat.mod_small. }
  assert (X : forall k k' j JS JU, (j < n)%nat -> at_node n m k' JS JU r (colX n m k j) =
     if (k =? k')%nat then JS r j else 0).
  { intros k k' j JS JU Hj. unfold at_node, colX. destruct (D k j ltac:(lia)) as [-> ->].
    replace (j <? n)%nat with true by (symmetry; apply Nat.ltb_lt; lia). reflexivity. }
  assert (Y : forall k k' j JS JU, (j < m)%nat -> at_node n m k' JS JU r (colU n m k j) =
     if (k =? k')%nat then JU r j else 0).
  { intros k k' j JS JU Hj. unfold at_node, colU. rewrite <- Nat.add_assoc.
    destruct (D k (n + j)%nat ltac:(lia)) as [-> ->].
    replace (n + j <? n)%nat with false by (symmetry; apply Nat.ltb_ge; lia).
    now replace (n + j - n)%nat with j by lia. }
  unfold continuity_jacobian.
  replace (i =? i + 1)%nat with false in * by (symmetry; apply Nat.eqb_neq; lia).
  assert (N1 : (i =? i + 1)%nat = false) by (apply Nat.eqb_neq; lia).
  assert (N2 : (i + 1 =? i)%nat = false) by (apply Nat.eqb_neq; lia).
  split; [|split; [|split; [|split]]].
  - intros j Hj. rewrite !X, Nat.eqb_refl, N1 by auto. unfold neg. lra.
  - intros j Hj. rewrite !Y, Nat.eqb_refl, N1 by auto. unfold neg. lra.
  - intros j Hj. rewrite !X, Nat.eqb_refl, N2 by auto. unfold delta. lra.
  - intros j Hj. rewrite !Y, Nat.eqb_refl, N2 by auto. unfold neg. lra.
  - intros k j Hk Hk' Hj. unfold at_node, colX. destruct (D k j Hj) as [-> _].
    apply Nat.eqb_neq in Hk, Hk'. rewrite Hk, Hk'. lra.
Qed.

(** The state a shot arrives at, as a function of the states and controls of its two nodes, with
    sensitivities S, Q, Q1 at (s, q, q1). *)
Definition sensitivities (n m : nat) (F : rvec -> rvec -> rvec -> rvec) (s q q1 : rvec) (S Q Q1 : rmat) : Prop :=
  forall r, (r < n)%nat ->
    (forall j, (j < n)%nat -> is_derive (fun y => F (rset s j y) q q1 r) (s j) (S r j)) /\
    (forall j, (j < m)%nat -> is_derive (fun y => F s (rset q j y) q1 r) (q j) (Q r j)) /\
    (forall j, (j < m)%nat -> is_derive (fun y => F s q (rset q1 j y) r) (q1 j) (Q1 r j)).

Lemma derive_minus (a : R) (h : R -> R) x d : is_derive h x d -> is_derive (fun y => a - h y) x (- d).
Proof.
  intros H. apply (is_derive_ext (fun y => a + - h y)); [intros; reflexivity|].
  replace (- d) with (plus 0 (opp d)) by (unfold plus, opp; simpl; ring).
  apply (is_derive_plus (fun _ => a) (fun y => - h y)); [apply (is_derive_const (V := R_NormedModule))|].
  now apply (is_derive_opp h).
Qed.

(** The values of continuity constraint i when its shot integrates F from the current decision
    vector. *)
Definition continuityOf (n m : nat) (sp : splineType) (F : rvec -> rvec -> rvec -> rvec) (i : nat) (w : optvec)
  : outcome (list R) :=
  do s <- getOptimizedState n w i ;;
  do q <- getOptimizedControl m w i ;;
  do q1 <- getOptimizedControl m w (i + 1) ;;
  d_eval (continuity n m sp w i
    (mkShotData (map (F (ofList s) (ofList q) (ofList q1)) (seq 0 n)) (fun _ _ => 0) (fun _ _ => 0) (fun _ _ => 0)) []).

Lemma ofList_replace s j y : (j < length s)%nat -> ofList (replace j y s) = rset (ofList s) j y.
Proof.
  intros H. apply FunctionalExtensionality.functional_extensionality. intros i. unfold ofList, rset.
  rewrite replace_nth by auto. reflexivity.
Qed.

(** Entry (r, c) of that matrix is the derivative of row r of the constraint with respect to decision
    variable c. *)
Theorem C30_derivative n m sp N l g w i F S Q Q1 : holds n m N l g w -> (i < N)%nat ->
  sensitivities n m F (ofList (fst (nth i l dflt))) (ofList (snd (nth i l dflt)))
    (ofList (snd (nth (i + 1) l dflt))) S Q Q1 ->
  (sp = ZERO_ORDER_HOLD -> forall s q q1 q1', F s q q1 = F s q q1') ->
  forall r c, (r < n)%nat -> (c < (N + 1) * (n + m))%nat ->
  exists f, (forall y, omap (fun v => nth r v 0)
               (continuityOf n m sp F i (withX (replace c y (o_x w)) w)) = Ok (f y)) /\
    is_derive f (nth c (o_x w) 0)
      (continuity_jacobian n m i S Q
         match sp with ZERO_ORDER_HOLD => fun _ _ => 0 | PIECEWISE_LINEAR => Q1 end r c).
Proof.
  intros Hw Hi HF Hz r c Hr Hc.
  assert (Hl : nodes_ok n m N l) by apply Hw. assert (Hox : o_x w = flatten l) by apply Hw.
  destruct Hl as [Ll Dl]. rewrite Hox.
  set (value := fun l' : list node => nth r (fst (nth (i + 1) l' dflt)) 0 -
     F (ofList (fst (nth i l' dflt))) (ofList (snd (nth i l' dflt))) (ofList (snd (nth (i + 1) l' dflt))) r).
  assert (Hval : forall l', nodes_ok n m N l' ->
    omap (fun v => nth r v 0) (continuityOf n m sp F i (withX (flatten l') w)) = Ok (value l')).
  { intros l' Hl'. pose proof (holds_withX n m N l l' g w Hw Hl') as Hw'.
    destruct Hl' as [Ll' Dl'].
    unfold continuityOf. rewrite (holds_get_state n m N l' g _ i Hw') by lia. cbn [obind].
    rewrite (holds_get_control n m N l' g _ i Hw') by lia. cbn [obind].
    rewrite (holds_get_control n m N l' g _ (i + 1) Hw') by lia. cbn [obind continuity d_eval].
    rewrite (holds_get_state n m N l' g _ (i + 1) Hw') by lia. cbn [obind omap sd_x].
    assert (L1 : length (fst (nth (i + 1) l' dflt)) = n) by (apply Dl', nth_In; lia).
    f_equal. rewrite vsub_nth by (rewrite ?map_length, ?seq_length; lia).
    rewrite nth_map_seq by auto. reflexivity. }
  assert (Hnm : (n + m <> 0)%nat) by (intros E; rewrite E in Hc; lia).
  pose proof (Nat.div_mod c (n + m) Hnm) as Ed. rewrite Nat.mul_comm in Ed.
  pose proof (Nat.mod_upper_bound c (n + m) Hnm) as Em.
  set (k := (c / (n + m))%nat) in *. set (o := (c mod (n + m))%nat) in *. clearbody k o. subst c.
  assert (Hk : (k <= N)%nat).
  { destruct (le_lt_dec k N) as [|HH]; auto. exfalso.
    assert ((N + 1) * (n + m) <= k * (n + m))%nat by (apply Nat.mul_le_mono_r; lia). lia. }
  assert (Hd : forall j, (j <= N)%nat -> length (fst (nth j l dflt)) = n /\ length (snd (nth j l dflt)) = m)
    by (intros j Hj; apply Dl, nth_In; lia).
  destruct (Hd i ltac:(lia)) as [Lsi Lqi]. destruct (Hd (i + 1)%nat ltac:(lia)) as [Lsj Lqj].
  destruct (Hd k Hk) as [Lsk Lqk].
  destruct (flatten_component n m l k Dl) as [CX CU]; [lia|].
  pose proof (C30_blocks n m i S Q (match sp with ZERO_ORDER_HOLD => fun _ _ => 0 | PIECEWISE_LINEAR => Q1 end)
    r Hnm) as (B1 & B2 & B3 & B4 & B5).
  destruct (HF r Hr) as (F1 & F2 & F3).
  assert (Ni : (i =? i + 1)%nat = false) by (apply Nat.eqb_neq; lia).
  assert (Ni' : (i + 1 =? i)%nat = false) by (apply Nat.eqb_neq; lia).
  destruct (lt_dec o n) as [Ho|Ho].
  - (* a state variable *)
    destruct (CX o Ho) as [E1 E2].
    set (ly := fun y => replace k (replace o y (fst (nth k l dflt)), snd (nth k l dflt)) l) in *.
    exists (fun y => value (ly y)). split.
    { intros y. rewrite E2. apply Hval. split; [unfold ly; now rewrite replace_length|].
      apply (dims_replace n m); auto. cbn [fst]. rewrite replace_length. exact Lsk. }
    rewrite E1. unfold value, ly.
    destruct (Nat.eq_dec k i) as [->|Hki]; [|destruct (Nat.eq_dec k (i + 1)) as [->|Hki']].
    + fold (colX n m i o). rewrite B1 by auto.
      apply (is_derive_ext (fun y => nth r (fst (nth (i + 1) l dflt)) 0 -
        F (rset (ofList (fst (nth i l dflt))) o y) (ofList (snd (nth i l dflt))) (ofList (snd (nth (i + 1) l dflt))) r)).
      { intros y. rewrite !replace_nth by lia. rewrite Nat.eqb_refl, Ni'. cbn [fst snd].
        rewrite ofList_replace by lia. reflexivity. }
      exact (derive_minus _ _ _ _ (F1 o Ho)).
    + fold (colX n m (i + 1) o). rewrite B3 by auto.
      assert (R1 : forall v, nth (i + 1) (replace (i + 1) v l) dflt = v)
        by (intros v; rewrite replace_nth by lia; now rewrite Nat.eqb_refl).
      assert (R0 : forall v, nth i (replace (i + 1) v l) dflt = nth i l dflt)
        by (intros v; rewrite replace_nth by lia; now rewrite Ni).
      apply (is_derive_ext (fun y => (if (r =? o)%nat then y else nth r (fst (nth (i + 1) l dflt)) 0) -
        F (ofList (fst (nth i l dflt))) (ofList (snd (nth i l dflt))) (ofList (snd (nth (i + 1) l dflt))) r)).
      { intros y. rewrite R1, R0. cbn [fst snd]. rewrite (replace_nth y 0 _ o r) by exact (eq_ind_r (fun z => (o < z)%nat) Ho Lsj). reflexivity. }
      destruct (r =? o)%nat; auto_derive; auto; ring.
    + fold (colX n m k o). rewrite B5 by (auto; lia).
      apply (is_derive_ext (fun _ => value l)).
      { intros y. unfold value. rewrite !replace_nth by lia.
        replace (i =? k)%nat with false by (symmetry; apply Nat.eqb_neq; lia).
        replace (i + 1 =? k)%nat with false by (symmetry; apply Nat.eqb_neq; lia). reflexivity. }
      auto_derive; auto.
  - (* a control variable *)
    destruct (CU (o - n)%nat ltac:(lia)) as [E1 E2].
    replace (k * (n + m) + (n + (o - n)))%nat with (k * (n + m) + o)%nat in E1, E2 by lia.
    assert (Ec : (k * (n + m) + o)%nat = colU n m k (o - n)) by (unfold colU; lia).
    set (ly := fun y => replace k (fst (nth k l dflt), replace (o - n) y (snd (nth k l dflt))) l) in *.
    exists (fun y => value (ly y)). split.
    { intros y. rewrite E2. apply Hval. split; [unfold ly; now rewrite replace_length|].
      apply (dims_replace n m); auto. cbn [snd]. rewrite replace_length. exact Lqk. }
    rewrite E1. unfold value, ly.
    destruct (Nat.eq_dec k i) as [->|Hki]; [|destruct (Nat.eq_dec k (i + 1)) as [->|Hki']].
    + rewrite Ec, B2 by lia.
      apply (is_derive_ext (fun y => nth r (fst (nth (i + 1) l dflt)) 0 -
        F (ofList (fst (nth i l dflt))) (rset (ofList (snd (nth i l dflt))) (o - n) y) (ofList (snd (nth (i + 1) l dflt))) r)).
      { intros y. rewrite !replace_nth by lia. rewrite Nat.eqb_refl, Ni'. cbn [fst snd].
        rewrite ofList_replace by lia. reflexivity. }
      exact (derive_minus _ _ _ _ (F2 (o - n)%nat ltac:(lia))).
    + rewrite Ec, B4 by lia.
      apply (is_derive_ext (fun y => nth r (fst (nth (i + 1) l dflt)) 0 -
        F (ofList (fst (nth i l dflt))) (ofList (snd (nth i l dflt))) (rset (ofList (snd (nth (i + 1) l dflt))) (o - n) y) r)).
      { intros y. rewrite !replace_nth by lia. rewrite Nat.eqb_refl, Ni. cbn [fst snd].
        rewrite ofList_replace by lia. reflexivity. }
      destruct sp.
      * apply (is_derive_ext (fun _ => nth r (fst (nth (i + 1) l dflt)) 0 -
          F (ofList (fst (nth i l dflt))) (ofList (snd (nth i l dflt))) (ofList (snd (nth (i + 1) l dflt))) r)).
        { intros y. now rewrite (Hz eq_refl _ _ (rset _ _ _) (ofList (snd (nth (i + 1) l dflt)))). }
        auto_derive; auto. ring.
      * exact (derive_minus _ _ _ _ (F3 (o - n)%nat ltac:(lia))).
    + assert (Z : continuity_jacobian n m i S Q match sp with ZERO_ORDER_HOLD => fun _ _ => 0 | PIECEWISE_LINEAR => Q1 end r
        (k * (n + m) + o)%nat = 0) by (fold (colX n m k o); apply B5; auto; lia).
      rewrite Z.
      apply (is_derive_ext (fun _ => value l)).
      { intros y. unfold value. rewrite !replace_nth by lia.
        replace (i =? k)%nat with false by (symmetry; apply Nat.eqb_neq; lia).
        replace (i + 1 =? k)%nat with false by (symmetry; apply Nat.eqb_neq; lia). reflexivity. }
      auto_derive; auto.
Qed.

(** ** C49 *)
Section Path.
Variables n m : nat.
Notation size := (size n).
Notation nnzState := (nnzState n).
Notation nnzInput := (nnzInput m).

(** What a caller can do with the discretizer of N shots.  A container is handed over together with
    the calls that made it. *)
Inductive zcall :=
| SetBox (cs : list ccall) (c : container) | SetGeneral (cs : list ccall) (c : container)
| Evaluate (w : optvec) (nodes : list rvec) (g : grid R) | Jacobian (w : optvec) (nodes : list rvec) (g : grid R)
| Pattern (w : optvec) | LowerBound | UpperBound.
Definition zstep (k : zcall) (z : discretizer) : outcome discretizer :=
  match k with
  | SetBox _ c => Ok (setBoxConstraints n m c z)
  | SetGeneral _ c => Ok (setGeneralConstraints n c z)
  | Evaluate w nodes g => discEval n m ZERO_ORDER_HOLD w nodes g z
  | Jacobian w nodes g => discJac n m ZERO_ORDER_HOLD w nodes g z
  | Pattern w => discPattern n m w z
  | LowerBound => discLower n z
  | UpperBound => discUpper n z
  end.
Fixpoint zrun (l : list zcall) (z : discretizer) : outcome discretizer :=
  match l with [] => Ok z | k :: r => do z' <- zstep k z ;; zrun r z' end.

(** The containers handed over, in order. *)
Definition containersOf (l : list zcall) : list (list ccall) :=
  flat_map (fun k => match k with SetBox cs _ | SetGeneral cs _ => [cs] | _ => [] end) l.

(** No input non-zeros. *)
Definition stateOnly (cs : list ccall) : Prop :=
  list_sum (map nnzInput (intermediateOf cs)) = 0%nat /\ list_sum (map nnzInput (terminalOf cs)) = 0%nat.
Definition valid (N : nat) (k : zcall) : Prop :=
  match k with
  | SetBox cs c => prepared n m cs c
  | SetGeneral cs c => prepared n m cs c /\ stateOnly cs
  | Evaluate w nodes g | Jacobian w nodes g =>
      (exists l g0, holds n m N l g0 w) /\ length nodes = S N /\ length (g_t g) = S N
  | Pattern w => exists l g0, holds n m N l g0 w
  | LowerBound | UpperBound => True
  end.

Definition sumOf (f : list ccall -> nat) (css : list (list ccall)) : nat := list_sum (map f css).
Definition rowsI (cs : list ccall) := list_sum (map size (intermediateOf cs)).
Definition rowsT (cs : list ccall) := list_sum (map size (terminalOf cs)).
Definition nzI (cs : list ccall) :=
  (list_sum (map nnzState (intermediateOf cs)) + list_sum (map nnzInput (intermediateOf cs)))%nat.
Definition nzT (cs : list ccall) :=
  (list_sum (map nnzState (terminalOf cs)) + list_sum (map nnzInput (terminalOf cs)))%nat.

Record zinv (N : nat) (css : list (list ccall)) (z : discretizer) : Prop := {
  zi_N : z_N z = N; zi_con : Forall2 (rel n m) css (z_con z);
  zi_ic : z_interCount z = ((N + 1) * sumOf rowsI css)%nat; zi_tc : z_termCount z = sumOf rowsT css;
  zi_ni : z_nnzInter z = ((N + 1) * sumOf nzI css)%nat; zi_nt : z_nnzTerm z = sumOf nzT css;
  zi_buf : length (z_buf z) = (z_interCount z + z_termCount z)%nat;
  zi_lo : length (z_lo z) = (z_interCount z + z_termCount z)%nat;
  zi_up : length (z_up z) = (z_interCount z + z_termCount z)%nat;
  zi_jac : length (z_jac z) = (z_nnzInter z + z_nnzTerm z)%nat;
  zi_iRow : length (z_iRow z) = (z_nnzInter z + z_nnzTerm z)%nat;
  zi_jCol : length (z_jCol z) = (z_nnzInter z + z_nnzTerm z)%nat }.

Lemma flat_const {A} (f : nat -> list A) k ks : (forall i, In i ks -> length (f i) = k) ->
  length (flat_map f ks) = (length ks * k)%nat.
Proof.
  induction ks as [|a ks IH]; intros H; [reflexivity|]. cbn [flat_map length]. rewrite app_length, H, IH; auto.
  - intros; apply H; now right.
  - now left.
Qed.
Lemma flat_sum {A B} (f : B -> list A) (k : B -> nat) ks : (forall i, In i ks -> length (f i) = k i) ->
  length (flat_map f ks) = list_sum (map k ks).
Proof.
  induction ks as [|a ks IH]; intros H; [reflexivity|]. cbn [flat_map map]. rewrite app_length, H, IH; auto.
  - intros; apply H; now right.
  - now left.
Qed.

Lemma stage_total f s l : s_terms s = l -> total f s = list_sum (map f l).
Proof. intros <-. reflexivity. Qed.

Section Shot.
Variables (N : nat) (l g0 : list node) (w : optvec) (g : grid R) (nodes : list rvec).
Hypothesis Hw : holds n m N l g0 w.
Hypothesis Hg : length (g_t g) = S N.
Hypothesis Hn : length nodes = S N.
Variables (css : list (list ccall)) (z : discretizer).
Hypothesis Hz : zinv N css z.

Lemma zrel cs : In cs css -> exists c, rel n m cs c.
Proof. intros H. exact (Forall2_in _ _ _ (zi_con _ _ _ Hz) cs H). Qed.

Lemma allVals_length : length (allVals n m N l g nodes css) = (z_interCount z + z_termCount z)%nat.
Proof.
  unfold allVals. rewrite app_length, (zi_ic _ _ _ Hz), (zi_tc _ _ _ Hz). f_equal.
  - rewrite (flat_const _ (sumOf rowsI css)), seq_length; [reflexivity|]. intros i _.
    apply flat_sum. intros cs Hcs. destruct (zrel cs Hcs) as (c & S1 & _ & I1 & _ & T1 & _).
    destruct (stage_values n m (X l i) (U nodes i) (T g i) _ S1 I1) as [_ L]. rewrite T1 in L. rewrite L.
    unfold rowsI. rewrite <- T1. reflexivity.
  - apply flat_sum. intros cs Hcs. destruct (zrel cs Hcs) as (c & _ & S1 & _ & I1 & _ & T1 & _).
    destruct (stage_values n m (X l N) (U nodes N) (T g N) _ S1 I1) as [_ L]. rewrite T1 in L. rewrite L.
    unfold rowsT. rewrite <- T1. reflexivity.
Qed.
Lemma allBound_length (b : constraint -> list R) : (forall c, built n m c -> length (b c) = size c) ->
  length (allBound N css b) = (z_interCount z + z_termCount z)%nat.
Proof.
  intros Hb. unfold allBound. rewrite app_length, (zi_ic _ _ _ Hz), (zi_tc _ _ _ Hz). f_equal.
  - rewrite (flat_const _ (sumOf rowsI css)), seq_length; [reflexivity|]. intros i _.
    apply flat_sum. intros cs Hcs. destruct (zrel cs Hcs) as (c & (S1 & _) & _ & I1 & _ & T1 & _).
    unfold rowsI. apply (concat_length_sum _ size). rewrite <- T1. intros k Hk. apply Hb.
    exact (proj1 (Forall_forall _ _) S1 k Hk).
  - apply flat_sum. intros cs Hcs. destruct (zrel cs Hcs) as (c & _ & (S1 & _) & _ & I1 & _ & T1 & _).
    unfold rowsT. apply (concat_length_sum _ size). rewrite <- T1. intros k Hk. apply Hb.
    exact (proj1 (Forall_forall _ _) S1 k Hk).
Qed.
Lemma jacVals_length : length (jacVals n m N l g nodes css) = (z_nnzInter z + z_nnzTerm z)%nat.
Proof.
  unfold jacVals. rewrite app_length, (zi_ni _ _ _ Hz), (zi_nt _ _ _ Hz). f_equal.
  - rewrite (flat_const _ (sumOf nzI css)), seq_length; [reflexivity|]. intros i Hi. apply in_seq in Hi.
    apply flat_sum. intros cs Hcs. destruct (zrel cs Hcs) as (c & Hr).
    destruct (rel_lengths n m N l g nodes Hg Hn z (zi_N _ _ _ Hz) i cs c ltac:(lia) Hr)
      as (_ & _ & _ & _ & _ & _ & _ & _ & _ & _ & L & _).
    rewrite L. unfold nzI, total. destruct Hr as (_ & _ & _ & _ & -> & _). reflexivity.
  - apply flat_sum. intros cs Hcs. destruct (zrel cs Hcs) as (c & Hr).
    destruct (rel_lengths n m N l g nodes Hg Hn z (zi_N _ _ _ Hz) 0 cs c ltac:(lia) Hr)
      as (_ & _ & _ & _ & _ & _ & _ & _ & _ & _ & _ & L).
    rewrite L. unfold nzT, total. destruct Hr as (_ & _ & _ & _ & _ & -> & _). reflexivity.
Qed.

Lemma lower_bounds : discLower n z = Ok (mkDisc (z_N z) (z_con z) (z_interCount z) (z_termCount z) (z_nnzInter z)
  (z_nnzTerm z) (z_buf z) (allBound N css (lower n)) (z_up z) (z_jac z) (z_iRow z) (z_jCol z)).
Proof.
  unfold discLower.
  rewrite (bounds_spec n m N g nodes Hg Hn css z (zi_N _ _ _ Hz) (zi_con _ _ _ Hz) (lower n) s_lb (z_lo z)); [reflexivity| | |].
  - intros s (_ & _ & H) Hf. apply (H Hf).
  - intros c Hc. apply (built_lengths n m c rzero rzero 0 Hc).
  - rewrite (zi_lo _ _ _ Hz). symmetry. apply allBound_length.
    intros c Hc. apply (built_lengths n m c rzero rzero 0 Hc).
Qed.
Lemma upper_bounds : discUpper n z = Ok (mkDisc (z_N z) (z_con z) (z_interCount z) (z_termCount z) (z_nnzInter z)
  (z_nnzTerm z) (z_buf z) (z_lo z) (allBound N css (upper n)) (z_jac z) (z_iRow z) (z_jCol z)).
Proof.
  unfold discUpper.
  rewrite (bounds_spec n m N g nodes Hg Hn css z (zi_N _ _ _ Hz) (zi_con _ _ _ Hz) (upper n) s_ub (z_up z)); [reflexivity| | |].
  - intros s (_ & _ & H) Hf. apply (H Hf).
  - intros c Hc. apply (built_lengths n m c rzero rzero 0 Hc).
  - rewrite (zi_up _ _ _ Hz). symmetry. apply allBound_length.
    intros c Hc. apply (built_lengths n m c rzero rzero 0 Hc).
Qed.

(** The discretizer as a discrete constraint. *)
Lemma disc_reports :
  reports ((N + 1) * (n + m)) (discretized n m ZERO_ORDER_HOLD w nodes g z)
    (mkMeaning (allVals n m N l g nodes css) (allBound N css (lower n)) (allBound N css (upper n))
       (stacked (map (fun b => (bk b, bD b)) (allBlks n m N l g nodes css)))).
Proof.
  unfold reports, discretized. cbn [d_eval d_lb d_ub d_size d_nnz d_jac d_pattern mv mlo mup mD].
  pose proof allVals_length as LV. pose proof jacVals_length as LJ.
  destruct (discEval_spec n m N l g0 w g nodes Hw Hg Hn css z (zi_N _ _ _ Hz) (zi_con _ _ _ Hz)) as (c1 & E1 & _).
  { rewrite LV. apply (zi_buf _ _ _ Hz). }
  destruct (discJac_spec n m N l g0 w g nodes Hw Hg Hn css z (zi_N _ _ _ Hz) (zi_con _ _ _ Hz)) as (c2 & E2 & _).
  { rewrite LJ. apply (zi_jac _ _ _ Hz). }
  pose proof (discPattern_spec n m N l g0 w g nodes Hw Hg Hn css z (zi_N _ _ _ Hz) (zi_con _ _ _ Hz)) as E3.
  rewrite LJ in E3. specialize (E3 (zi_iRow _ _ _ Hz) (zi_jCol _ _ _ Hz)).
  rewrite E1, E2, E3, lower_bounds, upper_bounds. cbn [omap obind withEval withJac z_buf z_lo z_up z_jac z_iRow z_jCol].
  do 3 (split; [reflexivity|]). split; [exact LV|].
  split; [apply allBound_length; intros c Hc; apply (built_lengths n m c rzero rzero 0 Hc)|].
  split; [apply allBound_length; intros c Hc; apply (built_lengths n m c rzero rzero 0 Hc)|].
  eexists _, _, _. split; [reflexivity|]. split; [exact LJ|]. split; [intros; reflexivity|].
  pose proof (allBlks_ok n m N l g nodes Hg Hn css z (zi_N _ _ _ Hz) (zi_con _ _ _ Hz)) as OK.
  pose proof (stack_ok _ _ OK) as S. rewrite <- jacVals_blks in S.
  replace (z_interCount z + z_termCount z)%nat with (list_sum (map bk (allBlks n m N l g nodes css))); [exact S|].
  rewrite (zi_ic _ _ _ Hz), (zi_tc _ _ _ Hz). unfold allBlks. rewrite map_app, list_sum_app. f_equal.
  - assert (K : forall i, list_sum (map bk (flat_map (fun cs => [interBlk n m l g nodes i cs]) css)) = sumOf rowsI css).
    { intros i. unfold sumOf. clear. induction css as [|cs css' IH]; [reflexivity|].
      cbn [flat_map app map]. unfold list_sum in *. cbn [fold_right]. now rewrite IH. }
    replace (N + 1)%nat with (length (seq 0 (N + 1))) at 2 by apply seq_length.
    induction (seq 0 (N + 1)) as [|i ks IH]; [reflexivity|]. cbn [flat_map length].
    rewrite map_app, list_sum_app, K, IH. simpl. lia.
  - unfold sumOf. clear. induction css as [|cs css' IH]; [reflexivity|].
    cbn [flat_map app map]. unfold list_sum in *. cbn [fold_right]. now rewrite IH.
Qed.
End Shot.

Lemma zinv_new N : zinv N [] (newDiscretizer N).
Proof. constructor; try reflexivity; [constructor|unfold sumOf; simpl; lia|unfold sumOf; simpl; lia]. Qed.

Lemma Forall2_snoc {A B} (P : A -> B -> Prop) la lb a b : Forall2 P la lb -> P a b -> Forall2 P (la ++ [a]) (lb ++ [b]).
Proof. intros H Hab. apply Forall2_app; auto. Qed.

Lemma zinv_add N css z cs c ni nt : zinv N css z -> rel n m cs c ->
  ni = ((z_N z + 1) * nzI cs)%nat -> nt = nzT cs -> zinv N (css ++ [cs]) (addContainer n c ni nt z).
Proof.
  intros Hz Hr E1 E2. destruct Hz as [A1 A2 A3 A4 A5 A6 _ _ _ _ _ _].
  assert (T : total size (c_inter c) = rowsI cs /\ total size (c_term c) = rowsT cs).
  { destruct Hr as (_ & _ & _ & _ & T1 & T2 & _). unfold total, rowsI, rowsT. now rewrite T1, T2. }
  destruct T as [T1 T2].
  assert (SA : forall f, sumOf f (css ++ [cs]) = (sumOf f css + f cs)%nat).
  { intros f. unfold sumOf. rewrite map_app, list_sum_app. cbn [map list_sum fold_right]. lia. }
  unfold addContainer. constructor;
    cbn [z_N z_con z_interCount z_termCount z_nnzInter z_nnzTerm z_buf z_lo z_up z_jac z_iRow z_jCol];
    rewrite ?repeat_length; auto.
  - now apply Forall2_snoc.
  - rewrite SA, A1, A3, T1. lia.
  - rewrite SA, A4, T2. lia.
  - rewrite SA, A5, E1, A1. lia.
  - rewrite SA, A6, E2. lia.
Qed.

Lemma zstep_inv N css z k : zinv N css z -> valid N k ->
  exists z', zstep k z = Ok z' /\ zinv N (css ++ containersOf [k]) z'.
Proof.
  intros Hz Hv. destruct k as [cs c|cs c|w nodes g|w nodes g|w| |]; cbn [zstep containersOf flat_map app];
    rewrite ?app_nil_r.
  - eexists. split; [reflexivity|]. cbn [valid] in Hv. pose proof (prepared_rel n m cs c Hv) as Hr.
    apply zinv_add; auto; destruct Hr as (_ & _ & _ & _ & T1 & T2 & _); unfold nzI, nzT, total; now rewrite ?T1, ?T2.
  - eexists. split; [reflexivity|]. cbn [valid] in Hv. destruct Hv as [Hv [S1 S2]].
    pose proof (prepared_rel n m cs c Hv) as Hr.
    apply zinv_add; auto; destruct Hr as (_ & _ & _ & _ & T1 & T2 & _); unfold nzI, nzT, total;
      rewrite ?T1, ?T2, ?S1, ?S2, Nat.add_0_r; reflexivity.
  - destruct Hv as ((l & g0 & Hw) & Hn & Hg).
    pose proof (allVals_length N l g nodes css z Hz) as LV.
    destruct (discEval_spec n m N l g0 w g nodes Hw Hg Hn css z (zi_N _ _ _ Hz) (zi_con _ _ _ Hz)) as (c1 & E1 & R1).
    { rewrite LV. apply (zi_buf _ _ _ Hz). }
    eexists. split; [exact E1|]. destruct Hz. constructor; auto.
  - destruct Hv as ((l & g0 & Hw) & Hn & Hg).
    pose proof (jacVals_length N l g nodes Hg Hn css z Hz) as LV.
    destruct (discJac_spec n m N l g0 w g nodes Hw Hg Hn css z (zi_N _ _ _ Hz) (zi_con _ _ _ Hz)) as (c1 & E1 & R1).
    { rewrite LV. apply (zi_jac _ _ _ Hz). }
    eexists. split; [exact E1|]. destruct Hz. constructor; auto.
  - destruct Hv as (l & g0 & Hw).
    set (g := mkGrid N 0 (repeat 0 (S N)) : grid R). set (nodes := repeat rzero (S N)).
    assert (Hg : length (g_t g) = S N) by apply repeat_length.
    assert (Hn : length nodes = S N) by apply repeat_length.
    pose proof (jacVals_length N l g nodes Hg Hn css z Hz) as LJ.
    pose proof (discPattern_spec n m N l g0 w g nodes Hw Hg Hn css z (zi_N _ _ _ Hz) (zi_con _ _ _ Hz)) as E3.
    rewrite LJ in E3. specialize (E3 (zi_iRow _ _ _ Hz) (zi_jCol _ _ _ Hz)).
    eexists. split; [exact E3|].
    pose proof (allBlks_ok n m N l g nodes Hg Hn css z (zi_N _ _ _ Hz) (zi_con _ _ _ Hz)) as OK.
    destruct (stack_ok _ _ OK) as (S1 & S2 & _). rewrite <- jacVals_blks in S1, S2.
    destruct Hz. constructor; cbn [z_N z_con z_interCount z_termCount z_nnzInter z_nnzTerm z_buf z_lo z_up z_jac z_iRow z_jCol]; auto;
      congruence.
  - set (g := mkGrid N 0 (repeat 0 (S N)) : grid R). set (nodes := repeat rzero (S N)).
    assert (Hg : length (g_t g) = S N) by apply repeat_length.
    assert (Hn : length nodes = S N) by apply repeat_length.
    eexists. split; [apply (lower_bounds N g nodes Hg Hn css z Hz)|].
    pose proof (allBound_length N css z Hz (lower n)) as LB.
    destruct Hz. constructor; cbn [z_N z_con z_interCount z_termCount z_nnzInter z_nnzTerm z_buf z_lo z_up z_jac z_iRow z_jCol]; auto.
    apply LB. intros c Hc. apply (built_lengths n m c rzero rzero 0 Hc).
  - set (g := mkGrid N 0 (repeat 0 (S N)) : grid R). set (nodes := repeat rzero (S N)).
    assert (Hg : length (g_t g) = S N) by apply repeat_length.
    assert (Hn : length nodes = S N) by apply repeat_length.
    eexists. split; [apply (upper_bounds N g nodes Hg Hn css z Hz)|].
    pose proof (allBound_length N css z Hz (upper n)) as LB.
    destruct Hz. constructor; cbn [z_N z_con z_interCount z_termCount z_nnzInter z_nnzTerm z_buf z_lo z_up z_jac z_iRow z_jCol]; auto.
    apply LB. intros c Hc. apply (built_lengths n m c rzero rzero 0 Hc).
Qed.

Lemma zrun_inv N calls : forall css z, zinv N css z -> Forall (valid N) calls ->
  exists z', zrun calls z = Ok z' /\ zinv N (css ++ containersOf calls) z'.
Proof.
  induction calls as [|k calls IH]; intros css z Hz Hv; cbn [zrun].
  - exists z. cbn [containersOf flat_map]. rewrite app_nil_r. auto.
  - inversion Hv as [|? ? V1 V2]; subst. destruct (zstep_inv N css z k Hz V1) as (z1 & E1 & I1).
    rewrite E1. cbn [obind]. destruct (IH _ _ I1 V2) as (z2 & E2 & I2). exists z2. split; [exact E2|].
    cbn [containersOf flat_map] in *. rewrite app_nil_r in I2. rewrite <- app_assoc in I2. exact I2.
Qed.

(** What the discretised constraints should be, at state x_k, control u_k and time t_k of node k: for
    each node, each container in the order in which they were set, its intermediate constraints; then
    its terminal constraints at the last node. *)
Definition atNodes {A} (N : nat) (css : list (list ccall)) (f : nat -> list constraint -> list A) : list A :=
  flat_map (fun k => flat_map (fun cs => f k (intermediateOf cs)) css) (seq 0 (N + 1)) ++
  flat_map (fun cs => f N (terminalOf cs)) css.
Definition path_meaning (N : nat) (css : list (list ccall)) (x u : nat -> rvec) (t : nat -> R) : meaning :=
  let rows (J : constraint -> list rvec) (cs : list constraint) : rmat := fun r c => nth r (concat (map J cs)) rzero c in
  mkMeaning
    (atNodes N css (fun k cs => concat (map (fun c => evaluate n m c (x k) (u k) (t k)) cs)))
    (atNodes N css (fun _ cs => concat (map (lower n) cs)))
    (atNodes N css (fun _ cs => concat (map (upper n) cs)))
    (stacked (atNodes N css (fun k cs => [(list_sum (map size cs),
       at_node n m k (rows (fun c => jacobianState n c (x k) (u k) (t k)) cs)
                     (rows (fun c => jacobianInput n c (x k) (u k) (t k)) cs))]))).

Lemma meaning_path N l g nodes css :
  mkMeaning (allVals n m N l g nodes css) (allBound N css (lower n)) (allBound N css (upper n))
       (stacked (map (fun b => (bk b, bD b)) (allBlks n m N l g nodes css))) =
  path_meaning N css (fun k => ofList (fst (nth k l dflt))) (fun k => nth k nodes rzero) (fun k => nth k (g_t g) 0).
Proof.
  unfold path_meaning. f_equal. f_equal. unfold atNodes, allBlks. rewrite map_app.
  assert (M : forall A B C (f : B -> C) (h : A -> list B) ks, map f (flat_map h ks) = flat_map (fun a => map f (h a)) ks).
  { intros A B C f h ks. induction ks as [|a ks IH]; [reflexivity|]. cbn [flat_map]. now rewrite map_app, IH. }
  f_equal.
  - rewrite M. apply flat_map_ext. intros i. rewrite M. reflexivity.
  - rewrite M. reflexivity.
Qed.

(** For every number of shots and every history of box and general containers (the latter without
    input non-zeros), evaluations and queries with zero-order-hold controls: no call is undefined, and
    afterwards values, bounds, sparsity and Jacobian have the reported sizes and are those of the
    constraints of the containers at the nodes, with Jacobian blocks at the columns of the node. *)
Theorem C49_discretized_partial N calls l g0 w g : Forall (valid N) calls ->
  holds n m N l g0 w -> length (g_t g) = S N ->
  exists z, zrun calls (newDiscretizer N) = Ok z /\
    d_size (discretized n m ZERO_ORDER_HOLD w (map (fun p => ofList (snd p)) l) g z) =
      ((N + 1) * list_sum (map rowsI (containersOf calls)) + list_sum (map rowsT (containersOf calls)))%nat /\
    reports ((N + 1) * (n + m)) (discretized n m ZERO_ORDER_HOLD w (map (fun p => ofList (snd p)) l) g z)
      (path_meaning N (containersOf calls) (fun k => ofList (fst (nth k l dflt)))
         (fun k => nth k (map (fun p => ofList (snd p)) l) rzero) (fun k => nth k (g_t g) 0)).
Proof.
  intros Hv Hw Hg. destruct (zrun_inv N calls [] _ (zinv_new N) Hv) as (z & E & I). cbn [app] in I.
  exists z. split; [exact E|]. split.
  - unfold discretized. cbn [d_size]. rewrite (zi_ic _ _ _ I), (zi_tc _ _ _ I). reflexivity.
  - rewrite <- (meaning_path N l g (map (fun p => ofList (snd p)) l)).
    eapply disc_reports; eauto. rewrite map_length. destruct Hw as (_ & _ & _ & _ & _ & _ & [LL _] & _). exact LL.
Qed.

(** With piecewise linear controls every evaluation is undefined as soon as there is a container: the
    last node is evaluated and the spliner reads past its end. *)
Lemma overContainers_length {A} (f : container -> A -> outcome (container * A)) ks : forall a r,
  overContainers f ks a = Ok r -> length (fst r) = length ks.
Proof.
  induction ks as [|c ks IH]; intros a r E; cbn [overContainers] in E.
  - apply Ok_inj in E. now subst r.
  - destruct (f c a) as [x| |]; cbn [obind] in E; try discriminate.
    destruct (overContainers f ks _) as [y| |] eqn:EY; cbn [obind] in E; try discriminate.
    apply IH in EY. apply Ok_inj in E. subst r. cbn [fst length]. now rewrite EY.
Qed.
Lemma overNodes_last {A} (f : nat -> container -> A -> outcome (container * A)) N : (forall c s, f N c s = UB) ->
  forall k i ks a r, (i + k = N + 1)%nat -> (1 <= k)%nat -> ks <> [] -> overNodes f i k ks a <> Ok r.
Proof.
  intros Q k. induction k as [|k IH]; intros i ks a r Hi Hk Hks; [lia|]. cbn [overNodes].
  destruct (overContainers (f i) ks a) as [x| |] eqn:E; cbn [obind]; try discriminate.
  destruct k as [|k].
  - replace i with N in E by lia. destruct ks as [|c ks]; [contradiction|]. cbn [overContainers] in E.
    rewrite Q in E. discriminate.
  - apply IH; [lia|lia|]. apply overContainers_length in E. intros E0. rewrite E0 in E.
    destruct ks; [contradiction|discriminate].
Qed.
Theorem C49_linear_refuted N l g0 w g nodes z z' : holds n m N l g0 w -> length (g_t g) = S N ->
  length nodes = S N -> z_N z = N -> z_con z <> [] ->
  discEval n m PIECEWISE_LINEAR w nodes g z <> Ok z' /\ discJac n m PIECEWISE_LINEAR w nodes g z <> Ok z'.
Proof.
  intros Hw Hg Hn HN Hc.
  assert (Q : forall c, moveTo n PIECEWISE_LINEAR w nodes g N c = UB).
  { intros c. unfold moveTo, getShotStartTime. rewrite (vec_get_nth (g_t g) N 0) by lia. cbn [obind].
    rewrite (holds_get_state n m N l g0 w N Hw) by lia. cbn [obind evalSpline].
    unfold rShotDuration, getShotDuration, vec_get. rewrite (proj2 (nth_error_None (g_t g) (N + 1))) by lia. reflexivity. }
  split.
  - unfold discEval. rewrite HN.
    destruct (overNodes _ 0 (N + 1) _ _) as [r| |] eqn:E; cbn [obind]; try discriminate.
    exfalso. eapply (overNodes_last _ N); [|idtac|idtac|exact Hc|exact E]; [|lia|lia].
    intros c s. cbv beta. now rewrite Q.
  - unfold discJac. rewrite HN.
    destruct (overNodes _ 0 (N + 1) _ _) as [r| |] eqn:E; cbn [obind]; try discriminate.
    exfalso. eapply (overNodes_last _ N); [|idtac|idtac|exact Hc|exact E]; [|lia|lia].
    intros c s. cbv beta. now rewrite Q.
Qed.

(** A general container with input non-zeros: the arrays are too short, for every number of shots. *)
Lemma assign_fits {A} i k (v buf b : list A) : assignSegment i k v buf = Ok b ->
  (i + k <= length buf)%nat /\ length b = length buf.
Proof.
  unfold assignSegment. destruct (length v =? k)%nat eqn:E1; [|discriminate]. apply Nat.eqb_eq in E1.
  unfold setSegment. destruct (Nat.leb_spec (i + length v) (length buf)) as [L|L]; [|discriminate].
  intros H. apply Ok_inj in H. subst b. rewrite !app_length, firstn_length, skipn_length. lia.
Qed.
Lemma putIf_fits {A} k (v : outcome (list A)) p buf p' buf' : putIf k v (p, buf) = Ok (p', buf') ->
  (p <= length buf)%nat -> p' = (p + k)%nat /\ length buf' = length buf /\ (p' <= length buf')%nat.
Proof.
  unfold putIf. destruct (Nat.ltb_spec 0 k) as [Hk|Hk].
  - destruct v as [x| |]; cbn [obind]; try discriminate.
    destruct (assignSegment p k x buf) as [b| |] eqn:E; cbn [obind]; try discriminate.
    intros H _. apply Ok_inj in H. injection H as <- <-. apply assign_fits in E. lia.
  - intros H L. apply Ok_inj in H. injection H as <- <-. lia.
Qed.
Lemma putPattern_fits k pat col p o ir jc p' o' ir' jc' : putPattern k pat col (p, o, ir, jc) = Ok (p', o', ir', jc') ->
  (p <= length ir)%nat -> p' = (p + k)%nat /\ length ir' = length ir /\ (p' <= length ir')%nat.
Proof.
  unfold putPattern. destruct (Nat.ltb_spec 0 k) as [Hk|Hk].
  - destruct pat as [x| |]; cbn [obind]; try discriminate.
    destruct (assignSegment p k _ ir) as [b| |] eqn:E; cbn [obind]; try discriminate.
    destruct col as [y| |]; cbn [obind]; try discriminate.
    destruct (assignSegment p k _ jc) as [b'| |] eqn:E'; cbn [obind]; try discriminate.
    intros H _. apply Ok_inj in H. injection H as <- <- <- <-. apply assign_fits in E. lia.
  - intros H L. apply Ok_inj in H. injection H as <- <- <- <-. lia.
Qed.
Lemma one_fits {A} (pos cap : A -> nat) (same : container -> container -> Prop) (K : nat) (c0 : container)
  (f : nat -> container -> A -> outcome (container * A)) : same c0 c0 ->
  (forall i c s c' s', same c0 c -> f i c s = Ok (c', s') -> (pos s <= cap s)%nat ->
     same c0 c' /\ pos s' = (pos s + K)%nat /\ cap s' = cap s /\ (pos s' <= cap s')%nat) ->
  forall k i c a r, same c0 c -> (pos a <= cap a)%nat -> overNodes f i k [c] a = Ok r ->
  exists c', fst r = [c'] /\ same c0 c' /\ pos (snd r) = (pos a + k * K)%nat /\ cap (snd r) = cap a /\
    (pos (snd r) <= cap (snd r))%nat.
Proof.
  intros S0 Hf k. induction k as [|k IH]; intros i c a r Hs Hp E; cbn [overNodes] in E.
  - apply Ok_inj in E. subst r. exists c. cbn [fst snd]. repeat split; auto. lia.
  - cbn [overContainers] in E. destruct (f i c a) as [[c1 s1]| |] eqn:E1; cbn [obind fst snd] in E; try discriminate.
    destruct (Hf i c a c1 s1 Hs E1 Hp) as (H1 & H2 & H3 & H4).
    destruct (IH (S i) c1 s1 r H1 H4 E) as (c' & R1 & R2 & R3 & R4 & R5). exists c'. do 2 (split; [assumption|]).
    split; [rewrite R3, H2; lia|]. split; [congruence|assumption].
Qed.

Theorem C49_general_refuted N c sp w nodes g z' : (0 < total nnzInput (c_inter c))%nat ->
  discJac n m sp w nodes g (setGeneralConstraints n c (newDiscretizer N)) <> Ok z' /\
  discPattern n m w (setGeneralConstraints n c (newDiscretizer N)) <> Ok z'.
Proof.
  intros Hc.
  set (same := fun a b : container => c_inter b = c_inter a /\ c_term b = c_term a).
  split; intros E.
  - unfold discJac, setGeneralConstraints, addContainer, newDiscretizer in E.
    cbn [z_N z_con z_interCount z_termCount z_nnzInter z_nnzTerm z_buf z_lo z_up z_jac z_iRow z_jCol app] in E.
    destruct (overNodes _ 0 (N + 1) [c] _) as [r| |] eqn:E1; cbn [obind] in E; try discriminate.
    eapply (one_fits fst (fun s => length (snd s)) same
              (total nnzState (c_inter c) + total nnzInput (c_inter c)) c) in E1.
    + destruct E1 as (c' & F1 & (_ & F2) & F3 & F4 & F5). cbn [fst snd] in F3, F4, F5.
      destruct r as [cl [p buf]]. cbn [fst snd] in *. subst cl. cbn [overContainers] in E.
      destruct (putIf (total nnzState (c_term c')) _ (p, buf)) as [[p1 b1]| |] eqn:P1; cbn [obind] in E; try discriminate.
      destruct (putIf (total nnzInput (c_term c')) _ (p1, b1)) as [[p2 b2]| |] eqn:P2; cbn [obind] in E; try discriminate.
      apply putIf_fits in P1; [|lia]. apply putIf_fits in P2; [|lia].
      rewrite repeat_length in F4. rewrite F2 in P1. destruct P1 as (P1a & P1b & P1c). nia.
    + split; reflexivity.
    + intros i c1 [p buf] c2 [p' buf'] [S1 S2] Ef Hp. cbn [fst snd] in *.
      unfold moveTo in Ef. destruct (getShotStartTime g i) as [t| |]; cbn [obind] in Ef; try discriminate.
      destruct (getOptimizedState n w i) as [x| |]; cbn [obind] in Ef; try discriminate.
      destruct (evalSpline sp nodes g t i) as [u| |]; cbn [obind] in Ef; try discriminate.
      cbn [setCurrent c_inter] in Ef. rewrite S1 in Ef.
      destruct (putIf (total nnzState _) _ (p, buf)) as [[p1 b1]| |] eqn:P1; cbn [obind] in Ef; try discriminate.
      destruct (putIf (total nnzInput _) _ (p1, b1)) as [[p2 b2]| |] eqn:P2; cbn [obind] in Ef; try discriminate.
      apply Ok_inj in Ef. injection Ef as <- <- <-.
      apply putIf_fits in P1; [|lia]. apply putIf_fits in P2; [|lia].
      split; [split; cbn; assumption|]. lia.
    + split; reflexivity.
    + cbn. lia.
  - unfold discPattern, setGeneralConstraints, addContainer, newDiscretizer in E.
    cbn [z_N z_con z_interCount z_termCount z_nnzInter z_nnzTerm z_buf z_lo z_up z_jac z_iRow z_jCol app] in E.
    destruct (overNodes _ 0 (N + 1) [c] _) as [r| |] eqn:E1; cbn [obind] in E; try discriminate.
    eapply (one_fits (fun s : pstate => fst (fst (fst s))) (fun s => length (snd (fst s))) same
              (total nnzState (c_inter c) + total nnzInput (c_inter c)) c) in E1.
    + destruct E1 as (c' & F1 & (_ & F2) & F3 & F4 & F5). cbn [fst snd] in F3, F4, F5.
      destruct r as [cl [[[p o] buf] jc]]. cbn [fst snd] in *. subst cl. cbn [overContainers] in E.
      destruct (putPattern (total nnzState (c_term c')) _ _ (p, o, buf, jc)) as [[[[p1 o1] b1] j1]| |] eqn:P1; cbn [obind] in E; try discriminate.
      destruct (putPattern (total nnzInput (c_term c')) _ _ (p1, o1, b1, j1)) as [[[[p2 o2] b2] j2]| |] eqn:P2; cbn [obind] in E; try discriminate.
      apply putPattern_fits in P1; [|lia]. apply putPattern_fits in P2; [|lia].
      rewrite repeat_length in F4. rewrite F2 in P1. destruct P1 as (P1a & P1b & P1c). nia.
    + split; reflexivity.
    + intros i c1 [[[p o] buf] jc] c2 [[[p' o'] buf'] jc'] [S1 S2] Ef Hp. cbn [fst snd] in *.
      rewrite S1 in Ef.
      destruct (putPattern (total nnzState _) _ _ (p, o, buf, jc)) as [[[[p1 o1] b1] j1]| |] eqn:P1; cbn [obind] in Ef; try discriminate.
      destruct (putPattern (total nnzInput _) _ _ (p1, o1, b1, j1)) as [[[[p2 o2] b2] j2]| |] eqn:P2; cbn [obind] in Ef; try discriminate.
      apply Ok_inj in Ef. cbn [advance] in Ef. injection Ef as <- <- <- <- <-.
      apply putPattern_fits in P1; [|lia]. apply putPattern_fits in P2; [|lia].
      split; [split; assumption|]. lia.
    + split; reflexivity.
    + cbn. lia.
Qed.

(** ** C29 for the constraints of the shooting problem *)
Theorem C29_dms N calls sp l g0 w g x0 shots junk path :
  holds n m N l g0 w -> length (g_t g) = S N -> length x0 = n -> length shots = N ->
  Forall (fun d => length (sd_x d) = n) shots -> length junk = contNnz n m sp ->
  Forall (valid N) calls -> (path = true -> sp = ZERO_ORDER_HOLD) ->
  exists z, zrun calls (newDiscretizer N) = Ok z /\
    let nodes := map (fun p => ofList (snd p)) l in
    Forall2 (reports ((N + 1) * (n + m)))
      (dmsConstraints n m sp w nodes g x0 shots junk (if path then Some z else None))
      (mkMeaning (vsub (fst (nth 0 l dflt)) x0) (repeat 0 n) (repeat 0 n) (at_node n m 0 delta (fun _ _ => 0)) ::
       map (fun p => mkMeaning (vsub (fst (nth (fst p + 1) l dflt)) (sd_x (snd p))) (repeat 0 n) (repeat 0 n)
              (continuity_jacobian n m (fst p) (sd_S (snd p)) (sd_Q (snd p))
                 match sp with ZERO_ORDER_HOLD => fun _ _ => 0 | PIECEWISE_LINEAR => sd_Q1 (snd p) end))
         (combine (seq 0 N) shots) ++
       (if path then [path_meaning N (containersOf calls) (fun k => ofList (fst (nth k l dflt)))
          (fun k => nth k nodes rzero) (fun k => nth k (g_t g) 0)] else [])).
Proof.
  intros Hw Hg Lx Ls Hs Lj Hv Hp.
  destruct (C49_discretized_partial N calls l g0 w g Hv Hw Hg) as (z & E & _ & R).
  exists z. split; [exact E|]. cbv zeta. unfold dmsConstraints. constructor; [exact (init_reports n m N l g0 w x0 Hw Lx)|].
  apply Forall2_app.
  - rewrite Ls.
    assert (G : forall ks ds, Forall (fun d => length (sd_x d) = n) ds -> (forall k, In k ks -> (k < N)%nat) ->
      Forall2 (reports ((N + 1) * (n + m)))
        (map (fun p => continuity n m sp w (fst p) (snd p) junk) (combine ks ds))
        (map (fun p => mkMeaning (vsub (fst (nth (fst p + 1) l dflt)) (sd_x (snd p))) (repeat 0 n) (repeat 0 n)
              (continuity_jacobian n m (fst p) (sd_S (snd p)) (sd_Q (snd p))
                 match sp with ZERO_ORDER_HOLD => fun _ _ => 0 | PIECEWISE_LINEAR => sd_Q1 (snd p) end))
         (combine ks ds))).
    { induction ks as [|k ks IH]; intros ds Hd Hk; [constructor|]. destruct ds as [|d ds]; [constructor|].
      inversion Hd as [|? ? Hd1 Hd2]. cbn [combine map fst snd]. constructor.
      - apply (C30_continuity n m sp N l g0 w k d junk Hw); auto. apply Hk. now left.
      - apply IH; auto. intros k' Hk'. apply Hk. now right. }
    apply G; auto. intros k Hk. apply in_seq in Hk. lia.
  - destruct path; [|constructor]. constructor; [|constructor]. rewrite (Hp eq_refl). exact R.
Qed.
End Path.

(** ** Examples *)

(** Two states and one control, two shots; a box container on the second state and a terminal target,
    then a state-only general container, with queries between. *)
Definition exBoxCalls : list ccall := [AddIntermediate (CState exBox); AddTerminal (CTerminal rzero)].
Definition exStateOnly : list ccall := [AddIntermediate (CTerminal rzero)].
Example C49_example : exists c1 c2,
  let w := newOptVec 2 1 9 2 (flatten (repeat ([0; 0], [0]) 3)) in
  let l := repeat ([0; 0], [0]) 3 in
  let g := mkGrid 2 1 [0; 1 / 2; 1] in
  let calls := [SetBox exBoxCalls c1; Evaluate w (repeat rzero 3) g; SetGeneral exStateOnly c2; Pattern w; LowerBound;
                Jacobian w (repeat rzero 3) g] in
  holds 2 1 2 l l w /\ length (g_t g) = 3%nat /\ Forall (valid 2 1 2) calls /\
  containersOf calls = [exBoxCalls; exStateOnly] /\
  mv (path_meaning 2 1 2 (containersOf calls) (fun k j => INR k) (fun _ => rzero) (fun _ => 0)) =
    [0; 0 - 0; 0 - 0; 1; 1 - 0; 1 - 0; 1 + 1; 1 + 1 - 0; 1 + 1 - 0; 1 + 1 - 0; 1 + 1 - 0].
Proof.
  destruct (prepared_exists 2 1 exBoxCalls) as [c1 P1].
  { split; repeat constructor; apply exBox_built. }
  { split; repeat constructor. }
  destruct (prepared_exists 2 1 exStateOnly) as [c2 P2].
  { split; repeat constructor. }
  { split; repeat constructor. }
  exists c1, c2. cbv zeta.
  assert (W : holds 2 1 2 (repeat ([0; 0], [0]) 3) (repeat ([0; 0], [0]) 3)
                (newOptVec 2 1 9 2 (flatten (repeat ([0; 0], [0]) 3)))).
  { apply (new_holds 2 1 2). split; [reflexivity|]. intros p Hp. apply repeat_spec in Hp. subst p. auto. }
  split; [exact W|]. split; [reflexivity|]. split.
  - repeat (apply List.Forall_cons); try apply List.Forall_nil; cbn [valid]; auto.
    + split; [eauto|split; reflexivity].
    + split; [exact P2|split; reflexivity].
    + eauto.
    + split; [eauto|split; reflexivity].
  - split; [reflexivity|]. unfold path_meaning, atNodes. cbn.
    repeat (apply (f_equal2 (@cons R))); try reflexivity; unfold rdot; cbn; ring.
Qed.

Example C49_refuted_example : exists c, prepared 2 1 [AddIntermediate (CGeneral oneRow)] c /\
  (0 < total (nnzInput 1) (c_inter c))%nat.
Proof.
  destruct (prepared_exists 2 1 [AddIntermediate (CGeneral oneRow)]) as [c P].
  { split; repeat constructor. }
  { split; repeat constructor. }
  exists c. split; [exact P|]. apply prepared_rel in P. destruct P as (_ & _ & _ & _ & T & _).
  unfold total. rewrite T. cbn. lia.
Qed.

(** Two shots with a box container. *)
Example C29_example : exists c1,
  let l := repeat ([1; 2], [3]) 3 in let w := withX (flatten l) (newOptVec 2 1 9 2 (flatten l)) in
  let g := mkGrid 2 1 [0; 1 / 2; 1] in
  let d := mkShotData [4; 5] delta delta delta in
  holds 2 1 2 l l w /\ Forall (valid 2 1 2) [SetBox exBoxCalls c1] /\
  Forall (fun d => length (sd_x d) = 2%nat) [d; d] /\
  d_eval (continuity 2 1 ZERO_ORDER_HOLD w 1 d (repeat 0 8)) = Ok [1 - 4; 2 - 5].
Proof.
  destruct (prepared_exists 2 1 exBoxCalls) as [c1 P1].
  { split; repeat constructor; apply exBox_built. }
  { split; repeat constructor. }
  exists c1. cbv zeta.
  assert (L : nodes_ok 2 1 2 (repeat ([1; 2], [3]) 3)).
  { split; [reflexivity|]. intros p Hp. apply repeat_spec in Hp. subst p. auto. }
  split; [exact (holds_withX 2 1 2 _ _ _ _ (new_holds 2 1 2 _ L) L)|].
  split; [apply List.Forall_cons; [exact P1|apply List.Forall_nil]|]. split; [repeat constructor|]. reflexivity.
Qed.

(** The flow x |-> 2 s_0 + 3 q_0 + 4 q1_0 of a scalar shot. *)
Example C30_example : sensitivities 1 1 (fun s q q1 _ => 2 * s 0%nat + 3 * q 0%nat + 4 * q1 0%nat) rzero rzero rzero
  (fun _ _ => 2) (fun _ _ => 3) (fun _ _ => 4).
Proof.
  intros r _. split; [|split]; intros j Hj; assert (j = 0%nat) by lia; subst j;
    unfold rset; cbn; auto_derive; auto; ring.
Qed.

Print Assumptions C29_container.
Print Assumptions C29_dms.
Print Assumptions C30_continuity.
Print Assumptions C30_blocks.
Print Assumptions C30_derivative.
Print Assumptions C49_discretized_partial.
Print Assumptions C49_linear_refuted.
Print Assumptions C49_general_refuted.
