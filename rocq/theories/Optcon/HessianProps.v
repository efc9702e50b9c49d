(** C81: the sparse Hessian of the Lagrangian handed to the NLP solver. *)
From Coq Require Import List Arith Reals Bool Lra Lia Sorting.Sorted.
From Verif Require Import Base.Outcome Optcon.HessianModel.
Import ListNotations.
Open Scope R_scope.

(** * Specification *)
(** The matrix that a list of triplets stands for: equal indices add up. *)
Fixpoint entry (l : list (key * R)) (i j : nat) : R :=
  match l with
  | [] => 0
  | (k, v) :: l => (if (Nat.eqb (fst k) i && Nat.eqb (snd k) j)%bool then v else 0) + entry l i j
  end.
(** Column-major order of positions. *)
Definition precedes (a b : key) : Prop := (snd a < snd b)%nat \/ (snd a = snd b /\ (fst a < fst b)%nat).
(** A term's pattern and values describe the symmetric matrix [H]: its lower triangle, whatever is reported above the diagonal. *)
Definition describes (p : list key) (v : list R) (H : nat -> nat -> R) : Prop :=
  length p = length v /\ forall i j, (j <= i)%nat -> entry (combine p v) i j = H i j.
(** Multipliers of each constraint term: consecutive segments of [lambda]. *)
Fixpoint multipliers (cs : list hterm) (lambda : list R) : list (list R) :=
  match cs with [] => [] | c :: cs => firstn (h_size c) lambda :: multipliers cs (skipn (h_size c) lambda) end.
Definition lagrangian (Hf : nat -> nat -> R) (Hg : list (nat -> nat -> R)) (i j : nat) : R :=
  fold_right (fun H a => H i j + a) (Hf i j) Hg.

(** * Lemmas *)
Lemma keyEqb_eq a b : keyEqb a b = true <-> a = b.
Proof.
  destruct a, b. unfold keyEqb. cbn. rewrite andb_true_iff, !Nat.eqb_eq. split; [intros [-> ->]; reflexivity|intros H; injection H; auto].
Qed.
Lemma before_precedes a b : before a b = true <-> precedes a b.
Proof. unfold before, precedes. rewrite orb_true_iff, andb_true_iff, !Nat.ltb_lt, Nat.eqb_eq. reflexivity. Qed.
Lemma entry_app l1 l2 i j : entry (l1 ++ l2) i j = entry l1 i j + entry l2 i j.
Proof. induction l1 as [|[k v] l IH]; cbn [app entry]; [lra|]. rewrite IH. lra. Qed.
Lemma entry_add k v m i j : entry (addEntry k v m) i j = entry [(k, v)] i j + entry m i j.
Proof.
  induction m as [|[k' v'] m IH]; cbn [addEntry]; [cbn; lra|].
  destruct (keyEqb k k') eqn:E.
  - apply keyEqb_eq in E. subst k'. cbn [entry]. destruct (_ && _)%bool; lra.
  - destruct (before k k'); cbn [entry] in *; [|rewrite IH]; lra.
Qed.
Definition build (l : list (key * R)) (m : smat) : smat := fold_left (fun m t => addEntry (fst t) (snd t) m) l m.
Lemma entry_build l : forall m i j, entry (build l m) i j = entry l i j + entry m i j.
Proof.
  induction l as [|[k v] l IH]; intros m i j; cbn [build fold_left]; [cbn; lra|]. unfold build in IH. rewrite IH.
  cbn [fst snd]. rewrite entry_add. cbn [entry]. lra.
Qed.
(** The positions only depend on the positions of the triplets. *)
Fixpoint addKey (k : key) (m : list key) : list key :=
  match m with [] => [k] | k' :: m' => if keyEqb k k' then k' :: m' else if before k k' then k :: m else k' :: addKey k m' end.
Lemma keys_add k v m : map fst (addEntry k v m) = addKey k (map fst m).
Proof.
  induction m as [|[k' v'] m IH]; cbn [addEntry addKey map fst]; [reflexivity|].
  destruct (keyEqb k k'); [reflexivity|]. destruct (before k k'); [reflexivity|]. cbn [map fst]. now rewrite IH.
Qed.
Lemma keys_build l : forall m, map fst (build l m) = fold_left (fun m k => addKey k m) (map fst l) (map fst m).
Proof. induction l as [|[k v] l IH]; intros m; [reflexivity|]. cbn [build fold_left map fst snd]. unfold build in IH. rewrite IH, keys_add. reflexivity. Qed.
Lemma addKey_In k m a : In a (addKey k m) <-> a = k \/ In a m.
Proof.
  induction m as [|k' m IH]; cbn [addKey]; [cbn; intuition auto|].
  destruct (keyEqb k k') eqn:E.
  - apply keyEqb_eq in E. subst k'. cbn. intuition auto.
  - destruct (before k k'); cbn [In]; [intuition auto|]. rewrite IH. intuition auto.
Qed.
Lemma precedes_total a b : a <> b -> ~ precedes a b -> precedes b a.
Proof. destruct a as [a1 a2], b as [b1 b2]. unfold precedes. cbn. intros H1 H2. assert (a1 <> b1 \/ a2 <> b2) by (destruct (Nat.eq_dec a1 b1), (Nat.eq_dec a2 b2); subst; auto; congruence). lia. Qed.
Lemma precedes_trans a b c : precedes a b -> precedes b c -> precedes a c.
Proof. unfold precedes. lia. Qed.
Lemma addKey_sorted k m : StronglySorted precedes m -> StronglySorted precedes (addKey k m).
Proof.
  induction 1 as [|k' m Hs IH Hf]; cbn [addKey]; [repeat constructor|].
  destruct (keyEqb k k') eqn:E; [now constructor|].
  destruct (before k k') eqn:B.
  - apply before_precedes in B. constructor; [now constructor|]. constructor; [exact B|].
    apply Forall_forall. intros a Ha. rewrite Forall_forall in Hf. apply precedes_trans with k'; auto.
  - constructor; [exact IH|]. apply Forall_forall. intros a Ha. apply addKey_In in Ha. destruct Ha as [->|Ha].
    + apply precedes_total.
      * intros ->. assert (keyEqb k' k' = true) by now apply keyEqb_eq. congruence.
      * intros P. apply before_precedes in P. congruence.
    + rewrite Forall_forall in Hf. auto.
Qed.
Lemma fold_sorted l : forall m, StronglySorted precedes m -> StronglySorted precedes (fold_left (fun m k => addKey k m) l m).
Proof. induction l as [|k l IH]; intros m H; [exact H|]. cbn. apply IH. now apply addKey_sorted. Qed.
Lemma fold_In l : forall m a, In a (fold_left (fun m k => addKey k m) l m) <-> In a l \/ In a m.
Proof.
  induction l as [|k l IH]; intros m a; cbn [fold_left]; [cbn; intuition auto|]. rewrite IH, addKey_In. cbn. intuition auto.
Qed.
Lemma sorted_filter {A} (r : A -> A -> Prop) p l : StronglySorted r l -> StronglySorted r (filter p l).
Proof.
  induction 1 as [|a l Hs IH Hf]; [constructor|]. cbn. destruct (p a); [|exact IH]. constructor; [exact IH|].
  apply Forall_forall. intros b Hb. apply filter_In in Hb. rewrite Forall_forall in Hf. now apply Hf.
Qed.
Definition keyLower (k : key) : bool := (snd k <=? fst k)%nat.
Lemma keys_lower m : map fst (lower m) = filter keyLower (map fst m).
Proof. induction m as [|[k v] m IH]; [reflexivity|]. cbn [lower filter map fst]. unfold keyLower at 1. unfold lower in IH. destruct (_ <=? _)%nat; cbn [map fst]; now rewrite IH. Qed.
Lemma entry_lower m i j : entry (lower m) i j = if (j <=? i)%nat then entry m i j else 0.
Proof.
  induction m as [|[k v] m IH]; cbn [lower filter entry]; [destruct (_ <=? _)%nat; reflexivity|]. unfold lower in IH. cbn [fst].
  destruct (snd k <=? fst k)%nat eqn:E; cbn [entry]; rewrite IH.
  - destruct (Nat.eqb (fst k) i && Nat.eqb (snd k) j)%bool eqn:Q; [|destruct (j <=? i)%nat; lra].
    apply andb_true_iff in Q. destruct Q as [Q1 Q2]. apply Nat.eqb_eq in Q1, Q2. subst i j. rewrite E. lra.
  - destruct (Nat.eqb (fst k) i && Nat.eqb (snd k) j)%bool eqn:Q; [|destruct (j <=? i)%nat; lra].
    apply andb_true_iff in Q. destruct Q as [Q1 Q2]. apply Nat.eqb_eq in Q1, Q2. subst i j. rewrite E. lra.
Qed.
Lemma combine_keys (m : smat) : combine (map fst m) (map snd m) = m.
Proof. induction m as [|[k v] m IH]; [reflexivity|]. cbn. now rewrite IH. Qed.
Lemma map_fst_combine {A B} (l : list A) (l' : list B) : length l = length l' -> map fst (combine l l') = l.
Proof. revert l'. induction l as [|a l IH]; intros [|b l'] H; try discriminate; [reflexivity|]. cbn. f_equal. apply IH. now injection H. Qed.
Lemma forallb_keys n l l' : map fst l = map fst l' -> forallb (fun t : key * R => inRange n (fst t)) l = forallb (fun t : key * R => inRange n (fst t)) l'.
Proof.
  revert l'. induction l as [|a l IH]; intros [|b l'] H; try discriminate; [reflexivity|]. cbn in *. injection H as H1 H2. now rewrite H1, (IH _ H2).
Qed.
Lemma ones_keys l : map fst (ones l) = l.
Proof. unfold ones. rewrite map_map. cbn. apply map_id. Qed.

Definition okTerm (c : hterm) : Prop := forall x l, length (h_values c x l) = length (h_pattern c).
Lemma containerTriplets_spec cs x : forall lambda count, List.Forall okTerm cs ->
  (count + list_sum (map h_size cs) <= length lambda)%nat ->
  exists t, containerTriplets cs x lambda count = Ok t /\ map fst t = flat_map h_pattern cs /\
    forall Hg, Forall2 (fun c (lH : list R * (nat -> nat -> R)) => describes (h_pattern c) (h_values c x (fst lH)) (snd lH)) cs
                 (combine (multipliers cs (skipn count lambda)) Hg) -> length Hg = length cs ->
      forall i j, (j <= i)%nat -> entry t i j = fold_right (fun H a => H i j + a) 0 Hg.
Proof.
  induction cs as [|c cs IH]; intros lambda count Hok Hlen.
  - exists []. repeat split. intros [|] _ H; [|discriminate]. reflexivity.
  - inversion Hok as [|? ? Hc Hcs]; subst. cbn [map list_sum fold_right] in Hlen. change (fold_right Nat.add 0%nat (map h_size cs)) with (list_sum (map h_size cs)) in Hlen.
    destruct (IH lambda (count + h_size c)%nat Hcs) as (t & T1 & T2 & T3); [lia|].
    cbn [containerTriplets]. unfold segment. replace (count + h_size c <=? length lambda)%nat with true by (symmetry; apply Nat.leb_le; lia).
    cbn [obind]. unfold termTriplets. rewrite (Hc x). rewrite Nat.leb_refl. cbn [obind]. rewrite T1. cbn [obind].
    eexists. split; [reflexivity|]. split.
    + rewrite map_app, T2, map_fst_combine by (now rewrite Hc). reflexivity.
    + intros [|H Hg] HF HL i j Hij; [discriminate|]. cbn [multipliers combine] in HF. inversion HF as [|? ? ? ? D HF']; subst. cbn [fst snd] in D.
      rewrite entry_app. destruct D as [_ D]. rewrite (D i j Hij). cbn [fold_right]. f_equal. apply T3; [|now injection HL|exact Hij].
      replace (skipn (count + h_size c) lambda) with (skipn (h_size c) (skipn count lambda)); [exact HF'|].
      clear. revert lambda. induction count as [|n IH]; intros l; [reflexivity|]. destruct l as [|a l]; [cbn [skipn]; rewrite skipn_nil; reflexivity|]. apply IH.
Qed.

Section Main.
Variables (n : nat) (f : hcost) (cs : list hterm).
(** Positions lie inside the matrix; every constraint term reports positions in the lower triangle only. *)
Hypothesis rangeF : List.Forall (fun k => (fst k < n)%nat /\ (snd k < n)%nat) (k_pattern f).
Hypothesis rangeG : List.Forall (fun c => List.Forall (fun k => (fst k < n)%nat /\ (snd k <= fst k)%nat) (h_pattern c)) cs.
Hypothesis valuesG : List.Forall okTerm cs.
Hypothesis valuesF : forall x w, length (k_values f x w) = length (k_pattern f).

Lemma rangeG_all (k : key) : In k (flat_map h_pattern cs) -> (fst k < n)%nat /\ (snd k <= fst k)%nat.
Proof.
  intros H. apply in_flat_map in H. destruct H as (c & Hc & Hk). rewrite Forall_forall in rangeG. specialize (rangeG _ Hc).
  rewrite Forall_forall in rangeG. auto.
Qed.
Lemma inRange_ok (l : list (key * R)) : (forall k : key, In k (map fst l) -> (fst k < n)%nat /\ (snd k < n)%nat) -> forallb (fun t : key * R => inRange n (fst t)) l = true.
Proof.
  intros H. apply forallb_forall. intros t Ht. destruct (H (fst t) (in_map _ _ _ Ht)) as [A B]. unfold inRange.
  apply andb_true_iff. split; now apply Nat.ltb_lt.
Qed.
Definition gKeys := fold_left (fun m k => addKey k m) (flat_map h_pattern cs) [].
Lemma gKeys_In (k : key) : In k gKeys -> (fst k < n)%nat /\ (snd k <= fst k)%nat.
Proof. intros H. apply fold_In in H. destruct H as [H|[]]. now apply rangeG_all. Qed.
Lemma containerPattern_ok : containerPattern n cs = Ok gKeys.
Proof.
  unfold containerPattern, setFromTriplets. rewrite inRange_ok.
  - cbn [obind]. fold (build (ones (flat_map h_pattern cs)) []). now rewrite keys_build, ones_keys.
  - intros k Hk. rewrite ones_keys in Hk. apply rangeG_all in Hk. lia.
Qed.
Lemma filter_id {A} (p : A -> bool) l : (forall a, In a l -> p a = true) -> filter p l = l.
Proof. intros H. induction l as [|a l IH]; [reflexivity|]. cbn. rewrite H by now left. f_equal. apply IH. intros b Hb. apply H. now right. Qed.

Lemma containerValues_ok x lambda : (list_sum (map h_size cs) <= length lambda)%nat ->
  exists T, containerValues n cs x lambda = Ok (map snd T) /\ map fst T = gKeys /\
    forall Hg, Forall2 (fun c (lH : list R * (nat -> nat -> R)) => describes (h_pattern c) (h_values c x (fst lH)) (snd lH)) cs
                 (combine (multipliers cs lambda) Hg) -> length Hg = length cs ->
      forall i j, (j <= i)%nat -> entry T i j = fold_right (fun H a => H i j + a) 0 Hg.
Proof.
  intros Hl. destruct (containerTriplets_spec cs x lambda 0 valuesG Hl) as (t & T1 & T2 & T3).
  exists (build t []). unfold containerValues. rewrite containerPattern_ok. cbn [obind]. rewrite T1. cbn [obind].
  unfold setFromTriplets. rewrite inRange_ok.
  2:{ intros k Hk. assert (Hk' : In k (flat_map h_pattern cs)) by (rewrite <- T2; exact Hk). apply rangeG_all in Hk'. lia. }
  cbn [obind]. fold (build t []).
  assert (KB : map fst (build t []) = gKeys) by (rewrite keys_build, T2; reflexivity).
  assert (LB : lower (build t []) = build t []).
  { apply filter_id. intros [k v] Hk. cbn. apply Nat.leb_le. apply (gKeys_In k). rewrite <- KB. change k with (fst (k, v)). now apply in_map. }
  rewrite LB. unfold mapValues. replace (length gKeys) with (length (build t [])) by (now rewrite <- KB, map_length).
  rewrite Nat.leb_refl. split; [|split].
  - replace (length (build t [])) with (length (map snd (build t []))) by apply map_length. now rewrite firstn_all.
  - exact KB.
  - intros Hg HF HL i j Hij. rewrite entry_build. cbn [entry]. rewrite (T3 Hg HF HL i j Hij). lra.
Qed.

(** ** C81.  The reported positions are inside the lower triangle, in column-major order, without duplicates, and cover all positions that the
    terms report there. *)
Theorem C81_pattern :
  exists q, hessianPattern n f cs = Ok q /\ StronglySorted precedes q /\
  forall k, In k q <-> (In k (k_pattern f) \/ exists c, In c cs /\ In k (h_pattern c)) /\ (snd k <= fst k)%nat.
Proof.
  unfold hessianPattern. rewrite containerPattern_ok. cbn [obind]. unfold setFromTriplets. rewrite inRange_ok.
  2:{ intros k Hk. rewrite map_app, !ones_keys in Hk. apply in_app_or in Hk. destruct Hk as [Hk|Hk].
      - rewrite Forall_forall in rangeF. auto.
      - apply gKeys_In in Hk. lia. }
  cbn [obind]. fold (build (ones (k_pattern f) ++ ones gKeys) []). rewrite keys_lower, keys_build, map_app, !ones_keys. cbn [map].
  eexists. split; [reflexivity|]. split; [apply sorted_filter; apply fold_sorted; constructor|].
  intros k. rewrite filter_In, fold_In, in_app_iff. unfold keyLower. rewrite Nat.leb_le. unfold gKeys. rewrite fold_In, in_flat_map. cbn. intuition auto.
Qed.

(** ** C81.  For every point, objective factor and multipliers the values belong to the reported positions and describe exactly the lower triangle of
    the Hessian of the Lagrangian, each constraint term with its own multipliers. *)
Theorem C81_values_partial x obj_fac lambda Hf Hg : (list_sum (map h_size cs) <= length lambda)%nat ->
  describes (k_pattern f) (k_values f x obj_fac) Hf -> length Hg = length cs ->
  Forall2 (fun c (lH : list R * (nat -> nat -> R)) => describes (h_pattern c) (h_values c x (fst lH)) (snd lH)) cs (combine (multipliers cs lambda) Hg) ->
  exists q v, hessianPattern n f cs = Ok q /\ evaluateHessian n f cs x obj_fac lambda = Ok v /\ length v = length q /\
    forall i j, entry (combine q v) i j = if (j <=? i)%nat then lagrangian Hf Hg i j else 0.
Proof.
  intros Hl DF HL DG. destruct (containerValues_ok x lambda Hl) as (T & V1 & V2 & V3).
  set (t1 := combine (k_pattern f) (k_values f x obj_fac)).
  assert (R1 : forallb (fun t : key * R => inRange n (fst t)) (t1 ++ T) = true).
  { apply inRange_ok. intros k Hk. rewrite map_app in Hk. apply in_app_or in Hk. destruct Hk as [Hk|Hk].
    - unfold t1 in Hk. rewrite map_fst_combine in Hk by (now rewrite valuesF). rewrite Forall_forall in rangeF. auto.
    - rewrite V2 in Hk. apply gKeys_In in Hk. lia. }
  assert (KK : map fst (ones (k_pattern f) ++ ones gKeys) = map fst (t1 ++ T)).
  { rewrite !map_app, !ones_keys, V2. unfold t1. rewrite map_fst_combine by (now rewrite valuesF). reflexivity. }
  set (M := build (t1 ++ T) []).
  assert (Q : hessianPattern n f cs = Ok (map fst (lower M))).
  { unfold hessianPattern. rewrite containerPattern_ok. cbn [obind]. unfold setFromTriplets. rewrite (forallb_keys n _ _ KK), R1.
    cbn [obind]. f_equal. fold (build (ones (k_pattern f) ++ ones gKeys) []). rewrite !keys_lower. unfold M. rewrite !keys_build, KK. reflexivity. }
  exists (map fst (lower M)), (map snd (lower M)). split; [exact Q|]. split.
  - unfold evaluateHessian. rewrite Q, containerPattern_ok. cbn [obind]. rewrite V1. cbn [obind]. unfold indexTriplets at 1. rewrite valuesF, Nat.leb_refl.
    cbn [obind]. unfold indexTriplets. rewrite <- V2, !map_length, Nat.leb_refl, combine_keys. cbn [obind].
    fold t1. unfold setFromTriplets. rewrite R1. cbn [obind]. fold (build (t1 ++ T) []). fold M. unfold mapValues. rewrite Nat.leb_refl.
    replace (length (lower M)) with (length (map snd (lower M))) by apply map_length. now rewrite firstn_all.
  - split; [now rewrite !map_length|]. intros i j. rewrite combine_keys, entry_lower. destruct (j <=? i)%nat eqn:E; [|reflexivity].
    apply Nat.leb_le in E. unfold M. rewrite entry_build, entry_app. cbn [entry]. unfold t1. destruct DF as [_ DF]. rewrite (DF i j E), (V3 Hg DG HL i j E).
    unfold lagrangian. clear. induction Hg as [|H Hg IH]; cbn [fold_right] in *; lra.
Qed.
End Main.
Print Assumptions C81_pattern.
Print Assumptions C81_values_partial.

(** Terms that meet the hypotheses: two variables, a full cost pattern, the constraints x0 x1 (position below the diagonal) and x0^2 + x1^2. *)
Definition exCost : hcost := mkHcost [(0, 0); (0, 1); (1, 0); (1, 1)]%nat (fun x w => [2 * w; 3 * w; 3 * w; 4 * w]).
Definition exTerms : list hterm :=
  [mkHterm 1 [(1, 0)]%nat (fun x l => [nth 0 l 0]); mkHterm 1 [(0, 0); (1, 1)]%nat (fun x l => [2 * nth 0 l 0; 2 * nth 0 l 0])].
Example C81_example :
  List.Forall (fun k => (fst k < 2)%nat /\ (snd k < 2)%nat) (k_pattern exCost) /\
  List.Forall (fun c => List.Forall (fun k => (fst k < 2)%nat /\ (snd k <= fst k)%nat) (h_pattern c)) exTerms /\
  List.Forall okTerm exTerms /\ (forall x w, length (k_values exCost x w) = length (k_pattern exCost)) /\
  hessianPattern 2 exCost exTerms = Ok [(0, 0); (1, 0); (1, 1)]%nat /\
  forall x w a b, evaluateHessian 2 exCost exTerms x w [a; b] = Ok [2 * w + 2 * b; 3 * w + a; 4 * w + 2 * b].
Proof.
  split; [repeat constructor|]. split; [repeat constructor|]. split; [repeat constructor|]. split; [reflexivity|]. split; [reflexivity|].
  intros. reflexivity.
Qed.

(** ** C81: the full statement lets a constraint report its Hessian as the cost does, above the diagonal too.  The container then counts all
    positions but stores only the values of the lower triangle: reading them runs past their end. *)
Lemma lower_length m : (length (lower m) <= length m)%nat.
Proof. induction m as [|t m IH]; [cbn; lia|]. cbn [lower filter length]. unfold lower in IH. destruct (_ <=? _)%nat; cbn; lia. Qed.
Theorem C81_upper_refuted n cs x lambda k : List.Forall okTerm cs -> (list_sum (map h_size cs) <= length lambda)%nat ->
  (forall k, In k (flat_map h_pattern cs) -> (fst k < n)%nat /\ (snd k < n)%nat) ->
  In k (flat_map h_pattern cs) -> (fst k < snd k)%nat -> containerValues n cs x lambda = UB.
Proof.
  intros Hok Hl Hr Hk Hu. destruct (containerTriplets_spec cs x lambda 0 Hok Hl) as (t & T1 & T2 & _).
  unfold containerValues, containerPattern, setFromTriplets. rewrite (inRange_ok n).
  2:{ intros a Ha. rewrite ones_keys in Ha. auto. }
  cbn [obind]. rewrite T1. cbn [obind]. rewrite (inRange_ok n).
  2:{ intros a Ha. apply Hr. rewrite <- T2. exact Ha. }
  cbn [obind]. fold (build t []). fold (build (ones (flat_map h_pattern cs)) []). rewrite keys_build, ones_keys. cbn [map].
  assert (KB : map fst (build t []) = fold_left (fun m k => addKey k m) (flat_map h_pattern cs) []) by (rewrite keys_build, T2; reflexivity).
  rewrite <- KB, map_length. unfold mapValues.
  assert (S : (length (lower (build t [])) < length (build t []))%nat).
  { assert (I : In k (map fst (build t []))) by (rewrite KB; apply fold_In; now left).
    apply in_map_iff in I. destruct I as ([k' v] & E & I). cbn in E. subst k'. clear - I Hu.
    induction (build t []) as [|a m IH]; [destruct I|]. cbn [lower filter length]. fold (lower m). destruct I as [->|I].
    - cbn [fst]. replace (snd k <=? fst k)%nat with false by (symmetry; apply Nat.leb_gt; exact Hu). pose proof (lower_length m). lia.
    - specialize (IH I). destruct (_ <=? _)%nat; cbn [length]; lia. }
  replace (length (build t []) <=? length (lower (build t [])))%nat with false by (symmetry; apply Nat.leb_gt; exact S). reflexivity.
Qed.
Example C81_upper_example : containerValues 2 [mkHterm 1 [(0, 1); (1, 0)]%nat (fun x l => [nth 0 l 0; nth 0 l 0])] [] [5] = UB.
Proof. reflexivity. Qed.

(** ** C81.  The inverse kinematics problem (full cost Hessian, joint limits) meets the hypotheses whenever the Hessian of the cost is symmetric. *)
Lemma entry_row n i0 (h : nat -> R) i j : forall a, entry (combine (map (fun j => (i0, j)) (seq a n)) (map h (seq a n))) i j =
  if (Nat.eqb i0 i && (a <=? j)%nat && (j <? a + n)%nat)%bool then h j else 0.
Proof.
  induction n as [|n IH]; intros a; cbn [seq map combine entry fst snd].
  - replace (j <? a + 0)%nat with (negb (a <=? j)%nat). 2:{ rewrite Nat.add_0_r, Nat.leb_antisym, negb_involutive. reflexivity. }
    destruct (Nat.eqb i0 i), (a <=? j)%nat; reflexivity.
  - rewrite IH. destruct (Nat.eqb i0 i); cbn [andb]; [|lra].
    destruct (Nat.eqb_spec a j) as [->|N].
    + replace (S j <=? j)%nat with false by (symmetry; apply Nat.leb_gt; lia). rewrite Nat.leb_refl. replace (j <? j + S n)%nat with true by (symmetry; apply Nat.ltb_lt; lia). cbn. lra.
    + replace (S a <=? j)%nat with (a <=? j)%nat. 2:{ destruct (Nat.leb_spec a j), (Nat.leb_spec (S a) j); try reflexivity; lia. }
      replace (j <? a + S n)%nat with (j <? S a + n)%nat by (f_equal; lia). lra.
Qed.
Lemma combine_app {A B} (l1 l2 : list A) (r1 r2 : list B) : length l1 = length r1 -> combine (l1 ++ l2) (r1 ++ r2) = combine l1 r1 ++ combine l2 r2.
Proof. revert r1. induction l1 as [|a l IH]; intros [|b r] H; try discriminate; [reflexivity|]. cbn. f_equal. apply IH. now injection H. Qed.
Lemma entry_ik n (H : nat -> nat -> R) w i j : (i < n)%nat -> (j < n)%nat -> entry (combine (ikPattern n) (ikValues n H w)) i j = H j i * w.
Proof.
  intros Hi Hj. unfold ikPattern, ikValues.
  assert (G : forall m a, entry (combine (flat_map (fun i => map (fun j => (i, j)) (seq 0 n)) (seq a m))
                 (flat_map (fun j => map (fun i => H i j * w) (seq 0 n)) (seq a m))) i j = if ((a <=? i) && (i <? a + m))%bool%nat then H j i * w else 0).
  { induction m as [|m IH]; intros a; cbn [seq flat_map].
    - cbn [combine entry]. replace (i <? a + 0)%nat with (negb (a <=? i)%nat). 2:{ rewrite Nat.add_0_r, Nat.leb_antisym, negb_involutive. reflexivity. }
      destruct (a <=? i)%nat; reflexivity.
    - rewrite combine_app by (now rewrite !map_length). rewrite entry_app, IH, entry_row. change (0 <=? j)%nat with true. change (0 + n)%nat with n.
      replace (j <? n)%nat with true by (symmetry; apply Nat.ltb_lt; exact Hj). rewrite !andb_true_r.
      destruct (Nat.eqb_spec a i) as [->|N].
      + replace (S i <=? i)%nat with false by (symmetry; apply Nat.leb_gt; lia). rewrite Nat.leb_refl. replace (i <? i + S m)%nat with true by (symmetry; apply Nat.ltb_lt; lia). cbn [andb]. lra.
      + replace (S a <=? i)%nat with (a <=? i)%nat. 2:{ destruct (Nat.leb_spec a i), (Nat.leb_spec (S a) i); try reflexivity; lia. }
        replace (i <? a + S m)%nat with (i <? S a + m)%nat by (f_equal; lia). lra. }
  rewrite G. change (0 <=? i)%nat with true. change (0 + n)%nat with n. replace (i <? n)%nat with true by (symmetry; apply Nat.ltb_lt; exact Hi). reflexivity.
Qed.
Lemma ik_lengths n H w : length (ikPattern n) = length (ikValues n H w).
Proof.
  unfold ikPattern, ikValues.
  assert (G : forall l, length (flat_map (fun i => map (fun j => (i, j)) (seq 0 n)) l) = length (flat_map (fun j => map (fun i => H i j * w) (seq 0 n)) l)).
  { induction l as [|a l IH]; [reflexivity|]. cbn [flat_map]. rewrite !app_length, !map_length, IH. reflexivity. }
  apply G.
Qed.
Lemma ikPattern_In n k : In k (ikPattern n) <-> (fst k < n)%nat /\ (snd k < n)%nat.
Proof.
  unfold ikPattern. rewrite in_flat_map. destruct k as [i j]. cbn [fst snd]. split.
  - intros (a & Ha & H). apply in_map_iff in H. destruct H as (b & E & Hb). injection E as <- <-. apply in_seq in Ha, Hb. lia.
  - intros [Hi Hj]. exists i. split; [apply in_seq; lia|]. apply in_map_iff. exists j. split; [reflexivity|apply in_seq; lia].
Qed.
Theorem C81_inverse_kinematics n H x obj_fac lambda : (forall i j, H x i j = H x j i) -> (n <= length lambda)%nat ->
  exists q v, hessianPattern n (ikCost n H) [jointLimits n] = Ok q /\ evaluateHessian n (ikCost n H) [jointLimits n] x obj_fac lambda = Ok v /\
    length v = length q /\ (forall k, In k q <-> (snd k <= fst k < n)%nat) /\
    forall i j, entry (combine q v) i j = if (j <=? i)%nat && (i <? n)%nat then obj_fac * H x i j else 0.
Proof.
  intros Hs Hl.
  assert (A1 : List.Forall (fun k => (fst k < n)%nat /\ (snd k < n)%nat) (k_pattern (ikCost n H))).
  { apply Forall_forall. intros k Hk. now apply ikPattern_In in Hk. }
  assert (A2 : List.Forall (fun c => List.Forall (fun k => (fst k < n)%nat /\ (snd k <= fst k)%nat) (h_pattern c)) [jointLimits n]) by (repeat constructor).
  assert (A3 : List.Forall okTerm [jointLimits n]) by (repeat constructor).
  assert (A4 : forall x w, length (k_values (ikCost n H) x w) = length (k_pattern (ikCost n H))) by (intros; symmetry; apply ik_lengths).
  set (Hf := fun i j => if (i <? n)%nat && (j <? n)%nat then obj_fac * H x i j else 0).
  destruct (C81_values_partial n (ikCost n H) [jointLimits n] A1 A2 A3 A4 x obj_fac lambda Hf [fun _ _ => 0]) as (q & v & Q & V & L & E).
  - cbn. lia.
  - split; [apply ik_lengths|]. intros i j Hij. cbn [k_pattern k_values ikCost]. unfold Hf.
    destruct (Nat.ltb_spec i n) as [Hi|Hi].
    + replace (j <? n)%nat with true by (symmetry; apply Nat.ltb_lt; lia). cbn [andb]. rewrite entry_ik by lia. rewrite Hs. lra.
    + cbn [andb]. assert (Z : forall l : list (key * R), (forall k, In k (map fst l) -> (fst k < n)%nat) -> entry l i j = 0).
      { induction l as [|[k w] l IH]; intros Hk; [reflexivity|]. cbn [entry]. rewrite IH by (intros; apply Hk; now right).
        assert (fst k < n)%nat by (apply Hk; now left). replace (Nat.eqb (fst k) i) with false by (symmetry; apply Nat.eqb_neq; lia). cbn. lra. }
      apply Z. intros k Hk. rewrite map_fst_combine in Hk by apply ik_lengths. now apply ikPattern_In in Hk.
  - reflexivity.
  - cbn. constructor; [|constructor]. split; reflexivity.
  - exists q, v. split; [exact Q|]. split; [exact V|]. split; [exact L|]. split.
    + destruct (C81_pattern n (ikCost n H) [jointLimits n] A1 A2) as (q' & Q' & _ & P). rewrite Q in Q'. injection Q' as <-.
      intros k. rewrite P. cbn [k_pattern ikCost]. rewrite ikPattern_In. split.
      * intros [[[K1 K2]|(c & [<-|[]] & [])] K3]. lia.
      * intros K. split; [left; lia|lia].
    + intros i j. rewrite E. unfold lagrangian, Hf. cbn [fold_right]. destruct (Nat.leb_spec j i); cbn [andb]; [|reflexivity].
      destruct (Nat.ltb_spec i n); cbn [andb]; [|lra]. replace (j <? n)%nat with true by (symmetry; apply Nat.ltb_lt; lia). lra.
Qed.
Print Assumptions C81_upper_refuted.
Print Assumptions C81_inverse_kinematics.

(** A term that reports a position outside the matrix is never built into a pattern: the pattern exists exactly if every
    reported row and column is smaller than the number of variables. *)
Theorem C81_range n cs :
  (exists p, containerPattern n cs = Ok p) <->
  (forall c k, In c cs -> In k (h_pattern c) -> (fst k < n)%nat /\ (snd k < n)%nat).
Proof.
  unfold containerPattern, setFromTriplets. split.
  - intros [p H] c k Hc Hk.
    destruct (forallb _ _) eqn:F; [|discriminate]. rewrite forallb_forall in F.
    specialize (F (k, 1%R)). cbn [fst] in F.
    assert (Hin : In (k, 1%R) (ones (flat_map h_pattern cs))).
    { unfold ones. apply (in_map (fun k : key => (k, 1%R))). apply in_flat_map. now exists c. }
    specialize (F Hin). apply andb_true_iff in F. destruct F as [A B].
    apply Nat.ltb_lt in A. apply Nat.ltb_lt in B. auto.
  - intros H. replace (forallb _ _) with true; [eexists; reflexivity|]. symmetry. apply forallb_forall.
    intros [k v] Hin. cbn [fst]. unfold ones in Hin. apply in_map_iff in Hin. destruct Hin as (k' & E & Hk). injection E as <- _.
    apply in_flat_map in Hk. destruct Hk as (c & Hc & Hk). destruct (H c k' Hc Hk) as [A B].
    unfold inRange. apply andb_true_iff. split; now apply Nat.ltb_lt.
Qed.
Example C81_range_example : exists p, containerPattern 2%nat [mkHterm 1 [(1, 0); (1, 1)]%nat (fun _ _ => [])] = Ok p.
Proof. apply C81_range. intros c k [<-|[]] [<-|[<-|[]]]; cbn; lia. Qed.
Print Assumptions C81_range.
