(** Properties of generated derivative code: replaced placeholders and layout of sparse derivatives. *)
From Coq Require Import List Arith Ascii String Bool Lia DecimalString.
From Verif Require Import Base.Outcome Core.CodegenModel.
Import ListNotations.
Local Open Scope list_scope.
Local Open Scope nat_scope.

(** * Specification *)
Definition occurs (p t : text) : Prop := exists x y, t = x ++ p ++ y.
(** Replacement of the occurrences from left to right, without looking at replaced text again; the pattern is not empty. *)
Fixpoint substitute (p r : text) (skip : nat) (t : text) : text :=
  match t with
  | [] => []
  | c :: t' => match skip with
               | S k => substitute p r k t'
               | 0 => if prefixb p t then r ++ substitute p r (List.length p - 1) t' else c :: substitute p r 0 t'
               end
  end.
(** A replacement is apart from a placeholder if, in whatever text it is put, every occurrence of the placeholder is beside it. *)
Definition apart (p r : text) : Prop := forall x y u v, u ++ p ++ v = x ++ r ++ y ->
  (exists w, x = u ++ p ++ w) \/ (exists w, y = w ++ p ++ v).

(** * Lemmas *)
Lemma prefixb_iff p : forall t, prefixb p t = true <-> exists v, t = p ++ v.
Proof.
  induction p as [|a p IH]; intros t; cbn; [split; [exists t; reflexivity|reflexivity]|].
  destruct t as [|b t]; [split; [discriminate|intros [v H]; discriminate]|].
  rewrite andb_true_iff, Ascii.eqb_eq, IH. split.
  - intros [-> [v ->]]. exists v; reflexivity.
  - intros [v H]. injection H as -> ->. split; [reflexivity|exists v; reflexivity].
Qed.
Lemma find_some p : forall t k, find p t = Some k ->
  exists x y, t = x ++ p ++ y /\ List.length x = k /\ forall u v, t = u ++ p ++ v -> k <= List.length u.
Proof.
  induction t as [|c t IH]; intros k H; cbn in H.
  - destruct (prefixb p []) eqn:E; [|discriminate]. injection H as <-. apply prefixb_iff in E as [v E].
    exists [], v. split; [exact E|]. split; [reflexivity|intros; apply Nat.le_0_l].
  - destruct (prefixb p (c :: t)) eqn:E.
    + injection H as <-. apply prefixb_iff in E as [v E]. exists [], v. split; [exact E|]. split; [reflexivity|intros; apply Nat.le_0_l].
    + destruct (find p t) as [j|] eqn:F; [|discriminate]. injection H as <-. destruct (IH j eq_refl) as (x & y & -> & Hl & Hm).
      exists (c :: x), y. split; [reflexivity|]. split; [cbn; congruence|]. intros [|d u] v H.
      * cbn in H. rewrite H in E. assert (prefixb p (p ++ v) = true) by (apply prefixb_iff; exists v; reflexivity). congruence.
      * cbn in *. injection H as -> H. apply le_n_S, (Hm u v H).
Qed.
Lemma find_none p : forall t, find p t = None <-> ~ occurs p t.
Proof.
  induction t as [|c t IH]; cbn.
  - destruct (prefixb p []) eqn:E.
    + split; [discriminate|]. intros N. exfalso. apply N. apply prefixb_iff in E as [v E]. exists [], v. exact E.
    + split; [|reflexivity]. intros _ (x & y & H). destruct x; [|discriminate]. cbn in H.
      assert (prefixb p [] = true) by (apply prefixb_iff; exists y; exact H). congruence.
  - destruct (prefixb p (c :: t)) eqn:E.
    + split; [discriminate|]. intros N. exfalso. apply N. apply prefixb_iff in E as [v E]. exists [], v. exact E.
    + destruct (find p t) as [j|] eqn:F; cbn.
      * split; [discriminate|]. intros N. exfalso. apply find_some in F as (x & y & -> & _). apply N. exists (c :: x), y. reflexivity.
      * split; [|reflexivity]. intros _ ([|d x] & y & H).
        -- cbn in H. assert (prefixb p (c :: t) = true) by (apply prefixb_iff; exists y; exact H). congruence.
        -- cbn in H. injection H as -> H. apply (proj1 IH eq_refl). exists x, y. exact H.
Qed.
Lemma find_at p x y : (forall u v, x ++ p ++ y = u ++ p ++ v -> List.length x <= List.length u) -> find p (x ++ p ++ y) = Some (List.length x).
Proof.
  intros H. destruct (find p (x ++ p ++ y)) as [k|] eqn:F.
  - apply find_some in F as (x' & y' & E & <- & M). f_equal. apply Nat.le_antisymm; [exact (M _ _ eq_refl)|exact (H _ _ E)].
  - exfalso. apply find_none in F. apply F. exists x, y. reflexivity.
Qed.
Lemma replace_at x p y r : replace (x ++ p ++ y) (List.length x) (List.length p) r = x ++ r ++ y.
Proof.
  unfold replace. rewrite firstn_app, firstn_all, Nat.sub_diag, firstn_O, app_nil_r. f_equal. f_equal.
  rewrite skipn_app, skipn_all2, app_nil_l by lia. replace (List.length x + List.length p - List.length x) with (List.length p) by lia.
  rewrite skipn_app, skipn_all, Nat.sub_diag. reflexivity.
Qed.
Lemma substitute_skip p r : forall a y, substitute p r (List.length a) (a ++ y) = substitute p r 0 y.
Proof. induction a as [|c a IH]; intros y; [reflexivity|]. cbn. apply IH. Qed.
Lemma substitute_none p r : forall t, ~ occurs p t -> substitute p r 0 t = t.
Proof.
  induction t as [|c t IH]; intros N; [reflexivity|]. cbn [substitute]. destruct (prefixb p (c :: t)) eqn:E.
  - exfalso. apply N. apply prefixb_iff in E as [v E]. exists [], v. exact E.
  - f_equal. apply IH. intros (x & y & ->). apply N. exists (c :: x), y. reflexivity.
Qed.
Lemma substitute_first p r : p <> [] -> forall x y, (forall u v, x ++ p ++ y = u ++ p ++ v -> List.length x <= List.length u) ->
  substitute p r 0 (x ++ p ++ y) = x ++ r ++ substitute p r 0 y.
Proof.
  intros Hp. induction x as [|c x IH]; intros y M.
  - destruct p as [|a p]; [congruence|]. rewrite app_nil_l. change ((a :: p) ++ y) with (a :: (p ++ y)). cbn [substitute].
    rewrite (proj2 (prefixb_iff (a :: p) (a :: p ++ y))) by (exists y; reflexivity). cbn [List.length]. rewrite Nat.sub_succ, Nat.sub_0_r, substitute_skip. reflexivity.
  - cbn [app substitute]. destruct (prefixb p (c :: x ++ p ++ y)) eqn:E.
    + apply prefixb_iff in E as [v E]. specialize (M [] v E). cbn in M. lia.
    + f_equal. apply IH. intros u v H. specialize (M (c :: u) v). cbn in M. apply le_S_n, M. rewrite H. reflexivity.
Qed.
Lemma app_split {A} (a b c d : list A) : a ++ b = c ++ d -> List.length a <= List.length c -> exists w, c = a ++ w /\ b = w ++ d.
Proof.
  revert c. induction a as [|x a IH]; intros c H L; cbn in *.
  - exists c. split; [reflexivity|exact H].
  - destruct c as [|z c]; cbn in *; [lia|]. injection H as -> H. destruct (IH c H) as (w & -> & Hb); [lia|]. exists w. auto.
Qed.
Lemma app_same {A} (a b c d : list A) : a ++ b = c ++ d -> List.length a = List.length c -> a = c /\ b = d.
Proof. intros H L. destruct (app_split a b c d H) as (w & -> & ->); [lia|]. rewrite app_length in L. destruct w; cbn in *; [|lia]. rewrite app_nil_r. auto. Qed.
(** One replacement leaves the text before and after an occurrence. *)
Lemma all_from (p r : text) : p <> [] -> apart p r -> forall n pre y, List.length y <= n ->
  (forall u v, pre ++ y = u ++ p ++ v -> List.length pre <= List.length u) ->
  exists N, forall fuel, N <= fuel -> replaceAll fuel (pre ++ y) p r = Some (pre ++ substitute p r 0 y).
Proof.
  intros Hp HA. induction n as [|n IH]; intros pre y L Inv.
  - exists 0. intros fuel _. destruct y; [|cbn in L; lia].
    assert (N : find p (pre ++ []) = None). { apply find_none. intros (u & v & H). specialize (Inv u v H). apply (f_equal (@List.length ascii)) in H.
      rewrite !app_length in H. cbn in H. destruct p; [congruence|cbn in H; lia]. }
    destruct fuel; cbn [replaceAll]; rewrite N; reflexivity.
  - destruct (find p y) as [k|] eqn:F.
    + apply find_some in F as (x & z & -> & Hk & M).
      assert (FA : find p ((pre ++ x) ++ p ++ z) = Some (List.length (pre ++ x))).
      { apply find_at. intros u v H. rewrite <- app_assoc in H. pose proof (Inv u v H) as Hu.
        destruct (app_split pre (x ++ p ++ z) u (p ++ v) H Hu) as (w & -> & Hw). specialize (M w v Hw). rewrite !app_length. lia. }
      destruct (IH ((pre ++ x) ++ r) z) as [N HN].
      { rewrite !app_length in L. destruct p; [congruence|cbn in L; lia]. }
      { intros u v H. rewrite <- app_assoc in H. symmetry in H. destruct (HA (pre ++ x) z u v H) as [[w Hw]|[w Hw]].
        - exfalso. rewrite <- app_assoc in H. assert (E : pre ++ x ++ p ++ z = u ++ p ++ (w ++ p ++ z)).
          { rewrite (app_assoc pre x). rewrite Hw. rewrite <- !app_assoc. reflexivity. }
          pose proof (Inv _ _ E) as Hu. destruct (app_split _ _ _ _ E Hu) as (q & -> & Hq). specialize (M q _ Hq).
          apply (f_equal (@List.length ascii)) in Hw. rewrite !app_length in Hw. destruct p; [congruence|cbn in Hw; lia].
        - apply (f_equal (@List.length ascii)) in H. rewrite Hw in H. rewrite !app_length in H. rewrite !app_length. lia. }
      exists (S N). intros fuel Hf. destruct fuel as [|fuel]; [lia|]. rewrite (app_assoc pre x) at 1. cbn [replaceAll]. rewrite FA, replace_at.
      rewrite (substitute_first p r Hp x z). 2:{ intros u v H. rewrite Hk. exact (M u v H). }
      rewrite app_assoc. rewrite HN by lia. rewrite <- !app_assoc. reflexivity.
    + exists 0. intros fuel _. assert (N : find p (pre ++ y) = None).
      { apply find_none. intros (u & v & H). pose proof (Inv u v H) as Hu. destruct (app_split _ _ _ _ H Hu) as (w & -> & Hw).
        apply find_none in F. apply F. exists w, v. exact Hw. }
      destruct fuel; cbn [replaceAll]; rewrite N; rewrite substitute_none; try reflexivity; apply find_none; exact F.
Qed.
(** A criterion that can be computed. *)
Definition compat (a b : text) : bool := prefixb a b || prefixb b a.
Definition apartb (p r : text) : bool :=
  negb (existsb (fun d => compat p (skipn d r)) (seq 0 (List.length r))) && negb (existsb (fun e => compat (skipn e p) r) (seq 1 (List.length p - 1))).
Lemma compat_app a b v y : a ++ v = b ++ y -> compat a b = true.
Proof.
  intros H. unfold compat. apply orb_true_iff. destruct (le_lt_dec (List.length a) (List.length b)) as [L|L].
  - left. apply prefixb_iff. destruct (app_split _ _ _ _ H L) as (w & -> & _). exists w. reflexivity.
  - right. apply prefixb_iff. symmetry in H. destruct (app_split _ _ _ _ H) as (w & -> & _); [lia|]. exists w. reflexivity.
Qed.
Lemma apartb_apart p r : apartb p r = true -> apart p r.
Proof.
  unfold apartb. rewrite andb_true_iff, !negb_true_iff. intros [H1 H2] x y u v E.
  assert (N1 : forall d, d < List.length r -> compat p (skipn d r) = false).
  { intros d Hd. destruct (compat p (skipn d r)) eqn:C; [|reflexivity]. rewrite <- H1. symmetry. apply existsb_exists. exists d. split; [apply in_seq; lia|exact C]. }
  assert (N2 : forall e, 1 <= e < List.length p -> compat (skipn e p) r = false).
  { intros e He. destruct (compat (skipn e p) r) eqn:C; [|reflexivity]. rewrite <- H2. symmetry. apply existsb_exists. exists e. split; [apply in_seq; lia|exact C]. }
  destruct (le_lt_dec (List.length (u ++ p)) (List.length x)) as [La|La].
  - left. rewrite app_assoc in E. destruct (app_split _ _ _ _ E La) as (w & -> & _). exists w. rewrite <- app_assoc. reflexivity.
  - destruct (le_lt_dec (List.length (x ++ r)) (List.length u)) as [Lb|Lb].
    + right. symmetry in E. rewrite app_assoc in E. destruct (app_split _ _ _ _ E Lb) as (w & -> & ->). exists w. reflexivity.
    + exfalso. rewrite app_length in La, Lb. destruct (le_lt_dec (List.length x) (List.length u)) as [Lc|Lc].
      * symmetry in E. destruct (app_split _ _ _ _ E Lc) as (w & -> & Ew). rewrite app_length in Lb.
        assert (Lw : List.length w <= List.length r) by lia. symmetry in Ew. destruct (app_split _ _ _ _ Ew Lw) as (q & -> & Eq).
        specialize (N1 (List.length w)). rewrite app_length in N1. rewrite skipn_app, skipn_all, Nat.sub_diag in N1. cbn in N1.
        rewrite (compat_app p q v y Eq) in N1. assert (true = false) by (apply N1; rewrite !app_length in Lb; lia). discriminate.
      * destruct (app_split _ _ _ _ E) as (w & -> & Ew); [lia|]. rewrite app_length in La, Lc.
        assert (Lw : List.length w <= List.length p) by lia. symmetry in Ew. destruct (app_split _ _ _ _ Ew Lw) as (q & -> & Eq).
        specialize (N2 (List.length w)). rewrite app_length in N2. rewrite skipn_app, skipn_all, Nat.sub_diag in N2. cbn in N2.
        symmetry in Eq. rewrite (compat_app q r v y Eq) in N2. assert (true = false) by (apply N2; rewrite app_length in La; lia). discriminate.
Qed.
Lemma disjoint_apart p r : p <> [] -> r <> [] -> (forall c, In c p -> ~ In c r) -> apart p r.
Proof.
  intros Hp Hr D. apply apartb_apart.
  assert (C : forall a b, a <> [] -> b <> [] -> incl a p -> incl b r -> compat a b = false).
  { intros [|c a] [|d b] Ha Hb Ia Ib; try congruence. unfold compat. cbn.
    assert (N : c <> d). { intros ->. apply (D d); [apply Ia; left; reflexivity|apply Ib; left; reflexivity]. }
    assert (E1 : Ascii.eqb c d = false) by (apply Ascii.eqb_neq; exact N). assert (E2 : Ascii.eqb d c = false) by (apply Ascii.eqb_neq; congruence).
    rewrite E1, E2. reflexivity. }
  assert (SK : forall k (l : text), k < List.length l -> skipn k l <> []). { intros k l L H. apply (f_equal (@List.length ascii)) in H. rewrite skipn_length in H. cbn in H. lia. }
  assert (IS : forall k (l : text), incl (skipn k l) l). { intros k l c Hc. rewrite <- (firstn_skipn k l). apply in_or_app. right. exact Hc. }
  unfold apartb. apply andb_true_iff. rewrite !negb_true_iff. split.
  - destruct (existsb _ _) eqn:E; [|reflexivity]. apply existsb_exists in E as (d & Hd & E). apply in_seq in Hd.
    rewrite C in E; [discriminate|exact Hp|apply SK; lia|apply incl_refl|apply IS].
  - destruct (existsb _ _) eqn:E; [|reflexivity]. apply existsb_exists in E as (d & Hd & E). apply in_seq in Hd.
    rewrite C in E; [discriminate|apply SK; lia|exact Hr|apply IS|apply incl_refl].
Qed.

(** Decimal numbers consist of digits. *)
Definition digits : text := chars "0123456789".
Lemma uint_digits : forall d, incl (chars (NilEmpty.string_of_uint d)) digits.
Proof.
  assert (K : forall c d, In c digits -> incl (chars (NilEmpty.string_of_uint d)) digits -> incl (c :: chars (NilEmpty.string_of_uint d)) digits).
  { intros c d Hc H e [<-|He]; auto. }
  induction d; try (apply K; [cbn; tauto|exact IHd]). intros c [].
Qed.
Lemma to_string_digits n : to_string n <> [] /\ incl (to_string n) digits.
Proof.
  unfold to_string, NilZero.string_of_uint. destruct (Nat.to_uint n) eqn:E.
  - split; [discriminate|]. intros c [<-|[]]. cbn. tauto.
  - rewrite <- E. split; [rewrite E; discriminate|apply uint_digits].
  - rewrite <- E. split; [rewrite E; discriminate|apply uint_digits].
  - rewrite <- E. split; [rewrite E; discriminate|apply uint_digits].
  - rewrite <- E. split; [rewrite E; discriminate|apply uint_digits].
  - rewrite <- E. split; [rewrite E; discriminate|apply uint_digits].
  - rewrite <- E. split; [rewrite E; discriminate|apply uint_digits].
  - rewrite <- E. split; [rewrite E; discriminate|apply uint_digits].
  - rewrite <- E. split; [rewrite E; discriminate|apply uint_digits].
  - rewrite <- E. split; [rewrite E; discriminate|apply uint_digits].
  - rewrite <- E. split; [rewrite E; discriminate|apply uint_digits].
Qed.
Lemma number_apart p n : p <> [] -> (forall c, In c p -> ~ In c digits) -> apart p (to_string n).
Proof. intros Hp H. destruct (to_string_digits n) as [N I]. apply disjoint_apart; auto. intros c Hc Hn. exact (H c Hc (I c Hn)). Qed.

(** * Theorems *)
(** If the replacement is apart from the placeholder, replacing all occurrences ends, with exactly the occurrences replaced from left
    to right, and no placeholder is left. *)
Theorem C103_replace_all (t p r : text) : p <> [] -> apart p r ->
  exists N, forall fuel, N <= fuel -> replaceAll fuel t p r = Some (substitute p r 0 t) /\ ~ occurs p (substitute p r 0 t).
Proof.
  intros Hp HA. destruct (all_from p r Hp HA (List.length t) [] t (le_n _)) as [N HN]; [intros; cbn; lia|].
  assert (F : forall fuel s s', replaceAll fuel s p r = Some s' -> ~ occurs p s').
  { induction fuel as [|fuel IH]; intros s s' H; cbn in H; destruct (find p s) eqn:E; try discriminate.
    - injection H as <-. apply find_none, E. - exact (IH _ _ H). - injection H as <-. apply find_none, E. }
  exists N. intros fuel Hf. split; [exact (HN fuel Hf)|]. exact (F fuel _ _ (HN fuel Hf)).
Qed.
Print Assumptions C103_replace_all.

(** With any replacement, if the replacing ends, then no placeholder is left; and other texts that did not occur still do not if the
    replacement is apart from them. *)
Theorem C103_replaced fuel (t p r t' : text) : replaceAll fuel t p r = Some t' ->
  ~ occurs p t' /\ forall q, apart q r -> ~ occurs q t -> ~ occurs q t'.
Proof.
  revert t. induction fuel as [|fuel IH]; intros t H; cbn in H; destruct (find p t) as [k|] eqn:E; try discriminate.
  - injection H as <-. split; [apply find_none, E|auto].
  - destruct (IH _ H) as [H1 H2]. split; [exact H1|]. intros q A N. apply (H2 q A).
    apply find_some in E as (x & y & -> & <- & _). rewrite replace_at. intros (u & v & Ho). symmetry in Ho.
    destruct (A _ _ _ _ Ho) as [[w ->]|[w ->]]; apply N.
    + exists u, (w ++ p ++ y). rewrite <- !app_assoc. reflexivity.
    + exists (x ++ p ++ w), v. rewrite <- !app_assoc. reflexivity.
  - injection H as <-. split; [apply find_none, E|auto].
Qed.
Print Assumptions C103_replaced.

(** A replacement that contains the placeholder is replaced again without end. *)
Theorem C103_endless_refuted (t p r : text) : occurs p t -> occurs p r -> forall fuel, replaceAll fuel t p r = None.
Proof.
  intros Ht Hr fuel. revert t Ht. induction fuel as [|fuel IH]; intros t Ht; cbn; destruct (find p t) as [k|] eqn:E;
    try reflexivity; try (apply find_none in E; contradiction).
  apply IH. apply find_some in E as (x & y & -> & <- & _). rewrite replace_at. destruct Hr as (a & b & ->).
  exists (x ++ a), (b ++ y). rewrite <- !app_assoc. reflexivity.
Qed.
Print Assumptions C103_endless_refuted.

(** A single replacement throws without a placeholder and otherwise replaces the first one only. *)
Theorem C103_replace_once (t p r : text) : (~ occurs p t -> replaceOnce t p r = Throw) /\
  forall x y, t = x ++ p ++ y -> (forall u v, t = u ++ p ++ v -> List.length x <= List.length u) -> replaceOnce t p r = Ok (x ++ r ++ y).
Proof.
  unfold replaceOnce. split.
  - intros N. apply find_none in N. rewrite N. reflexivity.
  - intros x y -> M. rewrite (find_at p x y M), replace_at. reflexivity.
Qed.
Print Assumptions C103_replace_once.

Lemma each_done : forall ps t, (forall p r, In (p, r) ps -> p <> [] /\ apart p r) ->
  exists N, forall fuel, N <= fuel -> replaceEach fuel t ps = Some (fold_left (fun t pr => substitute (fst pr) (snd pr) 0 t) ps t).
Proof.
  induction ps as [|[p r] ps IH]; intros t H; [exists 0; reflexivity|].
  destruct (H p r (or_introl eq_refl)) as [Hp HA]. destruct (C103_replace_all t p r Hp HA) as [N1 H1].
  destruct (IH (substitute p r 0 t)) as [N2 H2]; [intros q s Hq; apply H; right; exact Hq|].
  exists (N1 + N2). intros fuel Hf. cbn [replaceEach]. rewrite (proj1 (H1 fuel ltac:(lia))). rewrite H2 by lia. reflexivity.
Qed.
Lemma each_clean fuel : forall ps t t', replaceEach fuel t ps = Some t' ->
  forall q, (forall p r, In (p, r) ps -> apart q r) -> (~ occurs q t -> ~ occurs q t') /\ (In q (map fst ps) -> ~ occurs q t').
Proof.
  induction ps as [|[p r] ps IH]; intros t t' H q A; cbn in H.
  - injection H as <-. split; [auto|intros []].
  - destruct (replaceAll fuel t p r) as [s|] eqn:E; [|discriminate]. destruct (C103_replaced _ _ _ _ _ E) as [C1 C2].
    destruct (IH s t' H q (fun p' r' Hi => A p' r' (or_intror Hi))) as [I1 I2]. split.
    + intros N. apply I1, C2; [exact (A p r (or_introl eq_refl))|exact N].
    + intros [<-|Hq]; [apply I1; exact C1|exact (I2 Hq)].
Qed.
Definition names (systemName ns1 ns2 : text) : list (text * text) := [(chars "DERIVATIVE_NAME", systemName); (chars "NS1", ns1); (chars "NS2", ns2)].
Definition fill (t : text) (ps : list (text * text)) : text := fold_left (fun t pr => substitute (fst pr) (snd pr) 0 t) ps t.
(** For names that are apart from their placeholders, and all dimensions, writing the two files ends.  The header is the template with
    names and sizes filled in, the first MAX_COUNT of it being the number of temporaries; the source is the template with names and sizes filled in and the
    generated code in the place of the first code placeholder; it throws if and only if one of these two is missing. *)
Theorem C103_files (header source systemName ns1 ns2 code place : text) inDim outDim tmp :
  (forall p r, In (p, r) (names systemName ns1 ns2) -> apart p r) ->
  let ps := [(chars "DERIVATIVE_NAME", systemName); (chars "NS1", ns1); (chars "NS2", ns2); (chars "IN_DIM", to_string inDim);
             (chars "OUT_DIM", to_string outDim)] in
  exists N, forall fuel, N <= fuel -> exists o, writeCodeFile fuel header source systemName ns1 ns2 inDim outDim tmp code place = Some o /\
    (o = Throw <-> ~ occurs (chars "MAX_COUNT") (fill header ps) \/ ~ occurs place (fill source ps)) /\
    (forall x y a b, fill header ps = x ++ chars "MAX_COUNT" ++ y -> fill source ps = a ++ place ++ b ->
       (forall u v, fill header ps = u ++ chars "MAX_COUNT" ++ v -> List.length x <= List.length u) ->
       (forall u v, fill source ps = u ++ place ++ v -> List.length a <= List.length u) ->
       o = Ok (x ++ to_string tmp ++ y, a ++ code ++ b)).
Proof.
  intros HN ps. assert (HP : forall p r, In (p, r) ps -> p <> [] /\ apart p r).
  { intros p r Hi. assert (ND : forall q, forallb (fun c => negb (existsb (Ascii.eqb c) digits)) q = true -> forall c, In c q -> ~ In c digits).
    { intros q Hq c Hc Hd. rewrite forallb_forall in Hq. specialize (Hq c Hc). rewrite negb_true_iff in Hq.
      assert (existsb (Ascii.eqb c) digits = true) by (apply existsb_exists; exists c; split; [exact Hd|apply Ascii.eqb_refl]). congruence. }
    destruct Hi as [E|[E|[E|[E|[E|[]]]]]]; injection E as <- <-; (split; [discriminate|]).
    - apply HN. left. reflexivity. - apply HN. right. left. reflexivity. - apply HN. right. right. left. reflexivity.
    - apply number_apart; [discriminate|apply ND; reflexivity]. - apply number_apart; [discriminate|apply ND; reflexivity]. }
  destruct (each_done ps header HP) as [N1 H1]. destruct (each_done ps source HP) as [N2 H2].
  exists (N1 + N2). intros fuel Hf. unfold writeCodeFile. change (sizesAndNames systemName ns1 ns2 inDim outDim) with ps.
  rewrite H1, H2 by lia. change (fold_left _ ps header) with (fill header ps). change (fold_left _ ps source) with (fill source ps).
  eexists. split; [reflexivity|]. unfold replaceOnce. split.
  - destruct (find (chars "MAX_COUNT") (fill header ps)) as [k|] eqn:E1; cbn [obind].
    + destruct (find place (fill source ps)) as [j|] eqn:E2; cbn [obind].
      * split; [discriminate|]. intros [N|N]; apply find_none in N; congruence.
      * split; [intros _; right; apply find_none, E2|reflexivity].
    + split; [intros _; left; apply find_none, E1|reflexivity].
  - intros x y a b Ex Ea Mx Ma. rewrite Ex in Mx. rewrite Ea in Ma. rewrite Ex, Ea, (find_at _ x y Mx), (find_at _ a b Ma), !replace_at. reflexivity.
Qed.
Print Assumptions C103_files.

(** If every name and number is apart from every placeholder, no placeholder is left after filling in. *)
Theorem C103_no_placeholder fuel (t t' systemName ns1 ns2 : text) inDim outDim :
  replaceEach fuel t (sizesAndNames systemName ns1 ns2 inDim outDim) = Some t' ->
  forall q, In q [chars "DERIVATIVE_NAME"; chars "NS1"; chars "NS2"; chars "IN_DIM"; chars "OUT_DIM"] ->
  (forall r, In r [systemName; ns1; ns2; to_string inDim; to_string outDim] -> apart q r) -> ~ occurs q t'.
Proof.
  intros H q Hq A. apply (proj2 (each_clean fuel _ t t' H q (fun p r Hi => A r ltac:(
    destruct Hi as [E|[E|[E|[E|[E|[]]]]]]; injection E as <- <-; cbn; tauto)))). exact Hq.
Qed.
Print Assumptions C103_no_placeholder.

(** A name that contains another placeholder is changed: the class does not get the name it was asked for. *)
Theorem C103_captured_refuted : exists systemName fuel, ~ occurs (chars "DERIVATIVE_NAME") systemName /\
  replaceEach fuel (chars "class DERIVATIVE_NAME {}") (sizesAndNames systemName (chars "core") (chars "generated") 3 4)
    = Some (chars "class Fcore {}") /\ systemName <> chars "Fcore".
Proof.
  exists (chars "FNS1"), 2. split; [apply find_none; vm_compute; reflexivity|]. split; [vm_compute; reflexivity|vm_compute; discriminate].
Qed.
Print Assumptions C103_captured_refuted.

(** Usual names are apart from all placeholders. *)
Example usual_names : forall q, In q [chars "DERIVATIVE_NAME"; chars "NS1"; chars "NS2"; chars "IN_DIM"; chars "OUT_DIM"] ->
  forall r, In r [chars "TestJacobian"; chars "core"; chars "generated"; to_string 34; to_string 6] -> apart q r.
Proof.
  intros q Hq r Hr. apply apartb_apart.
  assert (F : forallb (fun q => forallb (apartb q) [chars "TestJacobian"; chars "core"; chars "generated"; to_string 34; to_string 6])
    [chars "DERIVATIVE_NAME"; chars "NS1"; chars "NS2"; chars "IN_DIM"; chars "OUT_DIM"] = true) by (vm_compute; reflexivity).
  rewrite forallb_forall in F. specialize (F q Hq). rewrite forallb_forall in F. exact (F r Hr).
Qed.
Example files_case : writeCodeFile 10 (chars "class DERIVATIVE_NAME { Matrix<OUT_DIM, IN_DIM> j; array<MAX_COUNT> v; };")
    (chars "DERIVATIVE_NAME::DERIVATIVE_NAME() { PLACE }") (chars "Jac") (chars "core") (chars "gen") 12 4 7 (chars "v[0] = 1;") (chars "PLACE")
  = Some (Ok (chars "class Jac { Matrix<4, 12> j; array<7> v; };", chars "Jac::Jac() { v[0] = 1; }")).
Proof. vm_compute. reflexivity. Qed.

(** * Sparsity patterns *)
Lemma rowcol_in rows cols (S : nat -> nat -> bool) o i : In (o, i) (rowcol (initPattern rows cols S)) <-> i < rows /\ o < cols /\ S i o = true.
Proof.
  cbn. rewrite in_flat_map. split.
  - intros (a & Ha & H). apply in_flat_map in H as (b & Hb & H). apply in_seq in Ha. apply in_seq in Hb.
    destruct (S a b) eqn:E; [|destruct H]. destruct H as [H|[]]. injection H as <- <-. repeat split; [lia|lia|exact E].
  - intros (Hi & Ho & E). exists i. split; [apply in_seq; lia|]. apply in_flat_map. exists o. split; [apply in_seq; lia|]. rewrite E. left. reflexivity.
Qed.
Lemma nodup_rows (S : nat -> nat -> bool) cols i : NoDup (flat_map (fun j => if S i j then [(j, i)] else []) (seq 0 cols)) /\
  forall e, In e (flat_map (fun j => if S i j then [(j, i)] else []) (seq 0 cols)) -> snd e = i.
Proof.
  split.
  - generalize 0. induction cols as [|c IH]; intros a; cbn; [constructor|]. destruct (S i a); cbn; [|apply IH]. constructor; [|apply IH].
    intros H. apply in_flat_map in H as (b & Hb & H). apply in_seq in Hb. destruct (S i b); [|destruct H]. destruct H as [H|[]]. injection H as H. lia.
  - intros e H. apply in_flat_map in H as (b & Hb & H). destruct (S i b); [|destruct H]. destruct H as [<-|[]]. reflexivity.
Qed.
Lemma NoDup_app_ {A} (a b : list A) : NoDup a -> NoDup b -> (forall e, In e a -> In e b -> False) -> NoDup (a ++ b).
Proof.
  induction a as [|x a IH]; intros Ha Hb D; [exact Hb|]. inversion Ha; subst. cbn. constructor.
  - intros H. apply in_app_or in H as [H|H]; [contradiction|]. apply (D x); [left; reflexivity|exact H].
  - apply IH; auto. intros e He. apply D. right. exact He.
Qed.
(** For a function with [rows] inputs and [cols] outputs, where S i o says that output o may depend on input i: the row and column
    indices are the positions of these entries in the Jacobian, each once, and the vector is the pattern of the Jacobian row by row. *)
Theorem C103_pattern rows cols (S : nat -> nat -> bool) : let p := initPattern rows cols S in
  (forall o i, In (o, i) (combine (row p) (col p)) <-> i < rows /\ o < cols /\ S i o = true) /\ NoDup (combine (row p) (col p)) /\
  List.length (row p) = List.length (col p) /\ List.length (sparsity p) = rows * cols /\
  forall o i, i < rows -> o < cols -> nth_error (sparsity p) (o * rows + i) = Some (S i o).
Proof.
  intros p. assert (C : combine (row p) (col p) = rowcol p).
  { unfold row, col. induction (rowcol p) as [|[a b] l IH]; cbn; [reflexivity|]. rewrite IH. reflexivity. }
  rewrite C. split; [intros o i; apply rowcol_in|]. split.
  - assert (G : forall r a, NoDup (flat_map (fun i => flat_map (fun j => if S i j then [(j, i)] else []) (seq 0 cols)) (seq a r))); [|apply G].
    induction r as [|r IH]; intros a; cbn; [constructor|]. apply NoDup_app_; [apply nodup_rows|apply IH|].
    intros e H1 H2. apply nodup_rows in H1. apply in_flat_map in H2 as (b & Hb & H2). apply nodup_rows in H2. apply in_seq in Hb. lia.
  - split; [unfold row, col; rewrite !map_length; reflexivity|]. split; [cbn; rewrite map_length, seq_length; reflexivity|].
    intros o i Hi Ho. cbn. rewrite nth_error_map. rewrite (nth_error_nth' _ 0) by (rewrite seq_length; nia). rewrite seq_nth by nia. cbn.
    rewrite Nat.add_comm, Nat.mod_add, Nat.div_add by lia. rewrite Nat.mod_small, Nat.div_small by lia. reflexivity.
Qed.
Print Assumptions C103_pattern.

Lemma inner_full (i c : nat) : flat_map (fun j : nat => [(j, i)]) (seq 0 c) = map (fun j => (j, i)) (seq 0 c).
Proof. induction (seq 0 c) as [|a l IH]; cbn; [reflexivity|]. rewrite IH. reflexivity. Qed.
Lemma map_seq_shift {A} (g : nat -> A) n a : map g (seq a n) = map (fun k => g (a + k)) (seq 0 n).
Proof.
  revert a. induction n as [|n IH]; intros a; [reflexivity|]. cbn [seq map]. rewrite Nat.add_0_r. f_equal.
  rewrite (IH (S a)), <- seq_shift, map_map. apply map_ext. intros k. f_equal. lia.
Qed.
Lemma full_rows (c : nat) : forall r a : nat, flat_map (fun i : nat => map (fun j => (j, i)) (seq 0 c)) (seq a r) = map (fun k => (k mod c, a + k / c)) (seq 0 (r * c)).
Proof.
  induction r as [|r IH]; intros a; [reflexivity|]. rewrite seq_S, flat_map_app, IH. cbn [flat_map]. rewrite app_nil_r.
  replace (S r * c) with (r * c + c) by lia. rewrite seq_app, map_app. f_equal. rewrite (map_seq_shift _ c (0 + r * c)).
  apply map_ext_in. intros j Hj. apply in_seq in Hj. rewrite Nat.add_0_l, (Nat.add_comm (r * c)), Nat.mod_add, Nat.div_add by lia.
  rewrite Nat.mod_small, Nat.div_small by lia. reflexivity.
Qed.
Lemma flat_map_ext_in {A B} (f g : A -> list B) l : (forall a, In a l -> f a = g a) -> flat_map f l = flat_map g l.
Proof. induction l as [|x l IH]; intros H; cbn; [reflexivity|]. rewrite (H x), IH; [reflexivity| |left; reflexivity]. intros a Ha. apply H. right. exact Ha. Qed.
Lemma flat_map_nil {A B} (f : A -> list B) l : (forall a, In a l -> f a = []) -> flat_map f l = [].
Proof. induction l as [|x l IH]; intros H; cbn; [reflexivity|]. rewrite (H x), IH; [reflexivity| |left; reflexivity]. intros a Ha. apply H. right. exact Ha. Qed.
(** Without a restriction, entry k of the derivative handed to the generated code is the one that a matrix with one row per output
    stores at position k, column by column; there are as many as asked for. *)
Theorem C103_dense IN_DIM OUT_DIM : let '(p, n) := jacobianRequest IN_DIM OUT_DIM (fun _ _ => true) in
  List.length (row p) = n /\ forall k, k < n -> nth_error (row p) k = Some (k mod OUT_DIM) /\ nth_error (col p) k = Some (k / OUT_DIM).
Proof.
  unfold jacobianRequest. assert (E : rowcol (initPattern IN_DIM OUT_DIM (fun _ _ => true)) = map (fun k => (k mod OUT_DIM, k / OUT_DIM)) (seq 0 (IN_DIM * OUT_DIM))).
  { cbn. etransitivity; [|exact (full_rows OUT_DIM IN_DIM 0)]. apply flat_map_ext_in. intros i _. apply inner_full. }
  unfold row, col. rewrite E, !map_map. rewrite map_length, seq_length. split; [reflexivity|]. intros k Hk.
  rewrite !nth_error_map, (nth_error_nth' _ 0) by (rewrite seq_length; lia). rewrite seq_nth by lia. split; reflexivity.
Qed.
Print Assumptions C103_dense.
(** The patterns of the linearizers ask for exactly the entries of the state and of the input Jacobian, column by column; the inputs
    come after the states. *)
Theorem C103_linearizer n m : 
  List.length (row (sparsityA n m)) = n * n /\ List.length (row (sparsityB n m)) = n * m /\
  (forall k, k < n * n -> nth_error (row (sparsityA n m)) k = Some (k mod n) /\ nth_error (col (sparsityA n m)) k = Some (k / n)) /\
  (forall k, k < n * m -> nth_error (row (sparsityB n m)) k = Some (k mod n) /\ nth_error (col (sparsityB n m)) k = Some (n + k / n)).
Proof.
  assert (EA : rowcol (sparsityA n m) = map (fun k => (k mod n, k / n)) (seq 0 (n * n))).
  { unfold sparsityA, initPattern. cbn [rowcol]. rewrite seq_app, flat_map_app, (flat_map_nil _ (seq (0 + n) m)), app_nil_r.
    - etransitivity; [|exact (full_rows n n 0)]. apply flat_map_ext_in. intros i Hi. apply in_seq in Hi. rewrite <- inner_full. apply flat_map_ext_in. intros j _.
      rewrite (proj2 (Nat.ltb_lt i n)) by lia. reflexivity.
    - intros i Hi. apply in_seq in Hi. apply flat_map_nil. intros j _. rewrite (proj2 (Nat.ltb_ge i n)) by lia. reflexivity. }
  assert (EB : rowcol (sparsityB n m) = map (fun k => (k mod n, n + k / n)) (seq 0 (n * m))).
  { unfold sparsityB, initPattern. cbn [rowcol]. rewrite seq_app, flat_map_app, (flat_map_nil _ (seq 0 n)), app_nil_l.
    - rewrite (Nat.mul_comm n m). etransitivity; [|exact (full_rows n m n)]. apply flat_map_ext_in. intros i Hi. apply in_seq in Hi. rewrite <- inner_full. apply flat_map_ext_in. intros j _.
      rewrite (proj2 (Nat.ltb_ge i n)) by lia. reflexivity.
    - intros i Hi. apply in_seq in Hi. apply flat_map_nil. intros j _. rewrite (proj2 (Nat.ltb_lt i n)) by lia. reflexivity. }
  unfold row, col. rewrite EA, EB, !map_map, !map_length, !seq_length. split; [reflexivity|]. split; [reflexivity|].
  split; intros k Hk; rewrite !nth_error_map, (nth_error_nth' _ 0) by (rewrite seq_length; lia); rewrite seq_nth by lia; split; reflexivity.
Qed.
Print Assumptions C103_linearizer.
(** The differentiation needs as many indices as entries asked for.  With any entry left out by the user's pattern there are fewer. *)
Theorem C103_sparse_refuted IN_DIM OUT_DIM (S : nat -> nat -> bool) : (exists i o, i < IN_DIM /\ o < OUT_DIM /\ S i o = false) ->
  List.length (row (fst (jacobianRequest IN_DIM OUT_DIM S))) < snd (jacobianRequest IN_DIM OUT_DIM S).
Proof.
  intros (i & o & Hi & Ho & E). unfold jacobianRequest, row. cbn [fst snd]. rewrite map_length.
  assert (NI : ~ In (o, i) (rowcol (initPattern IN_DIM OUT_DIM S))). { intros H. apply rowcol_in in H. destruct H as (_ & _ & H). congruence. }
  pose proof (C103_pattern IN_DIM OUT_DIM S) as (_ & ND & _). pose proof (C103_dense IN_DIM OUT_DIM) as (LD & _).
  assert (CE : combine (row (initPattern IN_DIM OUT_DIM S)) (col (initPattern IN_DIM OUT_DIM S)) = rowcol (initPattern IN_DIM OUT_DIM S)).
  { unfold row, col. induction (rowcol (initPattern IN_DIM OUT_DIM S)) as [|[a b] l IH]; cbn; [reflexivity|]. rewrite IH; [reflexivity|]. intros H. apply NI. right. exact H. }
  rewrite CE in ND. unfold row in LD. rewrite map_length in LD. rewrite <- LD.
  assert (L : List.length ((o, i) :: rowcol (initPattern IN_DIM OUT_DIM S)) <= List.length (rowcol (initPattern IN_DIM OUT_DIM (fun _ _ => true)))).
  { apply NoDup_incl_length; [constructor; assumption|]. intros [a b] [H|H].
    - injection H as <- <-. apply rowcol_in. auto.
    - apply rowcol_in in H. apply rowcol_in. destruct H as (H1 & H2 & _). auto. }
  cbn in L. cbn. lia.
Qed.
Print Assumptions C103_sparse_refuted.

(** After the loops the Hessian is symmetric, whatever was computed below the diagonal: each entry is the computed one on or above it. *)
Section Hessian.
Context {V : Type} (n : nat).
Lemma inner_loop i : forall l (h : nat -> V), i < n -> (forall j, In j l -> j < i) -> 
  let h' := fold_left (fun h j => upd h (i * n + j) (h (j * n + i))) l h in
  (forall a b, a < n -> b < n -> a <> i \/ ~ In b l -> h' (a * n + b) = h (a * n + b)) /\
  (forall j, In j l -> h' (i * n + j) = h (j * n + i)).
Proof.
  induction l as [|x l IH] using rev_ind; intros h Hi Hl h'; [split; [reflexivity|intros j []]|].
  unfold h'. rewrite fold_left_app. cbn [fold_left].
  destruct (IH h Hi) as [K1 K2]; [intros j Hj; apply Hl, in_or_app; left; exact Hj|]. cbn zeta in K1, K2.
  set (g := fold_left _ l h) in *. assert (Hx : x < i) by (apply Hl, in_or_app; right; left; reflexivity). split.
  - intros a b Ha Hb Hc. unfold upd. destruct (Nat.eqb_spec (a * n + b) (i * n + x)) as [E|E].
    + exfalso. assert (a = i /\ b = x) as [-> ->]. { assert (a = i) by (destruct (Nat.lt_trichotomy a i) as [T|[T|T]]; [exfalso; nia|exact T|exfalso; nia]). subst a. split; [reflexivity|lia]. } destruct Hc as [Hc|Hc]; [congruence|]. apply Hc, in_or_app. right. left. reflexivity.
    + apply K1; auto. destruct Hc as [Hc|Hc]; [left; exact Hc|right]. intros Hb'. apply Hc, in_or_app. left. exact Hb'.
  - intros j Hj. unfold upd. destruct (Nat.eqb_spec (i * n + j) (i * n + x)) as [E|E].
    + assert (j = x) as -> by lia. apply K1; [lia|lia|left]. intros ->. lia.
    + apply in_app_or in Hj as [Hj|[->|[]]]; [exact (K2 j Hj)|congruence].
Qed.
Theorem C103_hessian (hes : nat -> V) i j : i < n -> j < n -> symmetrise n hes (i * n + j) = hes (Nat.min i j * n + Nat.max i j).
Proof.
  intros Hi Hj. unfold symmetrise.
  assert (G : forall k, k <= n -> let h := fold_left (fun h i => fold_left (fun h j => upd h (i * n + j) (h (j * n + i))) (seq 0 i) h) (seq 0 k) hes in
    forall a b, a < n -> b < n -> h (a * n + b) = if (a <? k) && (b <? a) then hes (b * n + a) else hes (a * n + b)).
  { induction k as [|k IH]; intros Hk h a b Ha Hb; [reflexivity|]. unfold h. rewrite seq_S, fold_left_app. cbn [fold_left]. rewrite Nat.add_0_l.
    specialize (IH ltac:(lia)). cbn zeta in IH. set (g := fold_left _ (seq 0 k) hes) in *.
    destruct (inner_loop k (seq 0 k) g) as [K1 K2]; [lia|intros x Hx; apply in_seq in Hx; lia|]. cbn zeta in K1, K2.
    destruct (Nat.eq_dec a k) as [->|Na].
    - destruct (lt_dec b k) as [L|L].
      + rewrite K2 by (apply in_seq; lia). rewrite (proj2 (Nat.ltb_lt k (S k))), (proj2 (Nat.ltb_lt b k)) by lia. cbn [andb].
        rewrite IH by lia. rewrite (proj2 (Nat.ltb_ge k b)) by lia. rewrite andb_false_r. reflexivity.
      + rewrite K1 by (auto; right; intros Hx; apply in_seq in Hx; lia). rewrite IH by lia. rewrite (proj2 (Nat.ltb_ge b k)) by lia. rewrite !andb_false_r. reflexivity.
    - rewrite K1 by auto. rewrite IH by lia. replace (a <? S k) with (a <? k); [reflexivity|].
      destruct (Nat.ltb_spec a k); destruct (Nat.ltb_spec a (S k)); lia || reflexivity. }
  rewrite (G n (le_n n) i j Hi Hj). rewrite (proj2 (Nat.ltb_lt i n)) by lia. cbn [andb]. destruct (Nat.ltb_spec j i).
  - rewrite Nat.min_r, Nat.max_l by lia. reflexivity.
  - rewrite Nat.min_l, Nat.max_r by lia. reflexivity.
Qed.
End Hessian.
Print Assumptions C103_hessian.
Example pattern_case : row (initPattern 2 2 (fun i o => (o <=? i))) = [0; 0; 1] /\ col (initPattern 2 2 (fun i o => (o <=? i))) = [0; 1; 1].
Proof. split; reflexivity. Qed.
