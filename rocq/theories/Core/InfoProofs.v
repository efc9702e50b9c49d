(** * Proofs about reading .info files *)
From Coq Require Import List String Ascii ZArith Decimal DecimalString DecimalNat Lia Arith.
From Coq Require Import Floats.SpecFloat.
From Verif Require Import Base.Outcome Core.InfoModel.
Import ListNotations.
Local Open Scope string_scope.

Lemma append_nil_r s : s ++ "" = s.
Proof. induction s; cbn; congruence. Qed.
Lemma append_assoc a b c : (a ++ b) ++ c = a ++ (b ++ c).
Proof. induction a; cbn; congruence. Qed.
Lemma append_inj_l a b c : a ++ b = a ++ c -> b = c.
Proof. induction a; cbn; intros H; auto. apply IHa. congruence. Qed.

Fixpoint has (c : ascii) (s : string) : bool :=
  match s with EmptyString => false | String d r => (Ascii.eqb d c || has c r)%bool end.
Lemma has_app c a b : has c (a ++ b) = (has c a || has c b)%bool.
Proof. induction a; cbn; auto. rewrite IHa. now destruct (Ascii.eqb a c). Qed.

(** ** Paths *)
Lemma split_app acc a b : split_dots acc (a ++ "." ++ b) = (split_dots acc a ++ path b)%list.
Proof.
  revert acc. induction a as [|c r IH]; intros acc; cbn; [reflexivity|].
  destruct (Ascii.eqb c "."); cbn; now rewrite IH.
Qed.
Lemma path_app a b : path (a ++ "." ++ b) = (path a ++ path b)%list.
Proof. apply split_app. Qed.
Lemma split_plain acc s : has "." s = false -> split_dots acc s = [acc ++ s].
Proof.
  revert acc. induction s as [|c r IH]; intros acc; cbn; [now rewrite append_nil_r|].
  destruct (Ascii.eqb c "."); [discriminate|]. cbn. intros H. rewrite IH by auto.
  now rewrite append_assoc.
Qed.
Lemma path_plain s : has "." s = false -> path s = [s].
Proof. apply split_plain. Qed.

(** the text of a path is determined by its keys *)
Fixpoint join (l : list string) : string :=
  match l with [] => "" | [a] => a | a :: r => a ++ "." ++ join r end.
Lemma split_nonempty acc s : split_dots acc s <> [].
Proof. revert acc. induction s; cbn; intros; [discriminate|]. destruct (Ascii.eqb a "."); [discriminate|auto]. Qed.
Lemma join_split acc s : join (split_dots acc s) = acc ++ s.
Proof.
  revert acc. induction s as [|c r IH]; intros acc; cbn; [now rewrite append_nil_r|].
  destruct (Ascii.eqb_spec c ".") as [->|].
  - cbn [join]. destruct (split_dots "" r) eqn:E; [now apply split_nonempty in E|].
    rewrite <- E, IH. reflexivity.
  - rewrite IH. now rewrite append_assoc.
Qed.
Lemma path_inj a b : path a = path b -> a = b.
Proof. intros H. apply (f_equal join) in H. unfold path in H. rewrite !join_split in H. exact H. Qed.

(** ** Numbers *)
Definition plain (s : string) : Prop := has "." s = false /\ has "," s = false.
Lemma plain_empty d : plain (NilEmpty.string_of_uint d).
Proof. unfold plain. induction d; cbn; auto. Qed.
Lemma plain_zero d : plain (NilZero.string_of_uint d).
Proof.
  unfold NilZero.string_of_uint. destruct d; try apply (plain_empty (_ _)). split; reflexivity.
Qed.
Lemma plain_to_string n : plain (to_string n).
Proof. apply plain_zero. Qed.

Lemma to_uint_nonnil n : Nat.to_uint n <> Nil.
Proof.
  intros H. pose proof (Unsigned.of_to n) as O. rewrite H in O. cbn in O. subst n. discriminate.
Qed.
Lemma to_string_inj m n : to_string m = to_string n -> m = n.
Proof.
  unfold to_string. intros H. apply (f_equal NilZero.uint_of_string) in H.
  rewrite !NilZero.usu in H by apply to_uint_nonnil. injection H as H.
  rewrite <- (Unsigned.of_to m), <- (Unsigned.of_to n). congruence.
Qed.

Lemma comma_inj a b a' b' :
  has "," a = false -> has "," a' = false -> a ++ "," ++ b = a' ++ "," ++ b' -> a = a' /\ b = b'.
Proof.
  revert a'. induction a as [|c r IH]; intros [|c' r']; cbn; intros H H' E.
  - injection E as ->. auto.
  - injection E as <- _. cbn in H'. discriminate.
  - injection E as -> _. cbn in H. discriminate.
  - injection E as -> E. destruct (Ascii.eqb c' ","); [discriminate|]. cbn in *.
    destruct (IH r' H H' E). subst. auto.
Qed.
Lemma append_inj_r a b c : a ++ c = b ++ c -> a = b.
Proof.
  intros H. assert (L : forall x y, length (x ++ y) = (length x + length y)%nat).
  { induction x; cbn; auto. }
  assert (length a = length b).
  { apply (f_equal length) in H. rewrite !L in H. lia. }
  revert b H H0. induction a; intros [|d b]; cbn; intros; try discriminate; auto.
  injection H as -> H. f_equal. apply IHa; auto.
Qed.

Definition entry (i j : nat) : string := "(" ++ to_string i ++ "," ++ to_string j ++ ")".
Lemma entry_plain i j : has "." (entry i j) = false.
Proof.
  unfold entry. cbn. rewrite has_app. cbn. rewrite has_app.
  destruct (plain_to_string i) as [-> _], (plain_to_string j) as [-> _]. reflexivity.
Qed.
Lemma entry_inj i j k l : entry i j = entry k l -> i = k /\ j = l.
Proof.
  unfold entry. intros H. cbn in H. injection H as H.
  change (String "," (to_string j ++ ")")) with ("," ++ (to_string j ++ ")")) in H.
  change (String "," (to_string l ++ ")")) with ("," ++ (to_string l ++ ")")) in H.
  apply comma_inj in H; try apply plain_to_string. destruct H as [A B].
  apply append_inj_r in B. split; now apply to_string_inj.
Qed.

Lemma entry_path ns name i j :
  path (ns ++ name ++ "." ++ "(" ++ to_string i ++ "," ++ to_string j ++ ")")
  = (path (ns ++ name) ++ [entry i j])%list.
Proof.
  rewrite <- append_assoc.
  change ("(" ++ to_string i ++ "," ++ to_string j ++ ")") with (entry i j).
  rewrite path_app. f_equal. apply path_plain. apply entry_plain.
Qed.
Lemma scaling_path ns name : path (ns ++ name ++ ".scaling") = (path (ns ++ name) ++ ["scaling"])%list.
Proof. rewrite <- append_assoc. exact (path_app (ns ++ name) "scaling"). Qed.

Lemma of_nodes_app a b p :
  of_nodes (a ++ b) p = match of_nodes a p with Some v => Some v | None => of_nodes b p end.
Proof.
  induction a as [|[q v] r IH]; cbn; auto. destruct (list_eq_dec string_dec q p); auto.
Qed.
Lemma of_nodes_none l p : ~ In p (map fst l) -> of_nodes l p = None.
Proof.
  induction l as [|[q v] r IH]; cbn; intros H; auto.
  destruct (list_eq_dec string_dec q p); [exfalso; auto|]. apply IH. auto.
Qed.
Lemma of_nodes_some l p v : NoDup (map fst l) -> In (p, v) l -> of_nodes l p = Some v.
Proof.
  induction l as [|[q w] r IH]; cbn; intros N H; [tauto|]. inversion N; subst.
  destruct (list_eq_dec string_dec q p) as [->|D].
  - destruct H as [H|H]; [congruence|]. exfalso. apply H2. now apply (in_map fst) in H.
  - destruct H as [H|H]; [congruence|]. auto.
Qed.
