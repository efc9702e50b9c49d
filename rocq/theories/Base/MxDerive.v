(** Derivatives of matrix-valued functions of a real variable. *)
From mathcomp Require Import all_ssreflect all_algebra all_fingroup.
From Coq Require Import Reals IndefiniteDescription.
From Coquelicot Require Import Coquelicot.
From Verif Require Import Base.RField.
Set Implicit Arguments. Unset Strict Implicit. Unset Printing Implicit Defensive.
Import GRing.Theory.
Local Open Scope ring_scope.

(** D is the derivative of A at t: entry by entry. *)
Definition mderive m n (A : R -> 'M[R]_(m, n)) (t : R) (D : 'M[R]_(m, n)) : Prop :=
  forall i j, is_derive (fun s : R => A s i j) t (D i j).

Lemma der_val (f : R -> R) (t d d' : R) : is_derive f t d -> d = d' -> is_derive f t d'.
Proof. by move=> H <-. Qed.
Lemma der_ext (f g : R -> R) (t d : R) : (forall s, f s = g s) -> is_derive f t d -> is_derive g t d.
Proof. move=> E H; exact: (is_derive_ext f g t d E H). Qed.
Lemma der_ext_loc (f g : R -> R) (t d : R) : locally t (fun s => f s = g s) -> is_derive f t d -> is_derive g t d.
Proof. move=> E H; exact: (is_derive_ext_loc f g t d E H). Qed.
Lemma der_const (c t : R) : is_derive (fun _ : R => c) t (0 : R).
Proof. exact: is_derive_const. Qed.
Lemma der_add (f g : R -> R) (t a b : R) : is_derive f t a -> is_derive g t b -> is_derive (fun s => f s + g s) t (a + b).
Proof. move=> A B; exact: (is_derive_plus f g t a b A B). Qed.
Lemma der_opp (f : R -> R) (t a : R) : is_derive f t a -> is_derive (fun s => - f s) t (- a).
Proof. move=> A; exact: (is_derive_opp f t a A). Qed.
Lemma der_mul (f g : R -> R) (t a b : R) : is_derive f t a -> is_derive g t b -> is_derive (fun s => f s * g s) t (a * g t + f t * b).
Proof. move=> A B; exact: (is_derive_mult f g t a b A B Rmult_comm). Qed.
Lemma der_sum (I : Type) (r : seq I) (f : I -> R -> R) (d : I -> R) (t : R) : (forall i, is_derive (f i) t (d i)) ->
  is_derive (fun s => \sum_(i <- r) f i s) t (\sum_(i <- r) d i).
Proof.
  move=> H; elim: r=> [|i r IH].
  - rewrite big_nil. apply: (@der_ext (fun _ => 0)); [by move=> s; rewrite big_nil|exact: der_const].
  - rewrite big_cons. apply: (@der_ext (fun s => f i s + \sum_(j <- r) f j s)); [by move=> s; rewrite big_cons|].
    exact: der_add.
Qed.
Lemma exder_sum (I : Type) (r : seq I) (P : pred I) (f : I -> R -> R) (t : R) : (forall i, exists d : R, is_derive (f i) t d) ->
  exists d : R, is_derive (fun s => \sum_(i <- r | P i) f i s) t d.
Proof.
  move=> H; elim: r=> [|i r [d IH]].
  - exists 0. apply: (@der_ext (fun _ => 0)); [by move=> s; rewrite big_nil|exact: der_const].
  - case E: (P i).
    + have [di Hi] := H i. exists (di + d). apply: (@der_ext (fun s => f i s + \sum_(j <- r | P j) f j s)); [by move=> s; rewrite big_cons E|].
      exact: der_add.
    + exists d. apply: (@der_ext (fun s => \sum_(j <- r | P j) f j s)); [by move=> s; rewrite big_cons E|exact: IH].
Qed.
Lemma exder_prod (I : Type) (r : seq I) (P : pred I) (f : I -> R -> R) (t : R) : (forall i, exists d : R, is_derive (f i) t d) ->
  exists d : R, is_derive (fun s => \prod_(i <- r | P i) f i s) t d.
Proof.
  move=> H; elim: r=> [|i r [d IH]].
  - exists 0. apply: (@der_ext (fun _ => 1)); [by move=> s; rewrite big_nil|exact: der_const].
  - case E: (P i).
    + have [di Hi] := H i. eexists. apply: (@der_ext (fun s => f i s * \prod_(j <- r | P j) f j s)); [by move=> s; rewrite big_cons E|].
      exact: (der_mul Hi IH).
    + exists d. apply: (@der_ext (fun s => \prod_(j <- r | P j) f j s)); [by move=> s; rewrite big_cons E|exact: IH].
Qed.

Section Matrix.
Variable t : R.

Lemma mder_const m n (C : 'M[R]_(m, n)) : mderive (fun _ => C) t 0.
Proof. move=> i j; rewrite mxE; exact: der_const. Qed.
Lemma mder_add m n (A B : R -> 'M[R]_(m, n)) DA DB : mderive A t DA -> mderive B t DB -> mderive (fun s => A s + B s) t (DA + DB).
Proof.
  move=> HA HB i j; rewrite mxE. apply: (@der_ext (fun s => A s i j + B s i j)); [by move=> s; rewrite mxE|].
  exact: der_add.
Qed.
Lemma mder_opp m n (A : R -> 'M[R]_(m, n)) DA : mderive A t DA -> mderive (fun s => - A s) t (- DA).
Proof.
  move=> HA i j; rewrite mxE. apply: (@der_ext (fun s => - A s i j)); [by move=> s; rewrite mxE|]. exact: der_opp.
Qed.
Lemma mder_tr m n (A : R -> 'M[R]_(m, n)) DA : mderive A t DA -> mderive (fun s => (A s)^T) t (DA^T).
Proof. move=> HA i j; rewrite mxE. apply: (@der_ext (fun s => A s j i)); [by move=> s; rewrite mxE|]. exact: HA. Qed.
Lemma mder_mul m n p (A : R -> 'M[R]_(m, n)) (B : R -> 'M[R]_(n, p)) DA DB : mderive A t DA -> mderive B t DB ->
  mderive (fun s => A s *m B s) t (DA *m B t + A t *m DB).
Proof.
  move=> HA HB i j. apply: (@der_ext (fun s => \sum_k A s i k * B s k j)); [by move=> s; rewrite mxE|].
  apply: (@der_val _ _ (\sum_k (DA i k * B t k j + A t i k * DB k j))).
  - apply: der_sum=> k. exact: der_mul.
  - by rewrite big_split !mxE.
Qed.
Lemma mder_ext m n (A B : R -> 'M[R]_(m, n)) D : (forall s, A s = B s) -> mderive A t D -> mderive B t D.
Proof. move=> E H i j. apply: (@der_ext (fun s => A s i j)); [by move=> s; rewrite E|exact: H]. Qed.
Lemma mder_val m n (A : R -> 'M[R]_(m, n)) D D' : mderive A t D -> D = D' -> mderive A t D'.
Proof. by move=> H <-. Qed.
Lemma mder_unique m n (A : R -> 'M[R]_(m, n)) D D' : mderive A t D -> mderive A t D' -> D = D'.
Proof. move=> H H'; apply/matrixP=> i j. by rewrite -(is_derive_unique _ _ _ (H i j)) -(is_derive_unique _ _ _ (H' i j)). Qed.

Lemma exder_det n (A : R -> 'M[R]_n) : (forall i j, exists d : R, is_derive (fun s : R => A s i j) t d) -> exists d : R, is_derive (fun s => \det (A s)) t d.
Proof.
  move=> H. rewrite /determinant. apply: exder_sum=> s.
  have [d Hd] := @exder_prod _ (index_enum [finType of 'I_n]) predT (fun i r => A r i (s i)) t (fun i => H i (s i)).
  eexists. apply: (der_mul (der_const _ t) Hd).
Qed.
Lemma exder_adj n (A : R -> 'M[R]_n) D : mderive A t D -> forall i j, exists d : R, is_derive (fun s => (\adj (A s)) i j) t d.
Proof.
  move=> H i j.
  have [d Hd] : exists d : R, is_derive (fun s => \det (row' j (col' i (A s)))) t d.
  { apply: exder_det=> k l. exists (D (lift j k) (lift i l)). apply: (@der_ext (fun s => A s (lift j k) (lift i l))); [by move=> s; rewrite !mxE|exact: H]. }
  eexists. apply: (@der_ext (fun s => (-1) ^+ (j + i) * \det (row' j (col' i (A s))))); [by move=> s; rewrite mxE|].
  apply: (der_mul (der_const _ t) Hd).
Qed.

(** The inverse of an invertible matrix is differentiable. *)
Lemma mder_inv n (A : R -> 'M[R]_n) D : mderive A t D -> A t \in unitmx ->
  mderive (fun s => invmx (A s)) t (- (invmx (A t) *m D *m invmx (A t))) /\
  locally t (fun s => A s \in unitmx).
Proof.
  move=> H U. have Hd0 : \det (A t) != 0 by move: U; rewrite unitmxE unitfE.
  have [d Hd] := @exder_det n A (fun i j => ex_intro _ _ (H i j)).
  have Hloc : locally t (fun s => A s \in unitmx).
  { have C : continuous (fun s => \det (A s)) t by apply: ex_derive_continuous; exists d.
    have := C (fun y => y <> R0). move=> /(_ _) X.
    have L : locally (\det (A t)) (fun y : R => y <> R0).
    { move/eqP: Hd0=> Hd0. exists (mkposreal _ (Rabs_pos_lt _ Hd0))=> y Hy E. subst y. move: Hy. rewrite /ball /= /AbsRing_ball /abs /minus /plus /opp /=.
      rewrite Rplus_0_l Rabs_Ropp. exact: Rlt_irrefl. }
    move: (X L)=> [e He]. exists e=> s Hs. rewrite unitmxE unitfE. apply/eqP. exact: He. }
  split=> //.
  have [G HG] : exists G, mderive (fun s => invmx (A s)) t G.
  { have E : forall i j, exists g : R, is_derive (fun s => invmx (A s) i j) t g.
    { move=> i j. have [a Ha] := exder_adj H i j.
      have Hi : exists e : R, is_derive (fun s => (\det (A s))^-1) t e.
      { exists (- d / (\det (A t) ^ 2))%R. apply: (@der_ext_loc (fun s => / \det (A s))%R).
        - case: Hloc=> e He. exists e=> s Hs. move: (He s Hs). rewrite unitmxE unitfE /GRing.inv /= /Rinvx => /eqP N. by case: eqP.
        - apply: is_derive_inv=> //. by apply/eqP. }
      case: Hi=> e He. eexists. apply: (@der_ext_loc (fun s => (\det (A s))^-1 * (\adj (A s)) i j)).
      - case: Hloc=> e' He'. exists e'=> s Hs. rewrite /invmx (He' s Hs). by rewrite [RHS]mxE.
      - exact: (der_mul He Ha). }
    exists (\matrix_(i, j) proj1_sig (constructive_indefinite_description _ (E i j))).
    move=> i j. rewrite mxE. exact: (proj2_sig (constructive_indefinite_description _ (E i j))). }
  apply: (mder_val HG).
  have P := mder_mul H HG.
  have Z : mderive (fun s => A s *m invmx (A s)) t 0.
  { move=> i j. apply: (@der_ext_loc (fun _ => (1%:M : 'M[R]_n) i j)).
    - case: Hloc=> e He. exists e=> s Hs. by rewrite mulmxV // He.
    - rewrite [X in is_derive _ _ X]mxE. exact: der_const. }
  have := mder_unique P Z. move/eqP; rewrite addrC addr_eq0=> /eqP E.
  have -> : G = invmx (A t) *m (A t *m G) by rewrite mulmxA mulVmx // mul1mx.
  by rewrite E mulmxN mulmxA.
Qed.
End Matrix.
