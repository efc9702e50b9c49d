(** Vectors and quadratic forms over a real field (mathcomp matrices). *)
From mathcomp Require Import all_ssreflect all_algebra.
From mathcomp Require Import ring.
Set Implicit Arguments. Unset Strict Implicit. Unset Printing Implicit Defensive.
Import GRing.Theory Num.Theory Order.TTheory.
Local Open Scope ring_scope.

Section Dot.
Variable F : realFieldType.
Variable n : nat.
Implicit Types a b c : 'cV[F]_n.

(** Scalar product of column vectors. *)
Definition dot a b : F := (a^T *m b) 0 0.

Lemma dotE a b : dot a b = \sum_i a i 0 * b i 0.
Proof. by rewrite /dot mxE; apply: eq_bigr => i _; rewrite mxE. Qed.
Lemma dotC a b : dot a b = dot b a.
Proof. by rewrite !dotE; apply: eq_bigr => i _; rewrite mulrC. Qed.
Lemma dotDl a b c : dot (a + b) c = dot a c + dot b c.
Proof. by rewrite /dot linearD mulmxDl mxE. Qed.
Lemma dotDr a b c : dot a (b + c) = dot a b + dot a c.
Proof. by rewrite /dot mulmxDr mxE. Qed.
Lemma dotNl a b : dot (- a) b = - dot a b.
Proof. by rewrite /dot linearN mulNmx mxE. Qed.
Lemma dotNr a b : dot a (- b) = - dot a b.
Proof. by rewrite /dot mulmxN mxE. Qed.
Lemma dotBl a b c : dot (a - b) c = dot a c - dot b c.
Proof. by rewrite dotDl dotNl. Qed.
Lemma dotBr a b c : dot a (b - c) = dot a b - dot a c.
Proof. by rewrite dotDr dotNr. Qed.
Lemma dotZl k a b : dot (k *: a) b = k * dot a b.
Proof. by rewrite /dot linearZ -scalemxAl mxE. Qed.
Lemma dotZr k a b : dot a (k *: b) = k * dot a b.
Proof. by rewrite dotC dotZl dotC. Qed.
Lemma dot0l a : dot 0 a = 0.
Proof. by rewrite /dot trmx0 mul0mx mxE. Qed.
Lemma dot0r a : dot a 0 = 0.
Proof. by rewrite dotC dot0l. Qed.
Lemma dot_ge0 a : 0 <= dot a a.
Proof. by rewrite dotE; apply: sumr_ge0 => i _; rewrite -expr2 sqr_ge0. Qed.
Lemma dot_eq0 a : dot a a = 0 -> a = 0.
Proof.
rewrite dotE => /eqP; rewrite psumr_eq0; last by move=> i _; rewrite -expr2 sqr_ge0.
move=> /allP H; apply/colP => i; rewrite mxE.
by have := H i (mem_index_enum i); rewrite -expr2 sqrf_eq0 => /eqP.
Qed.
End Dot.

Section Forms.
Variable F : realFieldType.

(** Moving a matrix to the other side. *)
Lemma dot_mulr n m (M : 'M[F]_(n, m)) (a : 'cV_n) (b : 'cV_m) : dot a (M *m b) = dot (M^T *m a) b.
Proof. by rewrite /dot trmx_mul trmxK mulmxA. Qed.
Lemma dot_mull n m (M : 'M[F]_(n, m)) (a : 'cV_n) (b : 'cV_m) : dot (M *m b) a = dot b (M^T *m a).
Proof. by rewrite dotC dot_mulr dotC. Qed.

Variable n : nat.
Definition symmetric (M : 'M[F]_n) : Prop := M^T = M.
(** Positive definite / semidefinite (of the quadratic form). *)
Definition posdef (M : 'M[F]_n) : Prop := forall v : 'cV_n, v != 0 -> 0 < dot v (M *m v).
Definition possemi (M : 'M[F]_n) : Prop := forall v : 'cV_n, 0 <= dot v (M *m v).

Lemma posdef_semi M : posdef M -> possemi M.
Proof.
move=> H v; case: (eqVneq v 0) => [-> | Hv]; first by rewrite dot0l.
exact: ltW (H v Hv).
Qed.

Lemma sym_swap (M : 'M[F]_n) a b : symmetric M -> dot a (M *m b) = dot b (M *m a).
Proof. by move=> H; rewrite dot_mulr H dotC. Qed.

Lemma posdef_unit (M : 'M[F]_n) : posdef M -> M \in unitmx.
Proof.
move=> H; rewrite -row_free_unit -kermx_eq0; apply/negPn/negP => Hk.
have [v Hv Hv0] : exists2 v : 'rV_n, (v <= kermx M)%MS & v != 0.
  by exists (nz_row (kermx M)); rewrite ?nz_row_sub // nz_row_eq0.
have Hz : v *m M = 0 by apply/sub_kermxP.
have := H v^T; rewrite -(inj_eq trmx_inj) trmxK trmx0 => /(_ Hv0).
rewrite /dot trmxK mulmxA Hz mul0mx mxE ltxx; by [].
Qed.

(** Completing the square. *)
Lemma complete_square (H : 'M[F]_n) (h u w : 'cV_n) : symmetric H -> H *m w = - h ->
  dot u (H *m u) / 2%:R + dot u h = dot (u - w) (H *m (u - w)) / 2%:R - dot w (H *m w) / 2%:R.
Proof.
move=> Hs Hw; have -> : h = - (H *m w) by rewrite Hw opprK.
rewrite mulmxBr dotBl !dotBr (sym_swap w u Hs) dotNr.
by field.
Qed.
End Forms.
