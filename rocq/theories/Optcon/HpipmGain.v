(** * C83: the feedback of the first stage (HPIPMInterface::computeFeedbackMatrices)

    HPIPM eliminates the state of the first stage, so the interface computes the first
    feedback matrix itself, from the Cholesky factor [Lr] of the Hessian with respect to
    the input at stage 0 and the Riccati matrix [S1] of stage 1. *)
From mathcomp Require Import all_ssreflect all_algebra.
From mathcomp Require Import ring.
From Verif Require Import Base.Mx.
Set Implicit Arguments. Unset Strict Implicit. Unset Printing Implicit Defensive.
Import GRing.Theory Num.Theory Order.TTheory.
Local Open Scope ring_scope.

Section Gain.
Variable F : realFieldType.
Variables n m : nat.

(** Eigen's triangularView<Lower>. *)
Definition lowerTri (M : 'M[F]_m) : 'M[F]_m := \matrix_(i, j) (if (j <= i)%N then M i j else 0).

(** HPIPMInterface-impl.hpp 317-345, the part for stage 0: [solve] is the solution of the
    lower triangular system with the identity on the right (322-323); the gains of the
    other stages are copied from HPIPM (328-331). *)
Definition first_gain (solve : 'M[F]_m -> 'M[F]_m) (Lr : 'M[F]_m) (S1 : 'M[F]_n)
    (P : 'M[F]_(m, n)) (B : 'M[F]_(n, m)) (A : 'M[F]_n) : 'M[F]_(m, n) :=
  let Lr0_inv := solve Lr in
  let G := P + B^T *m S1 *m A in
  - Lr0_inv^T *m Lr0_inv *m G.

(** Specification: cost of the input [u] in the first stage from the state [x], with the
    quadratic cost-to-go of the second stage. *)
Definition first_cost (R : 'M[F]_m) (P : 'M[F]_(m, n)) (A : 'M[F]_n) (B : 'M[F]_(n, m))
    (S1 : 'M[F]_n) (x : 'cV[F]_n) (u : 'cV[F]_m) : F :=
  2%:R^-1 * dot u (R *m u) + dot u (P *m x)
  + 2%:R^-1 * dot (A *m x + B *m u) (S1 *m (A *m x + B *m u)).

Lemma first_cost_quadratic R P A B S1 x u : S1^T = S1 ->
  first_cost R P A B S1 x u =
    2%:R^-1 * dot u ((R + B^T *m S1 *m B) *m u) + dot u ((P + B^T *m S1 *m A) *m x)
    + 2%:R^-1 * dot (A *m x) (S1 *m (A *m x)).
Proof.
move=> Ss; rewrite /first_cost !mulmxDl !mulmxDr !dotDl !dotDr.
have E1 : dot u (B^T *m S1 *m A *m x) = dot (B *m u) (S1 *m (A *m x)).
  by rewrite -!mulmxA dot_mulr trmxK.
have E2 : dot u (B^T *m S1 *m B *m u) = dot (B *m u) (S1 *m (B *m u)).
  by rewrite -!mulmxA dot_mulr trmxK.
have E3 : dot (A *m x) (S1 *m (B *m u)) = dot (B *m u) (S1 *m (A *m x)).
  by apply: sym_swap.
by rewrite E1 E2 E3; field.
Qed.

(** The feedback of the first stage gives the input of least cost, for every state. *)
Theorem C83_first_gain (solve : 'M[F]_m -> 'M[F]_m) (Lr : 'M[F]_m) R P A B (S1 : 'M[F]_n) :
  S1^T = S1 ->
  lowerTri Lr *m (lowerTri Lr)^T = R + B^T *m S1 *m B ->
  lowerTri Lr *m solve Lr = 1%:M ->
  forall (x : 'cV[F]_n) (u : 'cV[F]_m),
    first_cost R P A B S1 x (first_gain solve Lr S1 P B A *m x) <= first_cost R P A B S1 x u
    /\ (first_cost R P A B S1 x u <= first_cost R P A B S1 x (first_gain solve Lr S1 P B A *m x) ->
        u = first_gain solve Lr S1 P B A *m x).
Proof.
move=> Ss HL HS x u.
set L := lowerTri Lr in HL HS *; set Li := solve Lr in HS *.
set w := first_gain solve Lr S1 P B A *m x.
set H := R + B^T *m S1 *m B in HL *.
have LiT : Li^T *m L^T = 1%:M by rewrite -trmx_mul HS trmx1.
have LT : L^T *m Li^T = 1%:M by apply: mulmx1C.
have Hw : H *m w = - ((P + B^T *m S1 *m A) *m x).
  rewrite /w /first_gain -/Li -HL !mulNmx !mulmxN; congr (- _).
  rewrite -!mulmxA (mulmxA L^T) LT mul1mx (mulmxA L) HS mul1mx //.
have Hs : H^T = H.
  by rewrite -HL trmx_mul trmxK.
have E : first_cost R P A B S1 x u - first_cost R P A B S1 x w
         = 2%:R^-1 * dot (L^T *m (u - w)) (L^T *m (u - w)).
  rewrite !first_cost_quadratic // -/H.
  have -> : dot (L^T *m (u - w)) (L^T *m (u - w)) = dot (u - w) (H *m (u - w)).
    by rewrite -HL dot_mull trmxK mulmxA.
  have Eg v : dot v ((P + B^T *m S1 *m A) *m x) = - dot v (H *m w).
    by rewrite Hw dotNr opprK.
  rewrite !Eg mulmxBr !dotBl !dotBr (sym_swap w u Hs).
  by field.
have pos := dot_ge0 (L^T *m (u - w)).
split; first by rewrite -subr_ge0 E mulr_ge0 // invr_ge0 ler0n.
rewrite -subr_le0 E pmulr_rle0 ?invr_gt0 ?ltr0n // => le0.
have /dot_eq0 z : dot (L^T *m (u - w)) (L^T *m (u - w)) = 0.
  by apply/eqP; rewrite eq_le le0 pos.
have : Li^T *m (L^T *m (u - w)) = 0 by rewrite z mulmx0.
by rewrite mulmxA LiT mul1mx => /subr0_eq.
Qed.
End Gain.

(** The hypotheses are met. *)
Example C83_first_gain_example :
  let one : 'M[rat]_1 := 1%:M in
  lowerTri (2%:R *: one) *m (lowerTri (2%:R *: one))^T = one + one^T *m (3%:R *: one) *m one
  /\ lowerTri (2%:R *: one) *m (2%:R^-1 *: one) = 1%:M.
Proof.
have low (k : rat) : lowerTri (k *: (1%:M : 'M[rat]_1)) = k *: 1%:M.
  by apply/matrixP => i j; rewrite !ord1 !mxE.
split.
- rewrite low trmx1 mul1mx mulmx1 linearZ /= trmx1 -scalemxAl mul1mx scalerA.
  by apply/matrixP => i j; rewrite !ord1 !mxE.
- by rewrite low -scalemxAl mul1mx scalerA; apply/matrixP => i j; rewrite !ord1 !mxE.
Qed.

Print Assumptions C83_first_gain.
