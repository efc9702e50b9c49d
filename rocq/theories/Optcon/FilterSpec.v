(** Vocabulary for the filter properties: error covariances of linear estimators and weighted samples. *)
From mathcomp Require Import all_ssreflect all_algebra.
From Verif Require Import Base.Mx.
Set Implicit Arguments. Unset Strict Implicit. Unset Printing Implicit Defensive.
Import GRing.Theory Num.Theory Order.TTheory.
Local Open Scope ring_scope.

Section FilterSpec.
Variable F : realFieldType.
Variables n o : nat.

(** A symmetric positive semidefinite matrix. *)
Definition covariance d (P : 'M[F]_d) : Prop := symmetric P /\ possemi P.

(** M1 <= M2 in the order of quadratic forms. *)
Definition below d (M1 M2 : 'M[F]_d) : Prop := possemi (M2 - M1).

(** Error covariance of the estimate x + K (y - H x) when the error of x has covariance P and the
    measurement error has covariance V, whatever the gain K is. *)
Definition posterior (P : 'M[F]_n) (H : 'M[F]_(o, n)) (V : 'M[F]_o) (K : 'M[F]_(n, o)) : 'M[F]_n :=
  (1%:M - K *m H) *m P *m (1%:M - K *m H)^T + K *m V *m K^T.

(** Error covariance of F x + G v when v has covariance C. *)
Definition propagated (P : 'M[F]_n) (A G C : 'M[F]_n) : 'M[F]_n := A *m P *m A^T + G *m C *m G^T.

(** Weighted mean and covariance of s samples (the columns of X). *)
Definition wmean d s (X : 'M[F]_(d, s)) (w : 'I_s -> F) : 'cV[F]_d := \sum_i w i *: col i X.
Definition wcov d s (X : 'M[F]_(d, s)) (c : 'cV[F]_d) (w : 'I_s -> F) : 'M[F]_d :=
  \sum_i w i *: ((col i X - c) *m (col i X - c)^T).
Definition wcross d e s (X : 'M[F]_(d, s)) (c : 'cV[F]_d) (Y : 'M[F]_(e, s)) (b : 'cV[F]_e) (w : 'I_s -> F)
  : 'M[F]_(d, e) := \sum_i w i *: ((col i X - c) *m (col i Y - b)^T).
End FilterSpec.
