(** Linear systems in plain terms: matrices are functions of row and column index. *)
From mathcomp Require Import all_ssreflect all_algebra.
Set Implicit Arguments. Unset Strict Implicit. Unset Printing Implicit Defensive.
Import GRing.Theory Num.Theory Order.TTheory.
Local Open Scope ring_scope.

Section InverseSpec.
Variable F : realFieldType.
Notation mat := (nat -> nat -> F).

(** The n x m matrix X solves the n x n system with m right-hand sides. *)
Definition solves (n m : nat) (A B X : mat) : Prop :=
  forall i j, (i < n)%N -> (j < m)%N -> \sum_(0 <= k < n) A i k * X k j = B i j.

Definition symmetric_mat (n : nat) (A : mat) : Prop := forall i j, (i < n)%N -> (j < n)%N -> A i j = A j i.

(** v' A v > 0 for every nonzero v (A need not be symmetric). *)
Definition positive_definite (n : nat) (A : mat) : Prop :=
  forall v : nat -> F, (exists2 i, (i < n)%N & v i != 0) ->
  0 < \sum_(0 <= i < n) v i * \sum_(0 <= j < n) A i j * v j.

(** Every leading k x k block (k <= n) is nonsingular: it sends no nonzero vector to zero.  This is the
    classical condition for elimination without pivoting. *)
Definition leading_nonsingular (n : nat) (A : mat) : Prop :=
  forall k (v : nat -> F), (k <= n)%N ->
  (forall i, (i < k)%N -> \sum_(0 <= j < k) A i j * v j = 0) -> forall i, (i < k)%N -> v i = 0.

(** The diagonal matrix with the given entries. *)
Definition diag (e : nat -> F) : mat := fun i j => if i == j then e i else 0.
End InverseSpec.
