(** Specification vocabulary for C31, C34, C61, independent of the model. *)
From Coq Require Import Reals List Arith.
Import ListNotations.
Local Open Scope R_scope.

(** The triplets (rows_k, cols_k, vals_k) are a sparse form of the nr x nc matrix D: every triplet
    is inside the matrix and carries the entry at its position, no position occurs twice, and
    every entry that no triplet names is zero. *)
Definition sparse_form (nr nc : nat) (D : nat -> nat -> R) (rows cols : list nat) (vals : list R)
  : Prop :=
  length rows = length vals /\ length cols = length vals /\
  (forall k, (k < length vals)%nat -> (nth k rows 0 < nr)%nat /\ (nth k cols 0 < nc)%nat /\
     nth k vals 0 = D (nth k rows 0%nat) (nth k cols 0%nat)) /\
  (forall k k', (k < length vals)%nat -> (k' < length vals)%nat ->
     nth k rows 0%nat = nth k' rows 0%nat -> nth k cols 0%nat = nth k' cols 0%nat -> k = k') /\
  (forall r c, (r < nr)%nat -> (c < nc)%nat ->
     (forall k, (k < length vals)%nat -> nth k rows 0%nat = r -> nth k cols 0%nat <> c) ->
     D r c = 0).

(** The signed violation of lo <= v <= hi. *)
Definition violates (lo v hi e : R) : Prop :=
  (lo <= v <= hi -> e = 0) /\ (hi < v -> e = v - hi) /\ (v < lo -> e = v - lo).
