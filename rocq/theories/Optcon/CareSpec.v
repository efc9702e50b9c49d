(** What a solution of the continuous-time algebraic Riccati equation is. *)
From mathcomp Require Import all_ssreflect all_algebra.
Set Implicit Arguments. Unset Strict Implicit. Unset Printing Implicit Defensive.
Import GRing.Theory.
Local Open Scope ring_scope.

Definition solves_care (F : fieldType) n m (Q : 'M[F]_n) (R : 'M[F]_m) (A : 'M[F]_n) (B : 'M[F]_(n, m))
    (P : 'M[F]_n) : Prop :=
  A^T *m P + P *m A - P *m B *m invmx R *m B^T *m P + Q = 0.
