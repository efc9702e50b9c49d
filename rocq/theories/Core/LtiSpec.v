(** Linear time-invariant systems x(t+1) = A x(t) + B u(t), y = C x, in plain terms. *)
From mathcomp Require Import all_ssreflect all_algebra.
Set Implicit Arguments. Unset Strict Implicit. Unset Printing Implicit Defensive.
Import GRing.Theory Num.Theory Order.TTheory.
Local Open Scope ring_scope.

Section LtiSpec.
Variables (F : realFieldType) (n m : nat).
Implicit Types (A : 'M[F]_n) (B : 'M[F]_(n, m)).

(** A multiplied k times. *)
Fixpoint mpow A (k : nat) : 'M[F]_n := match k with 0 => 1%:M | S k => A *m mpow A k end.

(** State after applying the inputs one after the other. *)
Definition drive A B (x0 : 'cV[F]_n) (us : seq 'cV[F]_m) : 'cV[F]_n := foldl (fun x u => A *m x + B *m u) x0 us.

(** Every state can be reached from the origin by some finite input sequence. *)
Definition reachable A B : Prop := forall x, exists us, drive A B 0 us = x.

(** The partial sums of the infinite Gramian sums. *)
Definition ctrl_gramian A B (K : nat) : 'M[F]_n := \sum_(k < K) mpow A k *m B *m B^T *m (mpow A k)^T.
Definition obs_gramian A (C : 'M[F]_n) (K : nat) : 'M[F]_n := \sum_(k < K) (mpow A k)^T *m C^T *m C *m mpow A k.
(** Energy of the first K outputs of the free response from x0. *)
Definition output_energy A (C : 'M[F]_n) (x0 : 'cV[F]_n) (K : nat) : F :=
  \sum_(k < K) ((C *m (mpow A k *m x0))^T *m (C *m (mpow A k *m x0))) 0 0.
End LtiSpec.
