(** What the gains of a finite-horizon LQR design are for, and the Riccati equations. *)
From mathcomp Require Import all_ssreflect all_algebra.
From Verif Require Import Base.Mx Optcon.LQSpec.
Set Implicit Arguments. Unset Strict Implicit. Unset Printing Implicit Defensive.
Import GRing.Theory Num.Theory Order.TTheory.
Local Open Scope ring_scope.

Section LqrSpec.
Variable F : realFieldType.
Variables n m : nat.

(** The regulation problem around the reference: states and inputs are deviations, no linear terms;
    [R k] is the weight on the inputs, [Qf] the final weight. *)
Definition regulator (N : nat) (A : nat -> 'M[F]_n) (B : nat -> 'M[F]_(n, m)) (Q : nat -> 'M[F]_n)
  (R : nat -> 'M[F]_m) (Qf : 'M[F]_n) : lqproblem F n m :=
  mk_lqproblem N false A B (fun _ => 0) (fun _ => 0) (fun _ => 0)
    (fun k => if k == N then Qf else Q k) (fun _ => 0) R (fun _ => 0).

(** The feedback u_k = K_k x_k is the unique optimal control from every stage and state. *)
Definition optimal_feedback (p : lqproblem F n m) (K : nat -> 'M[F]_(m, n)) : Prop :=
  forall j x, (j <= pN p)%N ->
    unique_minimiser p j x (fun k => K k *m closed_loop p K (fun _ => 0) j x (k - j)).

(** The right-hand side of the discrete Riccati equation, in the textbook form
    Q + A'PA - A'PB (R + B'PB)^-1 B'PA. *)
Definition riccati (Q : 'M[F]_n) (R : 'M[F]_m) (A : 'M[F]_n) (B : 'M[F]_(n, m)) (P : 'M[F]_n) : 'M[F]_n :=
  Q + A^T *m P *m A - A^T *m P *m B *m invmx (R + B^T *m P *m B) *m B^T *m P *m A.
End LqrSpec.
