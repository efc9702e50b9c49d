(** What a linear-quadratic optimal control problem is: the documentation of
    /repo/ct_optcon/include/ct/optcon/problem/LQOCProblem.hpp lines 14-33, independently of any solver. *)
From mathcomp Require Import all_ssreflect all_algebra.
From Verif Require Import Base.Mx.
Set Implicit Arguments. Unset Strict Implicit. Unset Printing Implicit Defensive.
Import GRing.Theory Num.Theory Order.TTheory.
Local Open Scope ring_scope.

Section LQSpec.
Variable F : realFieldType.
Variables n m : nat.

(** The data of a problem with N stages (LQOCProblem.hpp members A_, B_, b_, q_, qv_, Q_, rv_, R_, P_);
    pconstrained is isConstrained(). *)
Record lqproblem := mk_lqproblem {
  pN : nat; pconstrained : bool;
  pA : nat -> 'M[F]_n; pB : nat -> 'M[F]_(n, m); pb : nat -> 'cV[F]_n;
  pq : nat -> F; pqv : nat -> 'cV[F]_n; pQ : nat -> 'M[F]_n;
  prv : nat -> 'cV[F]_m; pR : nat -> 'M[F]_m; pP : nat -> 'M[F]_(m, n) }.

Variable p : lqproblem.

(** Intermediate cost of one stage. *)
Definition stage_cost (k : nat) (x : 'cV[F]_n) (u : 'cV[F]_m) : F :=
  pq p k + dot x (pqv p k) + dot u (prv p k) + dot x (pQ p k *m x) / 2%:R
  + dot u (pR p k *m u) / 2%:R + dot u (pP p k *m x).
Definition final_cost (x : 'cV[F]_n) : F :=
  pq p (pN p) + dot x (pqv p (pN p)) + dot x (pQ p (pN p) *m x) / 2%:R.
(** The affine dynamics. *)
Definition next (k : nat) (x : 'cV[F]_n) (u : 'cV[F]_m) : 'cV[F]_n :=
  pA p k *m x + pB p k *m u + pb p k.

(** States reached from [x] at stage [j] under the control sequence [u] (indexed by stage): [i] stages on. *)
Fixpoint state_from (j : nat) (x : 'cV[F]_n) (u : nat -> 'cV[F]_m) (i : nat) : 'cV[F]_n :=
  match i with
  | 0 => x
  | i'.+1 => next (j + i') (state_from j x u i') (u (j + i')%N)
  end.
(** Cost of the remaining stages j..N-1 and of the final state, starting at [x]. *)
Definition cost_from (j : nat) (x : 'cV[F]_n) (u : nat -> 'cV[F]_m) : F :=
  \sum_(i < pN p - j) stage_cost (j + i) (state_from j x u i) (u (j + i)%N)
  + final_cost (state_from j x u (pN p - j)).
(** The controls of the feedback law u_k = l_k + L_k x_k applied from [x] at stage [j]. *)
Fixpoint closed_loop (L : nat -> 'M[F]_(m, n)) (l : nat -> 'cV[F]_m) (j : nat) (x : 'cV[F]_n) (i : nat)
  : 'cV[F]_n :=
  match i with
  | 0 => x
  | i'.+1 => let xi := closed_loop L l j x i' in next (j + i') xi (l (j + i')%N + L (j + i')%N *m xi)
  end.

(** Symmetric weights. *)
Definition symmetric_weights : Prop :=
  (forall k, (k <= pN p)%N -> symmetric (pQ p k)) /\ (forall k, (k < pN p)%N -> symmetric (pR p k)).
(** Convexity: every stage cost and the final cost are convex quadratics. *)
Definition convex_weights : Prop :=
  possemi (pQ p (pN p)) /\
  forall k, (k < pN p)%N -> forall x u,
    0 <= dot x (pQ p k *m x) + dot u (pR p k *m u) + 2%:R * dot u (pP p k *m x).

(** [V], [lam] diagonalise [M] orthogonally. *)
Definition diagonalises (d : nat) (V : 'M[F]_d) (lam : 'rV[F]_d) (M : 'M[F]_d) : Prop :=
  V *m V^T = 1%:M /\ V *m diag_mx lam *m V^T = M.

(** What the two factorisations of the linear algebra library deliver for the matrix [M]: an orthogonal
    diagonalisation, and the inverse when [M] is symmetric positive definite. *)
Definition eigen_correct (d : nat) (eig : 'M[F]_d -> 'M[F]_d * 'rV[F]_d) (M : 'M[F]_d) : Prop :=
  diagonalises (eig M).1 (eig M).2 M.
Definition inverse_correct (d : nat) (inv : 'M[F]_d -> 'M[F]_d) (M : 'M[F]_d) : Prop :=
  symmetric M -> posdef M -> M *m inv M = 1%:M.

(** Every curvature of the quadratic form of [M] is at least [eps]. *)
Definition curvature_at_least (d : nat) (eps : F) (M : 'M[F]_d) : Prop :=
  forall v : 'cV[F]_d, eps * dot v v <= dot v (M *m v).

(** The configured Hessian correction leaves [M] alone: it is positive definite and
    - fixed correction: the configured epsilon is not above the threshold 1e-10 under which none is added;
    - eigenvalue correction: its curvature is already at least epsilon. *)
Definition hessian_untouched (d : nat) (fixed : bool) (eps : F) (M : 'M[F]_d) : Prop :=
  posdef M /\ if fixed then is_true (eps <= (10%:R ^+ 10)^-1) else curvature_at_least eps M.
(** The factorisation used in that mode is correct for [M]. *)
Definition factorisation_correct (d : nat) (fixed : bool) eig inv (M : 'M[F]_d) : Prop :=
  if fixed then inverse_correct inv M else eigen_correct eig M.

(** Two control sequences agree on the stages j..N-1. *)
Definition same_controls (j : nat) (u u' : nat -> 'cV[F]_m) : Prop :=
  forall k, (j <= k < pN p)%N -> u k = u' k.

(** [u] is the only minimiser of the cost from [x] at stage [j]. *)
Definition unique_minimiser (j : nat) (x : 'cV[F]_n) (u : nat -> 'cV[F]_m) : Prop :=
  forall u', cost_from j x u <= cost_from j x u' /\
             (cost_from j x u' = cost_from j x u -> same_controls j u' u).
End LQSpec.

(** Two problems agree on the stages from [k] on and on the final stage. *)
Definition agree_from (F : realFieldType) (n m : nat) (k : nat) (p p' : lqproblem F n m) : Prop :=
  pN p = pN p' /\ pconstrained p = pconstrained p' /\
  pQ p (pN p) = pQ p' (pN p) /\ pqv p (pN p) = pqv p' (pN p) /\
  forall i, (k <= i < pN p)%N ->
    [/\ pA p i = pA p' i, pB p i = pB p' i & pb p i = pb p' i] /\
    [/\ pQ p i = pQ p' i, pqv p i = pqv p' i, pR p i = pR p' i, prv p i = prv p' i & pP p i = pP p' i].
