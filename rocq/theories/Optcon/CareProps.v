(** C54: the continuous-time algebraic Riccati solver (iterative variant) and the LQR gain. *)
From mathcomp Require Import all_ssreflect all_algebra.
From mathcomp Require Import ring.
From Verif Require Import Base.Mx Optcon.CareSpec Optcon.CareModel Optcon.CareProofs.
Set Implicit Arguments. Unset Strict Implicit. Unset Printing Implicit Defensive.
Import GRing.Theory Num.Theory Order.TTheory.
Local Open Scope ring_scope.

(** C54. Missing for the full property: a bound on the residual when the sign iteration has only converged
    up to the tolerance (here: the final iterate is an exact involution), and the stability of the closed
    loop.  [lu_solve] stands for Eigen's FullPivLU::solve, which solves every solvable system. *)
Theorem C54_care_solution_partial :
  forall (F : realFieldType) (n m : nat) (approx : 'M[F]_(n + n) -> 'M[F]_(n + n) -> bool) lu_solve,
  (forall U Y, (exists X : 'M[F]_n, U *m X = Y) -> U *m lu_solve U Y = Y) ->
  forall (Q : 'M[F]_n) (R : 'M[F]_m) A B (RisDiagonal : bool) maxIterations P W,
  symmetric Q -> symmetric R -> (RisDiagonal -> is_diag_mx R /\ forall i, R i i != 0) ->
  signLoop approx maxIterations.+1 (hamiltonian Q (careRinv R RisDiagonal) A B) = Some W ->
  W *m W = 1%:M -> \rank (careU W) = n ->
  careSolve approx lu_solve Q R A B RisDiagonal maxIterations = Some P ->
  solves_care Q R A B P /\ symmetric P.
Proof. exact care_correct. Qed.
Print Assumptions C54_care_solution_partial.

(** C54. The convergence test with tolerance zero gives an exact involution. *)
Theorem C54_exact_convergence :
  forall (F : realFieldType) (n : nat) (approx : 'M[F]_(n + n) -> 'M[F]_(n + n) -> bool) fuel M W,
  (forall X Y, approx X Y -> X = Y) -> signLoop approx fuel M = Some W -> W *m W = 1%:M.
Proof. exact sign_exact. Qed.
Print Assumptions C54_exact_convergence.

(** C54. The LQR gain K = R^-1 B' P: u = -K x is the pointwise minimiser of running cost plus rate of the
    value function x' P x, and this minimum is zero (Hamilton-Jacobi-Bellman). *)
Theorem C54_lqr_gain_optimal_partial :
  forall (F : realFieldType) (n m : nat) (approx : 'M[F]_(n + n) -> 'M[F]_(n + n) -> bool) lu_solve,
  (forall U Y, (exists X : 'M[F]_n, U *m X = Y) -> U *m lu_solve U Y = Y) ->
  forall (Q : 'M[F]_n) (R : 'M[F]_m) A B (RisDiagonal : bool) maxIterations K W,
  symmetric Q -> symmetric R -> posdef R -> (RisDiagonal -> is_diag_mx R) ->
  signLoop approx maxIterations.+1 (hamiltonian Q (careRinv R RisDiagonal) A B) = Some W ->
  W *m W = 1%:M -> \rank (careU W) = n ->
  lqrCompute approx lu_solve Q R A B RisDiagonal maxIterations = Some K ->
  exists P, [/\ solves_care Q R A B P, symmetric P, K = invmx R *m (B^T *m P) &
    forall x u,
      let rate v := 2%:R * dot (P *m x) (A *m x + B *m v) + dot x (Q *m x) + dot v (R *m v) in
      rate (- (K *m x)) = 0 /\ (u != - (K *m x) -> 0 < rate u)].
Proof. exact lqr_optimal. Qed.
Print Assumptions C54_lqr_gain_optimal_partial.

(** C54. A design is reported as failed exactly when the sign iteration does not pass its convergence test
    within maxIterations + 1 rounds; in particular when no two iterates are ever close. *)
Theorem C54_failure_reported :
  forall (F : realFieldType) (n m : nat) approx lu_solve (Q : 'M[F]_n) (R : 'M[F]_m) A B RisDiagonal maxIterations,
  let failed := signLoop approx maxIterations.+1 (hamiltonian Q (careRinv R RisDiagonal) A B) = None in
  (careSolve approx lu_solve Q R A B RisDiagonal maxIterations = None <-> failed) /\
  (lqrCompute approx lu_solve Q R A B RisDiagonal maxIterations = None <-> failed) /\
  ((forall X Y, approx X Y = false) -> failed).
Proof.
  move=> F n m approx lu_solve Q R A B d k failed.
  have H : careSolve approx lu_solve Q R A B d k = None <-> failed.
    rewrite /careSolve /solveSchurIterative /failed. by case: (signLoop _ _ _).
  split=> //; split.
    rewrite -H /lqrCompute. by case: (careSolve _ _ _ _ _ _ _ _).
  move=> Ha. rewrite /failed. move: (hamiltonian _ _ _ _) => M. elim: k.+1 M => //= f IH M.
  by rewrite Ha IH; case: ifP.
Qed.
Print Assumptions C54_failure_reported.

(** C54. The two ways of inverting R agree on diagonal R. *)
Theorem C54_diagonal_shortcut :
  forall (F : realFieldType) (n m : nat) approx lu_solve (Q : 'M[F]_n) (R : 'M[F]_m) A B maxIterations,
  is_diag_mx R -> (forall i, R i i != 0) ->
  lqrCompute approx lu_solve Q R A B true maxIterations = lqrCompute approx lu_solve Q R A B false maxIterations.
Proof. exact diagonal_shortcut. Qed.
Print Assumptions C54_diagonal_shortcut.

(** The integrator x' = u with unit weights: P = 1, K = 1. *)
Example C54_example : forall F : realFieldType,
  let approx := (fun X Y : 'M[F]_(1 + 1) => X == Y) in
  exists W, [/\ signLoop approx 1 (hamiltonian (1%:M : 'M[F]_1) (careRinv (1%:M : 'M[F]_1) false) 0 1%:M) = Some W,
    W *m W = 1%:M, \rank (careU W) = 1%N &
    lqrCompute approx (@solve_exact F 1) (1%:M : 'M[F]_1) (1%:M : 'M[F]_1) 0 1%:M false 0 = Some 1%:M].
Proof. exact example_integrator. Qed.
