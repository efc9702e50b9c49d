(** Model of the continuous-time Riccati solver (iterative variant) and LQR:
    /repo/ct_optcon/include/ct/optcon/lqr/riccati/CARE-impl.hpp lines 50-146 and
    /repo/ct_optcon/include/ct/optcon/lqr/LQR-impl.hpp lines 15-32.
    Not modelled: solveSchurDirect (LAPACK).  Scalars are elements of a real field. *)
From mathcomp Require Import all_ssreflect all_algebra.
Set Implicit Arguments. Unset Strict Implicit. Unset Printing Implicit Defensive.
Import GRing.Theory Num.Theory Order.TTheory.
Local Open Scope ring_scope.

Section CareModel.
Variable F : realFieldType.
Variables n m : nat.

(** Parameters: Eigen's isApprox(., epsilon) and FullPivLU::solve for a (2n x n) matrix. *)
Variable approx : 'M[F]_(n + n) -> 'M[F]_(n + n) -> bool.
Variable lu_solve : 'M[F]_(n + n, n) -> 'M[F]_(n + n, n) -> 'M[F]_n.

(** The loop of solveSchurIterative, CARE-impl.hpp lines 102-121; [None] is "return false".  A singular
    iterate has no inverse: Eigen then produces non-finite numbers, which never compare as approximately
    equal, so the loop runs into maxIterations. *)
Fixpoint signLoop (fuel : nat) (M : 'M[F]_(n + n)) : option 'M[F]_(n + n) :=
  match fuel with
  | 0 => None
  | f.+1 => if M \in unitmx then
              let Mdiff := M - invmx M in
              let Mnew := M - 2%:R^-1 *: Mdiff in
              if approx Mnew M then Some Mnew else signLoop f Mnew
            else None
  end.

(** Lines 123-145: the loop, the blocks and the linear system; [iterations > maxIterations] is tested
    before every iteration, so maxIterations + 1 iterations are possible. *)
Definition careU (W : 'M[F]_(n + n)) : 'M[F]_(n + n, n) := col_mx (ursubmx W) (drsubmx W + 1%:M).
Definition careV (W : 'M[F]_(n + n)) : 'M[F]_(n + n, n) := col_mx (ulsubmx W + 1%:M) (dlsubmx W).
Definition solveSchurIterative (M : 'M[F]_(n + n)) (maxIterations : nat) : option 'M[F]_n :=
  match signLoop maxIterations.+1 M with
  | Some W => Some (lu_solve (careU W) (- careV W))
  | None => None
  end.

(** CARE::solve, lines 51-77 (iterative branch): R_inverse and P. *)
Definition careRinv (R : 'M[F]_m) (RisDiagonal : bool) : 'M[F]_m :=
  if RisDiagonal then \matrix_(i, j) (if i == j then (R i i)^-1 else 0) else invmx R.
Definition hamiltonian (Q : 'M[F]_n) (Rinv : 'M[F]_m) (A : 'M[F]_n) (B : 'M[F]_(n, m)) : 'M[F]_(n + n) :=
  block_mx A (- (B *m Rinv *m B^T)) (- Q) (- A^T).
Definition careSolve Q R A B RisDiagonal maxIterations : option 'M[F]_n :=
  solveSchurIterative (hamiltonian Q (careRinv R RisDiagonal) A B) maxIterations.

(** LQR::compute, LQR-impl.hpp lines 16-32: the gain of a successful design. *)
Definition lqrCompute Q R A B RisDiagonal maxIterations : option 'M[F]_(m, n) :=
  match careSolve Q R A B RisDiagonal maxIterations with
  | Some P => Some (careRinv R RisDiagonal *m (B^T *m P))
  | None => None
  end.
End CareModel.
