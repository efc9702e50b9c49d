(** Model of the discrete-time LQR designs:
    /repo/ct_optcon/include/ct/optcon/lqr/riccati/DynamicRiccatiEquation.hpp,
    /repo/ct_optcon/include/ct/optcon/lqr/FHDTLQR-impl.hpp,
    /repo/ct_optcon/include/ct/optcon/lqr/riccati/DARE-impl.hpp.
    Scalars are elements of a real field (exact arithmetic); printing is not modelled. *)
From mathcomp Require Import all_ssreflect all_algebra.
From Verif Require Import Base.Outcome Base.Mx Optcon.LQModel.
Set Implicit Arguments. Unset Strict Implicit. Unset Printing Implicit Defensive.
Import GRing.Theory Num.Theory Order.TTheory.
Local Open Scope ring_scope.

Section LqrModel.
Variable F : realFieldType.
Variables n m : nat.

(** Eigen's EigenSolver (real parts of eigenvectors and eigenvalues), a parameter. *)
Variable eig : 'M[F]_m -> 'M[F]_m * 'rV[F]_m.

(** DynamicRiccatiEquation.hpp line 35: epsilon_(1e-5). *)
Definition repsilon : F := (10%:R ^+ 5)^-1.

Definition symmetrise (d : nat) (M : 'M[F]_d) : 'M[F]_d := 2%:R^-1 *: (M + M^T).

(** iterateNaive, DynamicRiccatiEquation.hpp lines 45-66: new P and K. *)
Definition iterateNaive (Q : 'M[F]_n) (R : 'M[F]_m) (A : 'M[F]_n) (B : 'M[F]_(n, m)) (P : 'M[F]_n)
  : 'M[F]_n * 'M[F]_(m, n) :=
  let H := R + B^T *m P *m B in
  let K := - (invmx H *m B^T *m P *m A) in
  (symmetrise (Q + A^T *m P *m A - K^T *m H *m K), K).

(** iterateRobust, DynamicRiccatiEquation.hpp lines 69-109: new P and K.  The assertions (real
    eigenvectors, V^T = V^-1) are hypotheses on [eig] of the theorems. *)
Definition iterateRobust (Q : 'M[F]_n) (R : 'M[F]_m) (A : 'M[F]_n) (B : 'M[F]_(n, m)) (P : 'M[F]_n)
  : 'M[F]_n * 'M[F]_(m, n) :=
  let H0 := symmetrise (R + B^T *m P *m B) in
  let V := (eig H0).1 in
  let lam := (eig H0).2 in
  let D := \row_j (Num.max (lam 0 j) 0 + repsilon) in
  let H := V *m diag_mx D *m V^T in
  let Hinv := V *m diag_mx (\row_j (D 0 j)^-1) *m V^T in
  let K := - (Hinv *m (B^T *m P *m A)) in
  (symmetrise (Q + A^T *m P *m A - K^T *m H *m K), K).

(** The calls FHDTLQR makes on the cost function: second derivatives at (x, u, t). *)
Record costfunction := mk_costfunction {
  d2x : 'cV[F]_n -> 'cV[F]_m -> F -> 'M[F]_n;   (* stateSecondDerivativeIntermediate *)
  d2u : 'cV[F]_n -> 'cV[F]_m -> F -> 'M[F]_m;   (* controlSecondDerivativeIntermediate *)
  d2xf : 'cV[F]_n -> 'cV[F]_m -> F -> 'M[F]_n   (* stateSecondDerivativeTerminal *) }.

(** Smallest real part of the eigenvalues (FHDTLQR-impl.hpp line 112), a parameter. *)
Variable mineig : 'M[F]_n -> F.

(** Lines 130-144: the checks on Q and R that throw. *)
Definition weightsRejected (Q : 'M[F]_n) (R : 'M[F]_m) : bool :=
  [|| [exists i, exists j, Q i j < 0], [exists i, exists j, R i j < 0] | [exists i, R i i <= 0]].

(** The loop of FHDTLQR::solve, lines 120-157, over i = c-1, ..., 0. *)
Fixpoint fhLoop (cf : costfunction) (x : seq 'cV[F]_n) (u : seq 'cV[F]_m) (A : seq 'M[F]_n)
  (B : seq 'M[F]_(n, m)) (dt : F) (checks : bool) (c : nat) (P : 'M[F]_n) (K : nat -> 'M[F]_(m, n))
  : outcome (nat -> 'M[F]_(m, n)) :=
  match c with
  | 0 => Ok K
  | i.+1 =>
      let Q := dt *: d2x cf (nth 0 x i) (nth 0 u i) (i%:R * dt) in
      let R := dt *: d2u cf (nth 0 x i) (nth 0 u i) (i%:R * dt) in
      if checks && weightsRejected Q R then Throw
      else let r := iterateRobust Q R (nth 0 A i) (nth 0 B i) P in
           fhLoop cf x u A B dt checks i r.1 (upd K i r.2)
  end.

(** FHDTLQR::solve, lines 74-158.  K is returned as a function of the stage (size N). *)
Definition fhSolve (cf : costfunction) (x : seq 'cV[F]_n) (u : seq 'cV[F]_m) (A : seq 'M[F]_n)
  (B : seq 'M[F]_(n, m)) (N : nat) (dt : F) (K : nat -> 'M[F]_(m, n)) (checks : bool)
  : outcome (nat -> 'M[F]_(m, n)) :=
  if size x != N.+1 then Throw else if size u != N then Throw
  else if size A != N then Throw else if size B != N then Throw
  else
    let P := d2xf cf (nth 0 x N) 0 (dt * N%:R) in
    if checks && (mineig P < 0) then Throw
    else fhLoop cf x u A B dt checks N P K.

(** designController with given matrices, lines 24-34.  An empty state trajectory makes N wrap around in
    size_t, after which the length check of the inputs throws; so it does here. *)
Definition designControllerAB cf (x : seq 'cV[F]_n) u A B dt K checks :=
  fhSolve cf x u A B (size x).-1 dt K checks.

(** linearizeModel, lines 55-71, and designController with a derivatives object, lines 37-52:
    forward Euler; reads u_trajectory[i] for i < N before its length is checked. *)
Definition designControllerLin cf (dA : 'cV[F]_n -> 'cV[F]_m -> 'M[F]_n)
  (dB : 'cV[F]_n -> 'cV[F]_m -> 'M[F]_(n, m)) (x : seq 'cV[F]_n) (u : seq 'cV[F]_m) dt K checks :=
  let N := (size x).-1 in
  if size x == 0%N then Throw
  else if (size u < N)%N then UB
  else fhSolve cf x u
         [seq 1%:M + dt *: dA (nth 0 x i) (nth 0 u i) | i <- iota 0 N]
         [seq dt *: dB (nth 0 x i) (nth 0 u i) | i <- iota 0 N] N dt K checks.

(** DARE::computeSteadyStateRiccatiMatrix, DARE-impl.hpp lines 33-68; [K] is the caller's matrix, [diff]
    starts at 1.  K.allFinite() always holds in exact arithmetic. *)
Definition maxAbs (d : nat) (M : 'M[F]_d) : F :=
  \big[Num.max/0]_(i < d) \big[Num.max/0]_(j < d) `|M i j|.
Fixpoint dareLoop (fuel : nat) Q R A B eps (P : 'M[F]_n) (K : 'M[F]_(m, n)) (diff : F)
  : 'M[F]_n * 'M[F]_(m, n) * F :=
  match fuel with
  | 0 => (P, K, diff)
  | f.+1 => if diff < eps then (P, K, diff)
            else let r := iterateRobust Q R A B P in dareLoop f Q R A B eps r.1 r.2 (maxAbs (r.1 - P))
  end.
Definition dare Q R A B P K eps maxIter : outcome ('M[F]_n * 'M[F]_(m, n)) :=
  let r := dareLoop maxIter Q R A B eps P K 1 in
  if eps <= r.2 then Throw else Ok r.1.
(** The overload starting from Q, lines 18-29. *)
Definition dareFromQ Q R A B K eps maxIter := dare Q R A B Q K eps maxIter.
End LqrModel.
