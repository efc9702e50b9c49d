(** Model of the Riccati LQ solver: /repo/ct_optcon/include/ct/optcon/solver/lqp/GNRiccatiSolver-impl.hpp
    and the LQ part of /repo/ct_optcon/include/ct/optcon/nloc/NLOCBackendBase-impl.hpp.
    Simplifications: scalars are elements of a real field (exact arithmetic); the arrays of the solver
    and of the problem are functions of the index (every index used is in the range they are sized to,
    N for stage data and N+1 for cost-to-go data); logging is not modelled. *)
From mathcomp Require Import all_ssreflect all_algebra.
From Verif Require Import Base.Outcome Base.Mx Optcon.LQSpec.
Set Implicit Arguments. Unset Strict Implicit. Unset Printing Implicit Defensive.
Import GRing.Theory Num.Theory Order.TTheory.
Local Open Scope ring_scope.

Section LQModel.
Variable F : realFieldType.
Variables n m : nat.

(** NLOptConSettings.hpp: the two settings the solver reads (fixedHessianCorrection, epsilon). *)
Record settings := mk_settings { fixedHessianCorrection : bool; epsilon : F }.

(** The two Eigen factorisations the solver calls (GNRiccatiSolver-impl.hpp lines 220 and 231):
    SelfAdjointEigenSolver (eigenvectors, eigenvalues) and llt().solve(Identity).  Parameters of the
    model: what they return is constrained by hypotheses of the theorems only. *)
Record linalg := mk_linalg { la_eig : 'M[F]_m -> 'M[F]_m * 'rV[F]_m; la_llt : 'M[F]_m -> 'M[F]_m }.

(** Members of the solver, GNRiccatiSolver.hpp lines 80-110 and LQOCSolver.hpp (x_sol_, u_sol_, L_, lv_).
    smallestEigenvalue_ is not modelled (it is only reported). *)
Record solver := mk_solver {
  s_S : nat -> 'M[F]_n; s_sv : nat -> 'cV[F]_n;
  s_G : nat -> 'M[F]_(m, n); s_gv : nat -> 'cV[F]_m;
  s_H : nat -> 'M[F]_m; s_Hi : nat -> 'M[F]_m; s_Hinv : nat -> 'M[F]_m;
  s_L : nat -> 'M[F]_(m, n); s_lv : nat -> 'cV[F]_m;
  s_x : nat -> 'cV[F]_n; s_u : nat -> 'cV[F]_m }.

(** Assignment to one array element. *)
Definition upd (T : Type) (f : nat -> T) (k : nat) (v : T) : nat -> T := fun i => if i == k then v else f i.

(** Eigen's selfadjointView<Lower>: the symmetric matrix given by the lower triangle. *)
Definition low_sym (d : nat) (M : 'M[F]_d) : 'M[F]_d :=
  \matrix_(i, j) (if (j <= i)%N then M i j else M j i).

Variable la : linalg.
Variable se : settings.
Implicit Types (p : lqproblem F n m) (s : solver).

(** initializeCostToGo, GNRiccatiSolver-impl.hpp lines 132-143. *)
Definition initializeCostToGo p s : solver :=
  mk_solver (upd (s_S s) (pN p) (pQ p (pN p))) (upd (s_sv s) (pN p) (pqv p (pN p)))
            (s_G s) (s_gv s) (s_H s) (s_Hi s) (s_Hinv s) (s_L s) (s_lv s) (s_x s) (s_u s).

(** The threshold 1e-10 of line 183. *)
Definition tiny : F := (10%:R ^+ 10)^-1.

(** Lines 181-226 (fixed correction) and 229-258 (eigenvalue correction): Hi and -Hi^-1 from H. *)
Definition correctHessian (H : 'M[F]_m) : 'M[F]_m * 'M[F]_m :=
  if fixedHessianCorrection se then
    let Hi := if tiny < epsilon se then H + epsilon se *: 1%:M else H in
    (Hi, low_sym (- la_llt la (low_sym Hi)))
  else
    let V := (la_eig la (low_sym H)).1 in
    let lam := (la_eig la (low_sym H)).2 in
    let D := \row_j Num.max (lam 0 j) (epsilon se) in
    (V *m diag_mx D *m V^T, V *m diag_mx (\row_j - (D 0 j)^-1) *m V^T).

(** designController, lines 165-260. *)
Definition designController p (k : nat) s : solver :=
  let S' := low_sym (s_S s k.+1) in
  let gv := prv p k + (pB p k)^T *m s_sv s k.+1 + (pB p k)^T *m S' *m pb p k in
  let G := pP p k + (pB p k)^T *m S' *m pA p k in
  let H := pR p k + (pB p k)^T *m S' *m pB p k in
  let Hi := (correctHessian H).1 in
  let Hinv := (correctHessian H).2 in
  mk_solver (s_S s) (s_sv s) (upd (s_G s) k G) (upd (s_gv s) k gv) (upd (s_H s) k H)
            (upd (s_Hi s) k Hi) (upd (s_Hinv s) k Hinv)
            (upd (s_L s) k (Hinv *m G)) (upd (s_lv s) k (Hinv *m gv)) (s_x s) (s_u s).

(** computeCostToGo, lines 147-161. *)
Definition computeCostToGo p (k : nat) s : solver :=
  let S1 := pQ p k + (pA p k)^T *m s_S s k.+1 *m pA p k - (s_L s k)^T *m s_Hi s k *m s_L s k in
  let S2 := 2%:R^-1 *: (S1 + S1^T) in
  let sv := pqv p k + (pA p k)^T *m s_sv s k.+1 + (pA p k)^T *m s_S s k.+1 *m pb p k
            + (s_G s k)^T *m s_lv s k in
  mk_solver (upd (s_S s) k S2) (upd (s_sv s) k sv) (s_G s) (s_gv s) (s_H s) (s_Hi s) (s_Hinv s)
            (s_L s) (s_lv s) (s_x s) (s_u s).

(** solveSingleStage, lines 36-45. *)
Definition solveSingleStage p (k : nat) s : solver :=
  let s := if k.+1 == pN p then initializeCostToGo p s else s in
  let s := designController p k s in
  if (0 < k)%N then computeCostToGo p k s else s.

(** A descending loop over the stages lo+cnt-1, ..., lo. *)
Fixpoint stages p (lo cnt : nat) s : solver :=
  match cnt with
  | 0 => s
  | c.+1 => stages p lo c (solveSingleStage p (lo + c)%N s)
  end.

(** solve, lines 28-32. *)
Definition solve p s : solver := stages p 0 (pN p) s.

(** computeStatesAndControls, lines 56-70: the loop over k = 0..N-1 after x_sol_[0].setZero(). *)
Definition forwardStep p (k : nat) s : solver :=
  let u := s_lv s k + s_L s k *m s_x s k in
  let x := pA p k *m s_x s k + pB p k *m u + pb p k in
  mk_solver (s_S s) (s_sv s) (s_G s) (s_gv s) (s_H s) (s_Hi s) (s_Hinv s) (s_L s) (s_lv s)
            (upd (s_x s) k.+1 x) (upd (s_u s) k u).
Fixpoint forwardSteps p (cnt : nat) s : solver :=
  match cnt with
  | 0 => mk_solver (s_S s) (s_sv s) (s_G s) (s_gv s) (s_H s) (s_Hi s) (s_Hinv s) (s_L s) (s_lv s)
                   (upd (s_x s) 0 0) (s_u s)
  | c.+1 => forwardStep p c (forwardSteps p c s)
  end.
Definition computeStatesAndControls p s : solver := forwardSteps p (pN p) s.

(** setProblem: LQOCSolver.hpp lines 42-46, setProblemImpl lines 89-99: refuses constrained problems;
    the arrays are resized, which leaves the model's functions unchanged. *)
Definition setProblem p s : outcome solver :=
  if pconstrained p then Throw else Ok s.

(** NLOCBackendBase-impl.hpp prepareSolveLQProblem lines 1280-1300 (GNRICCATI branch). *)
Definition prepareSolveLQProblem p (startIndex : nat) s : outcome solver :=
  match setProblem p s with
  | Ok s => Ok (stages p startIndex (pN p - startIndex) s)
  | r => r
  end.
(** finishSolveLQProblem lines 1304-1324 (GNRICCATI branch). *)
Definition finishSolveLQProblem p (endIndex : nat) s : outcome solver :=
  match setProblem p s with
  | Ok s => Ok (computeStatesAndControls p (stages p 0 endIndex.+1 s))
  | r => r
  end.
(** solveFullLQProblem lines 1328-1335 followed by computeStatesAndControls, as its callers do. *)
Definition solveFullLQProblem p s : outcome solver :=
  match setProblem p s with
  | Ok s => Ok (computeStatesAndControls p (solve p s))
  | r => r
  end.
End LQModel.
