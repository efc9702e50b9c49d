(** The native steppers on matrices over a field, the symplectic integrator, and the sensitivity approximations.
    /repo/ct_core/include/ct/core/integration/sensitivity/SensitivityApproximation.h,
    /repo/ct_core/include/ct/core/integration/IntegratorSymplectic-impl.h *)
From mathcomp Require Import all_ssreflect all_algebra.
From Verif.Core Require Import IntModel.
Set Implicit Arguments. Unset Strict Implicit. Unset Printing Implicit Defensive.
Import GRing.Theory.
Local Open Scope ring_scope.

Section Model.
Variable F : fieldType.

(** StepperEulerCT and StepperRK4CT (SteppersCT.h lines 88-95, 114-126) with exact scalars. *)
Definition m_euler (n : nat) (rhs : 'cV[F]_n -> F -> 'cV[F]_n) (x : 'cV[F]_n) (t dt : F) : 'cV[F]_n :=
  euler_step +%R (fun a v => a *: v) rhs x t dt.
Definition m_rk4 (n : nat) (rhs : 'cV[F]_n -> F -> 'cV[F]_n) (x : 'cV[F]_n) (t dt : F) : 'cV[F]_n :=
  rk4_step +%R *%R 2%:R^-1 2%:R 6%:R^-1 +%R (fun a v => a *: v) rhs x t dt.

Section Approx.
Variables n m : nat.
(** getDerivatives(A, B, x, u, t) of the linear (possibly state- and time-dependent) system. *)
Variable lin : 'cV[F]_n -> 'cV[F]_m -> F -> 'M[F]_n * 'M[F]_(n, m).

(** Lines 179-195. *)
Definition forward_euler (dt : F) (x : 'cV[F]_n) (u : 'cV[F]_m) (k : nat) : 'M[F]_n * 'M[F]_(n, m) :=
  let AB := lin x u (k%:R * dt) in (1%:M + dt *: AB.1, dt *: AB.2).
(** Lines 197-217, called with k + 1 (line 132).  colPivHouseholderQr().inverse() is the inverse for an invertible
    matrix; otherwise the result is not specified (None). *)
Definition backward_euler (dt : F) (x : 'cV[F]_n) (u : 'cV[F]_m) (k : nat) : option ('M[F]_n * 'M[F]_(n, m)) :=
  let AB := lin x u (k.+1%:R * dt) in
  if 1%:M - dt *: AB.1 \in unitmx then
    let Ad := invmx (1%:M - dt *: AB.1) in Some (Ad, dt *: (Ad *m AB.2))
  else None.
(** Lines 140-166. *)
Definition tustin (dt : F) (x : 'cV[F]_n) (u : 'cV[F]_m) (x_next : 'cV[F]_n) (k : nat) : option ('M[F]_n * 'M[F]_(n, m)) :=
  let AB := lin x u (k%:R * dt) in
  let front := dt *: AB.1 in
  let back := dt *: (lin x_next u (k.+1%:R * dt)).1 in
  if 1%:M - back \in unitmx then
    let inv := invmx (1%:M - back) in Some (inv *m (1%:M + front), dt *: (inv *m AB.2))
  else None.
(** Lines 220-235; [expm] stands for Eigen's matrix exponential; Ac.inverse() exists only for an invertible Ac. *)
Definition matrix_exponential (expm : 'M[F]_n -> 'M[F]_n) (dt : F) (x : 'cV[F]_n) (u : 'cV[F]_m) (k : nat) :
    option ('M[F]_n * 'M[F]_(n, m)) :=
  let AB := lin x u (k%:R * dt) in
  let Ad := expm (dt *: AB.1) in
  if AB.1 \in unitmx then Some (Ad, invmx AB.1 *m (Ad - 1%:M) *m AB.2) else None.
End Approx.

Section Symplectic.
Variables p v m : nat.
(** Lines 309-345: from the linearisation (A1,B1) at the start and (A2,B2) at the intermediate state. *)
Definition symplectic_AB (dt : F) (A1 A2 : 'M[F]_(p + v)) (B1 B2 : 'M[F]_(p + v, m)) : 'M[F]_(p + v) * 'M[F]_(p + v, m) :=
  let A11 := ulsubmx A1 in let A12 := ursubmx A1 in let b1 := usubmx B1 in
  let A21 := dlsubmx A2 in let A22 := drsubmx A2 in let b2 := dsubmx B2 in
  (block_mx (1%:M + dt *: A11) (dt *: A12)
            (dt *: (A21 *m (1%:M + dt *: A11))) (1%:M + dt *: (A22 + dt *: (A21 *m A12))),
   col_mx (dt *: b1) (dt *: (b2 + dt *: (A21 *m b1)))).
(** symplecticEuler, lines 248-270: linearise at the start and at the state with the new position. *)
Definition symplectic_euler_AB (lin : 'cV[F]_(p + v) -> 'cV[F]_m -> F -> 'M[F]_(p + v) * 'M[F]_(p + v, m))
    (dt : F) (x : 'cV[F]_(p + v)) (u : 'cV[F]_m) (x_next : 'cV[F]_(p + v)) (k : nat) :=
  let x_interm := col_mx (usubmx x_next) (dsubmx x) in
  let AB1 := lin x u (k%:R * dt) in
  let AB2 := lin x_interm u (k%:R * dt) in
  symplectic_AB dt AB1.1 AB2.1 AB1.2 AB2.2.

(** One step of IntegratorSymplectic with boost's symplectic_euler (lines 47-53, 89-106): the position is updated with
    the state at the start, then the velocity with the new position and the old velocity.  pdot and vdot are
    computePdot and computeVdot for a fixed controller. *)
Definition symplectic_step (pdot : 'cV[F]_(p + v) -> 'cV[F]_p) (vdot : 'cV[F]_(p + v) -> 'cV[F]_v) (dt : F)
    (x : 'cV[F]_(p + v)) : 'cV[F]_(p + v) :=
  let p' := usubmx x + dt *: pdot x in
  let v' := dsubmx x + dt *: vdot (col_mx p' (dsubmx x)) in
  col_mx p' v'.
(** integrate_n_steps, lines 32-58: the start is appended, then each step; the given trajectories are not cleared. *)
Fixpoint symplectic_loop pdot vdot (num : nat) (dt : F) (x : 'cV[F]_(p + v)) (t : F) (tr : seq ('cV[F]_(p + v) * F)) :=
  if num is k.+1 then
    let x' := symplectic_step pdot vdot dt x in
    symplectic_loop pdot vdot k dt x' (t + dt) (rcons tr (x', t + dt))
  else (x, tr).
Definition symplectic_integrate pdot vdot (num : nat) (dt : F) x t tr := symplectic_loop pdot vdot num dt x t (rcons tr (x, t)).
End Symplectic.
End Model.
