(** Model of ct_optcon/include/ct/optcon/dms/dms_core/RKnDerivatives.h: sensitivities of an integrated shot computed afterwards
    from the logged times and linearisations.  Scalars are elements of a field; n is STATE_DIM and m is CONTROL_DIM.  The
    derivatives of the control spline (SplinerBase.h) are functions of time.  Logs of states and controls are stored but never read
    and not modelled; null pointers to logs neither. *)
From mathcomp Require Import all_ssreflect all_algebra.
Set Implicit Arguments. Unset Strict Implicit. Unset Printing Implicit Defensive.
Import GRing.Theory.
Local Open Scope ring_scope.

(** A computation finishes, ends the process with exit(0), throws, or is undefined. *)
Inductive result (A : Type) := Done (a : A) | Exit | Thrown | Undefined.
Arguments Done {A} a. Arguments Exit {A}. Arguments Thrown {A}. Arguments Undefined {A}.
Definition bind A B (r : result A) (f : A -> result B) : result B := match r with Done a => f a | Exit => Exit | Thrown => Thrown | Undefined => Undefined end.
Definition at_ A (l : seq A) (i : nat) : result A := if List.nth_error l i is Some a then Done a else Undefined.
(** DmsSettings.h 28 *)
Inductive integration := EULER | RK4 | RK5.

Section Rkn.
Variables (F : fieldType) (n m : nat).
(** RKnDerivatives.h 73-84 *)
Record logs := mkLogs { t_log : seq F; A_log : seq 'M[F]_n; B_log : seq 'M[F]_(n, m) }.

(** The loops: a step from the last entry of the history. *)
Fixpoint loop X (step : nat -> X -> result X) (i k : nat) (x : X) : result (seq X) :=
  if k is k'.+1 then bind (step i x) (fun y => bind (loop step i.+1 k' y) (fun r => Done (y :: r))) else Done [::].
Definition history X (step : nat -> X -> result X) (k : nat) (x : X) : result (seq X) := bind (loop step 0 k x) (fun r => Done (x :: r)).

Definition a_21 : F := 2%:R^-1. Definition a_32 : F := 2%:R^-1. Definition a_43 : F := 1.
Definition b1 : F := 1 / 6%:R. Definition b2 : F := 1 / 3%:R. Definition b3 : F := 1 / 3%:R. Definition b4 : F := 1 / 6%:R.

(** 97-105 *)
Definition eulerS (l : logs) (i : nat) (X : 'M[F]_n) : result 'M[F]_n :=
  bind (at_ (t_log l) (i + 1)) (fun t1 => bind (at_ (t_log l) i) (fun t0 => bind (at_ (A_log l) i) (fun a =>
    let dt_sim := t1 - t0 in Done ((1%:M + dt_sim *: a) *m X)))).
(** 111-145, the constants on 113-120 *)
Definition rk4S (l : logs) (i : nat) (X : 'M[F]_n) : result 'M[F]_n :=
  bind (at_ (t_log l) ((i + 1) * 4)) (fun t1 => bind (at_ (t_log l) (i * 4)) (fun t0 =>
  bind (at_ (A_log l) (i * 4)) (fun A0 => bind (at_ (A_log l) (i * 4 + 1)) (fun A1 =>
  bind (at_ (A_log l) (i * 4 + 2)) (fun A2 => bind (at_ (A_log l) (i * 4 + 3)) (fun A3 =>
    let h := t1 - t0 in
    let dK1 := A0 *m X in
    let dK2 := A1 *m (X + (h * a_21) *: dK1) in
    let dK3 := A2 *m (X + (h * a_32) *: dK2) in
    let dK4 := A3 *m (X + (h * a_43) *: dK3) in
    Done (X + h *: (b1 *: dK1 + b2 *: dK2 + b3 *: dK3 + b4 *: dK4)))))))).
(** 88-154 *)
Definition compute_dXdSi (s : integration) (l : logs) : result (seq 'M[F]_n) :=
  match s with
  | EULER => history (eulerS l) (size (A_log l) %/ 1) 1%:M
  | RK4 => history (rk4S l) (size (A_log l) %/ 4) 1%:M
  | RK5 => Exit
  end.

(** 167-175 and 250-261, with the derivative D of the spline. *)
Definition eulerQ (D : F -> 'M[F]_m) (l : logs) (i : nat) (X : 'M[F]_(n, m)) : result 'M[F]_(n, m) :=
  bind (at_ (t_log l) i) (fun t0 => bind (at_ (t_log l) (i + 1)) (fun t1 => bind (at_ (A_log l) i) (fun a => bind (at_ (B_log l) i) (fun b =>
    let dSpl := D t0 in let dt_sim := t1 - t0 in Done (X + dt_sim *: (a *m X + b *m dSpl)))))).
(** 180-225 and 266-312; the two loops differ only in the derivative of the spline they call *)
Definition rk4Q (D : F -> 'M[F]_m) (l : logs) (i : nat) (X : 'M[F]_(n, m)) : result 'M[F]_(n, m) :=
  bind (at_ (t_log l) ((i + 1) * 4)) (fun tn => bind (at_ (t_log l) (i * 4)) (fun t0 =>
  bind (at_ (t_log l) (i * 4 + 1)) (fun t1 => bind (at_ (t_log l) (i * 4 + 2)) (fun t2 => bind (at_ (t_log l) (i * 4 + 3)) (fun t3 =>
  bind (at_ (A_log l) (i * 4)) (fun A0 => bind (at_ (A_log l) (i * 4 + 1)) (fun A1 =>
  bind (at_ (A_log l) (i * 4 + 2)) (fun A2 => bind (at_ (A_log l) (i * 4 + 3)) (fun A3 =>
  bind (at_ (B_log l) (i * 4)) (fun B0 => bind (at_ (B_log l) (i * 4 + 1)) (fun B1 =>
  bind (at_ (B_log l) (i * 4 + 2)) (fun B2 => bind (at_ (B_log l) (i * 4 + 3)) (fun B3 =>
    let h := tn - t0 in
    let dK1 := A0 *m X + B0 *m D t0 in
    let dK2 := A1 *m (X + (h * a_21) *: dK1) + B1 *m D t1 in
    let dK3 := A2 *m (X + (h * a_32) *: dK2) + B2 *m D t2 in
    let dK4 := A3 *m (X + (h * a_43) *: dK3) + B3 *m D t3 in
    Done (X + h *: (b1 *: dK1 + b2 *: dK2 + b3 *: dK3 + b4 *: dK4))))))))))))))).
(** 158-235; [q_i] is splineDerivative_q_i. *)
Definition compute_dXdQi (q_i : F -> 'M[F]_m) (s : integration) (l : logs) : result (seq 'M[F]_(n, m)) :=
  match s with
  | EULER => history (eulerQ q_i l) (size (A_log l)) 0
  | RK4 => history (rk4Q q_i l) (size (A_log l) %/ 4) 0
  | RK5 => Exit
  end.
(** 239-321; the assertion on the sizes of the logs (244) and the one on the numbers of the spline (254) are left out, as in a release build. *)
Definition compute_dXdQip1 (q_iplus1 : F -> 'M[F]_m) (s : integration) (l : logs) : result (seq 'M[F]_(n, m)) :=
  match s with
  | EULER => history (eulerQ q_iplus1 l) (size (A_log l)) 0
  | RK4 => history (rk4Q q_iplus1 l) (size (A_log l) %/ 4) 0
  | RK5 => Thrown
  end.
(** 69, 326: the history is empty from construction on and never written. *)
Definition getdXdHiTraj (l : logs) : seq 'cV[F]_n := [::].
End Rkn.
