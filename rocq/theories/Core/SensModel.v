(** Model of the integration of states, sensitivities and costs with the native steppers.
    /repo/ct_optcon/include/ct/optcon/dms/dms_core/SensitivityIntegratorCT.h (line numbers without file name), and
    /repo/ct_core/include/ct/core/integration/sensitivity/SensitivityIntegrator.h for discrete-time linearisation.
    Matrices are represented by the linear maps they stand for: an n x m matrix is a map from R^m to R^n, a product is a
    composition, sums and multiples are pointwise.  Scalars are real numbers. *)
From Coq Require Import Reals List Bool.
From Coquelicot Require Import Coquelicot.
Import ListNotations.

(** The right-hand side functors of the code have side effects (they push into caches and advance an index): the steppers
    of SteppersCT.h (lines 88-95, 114-126) with a right-hand side that threads a state [s]. *)
Section Stateful.
Context {X St : Type}.
Variables (add : X -> X -> X) (mul : R -> X -> X).
Variable rhs : X -> R -> St -> X * St.
Definition euler_st (x : X) (t dt : R) (s : St) : X * St :=
  let '(k, s) := rhs x t s in (add x (mul dt k), s).
Definition rk4_st (x : X) (t dt : R) (s : St) : X * St :=
  let halfstep := (/ 2 * dt)%R in
  let timePlusHalfStep := (t + halfstep)%R in
  let '(k1, s) := rhs x t s in
  let '(k2, s) := rhs (add x (mul halfstep k1)) timePlusHalfStep s in
  let '(k3, s) := rhs (add x (mul halfstep k2)) timePlusHalfStep s in
  let '(k4, s) := rhs (add x (mul dt k3)) (t + dt)%R s in
  (add x (mul (/ 6 * dt)%R (add (add (add k1 (mul 2%R k2)) (mul 2%R k3)) k4)), s).
Inductive stepper := Euler | RK4.
Definition do_step (w : stepper) := match w with Euler => euler_st | RK4 => rk4_st end.
(** The integration loops, SensitivityIntegratorCT.h lines 265-269, 287-291, 311-315, 358-362, 380-384. *)
Fixpoint loop (w : stepper) (n : nat) (x : X) (t dt : R) (s : St) : X * St :=
  match n with
  | O => (x, s)
  | S n => let '(x, s) := do_step w x t dt s in loop w n x (t + dt)%R dt s
  end.
End Stateful.

Section Sens.
Context {V U W : NormedModule R_AbsRing}.
(** computeControlledDynamics, the controller (open loop: a function of time), the linearisation
    (getDerivativeState, getDerivativeControl) and getDerivativeU0 / getDerivativeUf. *)
Variable f : V -> U -> R -> V.
Variable ctrl : R -> U.
Variables (dfx : V -> U -> R -> V -> V) (dfu : V -> U -> R -> U -> V).
Variable dctrl : R -> W -> U.
Variables (L : V -> U -> R -> R) (dLx : V -> U -> R -> V -> R) (dLu : V -> U -> R -> U -> R).

Definition point : Type := (V * U * R)%type.

(** xDot_, lines 152-164: evaluates and caches. *)
Definition xdot (x : V) (t : R) (cache : list point) : V * list point :=
  (f x (ctrl t) t, cache ++ [(x, ctrl t, t)]).
(** integrate, lines 225-270. *)
Definition integrate_state (w : stepper) (n : nat) (x : V) (t dt : R) : V * list point :=
  loop plus scal xdot w n x t dt [].

(** linearize, lines 439-447. *)
Definition linearize (cache : list point) : list (V -> V) * list (U -> V) :=
  (map (fun p => dfx (fst (fst p)) (snd (fst p)) (snd p)) cache, map (fun p => dfu (fst (fst p)) (snd (fst p)) (snd p)) cache).

(** State of the sensitivity right-hand sides: index, "no read out of bounds so far", cached sensitivities. *)
Record sst (Y : Type) := mkS { s_idx : nat; s_ok : bool; s_cache : list Y }.
Arguments mkS {Y}. Arguments s_idx {Y}. Arguments s_ok {Y}. Arguments s_cache {Y}.

Definition madd {A : Type} {B : NormedModule R_AbsRing} (M N : A -> B) : A -> B := fun h => plus (M h) (N h).
Definition mmul {A : Type} {B : NormedModule R_AbsRing} (c : R) (M : A -> B) : A -> B := fun h => scal c (M h).

(** dX0dot_, lines 112-118. *)
Definition dx0dot (arrA : list (V -> V)) (M : V -> V) (t : R) (s : sst (V -> V)) : (V -> V) * sst (V -> V) :=
  let i := s_idx s in
  ((fun h => nth i arrA (fun _ => zero) (M h)), mkS (S i) (s_ok s && Nat.ltb i (length arrA)) (s_cache s ++ [M])).
(** dU0dot_ and dUfdot_, lines 120-140. *)
Definition du0dot (arrA : list (V -> V)) (arrB : list (U -> V)) (cache : list point) (M : W -> V) (t : R) (s : sst (W -> V)) :
    (W -> V) * sst (W -> V) :=
  let i := s_idx s in
  ((fun h => plus (nth i arrA (fun _ => zero) (M h)) (nth i arrB (fun _ => zero) (dctrl (snd (nth i cache (zero, zero, R0))) h))),
   mkS (S i) (s_ok s && Nat.ltb i (length arrA) && Nat.ltb i (length arrB) && Nat.ltb i (length cache)) (s_cache s ++ [M])).
(** integrateSensitivityDX0, lines 282-292; ..DU0, ..DUf, lines 303-340. *)
Definition sens_x0 (w : stepper) (n : nat) (t dt : R) (arrA : list (V -> V)) : (V -> V) * sst (V -> V) :=
  loop madd mmul (dx0dot arrA) w n (fun h => h) t dt (mkS 0 true []).
Definition sens_u0 (w : stepper) (n : nat) (t dt : R) (arrA : list (V -> V)) (arrB : list (U -> V)) (cache : list point) :
    (W -> V) * sst (W -> V) :=
  loop madd mmul (du0dot arrA arrB cache) w n (fun _ => zero) t dt (mkS 0 true []).

(** costDot_, lines 178-183, and integrateCost, lines 351-363 (throws on an empty cache). *)
Definition costdot (cache : list point) (c : R) (t : R) (s : sst R) : R * sst R :=
  let i := s_idx s in let p := nth i cache (zero, zero, R0) in
  (L (fst (fst p)) (snd (fst p)) (snd p), mkS (S i) (s_ok s && Nat.ltb i (length cache)) (s_cache s)).
Definition integrate_cost (w : stepper) (n : nat) (c : R) (t dt : R) (cache : list point) : R * sst R :=
  loop Rplus Rmult (costdot cache) w n c t dt (mkS 0 true []).
(** costdX0dot_, lines 185-190: sensitivity transposed times the state derivative of the cost, that is, the linear form
    h |-> dL/dx (dX0 h). *)
Definition costdx0dot (cache : list point) (sens : list (V -> V)) (g : V -> R) (t : R) (s : sst (V -> R)) : (V -> R) * sst (V -> R) :=
  let i := s_idx s in let p := nth i cache (zero, zero, R0) in
  ((fun h => dLx (fst (fst p)) (snd (fst p)) (snd p) (nth i sens (fun _ => zero) h)),
   mkS (S i) (s_ok s && Nat.ltb i (length cache) && Nat.ltb i (length sens)) (s_cache s)).
(** costdU0dot_, costdUfdot_, lines 192-210. *)
Definition costdu0dot (cache : list point) (sens : list (W -> V)) (g : W -> R) (t : R) (s : sst (W -> R)) : (W -> R) * sst (W -> R) :=
  let i := s_idx s in let p := nth i cache (zero, zero, R0) in
  ((fun h => Rplus (dLx (fst (fst p)) (snd (fst p)) (snd p) (nth i sens (fun _ => zero) h))
                   (dLu (fst (fst p)) (snd (fst p)) (snd p) (dctrl (snd p) h))),
   mkS (S i) (s_ok s && Nat.ltb i (length cache) && Nat.ltb i (length sens)) (s_cache s)).
Definition radd {A : Type} (M N : A -> R) : A -> R := fun h => (M h + N h)%R.
Definition rmul {A : Type} (c : R) (M : A -> R) : A -> R := fun h => (c * M h)%R.
(** integrateCostSensitivityDX0 / DU0 / DUf, lines 375-433. *)
Definition cost_sens_x0 (w : stepper) (n : nat) (t dt : R) (cache : list point) (sens : list (V -> V)) : (V -> R) * sst (V -> R) :=
  loop radd rmul (costdx0dot cache sens) w n (fun _ => 0%R) t dt (mkS 0 true []).
Definition cost_sens_u0 (w : stepper) (n : nat) (t dt : R) (cache : list point) (sens : list (W -> V)) : (W -> R) * sst (W -> R) :=
  loop radd rmul (costdu0dot cache sens) w n (fun _ => 0%R) t dt (mkS 0 true []).

(** ct::core::SensitivityIntegrator::integrateSensitivity, lines 134-152, with dFdxDot_, lines 240-295 (time varying,
    not symplectic): the sensitivities with respect to state and control, all sub-steps at the time [k * dt]. *)
Definition ct_rhsA (cache : list point) (M : V -> V) (t : R) (s : sst (V -> V)) : (V -> V) * sst (V -> V) :=
  let i := s_idx s in let p := nth i cache (zero, zero, R0) in
  ((fun h => dfx (fst (fst p)) (snd (fst p)) t (M h)), mkS (S i) (s_ok s && Nat.ltb i (length cache)) (s_cache s ++ [M])).
Definition ct_rhsB (cache : list point) (M : W -> V) (t : R) (s : sst (W -> V)) : (W -> V) * sst (W -> V) :=
  let i := s_idx s in let p := nth i cache (zero, zero, R0) in
  ((fun h => plus (dfx (fst (fst p)) (snd (fst p)) t (M h)) (dfu (fst (fst p)) (snd (fst p)) t (dctrl t h))),
   mkS (S i) (s_ok s && Nat.ltb i (length cache)) (s_cache s ++ [M])).
End Sens.
(** The loop of lines 145-148: the time argument stays the same. *)
Fixpoint ct_loop {X St : Type} (add : X -> X -> X) (mul : R -> X -> X) (rhs : X -> R -> St -> X * St)
    (w : stepper) (n : nat) (M : X) (t dt : R) (s : St) : X * St :=
  match n with
  | O => (M, s)
  | S n => let '(M, s) := do_step add mul rhs w M t dt s in ct_loop add mul rhs w n M t dt s
  end.
Arguments mkS {Y}. Arguments s_idx {Y}. Arguments s_ok {Y}. Arguments s_cache {Y}.
Section CT.
Context {V U W : NormedModule R_AbsRing}.
Definition ct_sensA (dfx : V -> U -> R -> V -> V) (w : stepper) (k n : nat) (dt : R) (cache : list point) : (V -> V) * sst (V -> V) :=
  ct_loop madd mmul (ct_rhsA dfx cache) w n (fun h => h) (INR k * dt)%R dt (mkS 0 true []).
Definition ct_sensB (dfx : V -> U -> R -> V -> V) (dfu : V -> U -> R -> U -> V) (dctrl : R -> W -> U) (w : stepper) (k n : nat) (dt : R)
    (cache : list point) : (W -> V) * sst (W -> V) :=
  ct_loop madd mmul (ct_rhsB dfx dfu dctrl cache) w n (fun _ => zero) (INR k * dt)%R dt (mkS 0 true []).
End CT.
Arguments mkS {Y}. Arguments s_idx {Y}. Arguments s_ok {Y}. Arguments s_cache {Y}.

(** The symplectic Euler step of a system p' = fp(p,v,u), v' = fv(p,v,u) (IntegratorSymplectic-impl.h lines 47-53, 89-106),
    and its sensitivity as assembled by SensitivityApproximation.h lines 309-345 from the blocks of the linearisation at
    the start state and at the intermediate state (new position, old velocity). *)
Section Sym.
Context {P V U : NormedModule R_AbsRing}.
Variables (fp : P -> V -> U -> P) (fv : P -> V -> U -> V).
Definition sym_step (dt : R) (u : U) (x : P * V) : P * V :=
  let p' := plus (fst x) (scal dt (fp (fst x) (snd x) u)) in
  (p', plus (snd x) (scal dt (fv p' (snd x) u))).
Definition sym_A (dt : R) (A11 : P -> P) (A12 : V -> P) (A21 : P -> V) (A22 : V -> V) (h : P * V) : P * V :=
  (plus (plus (fst h) (scal dt (A11 (fst h)))) (scal dt (A12 (snd h))),
   plus (scal dt (A21 (plus (fst h) (scal dt (A11 (fst h)))))) (plus (snd h) (scal dt (plus (A22 (snd h)) (scal dt (A21 (A12 (snd h)))))))).
Definition sym_B (dt : R) (B1 : U -> P) (A21 : P -> V) (B2 : U -> V) (k : U) : P * V :=
  (scal dt (B1 k), scal dt (plus (B2 k) (scal dt (A21 (B1 k))))).
End Sym.
