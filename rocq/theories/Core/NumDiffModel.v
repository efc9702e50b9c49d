(** Model of the numerical differentiation of ct_core and of the numerical cost derivatives of
    ct_optcon. *)
From Coq Require Import Reals List Bool Arith.
From Verif Require Import Base.RVec.
Local Open Scope R_scope.

Section Jacobian.
(** The two floating point operations applied to the coordinate that is perturbed.  The
    theorems instantiate them with exact addition and subtraction, or assume only that the
    differences dxp and dxm are computed exactly. *)
Variable fadd fsub : R -> R -> R.
(** eps_, the square root of the machine epsilon (DerivativesNumDiff.h 52,
    DynamicsLinearizerNumDiff.h 54, CostFunctionQuadratic-impl.hpp 14). *)
Variable eps : R.

(** The perturbation h.  math/DerivativesNumDiff.h 83; DynamicsLinearizerNumDiff.h 90, 147. *)
Definition pert (v : R) : R := eps * Rmax (Rabs v) 1.

(** Column i, row r of the Jacobian.  math/DerivativesNumDiff.h, jacobian (70-111): [ds] is
    doubleSidedDerivative_.  The division of Eigen vectors by a scalar is entrywise. *)
Definition jacobian (ds : bool) (f : rvec -> rvec) (x : rvec) : rmat := fun r i =>
  let h := pert (x i) in
  let x_ph := fadd (x i) h in
  let dxp := fsub x_ph (x i) in
  let y_perturbed := f (rset x i x_ph) in
  if ds then
    let x_mh := fsub (x i) h in
    let dxm := fsub (x i) x_mh in
    let y_perturbed_low := f (rset x i x_mh) in
    (y_perturbed r - y_perturbed_low r) / fadd dxp dxm
  else
    let y_ref := f x in
    (y_perturbed r - y_ref r) / dxp.

(** systems/linearizer/DynamicsLinearizerNumDiff.h, getDerivativeState (82-121).  The
    dynamics takes (x, t, u). *)
Definition derivative_state (ds : bool) (dyn : rvec -> R -> rvec -> rvec) (x u : rvec) (t : R) :
  rmat := jacobian ds (fun x' => dyn x' t u) x.

(** systems/linearizer/DynamicsLinearizerNumDiff.h, getDerivativeControl (137-178). *)
Definition derivative_control (ds : bool) (dyn : rvec -> R -> rvec -> rvec) (x u : rvec) (t : R) :
  rmat := jacobian ds (fun u' => dyn x t u') u.

(** systems/continuous_time/linear/SystemLinearizer.h, getDerivativeState (137-150), with n
    states: for a system declared SECOND_ORDER the two upper blocks are overwritten. *)
Definition system_derivative_state (second : bool) (n : nat) (ds : bool)
  (dyn : rvec -> R -> rvec -> rvec) (x u : rvec) (t : R) : rmat := fun r i =>
  let half := (n / 2)%nat in
  if second && (r <? half)%nat && (n - half <=? i)%nat then
    if (i - (n - half) =? r)%nat then 1 else 0
  else if second && (r <? half)%nat && (i <? half)%nat then 0
  else derivative_state ds dyn x u t r i.

(** systems/continuous_time/linear/SystemLinearizer.h, getDerivativeControl (167-179). *)
Definition system_derivative_control (second : bool) (n : nat) (ds : bool)
  (dyn : rvec -> R -> rvec -> rvec) (x u : rvec) (t : R) : rmat := fun r i =>
  if second && (r <? n / 2)%nat then 0 else derivative_control ds dyn x u t r i.
End Jacobian.

(** ** Numerical derivatives of a cost function *)

(** The state of a cost function object: CostFunction.hpp members x_, u_, t_, t_shift_. *)
Record cost_obj := mkCost { c_x : rvec; c_u : rvec; c_t : R; c_shift : R }.

(** costfunction/CostFunction-impl.hpp, setCurrentStateAndControl (30-37). *)
Definition set_current (c : cost_obj) (x u : rvec) (t : R) : cost_obj :=
  mkCost x u (t + c_shift c) (c_shift c).

(** costfunction/CostFunction-impl.hpp, getCurrentStateAndControl (40-47). *)
Definition get_current (c : cost_obj) : rvec * rvec * R := (c_x c, c_u c, c_t c).

(** evaluateIntermediate of a cost whose value is L x u t: it reads the stored point. *)
Definition evaluate (L : rvec -> rvec -> R -> R) (c : cost_obj) : R := L (c_x c) (c_u c) (c_t c).

Section CostNumDiff.
Variable eps : R.
Variable L : rvec -> rvec -> R -> R.
Variable ds : bool.

(** costfunction/CostFunctionQuadratic-impl.hpp, stateDerivativeIntermediateNumDiff (175-218):
    the body of the loop for coordinate i; returns entry i and the object afterwards.
    Exact arithmetic. *)
Definition state_entry (x_local u_local : rvec) (t_local ref : R) (i : nat) (c : cost_obj) :
  R * cost_obj :=
  let h := pert eps (x_local i) in
  let x_ph := x_local i + h in
  let dxp := x_ph - x_local i in
  let c := set_current c (rset x_local i x_ph) u_local t_local in
  let dxdt := evaluate L c in
  if ds then
    let x_mh := x_local i - h in
    let dxm := x_local i - x_mh in
    let c := set_current c (rset x_local i x_mh) u_local t_local in
    let dxdt_low := evaluate L c in
    ((dxdt - dxdt_low) / (dxp + dxm), c)
  else ((dxdt - ref) / dxp, c).

(** CostFunctionQuadratic-impl.hpp, controlDerivativeIntermediateNumDiff (222-266): loop body. *)
Definition control_entry (x_local u_local : rvec) (t_local ref : R) (i : nat) (c : cost_obj) :
  R * cost_obj :=
  let h := pert eps (u_local i) in
  let u_ph := u_local i + h in
  let dup := u_ph - u_local i in
  let c := set_current c x_local (rset u_local i u_ph) t_local in
  let dxdt := evaluate L c in
  if ds then
    let u_mh := u_local i - h in
    let dum := u_local i - u_mh in
    let c := set_current c x_local (rset u_local i u_mh) t_local in
    let dxdt_low := evaluate L c in
    ((dxdt - dxdt_low) / (dup + dum), c)
  else ((dxdt - ref) / dup, c).

(** The loops of both functions: entries i, i+1, ... (k of them). *)
Fixpoint grad_loop (entry : nat -> cost_obj -> R * cost_obj) (i k : nat) (g : rvec) (c : cost_obj) :
  rvec * cost_obj :=
  match k with
  | O => (g, c)
  | S k' => let '(v, c) := entry i c in grad_loop entry (S i) k' (rset g i v) c
  end.

(** CostFunctionQuadratic-impl.hpp, stateDerivativeIntermediateNumDiff (175-218). *)
Definition state_numdiff (n : nat) (c : cost_obj) : rvec * cost_obj :=
  let '(x_local, u_local, t_local) := get_current c in
  let ref := evaluate L c in
  grad_loop (state_entry x_local u_local t_local ref) 0 n rzero c.

(** CostFunctionQuadratic-impl.hpp, controlDerivativeIntermediateNumDiff (222-266). *)
Definition control_numdiff (m : nat) (c : cost_obj) : rvec * cost_obj :=
  let '(x_local, u_local, t_local) := get_current c in
  let ref := evaluate L c in
  grad_loop (control_entry x_local u_local t_local ref) 0 m rzero c.
End CostNumDiff.
