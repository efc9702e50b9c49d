(** Model of the native fixed-step integrators and the control simulator.
    /repo/ct_core/include/ct/core/integration/internal/SteppersCT.h, Integrator-impl.h, Observer-impl.h,
    /repo/ct_core/include/ct/core/simulation/ControlSimulator.h.
    Scalars and vectors are abstract, so the same definitions are used for doubles, exact fields and real analysis. *)
From Coq Require Import List ZArith QArith Qround.
Import ListNotations.
Set Implicit Arguments.

Section Steppers.
Variables (S V : Type).
Variables (sadd smul : S -> S -> S) (half two sixth : S).   (* SCALAR(0.5), SCALAR(2.0), SCALAR(1.0/6.0) *)
Variables (vadd : V -> V -> V) (vscal : S -> V -> V).
Variable rhs : V -> S -> V.

(** StepperEulerCT::do_step, lines 88-95. *)
Definition euler_step (x : V) (t dt : S) : V := vadd x (vscal dt (rhs x t)).
(** The points at which the right-hand side is evaluated, in order; handlers with callOnSubsteps() see these
    (Integrator-impl.h setupSystem, Observer::observeInternal). *)
Definition euler_evals (x : V) (t dt : S) : list (V * S) := [(x, t)].

(** StepperRK4CT::do_step, lines 114-126. *)
Definition rk4_k1 x t (dt : S) := rhs x t.
Definition rk4_x2 x t dt := vadd x (vscal (smul half dt) (rk4_k1 x t dt)).
Definition rk4_k2 x t dt := rhs (rk4_x2 x t dt) (sadd t (smul half dt)).
Definition rk4_x3 x t dt := vadd x (vscal (smul half dt) (rk4_k2 x t dt)).
Definition rk4_k3 x t dt := rhs (rk4_x3 x t dt) (sadd t (smul half dt)).
Definition rk4_x4 x t dt := vadd x (vscal dt (rk4_k3 x t dt)).
Definition rk4_k4 x t dt := rhs (rk4_x4 x t dt) (sadd t dt).
Definition rk4_step (x : V) (t dt : S) : V :=
  vadd x (vscal (smul sixth dt)
    (vadd (vadd (vadd (rk4_k1 x t dt) (vscal two (rk4_k2 x t dt))) (vscal two (rk4_k3 x t dt))) (rk4_k4 x t dt))).
Definition rk4_evals (x : V) (t dt : S) : list (V * S) :=
  [(x, t); (rk4_x2 x t dt, sadd t (smul half dt)); (rk4_x3 x t dt, sadd t (smul half dt)); (rk4_x4 x t dt, sadd t dt)].
End Steppers.

Section Loop.
Variables (S V : Type).
Variable sadd : S -> S -> S.
Variable do_step : V -> S -> S -> V.
Variable evals : V -> S -> S -> list (V * S).

(** StepperCTBase::integrate_n_steps with observer, lines 42-57.  Result: state, what the observer was shown (and
    logged), and the evaluations of the right-hand side. *)
Fixpoint integrate (n : nat) (x : V) (t dt : S) : V * list (V * S) * list (V * S) :=
  match n with
  | O => (x, [], [])
  | Datatypes.S n =>
      let x' := do_step x t dt in
      let t' := sadd t dt in
      let '(xf, obs, ev) := integrate n x' t' dt in
      (xf, (x', t') :: obs, evals x t dt ++ ev)
  end.

(** Integrator::integrate_n_steps, lines 48-62: the observer is reset first, so the log of an earlier call
    ([old]) does not show up in the trajectories. *)
Definition integrate_n_steps (old : list (V * S)) (n : nat) (x : V) (t dt : S) : V * list (V * S) :=
  let '(xf, obs, _) := integrate n x t dt in (xf, [] ++ obs).

(** An event handler: callOnSubsteps() and checkEvent(x, t).  EventHandler.h. *)
Record handler := mkHandler { h_substeps : bool; h_check : V -> S -> bool }.
(** Observer::observe (lines 33-41, [internal] = false) and observeInternal (lines 50-58, [internal] = true): the
    handleEvent calls, as (handler index, state, time). *)
Fixpoint notify_from (hs : list handler) (internal : bool) (x : V) (t : S) (i : nat) : list (nat * V * S) :=
  match hs with
  | [] => []
  | h :: hs => (if Bool.eqb (h_substeps h) internal && h_check h x t then [(i, x, t)] else []) ++ notify_from hs internal x t (Datatypes.S i)
  end.
(** All handleEvent calls of integrate_n_steps, in order: during a step the right-hand side notifies
    (Integrator-impl.h setupSystem, lines 186-192), after it the stepper calls the observer. *)
Fixpoint handler_calls (hs : list handler) (n : nat) (x : V) (t dt : S) : list (nat * V * S) :=
  match n with
  | O => []
  | Datatypes.S n =>
      let x' := do_step x t dt in
      let t' := sadd t dt in
      (flat_map (fun p => notify_from hs true (fst p) (snd p) 0) (evals x t dt) ++ notify_from hs false x' t' 0)
      ++ handler_calls hs n x' t' dt
  end.

(** Integrator objects: the log of each object's observer, and the object whose observer its callback (a lambda that
    captured [this] in the Observer constructor, Observer-impl.h lines 11-18) writes to. *)
Record objs := mkObjs { logs : list (list (V * S)); targets : list nat }.
Definition fresh_integrators : objs := mkObjs [[]] [0%nat].
Definition log_of (w : objs) (i : nat) : list (V * S) := nth i (logs w) [].
(** Implicit copy constructor of Integrator and Observer: the std::function members are copied with what they captured. *)
Definition copy_integrator (w : objs) (i : nat) : objs :=
  mkObjs (logs w ++ [log_of w i]) (targets w ++ [nth i (targets w) 0%nat]).
Fixpoint set_log (l : list (list (V * S))) (i : nat) (v : list (V * S)) : list (list (V * S)) :=
  match l, i with
  | [], _ => []
  | _ :: l, O => v :: l
  | a :: l, Datatypes.S i => a :: set_log l i v
  end.
(** integrate_n_steps on object [i] (lines 48-62): reset the own observer, log through the callback, swap out the own log
    (the caller's vectors are taken to be empty). *)
Definition integrate_obj (w : objs) (i : nat) (n : nat) (x : V) (t dt : S) : objs * V * list (V * S) :=
  let '(xf, obs, _) := integrate n x t dt in
  let l1 := set_log (logs w) i [] in
  let k := nth i (targets w) 0%nat in
  let l2 := set_log l1 k (nth k l1 [] ++ obs) in
  (mkObjs (set_log l2 i []) (targets w), xf, nth i l2 []).
End Loop.

Arguments mkHandler {S V}.
Arguments fresh_integrators S V : clear implicits.

(** *** The control simulator, lines 101-144: the pieces of one cycle, as (number of steps, step size). *)
(** int(control_dt / sim_dt), truncated; control_dt and sim_dt are positive. *)
Definition whole_steps (control_dt sim_dt : Q) : Z := Qfloor (control_dt / sim_dt).
(** line 108 *)
Definition residue (control_dt sim_dt : Q) : Q := control_dt / sim_dt - inject_Z (whole_steps control_dt sim_dt).
(** lines 116-118 *)
Definition cycle (control_dt sim_dt : Q) : list (Z * Q) :=
  (whole_steps control_dt sim_dt, sim_dt) ::
  (if negb (Qle_bool (residue control_dt sim_dt) (1 # 1000000)) then [(1%Z, residue control_dt sim_dt)] else []).
