(** Model of ct_core: systems/discrete_time/SystemDiscretizer-impl.h, with integration/EventHandlers/SubstepRecorder.h, the integrator
    loops (IntModel.v for the explicit steppers, IntegratorSymplectic-impl.h 60-80) and
    of ct_optcon: system_interface/OptconContinuousSystemInterface-impl.h (propagation, configuration).

    Times are reals; states and controls are arbitrary types with the operations the steppers use.  Of the integration types, the native
    explicit ones (EULERCT, RK4CT) and the symplectic ones are modelled; the odeint wrappers are not. *)
From Coq Require Import List ZArith Reals.
From Verif Require Import Base.Outcome Core.IntModel.
Import ListNotations.

Inductive itype := EULERCT | RK4CT | EULER_SYM | RK_SYM.
Definition itype_eqb (a b : itype) : bool :=
  match a, b with EULERCT, EULERCT | RK4CT, RK4CT | EULER_SYM, EULER_SYM | RK_SYM, RK_SYM => true | _, _ => false end.
(** SystemDiscretizer-impl.h 101, 141 *)
Definition isSym (ty : itype) : bool := match ty with EULER_SYM | RK_SYM => true | _ => false end.

Section Discretizer.
Variables (X U : Type) (vadd : X -> X -> X) (vscal : R -> X -> X).
(** V_DIM > 0, P_DIM > 0 and V_DIM + P_DIM = STATE_DIM: which of the two versions of integrateSymplectic is instantiated. *)
Variable symplecticDims : bool.
(** Linear systems, used by the sensitivities only. *)
Variable L : Type.

(** A continuous-time system: its dynamics, whether it is a SymplecticSystem and then one step of the symplectic Euler stepper
    (integratorEulerSymplectic_) and of the symplectic Runge-Kutta stepper from a state under a constant control;
    [action0] is controlAction_ of the object, [None] when the constructor did not set it. *)
Record csys := mkCsys {
  rhs : X -> R -> U -> X; symplectic : bool; eulerSymStep : U -> X -> R -> X; rkSymStep : U -> X -> R -> X; action0 : option U }.

(** The explicit steppers, see IntModel.v; the second component lists the evaluations of the right-hand side. *)
Definition explicit (ty : itype) (f : X -> R -> X) (n : nat) (x : X) (t dt : R) : X * list (X * R) * list (X * R) :=
  match ty with
  | EULERCT => integrate Rplus (euler_step vadd vscal f) (euler_evals (V:=X)) n x t dt
  | _ => integrate Rplus (rk4_step Rplus Rmult (/ 2)%R 2%R (1 / 6)%R vadd vscal f)
           (rk4_evals Rplus Rmult (/ 2)%R vadd vscal f) n x t dt
  end.
(** IntegratorSymplectic-impl.h 67-79: the state after each step is shown to the handlers called on substeps. *)
Fixpoint symLoop (step : X -> R -> X) (n : nat) (x : X) (dt : R) : X * list X :=
  match n with O => (x, []) | S n => let x' := step x dt in let (xf, l) := symLoop step n x' dt in (xf, x' :: l) end.

(** SystemDiscretizer.h 157-184.  The integrators keep the system and the recorder they were constructed with: [gen] numbers the calls of
    initialize(), an integrator carries the number of the call that created it.  [lastAction] is controlAction_ of cont_time_system_. *)
Record disc := mkDisc {
  dt : R; K_sim : Z; dt_sim : R; integratorType : itype;
  system : option csys; lastAction : option U; gen : nat;
  integrator : option (itype * csys * nat); eulerSym : option (csys * nat); rkSym : option csys;
  substates : list X; subcontrols : list (option U) }.

(** 73-76 *)
Definition getSimulationTimestep (dt : R) (K : Z) : R := (dt / IZR K)%R.
(** 24-35 *)
Definition newDisc (d : R) (ty : itype) (K : Z) : disc :=
  mkDisc d K (getSimulationTimestep d K) ty None None 0 None None None [] [].
(** 94-107 with 152-178: the recorder is new, the explicit integrator is created unless the type is symplectic, the symplectic ones only for
    symplectic systems (and dimensions). *)
Definition initialize (d : disc) (c : csys) : disc :=
  let g := S (gen d) in
  mkDisc (dt d) (K_sim d) (dt_sim d) (integratorType d) (system d) (lastAction d) g
    (if isSym (integratorType d) then integrator d else Some (integratorType d, c, g))
    (if (symplectic c && symplecticDims)%bool then Some (c, g) else eulerSym d)
    (if (symplectic c && symplecticDims)%bool then Some c else rkSym d) [] [].
(** 109-117; the clone starts with the control of the system it is copied from ([action0]). *)
Definition changeContinuousTimeSystem (d : disc) (c : csys) : disc :=
  initialize (mkDisc (dt d) (K_sim d) (dt_sim d) (integratorType d) (Some c) (action0 c) (gen d) (integrator d) (eulerSym d) (rkSym d)
                (substates d) (subcontrols d)) c.
(** 37-50 *)
Definition newDiscSystem (c : csys) (d : R) (ty : itype) (K : Z) : disc := changeContinuousTimeSystem (newDisc d ty K) c.
(** 57-62: cont_time_system_ of the object under construction is still null when it is dereferenced. *)
Definition copyDisc (arg : disc) : outcome disc := UB.
(** 79-84 *)
Definition setIntegrationType (d : disc) (ty : itype) : disc :=
  mkDisc (dt d) (K_sim d) (dt_sim d) ty (system d) (lastAction d) (gen d) (integrator d) (eulerSym d) (rkSym d) (substates d) (subcontrols d).
(** 86-92 *)
Definition setParameters (d : disc) (t : R) (K : Z) : disc :=
  mkDisc t K (getSimulationTimestep t K) (integratorType d) (system d) (lastAction d) (gen d) (integrator d) (eulerSym d) (rkSym d)
    (substates d) (subcontrols d).

Definition recorded (d : disc) (act : option U) (xs : list X) (us : list (option U)) : disc :=
  mkDisc (dt d) (K_sim d) (dt_sim d) (integratorType d) (system d) act (gen d) (integrator d) (eulerSym d) (rkSym d) xs us.

(** 120-149.  Zero or negative K_sim or dt violate the assertions at the start; a missing system is dereferenced: undefined behaviour.  The recorder (52-57 of SubstepRecorder.h) stores the state and controlAction_ of the system.  computeDynamics
    (ControlledSystem.h 125-135) sets controlAction_; computePdot and computeVdot (SymplecticSystem.h 90-121) do not. *)
Definition propagate (d : disc) (x : X) (n : Z) (u : U) : outcome (X * disc) :=
  if (K_sim d <=? 0)%Z then UB
  else if Rle_dec (dt d) 0 then UB
  else match system d with
  | None => UB
  | Some c =>
      let t := (IZR n * dt d)%R in
      let k := Z.to_nat (K_sim d) in
      match integratorType d with
      | EULER_SYM =>
          if negb symplecticDims then Throw
          else if negb (symplectic c) then Throw
          else match eulerSym d with
               | None => UB
               | Some (c', g) =>
                   let (xf, l) := symLoop (eulerSymStep c' u) k x (dt_sim d) in
                   Ok (xf, if Nat.eqb g (gen d) then recorded d (lastAction d) l (map (fun _ => lastAction d) l)
                           else recorded d (lastAction d) [] [])
               end
      | RK_SYM =>
          if negb symplecticDims then Throw
          else if negb (symplectic c) then Throw
          else match rkSym d with
               | None => UB
               | Some c' => let (xf, l) := symLoop (rkSymStep c' u) k x (dt_sim d) in Ok (xf, recorded d (lastAction d) [] [])
               end
      | _ =>
          match integrator d with
          | None => UB
          | Some (ty, c', g) =>
              let '(xf, _, ev) := explicit ty (fun x t => rhs c' x t u) k x t (dt_sim d) in
              Ok (xf, if Nat.eqb g (gen d) then recorded d (Some u) (map fst ev) (map (fun _ => Some u) ev)
                      else recorded d (lastAction d) [] [])
          end
      end
  end.

(** * The interface used by the optimal control solvers (OptconContinuousSystemInterface-impl.h) *)

(** The settings it reads; dt, K_sim, integrator, nThreads, useSensitivityIntegrator. *)
Record settings := mkSettings { s_dt : R; s_K : Z; s_int : itype; s_threads : nat; s_useInt : bool }.
(** A sensitivity object (SensitivityIntegrator or SensitivityApproximation), its time step and its linear system. *)
Inductive sens := SensIntegrator (h : R) (l : L) | SensApproximation (h : R) (l : L).
Definition setTimeDiscretization (s : sens) (h : R) : sens :=
  match s with SensIntegrator _ l => SensIntegrator h l | SensApproximation _ l => SensApproximation h l end.
Definition setLinearSystem (s : sens) (l : L) : sens :=
  match s with SensIntegrator h _ => SensIntegrator h l | SensApproximation h _ => SensApproximation h l end.
Record iface := mkIface { cfg : settings; discs : list disc; senss : list sens }.

(** The discretizer created for every thread (33-38, 73-76): the constructor initializes it and initialize() is called once more. *)
Definition threadDisc (s : settings) (c : csys) : disc := initialize (newDiscSystem c (s_dt s) (s_int s) (s_K s)) c.
(** 24-40; [None] is a null pointer *)
Definition changeNonlinearSystem (f : iface) (dyn : option csys) : outcome iface :=
  match dyn with
  | None => Throw
  | Some c => Ok (mkIface (cfg f) (repeat (threadDisc (cfg f) c) (S (s_threads (cfg f)))) (senss f))
  end.
(** 41-53 *)
Definition changeLinearSystem (f : iface) (lin : option L) : outcome iface :=
  match lin with
  | None => Throw
  | Some l => Ok (mkIface (cfg f) (discs f) (map (fun e => setLinearSystem e l) (senss f)))
  end.
(** 55-98; of the types modelled, only RK_SYM is refused with the sensitivity integrator *)
Definition initializeIface (s : settings) (c : csys) (l : L) : outcome iface :=
  let ds := repeat (threadDisc s c) (S (s_threads s)) in
  if s_useInt s
  then match s_int s with
       | RK_SYM => Throw
       | _ => Ok (mkIface s ds (repeat (SensIntegrator (getSimulationTimestep (s_dt s) (s_K s)) l) (S (s_threads s))))
       end
  else Ok (mkIface s ds (repeat (SensApproximation (s_dt s) l) (S (s_threads s)))).
(** 100-130, on an initialized interface *)
Definition configureIface (f : iface) (s : settings) : outcome iface :=
  if negb (Nat.eqb (s_threads s) (s_threads (cfg f))) then Throw
  else if negb (itype_eqb (s_int s) (s_int (cfg f))) then Throw
  else Ok (mkIface s (map (fun d => setParameters d (s_dt s) (s_K s)) (discs f))
             (map (fun e => setTimeDiscretization e (if s_useInt s then getSimulationTimestep (s_dt s) (s_K s) else s_dt s)) (senss f))).
(** 132-142, 144-158 *)
Definition propagateThread (f : iface) (i : nat) (x : X) (n : Z) (u : U) : outcome (X * iface) :=
  do d <- vec_get (discs f) i ;;
  do r <- propagate d x n u ;;
  do ds <- vec_set (discs f) i (snd r) ;;
  Ok (fst r, mkIface (cfg f) ds (senss f)).
Definition getSubstates (f : iface) (i : nat) : outcome (list X) := do d <- vec_get (discs f) i ;; Ok (substates d).
Definition getSubcontrols (f : iface) (i : nat) : outcome (list (option U)) := do d <- vec_get (discs f) i ;; Ok (subcontrols d).
End Discretizer.
