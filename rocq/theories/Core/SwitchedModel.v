(** Model of the switched systems of ct_core and of the classes they derive from:
      systems/continuous_time/ControlledSystem.h, SwitchedControlledSystem.h, linear/SwitchedLinearSystem.h,
      systems/discrete_time/DiscreteControlledSystem.h, SwitchedDiscreteControlledSystem.h, linear/DiscreteLinearSystem.h,
      linear/SwitchedDiscreteLinearSystem.h.

    The subsystems and the controller are held through std::shared_ptr; they are objects with a state of their own, which a call
    may change.  A pointer is an address in a heap, the null pointer is [None].  Time is Q (the discrete classes use int: their
    times are the integers of Q, overflow is not modelled).  The classes of states, controls and matrices are arbitrary types. *)
From Coq Require Import List ZArith QArith.
From Verif Require Import Base.Outcome Core.PhaseModel.
Import ListNotations.

Definition ptr := option nat.

Section Heap.
Context {T : Type}.
(** Addresses from [next] on are free. *)
Record store := mkStore { next : nat; cell : nat -> option T }.
Definition read (h : store) (p : ptr) : outcome T :=
  match p with Some a => match cell h a with Some v => Ok v | None => UB end | None => UB end.
Definition write (h : store) (p : ptr) (v : T) : store :=
  match p with Some a => mkStore (next h) (fun b => if Nat.eqb b a then Some v else cell h b) | None => h end.
(** new T(v) *)
Definition alloc (h : store) (v : T) : ptr * store :=
  (Some (next h), mkStore (S (next h)) (fun b => if Nat.eqb b (next h) then Some v else cell h b)).
End Heap.
Arguments store : clear implicits.

Section Switched.
(** States, controls, controller states, subsystem states; the zero control. *)
Variables (X U CST SST : Type) (zeroU : U).
(** Controller::computeControl(state, t, action) and ControlledSystem::computeControlledDynamics(state, t, control, derivative) (or
    propagateControlledDynamics) of a user's controller and subsystem. *)
Variable computeControl : CST -> X -> Q -> U * CST.
Variable dynamics : SST -> X -> Q -> U -> X * SST.

Record heap := mkHeap { ctrls : store CST; systems : store SST }.

(** SwitchedControlledSystem.h 111-112 and ControlledSystem.h 145-147; [controlAction] is [None] while it is uninitialised. *)
Record switched := mkSwitched {
  switchedSystems : list ptr; modeSequence : @phase_seq nat; controller : ptr; controlAction : option U }.

(** SwitchedControlledSystem.h 60-65 with ControlledSystem.h 59-62: no controller, controlAction_ is not set. *)
Definition newSwitched (subs : list ptr) (ms : @phase_seq nat) : switched := mkSwitched subs ms None None.
(** SwitchedControlledSystem.h 73-79 with ControlledSystem.h 70-75. *)
Definition newSwitchedWith (subs : list ptr) (ms : @phase_seq nat) (c : ptr) : switched := mkSwitched subs ms c (Some zeroU).
(** ControlledSystem.h 93-96 *)
Definition setController (s : switched) (c : ptr) : switched :=
  mkSwitched (switchedSystems s) (modeSequence s) c (controlAction s).
(** ControlledSystem.h 143 *)
Definition getLastControlAction (s : switched) : outcome U := match controlAction s with Some u => Ok u | None => UB end.

(** SwitchedControlledSystem.h 101-108, SwitchedDiscreteControlledSystem.h 113-120, SwitchedDiscreteLinearSystem.h 78-85;
    operator[] does not check the mode. *)
Definition computeControlledDynamics (s : switched) (h : heap) (x : X) (t : Q) (u : U) : outcome (X * heap) :=
  do mode <- getPhaseFromTime (modeSequence s) t ;;
  do p <- vec_get (switchedSystems s) mode ;;
  do v <- read (systems h) p ;;
  let (dx, v') := dynamics v x t u in
  Ok (dx, mkHeap (ctrls h) (write (systems h) p v')).

(** ControlledSystem.h 125-135 *)
Definition computeDynamics (s : switched) (h : heap) (x : X) (t : Q) : outcome (X * switched * heap) :=
  do (u, h1) <- match controller s with
                | Some _ => do c <- read (ctrls h) (controller s) ;;
                            let (u, c') := computeControl c x t in
                            Ok (u, mkHeap (write (ctrls h) (controller s) c') (systems h))
                | None => Ok (zeroU, h)
                end ;;
  do (dx, h2) <- computeControlledDynamics s h1 x t u ;;
  Ok (dx, mkSwitched (switchedSystems s) (modeSequence s) (controller s) (Some u), h2).

(** DiscreteControlledSystem.h 115-124: the action is a local variable. *)
Definition propagateDynamics (s : switched) (h : heap) (x : X) (t : Q) : outcome (X * switched * heap) :=
  do (dx, s', h') <- computeDynamics s h x t ;;
  Ok (dx, s, h').

(** SwitchedControlledSystem.h 85-89: every subsystem is cloned (a null pointer is dereferenced). *)
Fixpoint cloneSubsystems (l : list ptr) (h : store SST) : outcome (list ptr * store SST) :=
  match l with
  | [] => Ok ([], h)
  | p :: r => do v <- read h p ;;
              let (q, h1) := alloc h v in
              do (qs, h2) <- cloneSubsystems r h1 ;;
              Ok (q :: qs, h2)
  end.

(** SwitchedControlledSystem.h 82-99 with ControlledSystem.h 78-82: the controller is cloned as well. *)
Definition clone (s : switched) (h : heap) : outcome (switched * heap) :=
  do (c, hc) <- match controller s with
                | Some _ => do v <- read (ctrls h) (controller s) ;; let (q, hc) := alloc (ctrls h) v in Ok (q, hc)
                | None => Ok (None, ctrls h)
                end ;;
  do (subs, hs) <- cloneSubsystems (switchedSystems s) (systems h) ;;
  Ok (mkSwitched subs (modeSequence s) c (controlAction s), mkHeap hc hs).

(** SwitchedDiscreteControlledSystem.h 85-103 (and SwitchedDiscreteLinearSystem.h 48-65).  The constructor of
    DiscreteControlledSystem.h 71-76 that clones the controller takes a ControlledSystem, so it is not a copy constructor: the
    implicit one copies the pointer. *)
Definition cloneDiscrete (s : switched) (h : heap) : outcome (switched * heap) :=
  do (subs, hs) <- cloneSubsystems (switchedSystems s) (systems h) ;;
  Ok (mkSwitched subs (modeSequence s) (controller s) (controlAction s), mkHeap (ctrls h) hs).

(** Calls of a user on a switched system. *)
Inductive call := Controlled (x : X) (t : Q) (u : U) | Dynamics (x : X) (t : Q).
Definition step (s : switched) (h : heap) (c : call) : outcome (X * switched * heap) :=
  match c with
  | Controlled x t u => do (dx, h') <- computeControlledDynamics s h x t u ;; Ok (dx, s, h')
  | Dynamics x t => computeDynamics s h x t
  end.
Definition stepDiscrete (s : switched) (h : heap) (c : call) : outcome (X * switched * heap) :=
  match c with
  | Controlled x t u => do (dx, h') <- computeControlledDynamics s h x t u ;; Ok (dx, s, h')
  | Dynamics x t => propagateDynamics s h x t
  end.

Section Run.
Variable stp : switched -> heap -> call -> outcome (X * switched * heap).
(** The results of a sequence of calls on one object. *)
Fixpoint runOne (s : switched) (h : heap) (l : list call) : outcome (list X) :=
  match l with
  | [] => Ok []
  | c :: r => do (dx, s', h') <- stp s h c ;; do xs <- runOne s' h' r ;; Ok (dx :: xs)
  end.
(** The results of calls on two objects in any order: [true] is a call on the first. *)
Fixpoint runTwo (a b : switched) (h : heap) (l : list (bool * call)) : outcome (list (bool * X)) :=
  match l with
  | [] => Ok []
  | (true, c) :: r => do (dx, a', h') <- stp a h c ;; do xs <- runTwo a' b h' r ;; Ok ((true, dx) :: xs)
  | (false, c) :: r => do (dx, b', h') <- stp b h c ;; do xs <- runTwo a b' h' r ;; Ok ((false, dx) :: xs)
  end.
End Run.
End Switched.
Arguments mkHeap {CST SST}.
Arguments ctrls {CST SST}.
Arguments systems {CST SST}.
Arguments mkSwitched {U}.
Arguments switchedSystems {U}.
Arguments modeSequence {U}.
Arguments controller {U}.
Arguments controlAction {U}.
Arguments newSwitched {U}.
Arguments newSwitchedWith {U}.
Arguments setController {U}.
Arguments getLastControlAction {U}.
Arguments computeControlledDynamics {X U CST SST}.
Arguments computeDynamics {X U CST SST}.
Arguments propagateDynamics {X U CST SST}.
Arguments cloneSubsystems {SST}.
Arguments clone {U CST SST}.
Arguments cloneDiscrete {U CST SST}.
Arguments Controlled {X U}.
Arguments Dynamics {X U}.
Arguments step {X U CST SST}.
Arguments stepDiscrete {X U CST SST}.
Arguments runOne {X U CST SST}.
Arguments runTwo {X U CST SST}.

(** * The linear variants *)
Section Linear.
Variables (X U MA MB SST : Type).
Variables (mulA : MA -> X -> X) (mulB : MB -> U -> X) (add : X -> X -> X).
(** getDerivativeState / getDerivativeControl of a user's linear subsystem (assumed to leave its state alone). *)
Variables (derivState : SST -> X -> U -> Q -> MA) (derivControl : SST -> X -> U -> Q -> MB).

(** continuous_time/linear/LinearSystem.h: computeControlledDynamics = A x + B u with the matrices of the object *)
Definition linearDynamics (A : X -> U -> Q -> outcome MA) (B : X -> U -> Q -> outcome MB) (x : X) (t : Q) (u : U) : outcome X :=
  do a <- A x u t ;; do b <- B x u t ;; Ok (add (mulA a x) (mulB b u)).
Definition linearOfSub (v : SST) (x : X) (t : Q) (u : U) : X := add (mulA (derivState v x u t) x) (mulB (derivControl v x u t) u).

(** SwitchedLinearSystem.h 74-80, 82-88 *)
Definition getDerivativeState (subs : list ptr) (ms : @phase_seq nat) (h : store SST) (x : X) (u : U) (t : Q) : outcome MA :=
  do mode <- getPhaseFromTime ms t ;; do p <- vec_get subs mode ;; do v <- read h p ;; Ok (derivState v x u t).
Definition getDerivativeControl (subs : list ptr) (ms : @phase_seq nat) (h : store SST) (x : X) (u : U) (t : Q) : outcome MB :=
  do mode <- getPhaseFromTime ms t ;; do p <- vec_get subs mode ;; do v <- read h p ;; Ok (derivControl v x u t).
Definition switchedLinearDynamics (subs : list ptr) (ms : @phase_seq nat) (h : store SST) : X -> Q -> U -> outcome X :=
  linearDynamics (getDerivativeState subs ms h) (getDerivativeControl subs ms h).

(** getAandB(x, u, x_next, n, subSteps, A, B) of a user's discrete linear subsystem. *)
Variable getAandB : SST -> X -> U -> X -> Q -> nat -> MA * MB.
(** DiscreteLinearSystem.h 63-72 *)
Definition discreteLinear (v : SST) (x : X) (n : Q) (u : U) : X * SST :=
  let (a, b) := getAandB v x u x n 1 in (add (mulA a x) (mulB b u), v).
(** SwitchedDiscreteLinearSystem.h 106-116 *)
Definition switchedGetAandB (subs : list ptr) (ms : @phase_seq nat) (h : store SST) (x : X) (u : U) (xNext : X) (n : Q) (subSteps : nat)
  : outcome (MA * MB) :=
  do mode <- getPhaseFromTime ms n ;; do p <- vec_get subs mode ;; do v <- read h p ;; Ok (getAandB v x u xNext n subSteps).
End Linear.
Arguments linearDynamics {X U MA MB}.
Arguments linearOfSub {X U MA MB SST}.
Arguments getDerivativeState {X U MA SST}.
Arguments getDerivativeControl {X U MB SST}.
Arguments switchedLinearDynamics {X U MA MB SST}.
Arguments discreteLinear {X U MA MB SST}.
Arguments switchedGetAandB {X U MA MB SST}.
