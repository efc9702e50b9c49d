(** Model of ct_optcon: constraint/SwitchedLinearConstraintContainer-impl.h, with the parts of ConstraintContainerBase-impl.h and
    LinearConstraintContainer-impl.h it inherits.

    The containers of the modes are objects behind shared pointers (see Core/SwitchedModel.v); the active and the terminal container
    are two more pointers to the same objects.  What a container computes is an arbitrary function of its state. *)
From Coq Require Import List ZArith QArith.
From Verif Require Import Base.Outcome Core.PhaseModel Core.SwitchedModel.
Import ListNotations.

Section Container.
(** states, controls, values (evaluations, Jacobians, patterns, counts), bounds, states of a container *)
Variables (X U V B CST : Type).
(** The interface of a container: setCurrentStateAndControl, all the queries of the intermediate stage and of the terminal stage,
    its four bounds, and initialize() followed by isInitialized(). *)
Record interface := mkInterface {
  setCur : CST -> X -> U -> Q -> CST;
  intermediate : CST -> V;
  terminal : CST -> V;
  lowerI : CST -> B; upperI : CST -> B; lowerT : CST -> B; upperT : CST -> B;
  init : CST -> CST * bool }.
Variable I : interface.
(** a default constructed bound vector, of size 0 *)
Variable emptyB : B.

(** SwitchedLinearConstraintContainer.h 116-119 and the members of the base classes *)
Record switchedCon := mkSwitchedCon {
  containers : list ptr; modeSeq : @phase_seq nat; active : ptr; terminalPtr : ptr;
  current : option (X * U * Q);
  lbI : B; ubI : B; lbT : B; ubT : B; initI : bool; initT : bool }.

(** core/switching/Switching.h 72 *)
Definition getFinalPhase (ms : @phase_seq nat) : outcome nat := vec_back (phase_schedule ms).

(** 11-20: front() is undefined on an empty vector, at() throws *)
Definition newCon (l : list ptr) (ms : @phase_seq nat) : outcome switchedCon :=
  do a <- vec_front l ;;
  do f <- getFinalPhase ms ;;
  do e <- vec_at l (Z.of_nat f) ;;
  Ok (mkSwitchedCon l ms a e None emptyB emptyB emptyB emptyB false false).

(** 22-50: the active container of the copy is the first one *)
Definition cloneCon (s : switchedCon) (h : store CST) : outcome (switchedCon * store CST) :=
  do (l, h1) <- cloneSubsystems (containers s) h ;;
  do a <- vec_front l ;;
  do f <- getFinalPhase (modeSeq s) ;;
  do e <- vec_at l (Z.of_nat f) ;;
  Ok (mkSwitchedCon l (modeSeq s) a e (current s) (lbI s) (ubI s) (lbT s) (ubT s) (initI s) (initT s), h1).

(** ConstraintContainerBase-impl.h 35-43 with update() of lines 216-224 *)
Definition setCurrentStateAndControl (s : switchedCon) (h : store CST) (x : X) (u : U) (t : Q) : outcome (switchedCon * store CST) :=
  do mode <- getPhaseFromTime (modeSeq s) t ;;
  do a <- vec_at (containers s) (Z.of_nat mode) ;;
  do c <- read h a ;;
  let c' := setCur I c x u t in
  Ok (mkSwitchedCon (containers s) (modeSeq s) a (terminalPtr s) (Some (x, u, t)) (lowerI I c') (upperI I c') (lbT s) (ubT s)
        (initI s) (initT s), write h a c').

(** 52-188: every intermediate query is passed to the active container, every terminal query to the terminal one *)
Definition evaluateIntermediate (s : switchedCon) (h : store CST) : outcome V := do c <- read h (active s) ;; Ok (intermediate I c).
Definition evaluateTerminal (s : switchedCon) (h : store CST) : outcome V := do c <- read h (terminalPtr s) ;; Ok (terminal I c).

(** 190-204 *)
Fixpoint initializeIntermediate (l : list ptr) (h : store CST) : outcome (bool * store CST) :=
  match l with
  | [] => Ok (true, h)
  | p :: r => do c <- read h p ;;
              let (c', ok) := init I c in
              if ok : bool then initializeIntermediate r (write h p c') else Ok (false, write h p c')
  end.
(** LinearConstraintContainer-impl.h 39-43 with lines 206-213 *)
Definition initialize (s : switchedCon) (h : store CST) : outcome (switchedCon * store CST) :=
  do (ok, h1) <- initializeIntermediate (containers s) h ;;
  do c <- read h1 (terminalPtr s) ;;
  Ok (mkSwitchedCon (containers s) (modeSeq s) (active s) (terminalPtr s) (current s) (lbI s) (ubI s) (lowerT I c) (upperT I c) ok true, h1).
(** LinearConstraintContainer-impl.h 46-49 *)
Definition isInitialized (s : switchedCon) : bool := (initI s && initT s)%bool.

(** A history of calls of setCurrentStateAndControl. *)
Fixpoint setAll (s : switchedCon) (h : store CST) (l : list (X * U * Q)) : outcome (switchedCon * store CST) :=
  match l with
  | [] => Ok (s, h)
  | (x, u, t) :: r => do (s', h') <- setCurrentStateAndControl s h x u t ;; setAll s' h' r
  end.
End Container.
Arguments mkInterface {X U V B CST}.
Arguments setCur {X U V B CST}.
Arguments intermediate {X U V B CST}.
Arguments terminal {X U V B CST}.
Arguments lowerI {X U V B CST}.
Arguments upperI {X U V B CST}.
Arguments lowerT {X U V B CST}.
Arguments upperT {X U V B CST}.
Arguments init {X U V B CST}.
Arguments containers {X U B}.
Arguments modeSeq {X U B}.
Arguments active {X U B}.
Arguments terminalPtr {X U B}.
Arguments current {X U B}.
Arguments lbI {X U B}.
Arguments ubI {X U B}.
Arguments lbT {X U B}.
Arguments ubT {X U B}.
Arguments initI {X U B}.
Arguments initT {X U B}.
Arguments newCon {X U B}.
Arguments cloneCon {X U B CST}.
Arguments setCurrentStateAndControl {X U V B CST}.
Arguments evaluateIntermediate {X U V B CST}.
Arguments evaluateTerminal {X U V B CST}.
Arguments initializeIntermediate {X U V B CST}.
Arguments initialize {X U V B CST}.
Arguments isInitialized {X U B}.
Arguments setAll {X U V B CST}.
