(** Model of the event handlers called during integration:
    ct_core/include/ct/core/integration/EventHandlers/{MaxStepsEventHandler,KillIntegrationEventHandler,SubstepRecorder}.h,
    Observer-impl.h, Integrator-impl.h integrate_n_steps, internal/SteppersCT.h 28-57 and the error tolerances of
    internal/StepperBase.h and internal/SteppersODEInt.h.
    One step of a stepper and the points at which it evaluates the dynamics are parameters.  The kill flag can be written while the
    integration runs (it is made for that: setEvent is called from another thread or another handler): [ext k i] is the last such
    write to handler [i] before the k-th step is observed.  The controls and times recorded next to the states are not modelled.
    Counters do not wrap around. *)
From Coq Require Import List Bool Arith Reals.
Import ListNotations.

Section Events.
Variables V S : Type.
(** StepperCTBase::do_step and the calls of the dynamics in it. *)
Variable stepf : V -> S -> S -> V.
Variable evals : V -> S -> S -> list V.
Variable tadd : S -> S -> S.

(** The handlers' members; [array] is the index of the array behind the shared pointer states_, [system] says whether system_ is set. *)
Inductive handler :=
| MaxSteps (maxNumSteps stepsTaken : nat)
| Kill (killIntegration : bool)
| Recorder (activated system : bool) (array : nat).
(** Handlers of the observer, its log, and the arrays reachable through shared pointers. *)
Record world := mkWorld { handlers : list handler; logged : list (V * S); heap : list (list V) }.
Inductive status := Fine | Threw | Undefined.

(** The virtual methods callOnSubsteps: MaxSteps 36, Kill 34, Recorder 43. *)
Definition callOnSubsteps (h : handler) : bool := match h with Recorder _ _ _ => true | _ => false end.
(** reset: MaxSteps 38, Kill 54, Recorder 61-68 (fresh arrays). *)
Definition resetHandler (h : handler) (hp : list (list V)) : handler * list (list V) :=
  match h with
  | MaxSteps m _ => (MaxSteps m 0, hp)
  | Kill _ => (Kill false, hp)
  | Recorder a s _ => (Recorder a s (length hp), hp ++ [[]])
  end.
Fixpoint resetHandlers (hs : list handler) (hp : list (list V)) : list handler * list (list V) :=
  match hs with
  | [] => ([], hp)
  | h :: r => let '(h', hp1) := resetHandler h hp in let '(r', hp2) := resetHandlers r hp1 in (h' :: r', hp2)
  end.
(** Observer-impl.h 24-31 *)
Definition resetObserver (w : world) : world := let '(hs, hp) := resetHandlers (handlers w) (heap w) in mkWorld hs [] hp.
(** checkEvent and handleEvent: MaxSteps 46-56, Kill 36-47, Recorder 50-57. *)
Fixpoint push (hp : list (list V)) (i : nat) (x : V) : list (list V) :=
  match hp, i with [], _ => [] | l :: r, O => (l ++ [x]) :: r | l :: r, Datatypes.S j => l :: push r j x end.
Definition fire (h : handler) (x : V) (hp : list (list V)) : handler * list (list V) * status :=
  match h with
  | MaxSteps m c => (MaxSteps m (c + 1), hp, if (m <? c + 1)%nat then Threw else Fine)
  | Kill b => (Kill b, hp, if b then Threw else Fine)
  | Recorder a s i => if a then (h, push hp i x, if s then Fine else Undefined) else (h, hp, Fine)
  end.
(** Observer-impl.h 34-41 ([internal] = false) and 51-58 ([internal] = true). *)
Fixpoint notify (internal : bool) (hs : list handler) (x : V) (hp : list (list V)) : list handler * list (list V) * status :=
  match hs with
  | [] => ([], hp, Fine)
  | h :: r =>
      if Bool.eqb (callOnSubsteps h) internal then
        let '(h', hp', st) := fire h x hp in
        match st with
        | Fine => let '(r', hp'', st') := notify internal r x hp' in (h' :: r', hp'', st')
        | _ => (h' :: r, hp', st)
        end
      else let '(r', hp', st) := notify internal r x hp in (h :: r', hp', st)
  end.
(** Integrator-impl.h 186-192: every evaluation of the dynamics is observed. *)
Fixpoint notifyAll (xs : list V) (hs : list handler) (hp : list (list V)) : list handler * list (list V) * status :=
  match xs with
  | [] => (hs, hp, Fine)
  | x :: r => match notify true hs x hp with (hs', hp', Fine) => notifyAll r hs' hp' | o => o end
  end.
(** setEvent and resetEvent (KillIntegrationEventHandler.h 50-52) while integrating. *)
Fixpoint writeFrom (i : nat) (e : nat -> option bool) (hs : list handler) : list handler :=
  match hs with
  | [] => []
  | h :: r => (match h, e i with Kill _, Some b => Kill b | _, _ => h end) :: writeFrom (Datatypes.S i) e r
  end.
(** SteppersCT.h 42-57; [k] counts the steps from one.  The state is the one seen by the caller, by reference. *)
Fixpoint steps (ext : nat -> nat -> option bool) (k n : nat) (x : V) (t dt : S) (w : world) : world * V * status :=
  match n with
  | O => (w, x, Fine)
  | Datatypes.S n' =>
      match notifyAll (evals x t dt) (handlers w) (heap w) with
      | (hs, hp, Fine) =>
          let x' := stepf x t dt in let t' := tadd t dt in
          match notify false (writeFrom 0 (ext k) hs) x' hp with
          | (hs', hp', Fine) => steps ext (k + 1) n' x' t' dt (mkWorld hs' (logged w ++ [(x', t')]) hp')
          | (hs', hp', st) => (mkWorld hs' (logged w ++ [(x', t')]) hp', x', st)
          end
      | (hs, hp, st) => (mkWorld hs (logged w) hp, x, st)
      end
  end.
(** Integrator-impl.h 50-61: the trajectories are handed over after the last step; [traj] is what the caller passed. *)
Definition integrate (ext : nat -> nat -> option bool) (n : nat) (x : V) (t dt : S) (traj : list (V * S)) (w : world) : world * V * list (V * S) * status :=
  match steps ext 1 n x t dt (resetObserver w) with
  | (w', x', Fine) => (mkWorld (handlers w') traj (heap w'), x', logged w', Fine)
  | (w', x', st) => (w', x', traj, st)
  end.
(** KillIntegrationEventHandler.h 50 between integrations. *)
Definition setEvent (i : nat) (w : world) : world :=
  mkWorld (writeFrom 0 (fun j => if (j =? i)%nat then Some true else None) (handlers w)) (logged w) (heap w).
End Events.

(** internal/StepperBase.h 25, 174-178 and SteppersODEInt.h 116-119, 173-176: tolerances stored, and those the stepper was built with. *)
Record stepper := mkStepper { absErrTol : R; relErrTol : R; usedAbs : R; usedRel : R }.
Definition newStepper : stepper := mkStepper (1 / 10 ^ 8) (1 / 10 ^ 8) (1 / 10 ^ 8) (1 / 10 ^ 8).
(** Integrator-impl.h 33-40 and 44-47 *)
Inductive config := ChangeType | SetTolerances (a r : R).
Definition configure (s : stepper) (c : config) : stepper :=
  match c with ChangeType => newStepper | SetTolerances a r => mkStepper a r (usedAbs s) (usedRel s) end.
