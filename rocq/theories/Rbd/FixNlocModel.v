(** Model of the initial guesses of the optimal control solver for fixed base robots: ct_rbd/include/ct/rbd/nloc/FixBaseNLOC-impl.h.
    The solver behind it is the model of NLOCBackendBase in Optcon/SolveModel.v.  Inverse dynamics and the actuator's
    computeStateFromOutput are arbitrary functions; scalars are real numbers.  The member initialize (59-71) calls a function that
    FixBaseRobotState does not have, so it cannot be instantiated and is not modelled; printing and the iteration counter are not. *)
From Coq Require Import List Arith ZArith QArith Reals Bool.
From Verif Require Import Optcon.SolveModel.
Import ListNotations.
Local Open Scope R_scope.

(** FixBaseRobotState: joint positions and velocities, and the state of the actuators (empty without actuator dynamics) *)
Record robot := mkRobot { joints : list R; actuators : list R }.
(** FixBaseRobotState.h 131-149, toStateVector *)
Definition toStateVector (r : robot) : list R := joints r ++ actuators r.
Definition map2 (f : R -> R -> R) (a b : list R) : list R := map (fun e => f (fst e) (snd e)) (combine a b).
(** -impl.h 132-134 *)
Definition interpolated (a b : list R) (i N : nat) : list R := map2 (fun u v => u + (v - u) * INR i / INR N) a b.

Section Nloc.
(** Inverse dynamics torques at rest (FixBaseSystemBase.h 67-73), the actuator state for an output, whether there are actuator
    dynamics, the zero control, and the type of feedback matrices. *)
Variables (idTorques : list R -> list R) (stateFromOutput : list R -> list R -> list R) (actuated : bool) (zeroU : list R).
Variables (FB : Type) (x0' u0' : list R) (l0' : FB).
Notation solver := (backend (list R) (list R) FB).

(** 73-101, initializeSteadyPose: the solver and the reference control given back; [None] is an exception, also of an array of
    negative length. *)
Definition initializeSteadyPose (x0 : robot) (tf : Q) (N : Z) (K : FB) (s : solver) : option (solver * list R) :=
  let u_ref := if actuated then zeroU else idTorques (joints x0) in
  if (N <? 0)%Z then None else
  let g := MkG (repeat (toStateVector x0) (Z.to_nat N + 1)) (repeat u_ref (Z.to_nat N)) (repeat K (Z.to_nat N)) in
  match changeTimeHorizon x0' u0' l0' tf s with
  | None => None
  | Some s1 => match setInitialGuess x0' u0' l0' g s1 with
               | None => None
               | Some s2 => Some (changeInitialState (toStateVector x0) s2, u_ref)
               end
  end.
(** 129-161, one round of the loop of initializeDirectInterpolation; the torque survives to the next round. *)
Definition round (x0 xf : robot) (N : nat) (acc : list R * list (list R) * list (list R)) (i : nat) : list R * list (list R) * list (list R) :=
  let '(torque, us, xs) := acc in
  let j := interpolated (joints x0) (joints xf) i N in
  let torque' := if i <? N then idTorques j else torque in
  let us' := if i <? N then us ++ [if actuated then zeroU else torque'] else us in
  let a := if (0 <? i) && actuated then stateFromOutput j torque' else actuators x0 in
  (torque', us', xs ++ [toStateVector (mkRobot j a)]).
(** 103-173, initializeDirectInterpolation; [junk] is the content of the uninitialised torque.  For N = 0 the code divides by zero,
    but the guess is then too short for any horizon and rejected. *)
Definition initializeDirectInterpolation (junk : list R) (x0 xf : robot) (tf : Q) (N : Z) (K : FB) (s : solver) : option (solver * list (list R) * list (list R)) :=
  if (N <? 0)%Z then None else
  let '(_, us, xs) := fold_left (round x0 xf (Z.to_nat N)) (seq 0 (Z.to_nat N + 1)) (junk, [], []) in
  match changeTimeHorizon x0' u0' l0' tf (changeInitialState (toStateVector x0) s) with
  | None => None
  | Some s1 => match setInitialGuess x0' u0' l0' (MkG xs us (repeat K (Z.to_nat N))) s1 with
               | None => None
               | Some s2 => Some (s2, us, xs)
               end
  end.
End Nloc.
