(** Vocabulary for the theorems about the main loop and the number of stages. *)
From Coq Require Import List ZArith QArith.
From Verif.Optcon Require Import LsModel LsSpec SolveModel.
Import ListNotations.

Section Spec.
Variable St : Type.
Variable run : St -> bool * St.
(** State after [k] iterations, and whether iteration [k] (counted from 0) reported a better solution. *)
Fixpoint iterate (k : nat) (s : St) : St := match k with O => s | S k => snd (run (iterate k s)) end.
Definition better (k : nat) (s : St) : bool := fst (run (iterate k s)).
End Spec.

Section Merit.
Variables T Df : Type.
(** Merit of the current trajectory of the solver. *)
Definition merit_now (dnorm : Df -> num) (c : ls_settings) (b : ls_state T Df) (m : Q) : Prop :=
  has_merit T Df c (MkTrial (b_traj b) (b_defects b) (b_int b) (b_fin b) (dnorm (b_defects b)) (b_box b) (b_gen b)) m.
End Merit.

(** Calls a user can make between solves. *)
Inductive call (X U L : Type) := Guess (g : guess X U L) | Horizon (tf : Q) | Stages (n : Z) | InitialState (x : X) | Configure (dt : Q).
Arguments Guess {X U L}. Arguments Horizon {X U L}. Arguments Stages {X U L}. Arguments InitialState {X U L}. Arguments Configure {X U L}.
