(** Vocabulary for the integration theorems. *)
From Coq Require Import List ZArith QArith.
Import ListNotations.

Section Spec.
Variables (S V : Type).
Variable sadd : S -> S -> S.
Variable step : V -> S -> S -> V.
(** Time and state after [k] steps. *)
Fixpoint time_after (k : nat) (t dt : S) : S := match k with O => t | Datatypes.S k => sadd (time_after k t dt) dt end.
Fixpoint state_after (k : nat) (x : V) (t dt : S) : V :=
  match k with O => x | Datatypes.S k => step (state_after k x t dt) (time_after k t dt) dt end.
End Spec.

(** Simulated time of a cycle: steps times step size, summed. *)
Fixpoint advanced (l : list (Z * Q)) : Q := match l with [] => 0 | (n, d) :: l => inject_Z n * d + advanced l end.
