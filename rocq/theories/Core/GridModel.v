(** Model of ct_core: common/linspace.h and types/arrays/TimeArray.h, over an arbitrary scalar
    type ([of_nat] is the conversion of a size_t to the scalar type). *)
From Coq Require Import List.
From Verif Require Import Base.Outcome Base.Scalar.
Import ListNotations.

Section Grid.
Context {S : Type} (ops : scalar_ops S) (of_nat : nat -> S).

(** linspace.h 33-37: the filling loop, [n] elements remaining, [val] the running value. *)
Fixpoint linspace_loop (n : nat) (val h : S) : list S :=
  match n with
  | O => []
  | Datatypes.S m => val :: linspace_loop m (s_add ops val h) h
  end.

(** linspace.h 22-40 *)
Definition linspace (a b : S) (N : nat) : outcome (list S) :=
  match N with
  | O => Throw
  | Datatypes.S m => Ok (linspace_loop N a (s_div ops (s_sub ops b a) (of_nat m)))
  end.

(** TimeArray.h 33-36.  For N = 0 the subtraction N-1 wraps around, but linspace throws
    whatever the end value is; the model uses [of_nat 0] there. *)
Definition TimeArray_uniform (dt : S) (N : nat) (t0 : S) : outcome (list S) :=
  linspace t0 (s_add ops t0 (s_mul ops (of_nat (N - 1)) dt)) N.
End Grid.
