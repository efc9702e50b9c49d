(** Vocabulary for the discretizer theorems: textbook steps and what a history of calls asks for. *)
From Coq Require Import List ZArith Reals.
From Verif Require Import Core.DiscretizerModel.
Import ListNotations.
Open Scope R_scope.

Section Steps.
Variables (X U : Type) (vadd : X -> X -> X) (vscal : R -> X -> X).
Notation "a +++ b" := (vadd a b) (at level 50, left associativity).
Notation "h *** a" := (vscal h a) (at level 40).

(** One step of size [h] of the explicit Euler or the classical Runge-Kutta method, and the points where the right-hand side is evaluated. *)
Definition k1 (f : X -> R -> X) (x : X) (t h : R) := f x t.
Definition k2 f x t h := f (x +++ (/ 2 * h) *** k1 f x t h) (t + / 2 * h).
Definition k3 f x t h := f (x +++ (/ 2 * h) *** k2 f x t h) (t + / 2 * h).
Definition k4 f x t h := f (x +++ h *** k3 f x t h) (t + h).
Definition method (ty : itype) (f : X -> R -> X) (x : X) (t h : R) : X :=
  match ty with
  | EULERCT => x +++ h *** f x t
  | _ => x +++ (1 / 6 * h) *** (k1 f x t h +++ 2 *** k2 f x t h +++ 2 *** k3 f x t h +++ k4 f x t h)
  end.
Definition stages (ty : itype) (f : X -> R -> X) (x : X) (t h : R) : list X :=
  match ty with
  | EULERCT => [x]
  | _ => [x; x +++ (/ 2 * h) *** k1 f x t h; x +++ (/ 2 * h) *** k2 f x t h; x +++ h *** k3 f x t h]
  end.
(** State after [k] steps of size [h] that start at time [t]. *)
Fixpoint after (step : X -> R -> R -> X) (k : nat) (x : X) (t h : R) : X :=
  match k with O => x | S k => step (after step k x t h) (t + INR k * h) h end.
(** The same for a step that does not depend on time. *)
Fixpoint afterSym (step : X -> R -> X) (k : nat) (x : X) (h : R) : X :=
  match k with O => x | S k => step (afterSym step k x h) h end.

(** The calls of a user of a discretizer. *)
Inductive call := CParameters (t : R) (K : Z) | CType (ty : itype) | CSystem (c : csys X U) | CPropagate (x : X) (n : Z) (u : U).
(** What they ask for: step size, number of substeps, integration type, system; [i_fresh] tells that the system was set after the
    integration type. *)
Record intent := mkIntent { i_dt : R; i_K : Z; i_type : itype; i_sys : option (csys X U); i_fresh : bool }.
Definition intend (i : intent) (c : call) : intent :=
  match c with
  | CParameters t K => mkIntent t K (i_type i) (i_sys i) (i_fresh i)
  | CType ty => mkIntent (i_dt i) (i_K i) ty (i_sys i) false
  | CSystem c => mkIntent (i_dt i) (i_K i) (i_type i) (Some c) true
  | CPropagate _ _ _ => i
  end.
Definition intended (t : R) (ty : itype) (K : Z) (l : list call) : intent := fold_left intend l (mkIntent t K ty None false).
End Steps.
