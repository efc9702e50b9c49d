(** Specification vocabulary for C29, C30 and C49. *)
From Coq Require Import Reals List Arith.
From Verif Require Import Base.Outcome Base.RVec Optcon.ConstraintSpec Optcon.ConstraintModel
  Optcon.NlpModel.
Import ListNotations.
Local Open Scope R_scope.

(** Matrices below one another: (number of rows, entries). *)
Fixpoint stacked (l : list (nat * rmat)) : rmat :=
  match l with
  | [] => fun _ _ => 0
  | (k, D) :: rest => fun r c => if (r <? k)%nat then D r c else stacked rest (r - k)%nat c
  end.

(** What a constraint with decision vectors of length nc should be: values v, bounds lo and up, and a
    Jacobian D whose non-zeros the constraint reports. *)
Record meaning := mkMeaning { mv : list R; mlo : list R; mup : list R; mD : rmat }.
Definition reports (nc : nat) (c : discrete) (d : meaning) : Prop :=
  d_eval c = Ok (mv d) /\ d_lb c = Ok (mlo d) /\ d_ub c = Ok (mup d) /\
  length (mv d) = d_size c /\ length (mlo d) = d_size c /\ length (mup d) = d_size c /\
  exists rows cols vals, d_jac c = Ok vals /\ length vals = d_nnz c /\
    (forall ir jc, length ir = d_nnz c -> length jc = d_nnz c -> d_pattern c ir jc = Ok (rows, cols)) /\
    sparse_form (d_size c) nc (mD d) rows cols vals.

Section Columns.
Variables n m : nat.

(** The column of component j of state / control k in the decision vector. *)
Definition colX (k j : nat) : nat := (k * (n + m) + j)%nat.
Definition colU (k j : nat) : nat := (k * (n + m) + n + j)%nat.

(** A matrix over the columns of the decision vector: block JS at state k, block JU at control k. *)
Definition at_node (k : nat) (JS JU : rmat) : rmat := fun r c =>
  if (c / (n + m) =? k)%nat then
    if (c mod (n + m) <? n)%nat then JS r (c mod (n + m))%nat
    else JU r (c mod (n + m) - n)%nat
  else 0.

(** The Jacobian of s_{i+1} - X(s_i, q_i, q_{i+1}), given the sensitivities of X. *)
Definition delta : rmat := fun r c => if (r =? c)%nat then 1 else 0.
Definition neg (M : rmat) : rmat := fun r c => - M r c.
Definition continuity_jacobian (i : nat) (XS XQ XQ1 : rmat) : rmat := fun r c =>
  at_node i (neg XS) (neg XQ) r c + at_node (i + 1) delta (neg XQ1) r c.
End Columns.
