(** Specification vocabulary for C26 and C27, independent of the model. *)
From Coq Require Import Reals List Arith.
Import ListNotations.
Local Open Scope R_scope.

(** The times t_0, ..., t_N partition [0, T] into N intervals. *)
Definition partitions (N : nat) (T : R) (t : list R) : Prop :=
  length t = S N /\ nth 0 t 0 = 0 /\ nth N t 0 = T /\
  forall i, (i < N)%nat -> nth i t 0 < nth (S i) t 0.

(** All intervals have the same length. *)
Definition uniform (N : nat) (T : R) (t : list R) : Prop :=
  forall i, (i <= N)%nat -> nth i t 0 = INR i * T / INR N.

(** A decision vector of N+1 nodes (state, control), node after node. *)
Definition node := (list R * list R)%type.
Definition flatten (l : list node) : list R := concat (map (fun p => fst p ++ snd p) l).
Definition nodes_ok (n m N : nat) (l : list node) : Prop :=
  length l = S N /\ forall p, In p l -> length (fst p) = n /\ length (snd p) = m.

(** Replace one element. *)
Fixpoint replace {A} (i : nat) (v : A) (l : list A) : list A :=
  match l, i with
  | [], _ => []
  | _ :: r, O => v :: r
  | a :: r, S j => a :: replace j v r
  end.
