(** Specification vocabulary for policies on a uniform time grid. *)
From Coq Require Import List ZArith QArith.
From Verif Require Import Core.InterpModel Optcon.PolicyModel.
Import ListNotations.
Open Scope Q_scope.

(** Time stamps 0, dt, 2dt, ..., one sample each, usable look-up cache. *)
Definition on_grid (dt : Q) (n : nat) (s : traj) : Prop :=
  Forall2 Qeq (tr_time s) (map (fun k => inject_Z (Z.of_nat k) * dt) (seq 0 n)) /\
  length (tr_data s) = n /\ (0 <= tr_hint s)%Z.

(** A policy with N stages: N gains, N feed-forward controls, N+1 reference states. *)
Definition policy_on_grid (dt : Q) (N : nat) (p : policy) : Prop :=
  on_grid dt N (pol_fb p) /\ on_grid dt N (pol_ff p) /\ on_grid dt (S N) (pol_x p).

(** Number of whole steps contained in a delay, at most N-1. *)
Definition whole_steps (dt : Q) (N : nat) (delay : Q) (s : nat) : Prop :=
  (s <= N - 1)%nat /\
  (inject_Z (Z.of_nat s) * dt <= delay \/ (s = 0%nat /\ delay < 0)) /\
  ((s < N - 1)%nat -> delay < inject_Z (Z.of_nat (S s)) * dt).

(** Old samples moved [s] places to the front; the last sample repeated at the end. *)
Definition moved (s K : nat) (data : list vec) : list vec :=
  map (fun k => nth (Nat.min (k + s) (length data - 1)) data []) (seq 0 K).
