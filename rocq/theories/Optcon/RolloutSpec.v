(** Vocabulary for statements about rollouts: independent of how the rollout is computed. *)
From Coq Require Import List Arith Reals.
From Verif.Optcon Require Import RolloutModel.
Import ListNotations.

Section Spec.
Variables V U : Type.
Variable v0 : V.
Variable u0 : U.

(** State, control, integrated state and defect at a stage. *)
Definition state (r : traj V U) (i : nat) : V := nth i (r_x r) v0.
Definition control (r : traj V U) (i : nat) : U := nth i (r_u r) u0.
Definition integrated (r : traj V U) (i : nat) : V := nth i (r_xs r) v0.
Definition defect_at (r : traj V U) (i : nat) : V := nth i (r_d r) v0.

(** Arrays dimensioned for [K] stages. *)
Definition dimensioned (K : nat) (r : traj V U) : Prop :=
  length (r_x r) = S K /\ length (r_u r) = K /\ length (r_xs r) = S K /\ length (r_d r) = S K.

(** Stages per shot: the whole horizon for single shooting, else the K_shot of the settings. *)
Definition shot_length (K : nat) (single : bool) (Kshot : nat) : nat := if single then K else Kshot.

(** The whole trajectory obeys the dynamics. *)
Definition consistent (dyn : nat -> V -> U -> V) (K : nat) (r : traj V U) : Prop :=
  forall i, i < K -> state r (S i) = dyn i (state r i) (control r i).
End Spec.

(** computeDefectsNorm, NLOCBackendBase.hpp lines 631-667: sum of the norms of the entries. *)
Definition defects_norm {V} (norm : V -> R) (d : list V) : R := fold_right Rplus 0%R (map norm d).
