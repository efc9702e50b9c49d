(** Vocabulary for the line search theorems. *)
From Coq Require Import List QArith Arith.
From Verif.Optcon Require Import LsModel.

Section Spec.
Variables T Df : Type.

(** The i-th step size: alpha_0 times n_alpha, i times. *)
Fixpoint step_size (alpha0 n : Q) (i : nat) : Q := match i with O => alpha0 | S i => step_size alpha0 n i * n end.

(** Merit of a completed trial: cost plus weighted defects plus weighted constraint violations, all of them numbers. *)
Definition has_merit (c : ls_settings) (o : trial T Df) (m : Q) : Prop :=
  exists i f d b g, o_int o = Some i /\ o_fin o = Some f /\ o_def o = Some d /\ o_box o = Some b /\ o_gen o = Some g /\
    m == i + f + ls_rho c * d + ls_rhoc c * (b + g).

(** A step may be taken: its merit is a number below the reference (SIMPLE); with ARMIJO it is not above it and the
    decrease reaches the given share of the expected one. *)
Definition acceptable (c : ls_settings) (d1 d2 : num) (alpha : Q) (o : trial T Df) (lowest : num) : Prop :=
  exists m l, has_merit c o m /\ lowest = Some l /\
    match ls_kind c with
    | SIMPLE => m < l
    | ARMIJO => m <= l /\ exists D1 D2, d1 = Some D1 /\ d2 = Some D2 /\ ls_armijo c * (alpha * (D1 + alpha * (1#2) * D2)) <= l - m
    end.

(** The members after trial [o] was taken over. *)
Definition taken_over (o : trial T Df) (b : ls_state T Df) : Prop :=
  b_traj b = o_traj o /\ b_defects b = o_defects o /\ b_int b = o_int o /\ b_fin b = o_fin o /\ b_dnorm b = o_def o /\
  b_box b = o_box o /\ b_gen b = o_gen o.

(** Settings accepted by LineSearchSettings::parametersOk, as far as they matter here. *)
Definition steps_ok (c : ls_settings) : Prop := 0 < ls_alpha0 c /\ 0 < ls_n c /\ ls_n c < 1.
End Spec.

(** The first acceptable exponent below [max]: what trying the steps in order returns. *)
Definition first_acceptable (acc : nat -> bool) (max e : nat) : Prop :=
  (e < max)%nat /\ acc e = true /\ forall i, (i < e)%nat -> acc i = false.
