(** Specification vocabulary for the MPC time horizon and time keeper. *)
From Coq Require Import List ZArith QArith Qminmax.
From Verif Require Import Optcon.MpcTimeModel.
Import ListNotations.
Open Scope Q_scope.

(** Documented behaviour of the four modes.  [left] is the time left until the initial horizon
    ends; [T] the new horizon, [fin] the task-finished flag. *)
Definition documented_horizon (m : mpc_mode) (T0 minT left T : Q) (fin : bool) : Prop :=
  match m with
  | ConstantReceding => T == T0 /\ fin = false
  | FixedFinal =>
      (0 <= left -> T == left) /\ (left <= 0 -> T == 0) /\ (fin = true <-> left <= 0)
  | FixedFinalMin =>
      (minT <= left -> T == left) /\ (left <= minT -> T == minT) /\ (fin = true <-> left <= minT)
  | RecedingFixedFinal =>
      (minT <= left -> T == minT) /\ (0 <= left <= minT -> T == left) /\ (left <= 0 -> T == 0) /\
      (fin = true <-> left <= 0 \/ minT == 0)
  | OtherMode => False
  end.

(** Settings with non-negative delays and multiplier. *)
Definition settings_nonneg (s : mpc_settings) : Prop :=
  0 <= ms_multiplier s /\ (0 <= ms_fixedDelayUs s)%Z /\ (0 <= ms_additionalDelayUs s)%Z.

(** Clock readings never go back: [c] internal clock, [e] external clock so far (both start at or
    after 0). *)
Fixpoint clocks_ok (c e : Q) (h : list tk_op) : Prop :=
  match h with
  | [] => True
  | TkTimings _ n1 n2 x T :: r => c <= n1 /\ n1 <= n2 /\ e <= x /\ 0 <= T /\ clocks_ok n2 x r
  | TkStart n x :: r => c <= n /\ e <= x /\ clocks_ok n x r
  | TkStop n1 n2 n3 x :: r => c <= n1 /\ n1 <= n2 /\ n2 <= n3 /\ e <= x /\ clocks_ok n3 x r
  | TkSincePrevious n x :: r => c <= n /\ e <= x /\ clocks_ok n x r
  | TkUpdate s :: r => settings_nonneg s /\ clocks_ok c e r
  | TkInitialize :: r => clocks_ok c e r
  end.

(** The delays that a stop watch would measure: reading at a stop minus reading at the latest
    start. *)
Fixpoint stopwatch (start : option Q) (h : list tk_op) : list Q :=
  match h with
  | [] => []
  | TkStart n _ :: r => stopwatch (Some n) r
  | TkStop n1 _ _ _ :: r =>
      match start with Some s => (n1 - s) :: stopwatch start r | None => stopwatch start r end
  | _ :: r => stopwatch start r
  end.

(** Every stop comes after a start; no re-initialisation or settings change in between. *)
Fixpoint starts_before_stops (started : bool) (h : list tk_op) : Prop :=
  match h with
  | [] => True
  | TkStart _ _ :: r => starts_before_stops true r
  | TkStop _ _ _ _ :: r => started = true /\ starts_before_stops started r
  | TkInitialize :: _ | TkUpdate _ :: _ => False
  | _ :: r => starts_before_stops started r
  end.

Definition maximum (l : list Q) : Q := fold_left Qmax l 0.
Definition minimum (l : list Q) : option Q :=
  match l with [] => None | x :: r => Some (fold_left Qmin r x) end.
Definition total_of (l : list Q) : Q := fold_left Qplus l 0.
