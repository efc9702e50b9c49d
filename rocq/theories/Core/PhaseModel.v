(** Model of ct_core: common/Switching.h, class PhaseSequence.  [Time] is Q. *)
From Coq Require Import List ZArith QArith.
From Verif Require Import Base.Outcome Core.InterpModel.
Import ListNotations.
Open Scope Q_scope.

Section Phase.
Context {Phase : Type}.

(** members phase_schedule_, time_schedule_ (l.105-106) *)
Record phase_seq := mk_seq { phase_schedule : list Phase; time_schedule : list Q }.

(** l.46 *)
Definition ps_new (start_time : Q) : phase_seq := mk_seq [] [start_time].

(** l.50-54; time_schedule_ is never empty, [vec_back] cannot be UB (see the proofs). *)
Definition addPhase (s : phase_seq) (ph : Phase) (duration : Q) : outcome phase_seq :=
  do b <- vec_back (time_schedule s) ;;
  Ok (mk_seq (phase_schedule s ++ [ph]) (time_schedule s ++ [b + duration])).

Fixpoint addPhases (s : phase_seq) (l : list (Phase * Q)) : outcome phase_seq :=
  match l with
  | [] => Ok s
  | (ph, d) :: r => do s' <- addPhase s ph d ;; addPhases s' r
  end.

(** size_t subtraction wraps around *)
Definition size_sub (a b : Z) : Z := ((a - b) mod 2 ^ 64)%Z.

(** operator[] with a size_t index that may be huge (after wrap-around). *)
Definition vec_getz {A} (l : list A) (i : Z) : outcome A :=
  if ((0 <=? i) && (i <? Z.of_nat (length l)))%Z then vec_get l (Z.to_nat i) else UB.

(** l.56, l.58 *)
Definition getNumPhases (s : phase_seq) : Z := Z.of_nat (length (phase_schedule s)).
Definition getNumSwitches (s : phase_seq) : Z := size_sub (getNumPhases s) 1.

(** l.60 *)
Definition getTotalDuration (s : phase_seq) : outcome Q :=
  do b <- vec_back (time_schedule s) ;; do f <- vec_front (time_schedule s) ;; Ok (b - f).

(** l.62, l.64, l.66 *)
Definition getStartTimeFromIdx (s : phase_seq) (i : Z) : outcome Q := vec_getz (time_schedule s) i.
Definition getEndTimeFromIdx (s : phase_seq) (i : Z) : outcome Q :=
  vec_getz (time_schedule s) ((i + 1) mod 2 ^ 64).
Definition getPhaseFromIdx (s : phase_seq) (i : Z) : outcome Phase := vec_getz (phase_schedule s) i.

(** std::upper_bound on a sorted range: number of leading elements that are <= t
    (position of the first element greater than t). *)
Fixpoint upper_bound (ts : list Q) (t : Q) : nat :=
  match ts with
  | [] => 0
  | x :: r => if Qltb t x then 0 else Datatypes.S (upper_bound r t)
  end.

(** l.84-102 *)
Definition getIdxFromTime (s : phase_seq) (t : Q) : outcome Z :=
  do f <- vec_front (time_schedule s) ;;
  if Qltb t f then Ok 0%Z
  else
    do b <- vec_back (time_schedule s) ;;
    if Qle_bool b t then Ok (size_sub (getNumPhases s) 1)
    else Ok (size_sub (Z.of_nat (upper_bound (time_schedule s) t)) 1).

(** l.68 *)
Definition getPhaseFromTime (s : phase_seq) (t : Q) : outcome Phase :=
  do i <- getIdxFromTime s t ;; getPhaseFromIdx s i.

(** l.74-77, l.79-82: (pre phase, post phase, switch time) *)
Definition getSwitchEventFromIdx (s : phase_seq) (i : Z) : outcome (Phase * Phase * Q) :=
  do a <- getPhaseFromIdx s i ;;
  do b <- getPhaseFromIdx s ((i + 1) mod 2 ^ 64) ;;
  do t <- getEndTimeFromIdx s i ;;
  Ok (a, b, t).
Definition getSwitchEventFromTime (s : phase_seq) (t : Q) : outcome (Phase * Phase * Q) :=
  do i <- getIdxFromTime s t ;; getSwitchEventFromIdx s i.
End Phase.
