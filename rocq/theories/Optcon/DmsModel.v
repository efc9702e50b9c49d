(** Model of the direct multiple shooting data structures of ct_optcon: time grid and decision
    vector.  Files are in ct_optcon/include/ct/optcon. *)
From Coq Require Import Reals List Bool Arith ZArith.
From Verif Require Import Base.Outcome Base.Scalar.
Import ListNotations.

(** ** dms/dms_core/TimeGrid.h *)

(** Exact reals as a scalar. *)
Definition Rops : scalar_ops R := {|
  s_zero := 0%R; s_add := Rplus; s_sub := Rminus; s_mul := Rmult; s_div := Rdiv; s_opp := Ropp;
  s_ltb := fun a b => if Rlt_dec a b then true else false |}.

Section Grid.
Variable S : Type.
Variable ops : scalar_ops S.
Variable of_nat : nat -> S.   (* the conversion from size_t *)

(** TimeGrid.h 149-153. *)
Record grid := mkGrid { g_N : nat; g_T : S; g_t : list S }.

(** A loop writing f(i) to element i, for i, ..., i+k-1. *)
Fixpoint fill (f : nat -> S) (i k : nat) (t : list S) : outcome (list S) :=
  match k with
  | O => Ok t
  | Datatypes.S k' => do t' <- vec_set t i (f i) ;; fill f (Datatypes.S i) k' t'
  end.

(** TimeGrid.h 99-103. *)
Definition makeUniformGrid (g : grid) : outcome grid :=
  do t <- fill (fun i => s_mul ops (of_nat i) (s_div ops (g_T g) (of_nat (g_N g))))
            0 (g_N g + 1) (g_t g) ;;
  Ok (mkGrid (g_N g) (g_T g) t).

(** TimeGrid.h 40-44. *)
Definition newGrid (N : nat) (T : S) : outcome grid :=
  makeUniformGrid (mkGrid N T (repeat (s_zero ops) (N + 1))).

(** TimeGrid.h 51-57. *)
Definition changeShotCount (N : nat) (g : grid) : outcome grid :=
  makeUniformGrid (mkGrid N (g_T g) (repeat (s_zero ops) (N + 1))).

(** TimeGrid.h 64-68. *)
Definition gridChangeTimeHorizon (T : S) (g : grid) : outcome grid :=
  makeUniformGrid (mkGrid (g_N g) T (g_t g)).

(** TimeGrid.h 79-84. *)
Fixpoint updateLoop (h : list S) (i : nat) (t : list S) : outcome (list S) :=
  match h with
  | [] => Ok t
  | d :: r =>
      do a <- vec_get t i ;;
      do t' <- vec_set t (i + 1) (s_add ops a d) ;;
      updateLoop r (i + 1) t'
  end.
Definition updateTimeGrid (h : list S) (g : grid) : outcome grid :=
  do t0 <- vec_set (g_t g) 0 (s_zero ops) ;;
  do t <- updateLoop h 0 t0 ;;
  Ok (mkGrid (g_N g) (g_T g) t).

(** TimeGrid.h 113, 121, 129, 141, 147: unchecked accesses. *)
Definition getShotStartTime (g : grid) (i : nat) : outcome S := vec_get (g_t g) i.
Definition getShotEndTime (g : grid) (i : nat) : outcome S := vec_get (g_t g) (i + 1).
Definition getShotDuration (g : grid) (i : nat) : outcome S :=
  do e <- vec_get (g_t g) (i + 1) ;; do s <- vec_get (g_t g) i ;; Ok (s_sub ops e s).
Definition getTimeHorizon (g : grid) : S := g_T g.
Definition getOptimizedTimeHorizon (g : grid) : outcome S := vec_back (g_t g).
End Grid.
Arguments mkGrid {S}. Arguments g_N {S}. Arguments g_T {S}. Arguments g_t {S}.
Arguments getShotStartTime {S}. Arguments getShotEndTime {S}.
Arguments getTimeHorizon {S}. Arguments getOptimizedTimeHorizon {S}.

(** The grid in exact arithmetic. *)
Definition rNewGrid := newGrid R Rops INR.
Definition rChangeShotCount := changeShotCount R Rops INR.
Definition rChangeTimeHorizon := gridChangeTimeHorizon R Rops INR.
Definition rUpdateTimeGrid := updateTimeGrid R Rops.
Definition rShotDuration := getShotDuration R Rops.

(** ** Decision vector: nlp/OptVector.h, dms/dms_core/OptVectorDms.h and
    dms/dms_core/implementation/OptVectorDms-impl.h *)

(** Eigen's x.segment(i, k), read and write; out of range is undefined (an assertion in debug
    builds). *)
Definition segment {A} (i k : nat) (l : list A) : outcome (list A) :=
  if i + k <=? length l then Ok (firstn k (skipn i l)) else UB.
Definition setSegment {A} (i : nat) (v l : list A) : outcome (list A) :=
  if i + length v <=? length l then Ok (firstn i l ++ v ++ skipn (i + length v) l) else UB.

Section OptVector.
Variables n m : nat.   (* STATE_DIM, CONTROL_DIM *)

(** OptVectorDms.h 165-173 and OptVector.h members x_, xInit_, updateCount_ (the bounds and
    multipliers are only passed through and are left out).  The std::maps are association
    lists. *)
Record optvec := mkOv {
  o_x : list R; o_init : list R; o_count : nat; o_N : nat; o_numPairs : nat;
  o_state : list (nat * nat); o_control : list (nat * nat) }.

(** OptVectorDms-impl.h 15-22: the loop filling both maps. *)
Fixpoint buildMaps (i k currIndex : nat) : list (nat * nat) * list (nat * nat) :=
  match k with
  | O => ([], [])
  | S k' =>
      let '(s, c) := buildMaps (S i) k' (currIndex + n + m) in
      ((i, currIndex) :: s, (i, currIndex + n) :: c)
  end.

(** OptVectorDms-impl.h 10-25, OptVector.h 39-56.  xInit_ is resized but not initialised:
    [junk] is its content. *)
Definition newOptVec (len : nat) (N : nat) (junk : list R) : optvec :=
  let '(s, c) := buildMaps 0 (N + 1) 0 in
  mkOv (repeat 0%R len) junk 0 N (N + 1) s c.

(** map.find(k)->second: dereferences end() when the key is missing. *)
Fixpoint mapFind (k : nat) (l : list (nat * nat)) : outcome nat :=
  match l with
  | [] => UB
  | (a, v) :: r => if a =? k then Ok v else mapFind k r
  end.

(** OptVectorDms-impl.h 66-69, 73-76. *)
Definition getStateIndex (o : optvec) (i : nat) : outcome nat := mapFind i (o_state o).
Definition getControlIndex (o : optvec) (i : nat) : outcome nat := mapFind i (o_control o).

(** OptVectorDms-impl.h 29-33, 37-41. *)
Definition getOptimizedState (o : optvec) (i : nat) : outcome (list R) :=
  do k <- getStateIndex o i ;; segment k n (o_x o).
Definition getOptimizedControl (o : optvec) (i : nat) : outcome (list R) :=
  do k <- getControlIndex o i ;; segment k m (o_x o).

(** OptVectorDms-impl.h 45-51, 56-62. *)
Fixpoint collect {A} (f : nat -> outcome A) (i k : nat) : outcome (list A) :=
  match k with
  | O => Ok []
  | S k' => do a <- f i ;; do r <- collect f (S i) k' ;; Ok (a :: r)
  end.
Definition getOptimizedStates (o : optvec) : outcome (list (list R)) :=
  collect (getOptimizedState o) 0 (o_numPairs o).
Definition getOptimizedInputs (o : optvec) : outcome (list (list R)) :=
  collect (getOptimizedControl o) 0 (o_numPairs o).

Definition withX (x : list R) (o : optvec) : optvec :=
  mkOv x (o_init o) (o_count o) (o_N o) (o_numPairs o) (o_state o) (o_control o).
Definition withInit (x : list R) (o : optvec) : optvec :=
  mkOv (o_x o) x (o_count o) (o_N o) (o_numPairs o) (o_state o) (o_control o).

(** OptVector.h 290-300. *)
Definition setOptimizationVars (w : list R) (o : optvec) : optvec :=
  mkOv w (o_init o) (S (o_count o)) (o_N o) (o_numPairs o) (o_state o) (o_control o).

(** OptVector.h 72. *)
Definition ovReset (o : optvec) : optvec :=
  mkOv (o_x o) (o_init o) 0 (o_N o) (o_numPairs o) (o_state o) (o_control o).

(** OptVectorDms-impl.h 79-83, 86-90. *)
Definition ovChangeInitialState (x0 : list R) (o : optvec) : outcome optvec :=
  do k <- getStateIndex o 0 ;; do x <- setSegment k x0 (o_x o) ;; Ok (withX x o).
Definition ovChangeDesiredState (xF : list R) (o : optvec) : outcome optvec :=
  do k <- mapFind (o_N o) (o_state o) ;; do x <- setSegment k xF (o_x o) ;; Ok (withX x o).

(** OptVectorDms-impl.h 93-118: type is the constant 1; i / (numPairs_ - 1) is a division of
    size_t values, undefined for a zero divisor. *)
Definition interpolateState (x0 xf : list R) (q : nat) : list R :=
  map (fun p => (fst p + (snd p - fst p) * INR q)%R) (combine x0 xf).
Fixpoint guessLoop (o : optvec) (x0 xf u0 : list R) (i k : nat) (init : list R)
  : outcome (list R) :=
  match k with
  | O => Ok init
  | S k' =>
      do s <- getStateIndex o i ;;
      do q <- getControlIndex o i ;;
      if o_numPairs o - 1 =? 0 then UB else
      do init <- setSegment s (interpolateState x0 xf (i / (o_numPairs o - 1))) init ;;
      do init <- setSegment q u0 init ;;
      guessLoop o x0 xf u0 (S i) k' init
  end.
Definition setInitGuessEnds (x0 xf u0 : list R) (o : optvec) : outcome optvec :=
  do init <- guessLoop o x0 xf u0 0 (o_numPairs o) (o_init o) ;; Ok (withInit init o).

(** OptVectorDms-impl.h 122-138. *)
Fixpoint guessArrayLoop (o : optvec) (xs us : list (list R)) (i k : nat) (init : list R)
  : outcome (list R) :=
  match k with
  | O => Ok init
  | S k' =>
      do s <- getStateIndex o i ;;
      do q <- getControlIndex o i ;;
      do x <- vec_get xs i ;;
      do init <- setSegment s x init ;;
      do u <- vec_get us i ;;
      do init <- setSegment q u init ;;
      guessArrayLoop o xs us (S i) k' init
  end.
Definition setInitGuess (xs us : list (list R)) (o : optvec) : outcome optvec :=
  if negb (length xs =? o_numPairs o) then Throw
  else if negb (length us =? o_numPairs o) then Throw
  else do init <- guessArrayLoop o xs us 0 (o_numPairs o) (o_init o) ;; Ok (withInit init o).

(** OptVector.h 235-239. *)
Definition getInitialGuess (o : optvec) : list R := o_init o.
End OptVector.
