(** Model of the constraint terms and of the analytical constraint container:
    ct_optcon/include/ct/optcon/constraint/{ConstraintContainerBase-impl.h,
    LinearConstraintContainer-impl.h, ConstraintContainerAnalytical-impl.h} and
    constraint/term/{ConstraintBase-impl.h, BoxConstraintBase-impl.h, StateConstraint-impl.h,
    ControlInputConstraint-impl.h, TerminalConstraint-impl.h, ObstacleConstraint-impl.h}.
    Real arithmetic.  States and controls (static dimension) are functions of the index, dynamic
    vectors are lists, dynamic matrices with a static number of columns are lists of rows. *)
From Coq Require Import Reals List Bool Arith ZArith.
From Verif Require Import Base.Outcome Base.RVec Optcon.DmsModel.
Import ListNotations.
Local Open Scope R_scope.

Section Constraint.
Variables n m : nat.   (* STATE_DIM, CONTROL_DIM *)

(** ** Terms *)

(** BoxConstraintBase.h members: the selected components (sparsity_), the selection matrix
    (sparsity_J_), the number of constraints, the bounds. *)
Record box := mkBox { b_sp : list Z; b_J : list rvec; b_size : nat; b_lb : list R; b_ub : list R }.

(** A user-defined term derived from ConstraintBase: its size, value and dense Jacobians and its
    bounds; the sparse interface is inherited. *)
Record general := mkGeneral {
  g_size : nat;
  g_eval : rvec -> rvec -> R -> list R;
  g_jacS : rvec -> rvec -> R -> list rvec;
  g_jacI : rvec -> rvec -> R -> list rvec;
  g_lb : list R; g_ub : list R }.

(** Obstacle: centre, half axes and orientation of the ellipsoid, the user's position function and
    its Jacobian, the largest scalar. *)
Record obstacle := mkObstacle {
  o_x0 : rvec; o_A : rmat; o_S : rmat; o_pos : rvec -> rvec; o_dpos : rvec -> rmat; o_max : R }.

Inductive constraint :=
| CState (b : box) | CInput (b : box) | CTerminal (xF : rvec) | CObstacle (o : obstacle)
| CGeneral (g : general).

(** BoxConstraintBase-impl.h 93-117: sizes and order of the bounds are checked. *)
Fixpoint leAll (lb ub : list R) : bool :=
  match lb, ub with
  | l :: lb', u :: ub' => if Rlt_dec u l then false else leAll lb' ub'
  | _, _ => true
  end.
Definition sanityCheck (nCon : nat) (lb ub : list R) : outcome unit :=
  if negb (length lb =? nCon)%nat || negb (length ub =? nCon)%nat then Throw
  else if leAll lb ub then Ok tt else Throw.

(** BoxConstraintBase-impl.h 69-90: one row per selected component. *)
Fixpoint selectRows (sp : list Z) (i : nat) : list rvec :=
  match sp with
  | [] => []
  | s :: r => if (s =? 1)%Z then runit i :: selectRows r (S i) else selectRows r (S i)
  end.
(** A zero-padded or truncated matrix would appear if the entries were not 0/1; the assertions of
    lines 35-36 and 80 exclude that and are modelled as undefined behaviour. *)
Definition zeroOne (sp : list Z) : bool := forallb (fun s => ((s =? 0) || (s =? 1))%Z) sp.
(** BoxConstraintBase-impl.h 29-50; [d] is DERIVED_DIM. *)
Definition newSparseBox (d : nat) (lb ub : list R) (sp : list Z) : outcome box :=
  if negb (zeroOne sp) || negb (length sp =? d)%nat then UB
  else
    let k := Z.to_nat (fold_right Z.add 0%Z sp) in
    do _ <- sanityCheck k lb ub ;; Ok (mkBox sp (selectRows sp 0) k lb ub).
(** BoxConstraintBase-impl.h 11-27: all components, identity matrix. *)
Definition newDenseBox (d : nat) (lb ub : list R) : outcome box :=
  do _ <- sanityCheck d lb ub ;;
  Ok (mkBox (repeat 1%Z d) (map runit (seq 0 d)) d lb ub).

(** getConstraintSize: BoxConstraintBase-impl.h 64, TerminalConstraint-impl.h 40,
    ObstacleConstraint-impl.h 44. *)
Definition size (c : constraint) : nat :=
  match c with
  | CState b | CInput b => b_size b
  | CTerminal _ => n
  | CObstacle _ => 1
  | CGeneral g => g_size g
  end.

Definition mulVec (k : nat) (M : list rvec) (v : rvec) : list R := map (fun row => rdot k row v) M.
Definition toList (k : nat) (v : rvec) : list R := map v (seq 0 k).

(** ct_core/geometry/Ellipsoid.h 40-43: (x-x0)' S A' A S' (x-x0) - 1. *)
Definition insideEllipsoid (o : obstacle) (x : rvec) : R :=
  let d := rsubv x (o_x0 o) in
  let w := rmv 3 (o_A o) (rmv 3 (rtr (o_S o)) d) in
  rdot 3 d (rmv 3 (o_S o) (rmv 3 (rtr (o_A o)) w)) - 1.

(** evaluate: StateConstraint-impl.h 44-49, ControlInputConstraint-impl.h 46-52,
    TerminalConstraint-impl.h 47-52, ObstacleConstraint-impl.h 50-59. *)
Definition evaluate (c : constraint) (x u : rvec) (t : R) : list R :=
  match c with
  | CState b => mulVec n (b_J b) x
  | CInput b => mulVec m (b_J b) u
  | CTerminal xF => toList n (rsubv x xF)
  | CObstacle o => [insideEllipsoid o (o_pos o x)]
  | CGeneral g => g_eval g x u t
  end.

(** getLowerBound, getUpperBound: the members lb_, ub_ (TerminalConstraint-impl.h 15-19,
    ObstacleConstraint-impl.h 20-23). *)
Definition lower (c : constraint) : list R :=
  match c with
  | CState b | CInput b => b_lb b
  | CTerminal _ => repeat 0 n
  | CObstacle _ => [0]
  | CGeneral g => g_lb g
  end.
Definition upper (c : constraint) : list R :=
  match c with
  | CState b | CInput b => b_ub b
  | CTerminal _ => repeat 0 n
  | CObstacle o => [o_max o]
  | CGeneral g => g_ub g
  end.

(** Obstacle Jacobian, ObstacleConstraint-impl.h 62-75: 2 dist' S A' A S' dX. *)
Definition obstacleJac (o : obstacle) (x : rvec) : rvec :=
  let d := rsubv (o_pos o x) (o_x0 o) in
  let w := rmv 3 (o_S o) (rmv 3 (rtr (o_A o)) (rmv 3 (o_A o) (rmv 3 (rtr (o_S o)) d))) in
  fun j => 2 * rdot 3 w (fun k => o_dpos o x k j).

(** jacobianState: StateConstraint-impl.h 64-69, ControlInputConstraint-impl.h 68-75,
    TerminalConstraint-impl.h 68-73. *)
Definition jacobianState (c : constraint) (x u : rvec) (t : R) : list rvec :=
  match c with
  | CState b => b_J b
  | CInput b => repeat rzero (b_size b)
  | CTerminal _ => map runit (seq 0 n)
  | CObstacle o => [obstacleJac o x]
  | CGeneral g => g_jacS g x u t
  end.
(** jacobianInput: StateConstraint-impl.h 73-80, ControlInputConstraint-impl.h 79-84,
    TerminalConstraint-impl.h 77-82, ObstacleConstraint-impl.h 79-84. *)
Definition jacobianInput (c : constraint) (x u : rvec) (t : R) : list rvec :=
  match c with
  | CState b => repeat rzero (b_size b)
  | CInput b => b_J b
  | CTerminal _ => repeat rzero n
  | CObstacle _ => [rzero]
  | CGeneral g => g_jacI g x u t
  end.

(** getNumNonZerosJacobianState / Input: ConstraintBase-impl.h 87-96 and the overrides
    StateConstraint-impl.h 83-92, ControlInputConstraint-impl.h 87-96,
    TerminalConstraint-impl.h 85-94. *)
Definition nnzState (c : constraint) : nat :=
  match c with
  | CState b => b_size b | CInput _ => 0 | CTerminal _ => n
  | CObstacle _ => n * 1 | CGeneral g => n * g_size g
  end.
Definition nnzInput (c : constraint) : nat :=
  match c with
  | CState _ => 0 | CInput b => b_size b | CTerminal _ => 0
  | CObstacle _ => m * 1 | CGeneral g => m * g_size g
  end.

(** ConstraintBase-impl.h 99-121: Eigen::Map of the data of a column-major matrix. *)
Definition columnMajor (k : nat) (M : list rvec) : list R :=
  concat (map (fun j => map (fun row => row j) M) (seq 0 k)).

(** jacobianStateSparse / InputSparse: ConstraintBase-impl.h 99-121, StateConstraint-impl.h
    96-103 and 113-118, ControlInputConstraint-impl.h 100-105 and 115-122,
    TerminalConstraint-impl.h 98-103. *)
Definition sparseState (c : constraint) (x u : rvec) (t : R) : list R :=
  match c with
  | CState b => repeat 1 (b_size b)
  | CInput _ => []
  | CTerminal _ => repeat 1 n
  | _ => columnMajor n (jacobianState c x u t)
  end.
Definition sparseInput (c : constraint) (x u : rvec) (t : R) : list R :=
  match c with
  | CState _ => []
  | CInput b => repeat 1 (b_size b)
  | _ => columnMajor m (jacobianInput c x u t)
  end.

(** ConstraintBase-impl.h 181-203: row by row. *)
Definition genBlockIndices (rows cols : nat) : list nat * list nat :=
  (concat (map (fun r => map (fun _ => r) (seq 0 cols)) (seq 0 rows)),
   concat (map (fun _ => seq 0 cols) (seq 0 rows))).
(** ConstraintBase-impl.h 135-151. *)
Definition genDiagonalIndices (k : nat) : list nat * list nat := (seq 0 k, seq 0 k).
(** ConstraintBase-impl.h 154-179: the selected components. *)
Fixpoint selected (sp : list Z) (i : nat) : list nat :=
  match sp with
  | [] => []
  | s :: r => if (s =? 1)%Z then i :: selected r (S i) else selected r (S i)
  end.
(** BoxConstraintBase-impl.h 120-130: the rows are renumbered 0, 1, ... *)
Definition boxPattern (b : box) : list nat * list nat := (seq 0 (b_size b), selected (b_sp b) 0).

(** sparsityPatternState / Input: ConstraintBase-impl.h 124-133, StateConstraint-impl.h 106,
    ControlInputConstraint-impl.h 125, TerminalConstraint-impl.h 106.  A term whose pattern is
    "do nothing" leaves the caller's vectors; the container never asks it (its count is 0). *)
Definition patternState (c : constraint) : list nat * list nat :=
  match c with
  | CState b => boxPattern b
  | CInput _ => ([], [])
  | CTerminal _ => genDiagonalIndices n
  | _ => genBlockIndices (size c) n
  end.
Definition patternInput (c : constraint) : list nat * list nat :=
  match c with
  | CState _ => ([], [])
  | CInput b => boxPattern b
  | _ => genBlockIndices (size c) m
  end.

(** ** Container *)

(** ConstraintContainerAnalytical.h members of one stage kind (intermediate or terminal): terms,
    initialized flag (LinearConstraintContainer.h), buffers and bounds. *)
Record stage := mkStage {
  s_terms : list constraint; s_init : bool;
  s_eval : list R; s_spS : list R; s_spI : list R; s_dS : list rvec; s_dI : list rvec;
  s_lb : list R; s_ub : list R }.
Definition newStage : stage := mkStage [] false [] [] [] [] [] [] [].

Record container := mkContainer {
  c_x : rvec; c_u : rvec; c_t : R; c_inter : stage; c_term : stage }.
Definition newContainer : container := mkContainer rzero rzero 0 newStage newStage.

(** ConstraintContainerAnalytical-impl.h 66-94. *)
Definition addTerm (c : constraint) (s : stage) : stage :=
  mkStage (s_terms s ++ [c]) false (s_eval s) (s_spS s) (s_spI s) (s_dS s) (s_dI s)
          (s_lb s) (s_ub s).

(** Counts, 128-147 and 458-496. *)
Definition total (f : constraint -> nat) (s : stage) : nat := list_sum (map f (s_terms s)).

(** The loop writing one segment per term: buf.segment(count, k) = v, where k and v come from the
    term; Eigen requires equal sizes and a segment inside the buffer. *)
Fixpoint writeSegments {A} (k : constraint -> nat) (v : constraint -> list A)
  (l : list constraint) (count : nat) (buf : list A) : outcome (list A) :=
  match l with
  | [] => Ok buf
  | c :: r =>
      if negb (length (v c) =? k c)%nat then UB
      else do b <- setSegment count (v c) buf ;; writeSegments k v r (count + k c)%nat b
  end.
(** The same, skipping terms with k = 0 (lines 156-166). *)
Fixpoint writeNonEmpty {A} (k : constraint -> nat) (v : constraint -> list A)
  (l : list constraint) (count : nat) (buf : list A) : outcome (list A) :=
  match l with
  | [] => Ok buf
  | c :: r =>
      if (k c =? 0)%nat then writeNonEmpty k v r count buf
      else if negb (length (v c) =? k c)%nat then UB
      else do b <- setSegment count (v c) buf ;; writeNonEmpty k v r (count + k c)%nat b
  end.

(** initializeIntermediate / initializeTerminal, 498-566: resize and clear all buffers, stack the
    bounds; nothing is touched when there is no constraint. *)
Definition initStage (s : stage) : outcome stage :=
  let k := total size s in
  if (k =? 0)%nat
  then Ok (mkStage (s_terms s) true (s_eval s) (s_spS s) (s_spI s) (s_dS s) (s_dI s)
                   (s_lb s) (s_ub s))
  else
    do lb <- writeSegments size lower (s_terms s) 0 (repeat 0 k) ;;
    do ub <- writeSegments size upper (s_terms s) 0 (repeat 0 k) ;;
    Ok (mkStage (s_terms s) true (repeat 0 k) (repeat 0 (total nnzState s))
                (repeat 0 (total nnzInput s)) (repeat rzero k) (repeat rzero k) lb ub).
(** LinearConstraintContainer-impl.h 39-43. *)
Definition initialize (c : container) : outcome container :=
  do a <- initStage (c_inter c) ;;
  do b <- initStage (c_term c) ;; Ok (mkContainer (c_x c) (c_u c) (c_t c) a b).

(** ConstraintContainerBase-impl.h 34-43. *)
Definition setCurrent (x u : rvec) (t : R) (c : container) : container :=
  mkContainer x u t (c_inter c) (c_term c).

(** The queries.  [checked] is the initialized flag tested at the start: the one of the stage,
    except for the terminal state Jacobians (193, 214), which test the intermediate flag.
    The buffers keep the values written, which no query reads: they are recomputed by each call,
    so the new buffer content is returned and not stored. *)
Section Query.
Variables (x u : rvec) (t : R).
(** 96-126 *)
Definition stageEval (s : stage) : outcome (list R) :=
  if negb (s_init s) then Throw
  else writeSegments size (fun c => evaluate c x u t) (s_terms s) 0 (s_eval s).
(** 149-168, 189-208 *)
Definition stageSparseState (checked : bool) (s : stage) : outcome (list R) :=
  if negb checked then Throw
  else writeNonEmpty nnzState (fun c => sparseState c x u t) (s_terms s) 0 (s_spS s).
(** 170-187, 210-226 *)
Definition stageDenseState (checked : bool) (s : stage) : outcome (list rvec) :=
  if negb checked then Throw
  else writeSegments size (fun c => jacobianState c x u t) (s_terms s) 0 (s_dS s).
(** 228-247, 267-286 *)
Definition stageSparseInput (s : stage) : outcome (list R) :=
  if negb (s_init s) then Throw
  else writeNonEmpty nnzInput (fun c => sparseInput c x u t) (s_terms s) 0 (s_spI s).
(** 249-265, 288-304 *)
Definition stageDenseInput (s : stage) : outcome (list rvec) :=
  if negb (s_init s) then Throw
  else writeSegments size (fun c => jacobianInput c x u t) (s_terms s) 0 (s_dI s).
End Query.

(** The pattern loop 307-342 (and 345-456): row indices shifted by the constraints before. *)
Fixpoint patternLoop (k : constraint -> nat) (pat : constraint -> list nat * list nat)
  (l : list constraint) (constraintCount : nat) (rows cols : list nat)
  : outcome (list nat * list nat) :=
  match l with
  | [] => Ok (rows, cols)
  | c :: r =>
      if (k c =? 0)%nat then patternLoop k pat r (constraintCount + size c) rows cols
      else
        let (lr, lc) := pat c in
        if negb (length lr =? k c)%nat || negb (length lc =? k c)%nat then UB
        else patternLoop k pat r (constraintCount + size c)
               (rows ++ map (fun i => i + constraintCount)%nat lr) (cols ++ lc)
  end.
Definition stagePatternState (s : stage) : outcome (list nat * list nat) :=
  if negb (s_init s) then Throw else patternLoop nnzState patternState (s_terms s) 0 [] [].
Definition stagePatternInput (s : stage) : outcome (list nat * list nat) :=
  if negb (s_init s) then Throw else patternLoop nnzInput patternInput (s_terms s) 0 [] [].

(** The public queries of the container. *)
Definition evaluateIntermediate (c : container) := stageEval (c_x c) (c_u c) (c_t c) (c_inter c).
Definition evaluateTerminal (c : container) := stageEval (c_x c) (c_u c) (c_t c) (c_term c).
Definition jacobianStateIntermediate (c : container) :=
  stageDenseState (c_x c) (c_u c) (c_t c) (s_init (c_inter c)) (c_inter c).
Definition jacobianStateTerminal (c : container) :=
  stageDenseState (c_x c) (c_u c) (c_t c) (s_init (c_inter c)) (c_term c).
Definition jacobianStateSparseIntermediate (c : container) :=
  stageSparseState (c_x c) (c_u c) (c_t c) (s_init (c_inter c)) (c_inter c).
Definition jacobianStateSparseTerminal (c : container) :=
  stageSparseState (c_x c) (c_u c) (c_t c) (s_init (c_inter c)) (c_term c).
Definition jacobianInputIntermediate (c : container) :=
  stageDenseInput (c_x c) (c_u c) (c_t c) (c_inter c).
Definition jacobianInputTerminal (c : container) :=
  stageDenseInput (c_x c) (c_u c) (c_t c) (c_term c).
Definition jacobianInputSparseIntermediate (c : container) :=
  stageSparseInput (c_x c) (c_u c) (c_t c) (c_inter c).
Definition jacobianInputSparseTerminal (c : container) :=
  stageSparseInput (c_x c) (c_u c) (c_t c) (c_term c).

(** Violations, ConstraintContainerBase-impl.h 79-129: component-wise; Eigen requires the value
    and the bounds to have the same size. *)
Definition zipR (f : R -> R -> R) (a b : list R) : outcome (list R) :=
  if (length a =? length b)%nat then Ok (map (fun p => f (fst p) (snd p)) (combine a b)) else UB.
Definition upperViolation (x u : rvec) (t : R) (s : stage) : outcome (list R) :=
  do e <- stageEval x u t s ;;
  do d <- zipR Rminus e (s_ub s) ;; zipR Rmax d (repeat 0 (length (s_ub s))).
Definition lowerViolation (x u : rvec) (t : R) (s : stage) : outcome (list R) :=
  do e <- stageEval x u t s ;;
  do d <- zipR Rminus e (s_lb s) ;; zipR Rmin d (repeat 0 (length (s_lb s))).
Definition totalViolation (x u : rvec) (t : R) (s : stage) : outcome (list R) :=
  do e <- stageEval x u t s ;;
  do dl <- zipR Rminus e (s_lb s) ;;
  do a <- zipR Rmin dl (repeat 0 (length (s_lb s))) ;;
  do du <- zipR Rminus e (s_ub s) ;;
  do b <- zipR Rmax du (repeat 0 (length (s_lb s))) ;;
  zipR Rplus a b.
Definition totalViolationIntermediate (c : container) :=
  totalViolation (c_x c) (c_u c) (c_t c) (c_inter c).
Definition totalViolationTerminal (c : container) :=
  totalViolation (c_x c) (c_u c) (c_t c) (c_term c).
End Constraint.
