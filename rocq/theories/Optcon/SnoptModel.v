(** Model of the interface to the solver SNOPT: ct_optcon/src/nlp/solver/SnoptSolver.cpp and include/ct/optcon/nlp/solver/SnoptSolver.h,
    with the parts of nlp/Nlp.h it calls.  SNOPT itself is external: what it is handed and what it returns are explicit.  Options
    (setSolverOptions) and printed messages are not modelled; an assignment to a mapped vector of another size is undefined. *)
From Coq Require Import List Arith ZArith Lia Bool.
From Verif Require Import Base.Outcome.
Import ListNotations.
Local Open Scope nat_scope.

(** * The pool of memory blocks, SnoptSolver.cpp 12-28, 31-63 *)
(** A block is named by a number; [None] is a null pointer. *)
Definition pool := list (option nat).
Fixpoint place (p : pool) (s : nat) : pool * nat :=
  match p with
  | [] => ([Some s], 0)
  | None :: p' => (Some s :: p', 0)
  | Some a :: p' => let (q, i) := place p' s in (Some a :: q, S i)
  end.
Fixpoint remove (p : pool) (s : nat) : pool :=
  match p with
  | [] => []
  | Some a :: p' => if Nat.eqb a s then None :: p' else Some a :: remove p' s
  | None :: p' => None :: remove p' s
  end.
(** The lookup of the callback, 291-309: mempool.at(iu[0]) followed by a use of the pointer. *)
Definition lookup (p : pool) (i : nat) : outcome nat :=
  match nth_error p i with None => Throw | Some None => UB | Some (Some s) => Ok s end.

Section Snopt.
Variables (T : Type) (zero lowest highest : T).

(** * The program (Nlp.h 316-486 and OptVector.h), as far as it is read *)
Record nlp := mkNlp {
  guess : list T; solution : list T; xLower : list T; xUpper : list T; xMult : list T; xStates : list Z;
  conLower : list T; conUpper : list T; zMult : list T; zStates : list Z; iRow : list nat; jCol : list nat;
  cost : list T -> T; gradient : list T -> list T; constraints : list T -> list T; jacobian : list T -> list T }.
Definition getVarCount (q : nlp) : nat := length (guess q).
Definition getConstraintsCount (q : nlp) : nat := length (conLower q).
Definition getNonZeroJacobianCount (q : nlp) : nat := length (iRow q).

(** The arrays of a block, SnoptSolver.h 41-62; those of the linear part have length zero. *)
Record memory := mkMemory { x : list T; xlow : list T; xupp : list T; xmul : list T; xstate : list Z;
  F : list T; Flow : list T; Fupp : list T; Fmul : list T; Fstate : list Z; iGfun : list nat; jGvar : list nat }.
Inductive start := Cold | Warm.
(** SnoptSolver.h 253-284; [block]: the pointer is indeterminate, or it points to a block whose arrays are null or allocated.
    [arrays] counts the arrays that are allocated and not deleted. *)
Inductive pointer := Indeterminate | Unallocated | Allocated (m : memory).
Record solver := mkSolver { n : nat; neF : nat; lenG : nat; block : pointer; startOption : start; isInitialized : bool; arrays : nat }.
(** SnoptSolver.h 104 (default constructor), SnoptSolver.cpp 66-71 *)
Definition defaultSolver : solver := mkSolver 0 0 0 Indeterminate Cold false 0.
Definition newSolver : solver := mkSolver 0 0 0 Unallocated Cold false 0.
(** Content of fresh arrays *)
Variable junk : nat -> memory.
(** 79-99 and 149-166, init_memory and configureDerived: 15 new arrays *)
Definition configure (s : solver) (q : nlp) : outcome solver :=
  match block s with
  | Indeterminate => UB
  | _ => Ok (mkSolver (getVarCount q) (getConstraintsCount q + 1) (getVarCount q + getNonZeroJacobianCount q) (Allocated (junk (arrays s)))
               (startOption s) true (arrays s + 15))
  end.
(** 73-76 and 31-63: the arrays the block points to are deleted. *)
Definition destroy (s : solver) : outcome nat :=
  match block s with Indeterminate => UB | Unallocated => Ok (arrays s) | Allocated _ => Ok (arrays s - 15) end.
(** Assignment to a map of a given size *)
Definition put {A} (k : nat) (v : list A) : outcome (list A) := if Nat.eqb (length v) k then Ok v else UB.
(** 102-146, fill_memory *)
Definition fill_memory (s : solver) (q : nlp) : outcome memory :=
  let m := getConstraintsCount q in let nz := getNonZeroJacobianCount q in
  do xv <- put (n s) (guess q) ;; do lo <- put (n s) (xLower q) ;; do up <- put (n s) (xUpper q) ;;
  do mu <- put (n s) (xMult q) ;; do st <- put (n s) (xStates q) ;;
  do fl <- put m (conLower q) ;; do fu <- put m (conUpper q) ;;
  do fm <- put (neF s) (zMult q) ;; do fs <- put (neF s) (zStates q) ;;
  do ir <- put nz (iRow q) ;; do jc <- put nz (jCol q) ;;
  if Nat.eqb (m + 1) (neF s) && Nat.eqb (n s + nz) (lenG s) then
    Ok (mkMemory xv lo up mu st (repeat zero (neF s)) (lowest :: fl) (highest :: fu) fm fs
          (repeat 0 (n s) ++ map (fun i => i + 1) ir) (seq 0 (n s) ++ jc))
  else UB.
(** 204-226, solve: what is handed to SNOPT, and what is done with its status and arrays *)
Definition handed (s : solver) (q : nlp) : outcome (start * memory) :=
  if isInitialized s then do m <- fill_memory s q ;; Ok (startOption s, m) else Throw.
Definition accepted (status : Z) : bool := (Z.eqb status 1 || Z.eqb status 31 || Z.eqb status 32)%bool.
(** Nlp.h 476-486, OptVector.h 271-282: the solution is not the initial guess. *)
Definition store (q : nlp) (m : memory) : nlp :=
  mkNlp (guess q) (x m) (xLower q) (xUpper q) (xmul m) (xstate m) (conLower q) (conUpper q) (Fmul m) (Fstate m) (iRow q) (jCol q) (cost q) (gradient q) (constraints q) (jacobian q).
Definition finish (q : nlp) (status : Z) (m : memory) : nlp * bool := ((if accepted status then store q m else q), true).
(** 229-240, prepareWarmStart *)
Definition prepareWarmStart (s : solver) : outcome solver :=
  match block s with
  | Indeterminate => UB
  | Unallocated => Ok (mkSolver (n s) (neF s) (lenG s) Unallocated Warm (isInitialized s) (arrays s))
  | Allocated m => Ok (mkSolver (n s) (neF s) (lenG s)
      (Allocated (mkMemory (x m) (xlow m) (xupp m) (xmul m) (repeat 3%Z (n s)) (F m) (Flow m) (Fupp m) (Fmul m) (repeat 3%Z (neF s)) (iGfun m) (jGvar m)))
      Warm (isInitialized s) (arrays s))
  end.
(** 312-357, NLP_Function: the values and derivatives at a point, for the program at that point *)
Definition callback (q : nlp) (pt : list T) (needF needG : bool) (F G : list T) : list T * list T :=
  ((if needF then cost q pt :: constraints q pt else F), (if needG then gradient q pt ++ jacobian q pt else G)).
End Snopt.
