(** Model of the sparse Hessian of the Lagrangian: ct_optcon/include/ct/optcon/nlp/Nlp.h 112-170, 182-195, 234-307,
    nlp/DiscreteConstraintContainerBase.h 175-267, ct_rbd/.../ik_nlp/IKCostEvaluator.h 131-183 and JointLimitConstraints.h 62-72.

    Eigen's sparse matrices (column major): a list of ((row, column), value), sorted by column and then row.  Values are reals. *)
From Coq Require Import List Arith Reals Bool.
From Verif Require Import Base.Outcome.
Import ListNotations.

Definition key := (nat * nat)%type.
Definition smat := list (key * R).
Definition keyEqb (a b : key) : bool := (fst a =? fst b) && (snd a =? snd b).
(** Position in column-major order. *)
Definition before (a b : key) : bool := (snd a <? snd b) || ((snd a =? snd b) && (fst a <? fst b)).

(** Eigen: SparseMatrix::setFromTriplets sorts the triplets and adds those with equal indices; entries that are zero are kept.
    Indices outside the matrix are undefined behaviour. *)
Fixpoint addEntry (k : key) (v : R) (m : smat) : smat :=
  match m with
  | [] => [(k, v)]
  | (k', v') :: m' => if keyEqb k k' then (k', (v' + v)%R) :: m' else if before k k' then (k, v) :: m else (k', v') :: addEntry k v m'
  end.
Definition inRange (n : nat) (k : key) : bool := (fst k <? n) && (snd k <? n).
Definition setFromTriplets (n : nat) (l : list (key * R)) : outcome smat :=
  if forallb (fun t => inRange n (fst t)) l then Ok (fold_left (fun m t => addEntry (fst t) (snd t) m) l []) else UB.
(** Eigen: triangularView<Lower>. *)
Definition lower (m : smat) : smat := filter (fun t => snd (fst t) <=? fst (fst t)) m.
(** Map<VectorXd>(m.valuePtr(), k, 1): reads k values from memory; past the stored ones this is undefined. *)
Definition mapValues (m : smat) (k : nat) : outcome (list R) := if k <=? length m then Ok (firstn k (map snd m)) else UB.
(** vec.segment(i, k): outside the vector an Eigen assertion fails. *)
Definition segment {A} (l : list A) (i k : nat) : outcome (list A) := if i + k <=? length l then Ok (firstn k (skipn i l)) else UB.

(** A constraint term: getConstraintSize(), genSparsityPatternHessian() and sparseHessianValues(x, lambda). *)
Record hterm := mkHterm { h_size : nat; h_pattern : list key; h_values : list R -> list R -> list R }.
Definition ones (l : list key) : list (key * R) := map (fun k => (k, 1%R)) l.

(** DiscreteConstraintContainerBase.h 180-221 *)
Definition containerPattern (n : nat) (cs : list hterm) : outcome (list key) :=
  do m <- setFromTriplets n (ones (flat_map h_pattern cs)) ;; Ok (map fst m).
(** 247-249: one triplet for each value; the index vectors are those of the pattern. *)
Definition termTriplets (c : hterm) (vals : list R) : outcome (list (key * R)) :=
  if length vals <=? length (h_pattern c) then Ok (combine (h_pattern c) vals) else UB.
(** 237-250 *)
Fixpoint containerTriplets (cs : list hterm) (x lambda : list R) (count : nat) : outcome (list (key * R)) :=
  match cs with
  | [] => Ok []
  | c :: cs =>
      do l <- segment lambda count (h_size c) ;;
      do t <- termTriplets c (h_values c x l) ;;
      do r <- containerTriplets cs x lambda (count + h_size c) ;;
      Ok (t ++ r)
  end.
(** 231-267; the number of values is that of the pattern (258) *)
Definition containerValues (n : nat) (cs : list hterm) (x lambda : list R) : outcome (list R) :=
  do p <- containerPattern n cs ;;
  do t <- containerTriplets cs x lambda 0 ;;
  do m <- setFromTriplets n t ;;
  mapValues (lower m) (length p).

(** A cost evaluator: getSparsityPatternHessian() and sparseHessianValues(x, omega). *)
Record hcost := mkHcost { k_pattern : list key; k_values : list R -> R -> list R }.

(** Nlp.h 242-307 with getSparsityPatternHessian 191-196: the pattern; its length is the returned count. *)
Definition hessianPattern (n : nat) (f : hcost) (cs : list hterm) : outcome (list key) :=
  do p <- containerPattern n cs ;;
  do m <- setFromTriplets n (ones (k_pattern f) ++ ones p) ;;
  Ok (map fst (lower m)).
(** Nlp.h 140-149: one triplet for every index of the pattern *)
Definition indexTriplets (p : list key) (vals : list R) : outcome (list (key * R)) :=
  if length p <=? length vals then Ok (combine p vals) else UB.
(** Nlp.h 124-170; nele_hes is what getNonZeroHessianCount() returned (IpoptSolver-impl.h get_nlp_info, eval_h) *)
Definition evaluateHessian (n : nat) (f : hcost) (cs : list hterm) (x : list R) (obj_fac : R) (lambda : list R) : outcome (list R) :=
  do q <- hessianPattern n f cs ;;
  do p <- containerPattern n cs ;;
  do vc <- containerValues n cs x lambda ;;
  do t1 <- indexTriplets (k_pattern f) (k_values f x obj_fac) ;;
  do t2 <- indexTriplets p vc ;;
  do m <- setFromTriplets n (t1 ++ t2) ;;
  mapValues (lower m) (length q).

(** IKCostEvaluator.h 133-151: full pattern, row by row; 157-183: the values are written through a column-major map of the matrix. *)
Definition ikPattern (n : nat) : list key := flat_map (fun i => map (fun j => (i, j)) (seq 0 n)) (seq 0 n).
Definition ikValues (n : nat) (H : nat -> nat -> R) (obj_fac : R) : list R :=
  flat_map (fun j => map (fun i => (H i j * obj_fac)%R) (seq 0 n)) (seq 0 n).
Definition ikCost (n : nat) (H : list R -> nat -> nat -> R) : hcost := mkHcost (ikPattern n) (fun x obj_fac => ikValues n (H x) obj_fac).
(** JointLimitConstraints.h 44, 62-72 *)
Definition jointLimits (n : nat) : hterm := mkHterm n [] (fun _ _ => []).
