(** Model of the controllability and observability tests,
    /repo/ct_core/include/ct/core/systems/continuous_time/linear/LTISystem.h and
    /repo/ct_core/include/ct/core/systems/discrete_time/linear/DiscreteLTISystem.h, over a real field (exact
    arithmetic).  Storage is a function of row and column index together with its template dimensions; an
    Eigen block outside those dimensions is undefined behaviour (an assertion in debug builds). *)
From mathcomp Require Import all_ssreflect all_algebra.
From Verif.Base Require Import Outcome.
Set Implicit Arguments. Unset Strict Implicit. Unset Printing Implicit Defensive.
Import GRing.Theory Num.Theory Order.TTheory.
Local Open Scope ring_scope.

Section LtiModel.
Variable F : realFieldType.
Notation mat := (nat -> nat -> F).

(** M.block<h, w>(r0, c0) read from and written to a rows x cols matrix. *)
Definition block_get (rows cols r0 c0 h w : nat) (M : mat) : outcome mat :=
  if (r0 + h <= rows)%N && (c0 + w <= cols)%N then Ok (fun r c => M (r0 + r)%N (c0 + c)%N) else UB.
Definition block_set (rows cols r0 c0 h w : nat) (V M : mat) : outcome mat :=
  if (r0 + h <= rows)%N && (c0 + w <= cols)%N then
    Ok (fun r c => if (r0 <= r < r0 + h)%N && (c0 <= c < c0 + w)%N then V (r - r0)%N (c - c0)%N else M r c)
  else UB.
(** Product of matrices whose inner dimension is [n]. *)
Definition mulm (n : nat) (M N : mat) : mat := fun r c => \sum_(0 <= k < n) M r k * N k c.
(** for (i = lo; i < hi; i++) with a body that may go wrong. *)
Definition ofor (S : Type) (lo hi : nat) (body : nat -> S -> outcome S) (s : S) : outcome S :=
  foldl (fun o i => obind o (body i)) (Ok s) (index_iota lo hi).

(** computeControllabilityMatrix: LTISystem.h lines 128-137, DiscreteLTISystem.h lines 110-119. *)
Definition computeControllabilityMatrix (n m : nat) (A B CO : mat) : outcome mat :=
  obind (block_set n (n * m) 0 0 n m B CO) (ofor 1 n (fun i CO =>
    obind (block_get n (n * m) 0 ((i - 1) * m) n m CO) (fun blk =>
    block_set n (n * m) 0 (i * m) n m (mulm n A blk) CO))).

(** isControllable: LTISystem.h lines 145-152, DiscreteLTISystem.h lines 158-165.  Eigen's FullPivLU rank is
    taken to be the rank. *)
Definition isControllable (n m : nat) (A B CO : mat) : outcome bool :=
  obind (computeControllabilityMatrix n m A B CO) (fun CO =>
  Ok (\rank (\matrix_(r < n, c < n * m) CO r c) == n)).

(** computeObservabilityMatrix: LTISystem.h lines 161-170, DiscreteLTISystem.h lines 173-182.  The argument
    has STATE_DIM rows and STATE_DIM * STATE_DIM columns. *)
Definition computeObservabilityMatrix (n : nat) (A C O : mat) : outcome mat :=
  obind (block_set n (n * n) 0 0 n n C O) (ofor 1 n (fun i O =>
    obind (block_get n (n * n) 0 ((i - 1) * n) n n O) (fun blk =>
    block_set n (n * n) (i * n) 0 n n (mulm n blk A) O))).

(** isObservable: LTISystem.h lines 178-184, DiscreteLTISystem.h lines 221-227. *)
Definition isObservable (n : nat) (A C O : mat) : outcome bool :=
  obind (computeObservabilityMatrix n A C O) (fun O =>
  Ok (\rank (\matrix_(r < n, c < n * n) O r c) == n)).

(** lpNorm<1>: sum of the absolute values of the entries. *)
Definition norm1 (n : nat) (M : 'M[F]_n) : F := \sum_r \sum_c `|M r c|.

(** computeControllabilityGramian, DiscreteLTISystem.h lines 127-151; [fuel] counts the iterations left
    (max_iters - n_iters). *)
Fixpoint ctrlGramLoop (n m fuel : nat) (tol : F) (A : 'M[F]_n) (B : 'M[F]_(n, m)) (CG_prev CG A_prev : 'M[F]_n)
  : 'M[F]_n :=
  match fuel with
  | 0 => CG
  | S fuel =>
      let CG := CG_prev + A_prev *m B *m B^T *m A_prev^T in
      if norm1 (CG_prev - CG) < tol then CG
      else ctrlGramLoop fuel tol A B CG CG (A_prev *m A)
  end.
Definition computeControllabilityGramian (n m : nat) (A : 'M[F]_n) (B : 'M[F]_(n, m)) (max_iters : nat) (tol : F) :=
  ctrlGramLoop max_iters tol A B 0 0 1%:M.

(** computeObservabilityGramian, DiscreteLTISystem.h lines 190-214. *)
Fixpoint obsGramLoop (n fuel : nat) (tol : F) (A C : 'M[F]_n) (OG_prev OG A_prev : 'M[F]_n) : 'M[F]_n :=
  match fuel with
  | 0 => OG
  | S fuel =>
      let OG := OG_prev + A_prev^T *m C^T *m C *m A_prev in
      if norm1 (OG_prev - OG) < tol then OG
      else obsGramLoop fuel tol A C OG OG (A_prev *m A)
  end.
Definition computeObservabilityGramian (n : nat) (A C : 'M[F]_n) (max_iters : nat) (tol : F) :=
  obsGramLoop max_iters tol A C 0 0 1%:M.
End LtiModel.
