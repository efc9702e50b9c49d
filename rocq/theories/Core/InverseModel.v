(** Model of the pivot-free linear solvers, /repo/ct_core/include/ct/core/math/Inverses.h.
    Matrices are functions of row and column index over a real field (exact arithmetic); storage that the
    code leaves uninitialised is an arbitrary function.  Inner accumulation loops are written as sums. *)
From mathcomp Require Import all_ssreflect all_algebra.
Set Implicit Arguments. Unset Strict Implicit. Unset Printing Implicit Defensive.
Import GRing.Theory Num.Theory Order.TTheory.
Local Open Scope ring_scope.

(** for (i = lo; i < hi; ++i) and for (i = n - 1; i >= 0; --i). *)
Definition for_up (S : Type) (lo hi : nat) (body : nat -> S -> S) (s : S) : S :=
  foldl (fun s i => body i s) s (index_iota lo hi).
Definition for_down (S : Type) (n : nat) (body : nat -> S -> S) (s : S) : S := foldr body s (iota 0 n).

Section InverseModel.
Variable F : realFieldType.
Notation mat := (nat -> nat -> F).
Notation vec := (nat -> F).

Definition set2 (M : mat) (i j : nat) (v : F) : mat := fun a b => if (a == i) && (b == j) then v else M a b.
Definition set1 (y : vec) (i : nat) (v : F) : vec := fun a => if a == i then v else y a.

(** lu, lines 14-39. *)
Definition lu (n : nat) (A LU : mat) : mat :=
  for_up 0 n (fun k LU =>
    let LU := for_up k n (fun i LU => set2 LU i k (A i k - \sum_(0 <= p < k) LU i p * LU p k)) LU in
    for_up k.+1 n (fun j LU => set2 LU k j ((A k j - \sum_(0 <= p < k) LU k p * LU p j) / LU k k)) LU) LU.

(** solveLU, lines 43-72. *)
Definition solveLU (n m : nat) (LU b : mat) (y : vec) (x : mat) : vec * mat :=
  for_up 0 m (fun j s =>
    let y := for_up 0 n (fun i y => set1 y i ((b i j - \sum_(0 <= k < i) LU i k * y k) / LU i i)) s.1 in
    let x := for_down n (fun i x => set2 x i j (y i - \sum_(i.+1 <= k < n) LU i k * x k j)) s.2 in
    (y, x)) (y, x).

(** ldlt, lines 77-102. *)
Definition ldlt (n : nat) (A : mat) (d : vec) : mat * vec :=
  for_up 0 n (fun j s =>
    let d := set1 s.2 j (A j j - \sum_(0 <= k < j) s.1 j k * s.1 j k * s.2 k) in
    let L := for_up j.+1 n (fun i L => set2 L i j ((A i j - \sum_(0 <= k < j) L i k * L j k * d k) / d j)) s.1 in
    (L, d)) (fun a b => if a == b then 1 else 0, d).

(** solveLDLT, lines 107-139. *)
Definition solveLDLT (n m : nat) (L : mat) (d : vec) (b : mat) (y : vec) (x : mat) : vec * mat :=
  for_up 0 m (fun j s =>
    let y := for_up 0 n (fun i y => set1 y i (b i j - \sum_(0 <= k < i) L i k * y k)) s.1 in
    let x := for_down n (fun i x => set2 x i j (y i / d i - \sum_(i.+1 <= k < n) L k i * x k j)) s.2 in
    (y, x)) (y, x).

(** LUsolve, lines 151-164, and LDLTsolve, lines 173-189; [LU0], [y0], [X0], [d0] are uninitialised. *)
Definition LUsolve (n m : nat) (A B LU0 : mat) (y0 : vec) (X0 : mat) : mat :=
  (solveLU n m (lu n A LU0) B y0 X0).2.
Definition LDLTsolve (n m : nat) (A B : mat) (d0 y0 : vec) (X0 : mat) : mat :=
  let f := ldlt n A d0 in (solveLDLT n m f.1 f.2 B y0 X0).2.
End InverseModel.
