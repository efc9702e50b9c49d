(** C08: the LU and LDLT solvers return the solution of the linear system. *)
From mathcomp Require Import all_ssreflect all_algebra ring.
From Verif.Core Require Import InverseSpec InverseModel InverseProofs.
Set Implicit Arguments. Unset Strict Implicit. Unset Printing Implicit Defensive.
Import GRing.Theory Num.Theory Order.TTheory.
Local Open Scope ring_scope.

Section Witness.
Variable F : realFieldType.
(** The non-symmetric matrix [[2,1],[-1,2]]. *)
Definition rot : nat -> nat -> F := fun i j =>
  match i, j with 0, 0 => 2 | 0, _ => 1 | _, 0 => -1 | _, _ => 2 end.
Definition sym2 : nat -> nat -> F := fun i j =>
  match i, j with 0, 0 => 2 | 0, _ => 1 | _, 0 => 1 | _, _ => 2 end.
Definition swap2 : nat -> nat -> F := fun i j => if i == j then 0 else 1.

Lemma sum2 (f : nat -> F) : \sum_(0 <= k < 2) f k = f 0%N + f 1%N.
Proof. by rewrite big_nat_recr // big_nat1. Qed.

Lemma sq_pos2 (a b : F) : (exists2 i, (i < 2)%N & (if i == 0%N then a else b) != 0) -> 0 < a ^+ 2 + b ^+ 2.
Proof.
case=> [[|[|]]] // _ /= H; first by rewrite ltr_paddr ?sqr_ge0 // lt_def sqr_ge0 sqrf_eq0 H.
by rewrite ltr_paddl ?sqr_ge0 // lt_def sqr_ge0 sqrf_eq0 H.
Qed.

Lemma rot_pd : positive_definite 2 rot.
Proof.
move=> v [i Hi Hv]; rewrite !sum2 /=.
have -> : v 0%N * (2 * v 0%N + 1 * v 1%N) + v 1%N * (-1 * v 0%N + 2 * v 1%N) = 2 * (v 0%N ^+ 2 + v 1%N ^+ 2).
  by move: (v 0%N) (v 1%N) => a b; ring.
by rewrite mulr_gt0 ?ltr0n // sq_pos2 //; exists i => //; case: i Hi Hv => [|[|]].
Qed.

Lemma sym2_pd : positive_definite 2 sym2.
Proof.
move=> v [i Hi Hv]; rewrite !sum2 /=.
have -> : v 0%N * (2 * v 0%N + 1 * v 1%N) + v 1%N * (1 * v 0%N + 2 * v 1%N)
  = (v 0%N + v 1%N) ^+ 2 + (v 0%N ^+ 2 + v 1%N ^+ 2).
  by move: (v 0%N) (v 1%N) => a b; ring.
by rewrite ltr_paddl ?sqr_ge0 // sq_pos2 //; exists i => //; case: i Hi Hv => [|[|]].
Qed.
Lemma sym2_sym : symmetric_mat 2 sym2. Proof. by case=> [|i] [|j]. Qed.
End Witness.

(** LU: on any matrix whose leading blocks are nonsingular (symmetric or not), for any number of right-hand
    sides and whatever the uninitialised storage holds. *)
Theorem C08_lu_solves (F : realFieldType) (n m : nat) (A B LU0 : nat -> nat -> F) y0 X0 :
  leading_nonsingular n A -> solves n m A B (LUsolve n m A B LU0 y0 X0).
Proof. by move=> H; apply: lu_solve; apply: lu_pivots. Qed.
Print Assumptions C08_lu_solves.

(** LDLT: on any symmetric matrix with nonsingular leading blocks. *)
Theorem C08_ldlt_solves (F : realFieldType) (n m : nat) (A B : nat -> nat -> F) d0 y0 X0 :
  symmetric_mat n A -> leading_nonsingular n A -> solves n m A B (LDLTsolve n m A B d0 y0 X0).
Proof. by move=> Hs H; apply: ldlt_solve => //; apply: ldlt_pivots. Qed.
Print Assumptions C08_ldlt_solves.

(** Positive definite matrices always qualify, so that both solvers return the one solution there is. *)
Theorem C08_posdef_unique (F : realFieldType) (n m : nat) (A B X LU0 : nat -> nat -> F) y0 X0 d0 :
  positive_definite n A -> solves n m A B X ->
  forall i j, (i < n)%N -> (j < m)%N ->
    LUsolve n m A B LU0 y0 X0 i j = X i j /\ (symmetric_mat n A -> LDLTsolve n m A B d0 y0 X0 i j = X i j).
Proof.
move=> Hpd HX i j Hi Hj; have Hln := posdef_leading Hpd; split=> [|Hs]; apply: (posdef_unique Hpd _ HX) => //.
  exact: C08_lu_solves.
exact: C08_ldlt_solves.
Qed.
Print Assumptions C08_posdef_unique.

(** Finding: neither routine pivots.  An invertible symmetric matrix can have a zero first pivot; the code then
    divides by zero (which is not the solution of the system). *)
Theorem C08_any_invertible_refuted (F : realFieldType) :
  solves 2 2 (swap2 F) (diag (fun _ => 1)) (swap2 F) /\ symmetric_mat 2 (swap2 F) /\
  (forall LU0, lu 2 (swap2 F) LU0 0%N 0%N = 0) /\ (forall d0, (ldlt 2 (swap2 F) d0).2 0%N = 0).
Proof.
split; first by case=> [|[|]] // [|[|]] // _ _; rewrite sum2 /swap2 /diag /= ?mulr0 ?mul0r ?mulr1 ?addr0 ?add0r.
split; first by move=> i j _ _; rewrite /swap2 eq_sym.
split.
  by move=> LU0; have := @lu_entries F 2 (swap2 F) LU0 0 0 isT isT; rewrite /lu_entry /= big_geq // subr0.
by move=> d0; have [H _ _ _] := ldlt_ok 2 (swap2 F) d0; rewrite (H 0%N) // big_geq // subr0.
Qed.
Print Assumptions C08_any_invertible_refuted.

(** Witnesses: a non-symmetric and a symmetric positive definite matrix. *)
Example C08_nonvacuous_lu (F : realFieldType) :
  leading_nonsingular 2 (rot F) /\ solves 2 1 (rot F) (fun i _ => if i is 0 then 4 else 3) (fun i _ => if i is 0 then 1 else 2).
Proof.
split; first by apply: posdef_leading; exact: rot_pd.
by case=> [|[|]] // [|] // _ _; rewrite sum2 /=; ring.
Qed.
Example C08_nonvacuous_ldlt (F : realFieldType) :
  symmetric_mat 2 (sym2 F) /\ leading_nonsingular 2 (sym2 F) /\ positive_definite 2 (sym2 F).
Proof. split; [exact: sym2_sym|split; [apply: posdef_leading|]; exact: sym2_pd]. Qed.
