(** C14, C57, C58: controllability and observability tests and Gramians of LTI systems. *)
From mathcomp Require Import all_ssreflect all_algebra ring.
From Verif.Base Require Import Outcome.
From Verif.Core Require Import LtiSpec LtiModel LtiProofs.
Set Implicit Arguments. Unset Strict Implicit. Unset Printing Implicit Defensive.
Import GRing.Theory Num.Theory Order.TTheory.
Local Open Scope ring_scope.

Notation mx r c M := (\matrix_(i < r, j < c) M (nat_of_ord i) (nat_of_ord j)).

(** The controllability matrix is [B, AB, ..., A^(n-1) B] and no access leaves its bounds, whatever the
    dimensions and the initial content of the storage. *)
Theorem C14_controllability_matrix_partial (F : realFieldType) (n m : nat) (A B CO0 : nat -> nat -> F) :
  (0 < n)%N -> exists CO, computeControllabilityMatrix n m A B CO0 = Ok CO /\
  forall (i : nat) (r : 'I_n) (c : 'I_m), (i < n)%N -> CO r (i * m + c)%N = (mpow (mx n n A) i *m mx n m B) r c.
Proof. by move=> Hn; have [CO E I] := @co_run F n m A B CO0 Hn; exists CO; split=> // i r c; apply: I. Qed.
Print Assumptions C14_controllability_matrix_partial.

(** Finding: the observability matrix is declared n x n^2 but its blocks are stacked downwards, so that for
    every system with two or more states the computation leaves the matrix. *)
Theorem C14_observability_refuted (F : realFieldType) (n : nat) (A C O0 : nat -> nat -> F) :
  (2 <= n)%N -> computeObservabilityMatrix n A C O0 = UB /\ isObservable n A C O0 = UB.
Proof.
move=> Hn.
have E : computeObservabilityMatrix n A C O0 = UB.
  case: n Hn => [|[|k]] // _; rewrite /computeObservabilityMatrix /block_set !add0n leqnn.
  rewrite (_ : (k.+2 <= k.+2 * k.+2)%N) ?leq_pmull //=.
  rewrite /ofor /index_iota subn1 /= /block_get subnn mul0n !add0n leqnn leq_pmull //=.
  rewrite /block_set mul1n (_ : (k.+2 + k.+2 <= k.+2)%N = false) /=; last by rewrite -{3}[k.+2]addn0 leq_add2l.
  by elim: (iota 2 k) => [|? ? IH].
by rewrite /isObservable E.
Qed.
Print Assumptions C14_observability_refuted.

(** With a single state it is right: O = C. *)
Theorem C14_observability_scalar_partial (F : realFieldType) (A C O0 : nat -> nat -> F) :
  exists O, computeObservabilityMatrix 1 A C O0 = Ok O /\ O 0%N 0%N = C 0%N 0%N.
Proof. by eexists; split; [reflexivity|]. Qed.
Print Assumptions C14_observability_scalar_partial.

(** isControllable answers true exactly if every state can be reached from the origin, in however many
    steps: a negative answer means that no input sequence of any length reaches some state. *)
Theorem C57_isControllable_iff_reachable (F : realFieldType) (n m : nat) (A B CO0 : nat -> nat -> F) :
  (0 < n)%N -> exists b, isControllable n m A B CO0 = Ok b /\ (b = true <-> reachable (mx n n A) (mx n m B)).
Proof.
case: n => [//|n'] _; have [CO E I] := @co_run F n'.+1 m A B CO0 isT.
exists (\rank (mx n'.+1 (n'.+1 * m) CO) == n'.+1); rewrite /isControllable E; split=> //.
by apply: rank_reachable => i r c j Hi Hj; rewrite mxE -(I i r c Hi); congr CO.
Qed.
Print Assumptions C57_isControllable_iff_reachable.

(** The Gramians are partial sums of the defining series: at most max_iters terms, and fewer only if the
    last term is below the tolerance. *)
Theorem C58_controllability_gramian (F : realFieldType) (n m : nat) (A : 'M[F]_n.+1) (B : 'M[F]_(n.+1, m)) max_iters tol :
  exists2 K, (K <= max_iters)%N & computeControllabilityGramian A B max_iters tol = ctrl_gramian A B K /\
  (K = max_iters \/ (0 < K)%N /\ norm1 (mpow A K.-1 *m B *m B^T *m (mpow A K.-1)^T) < tol).
Proof.
rewrite /computeControllabilityGramian; have := @ctrl_gram_loop F n m A B max_iters tol 0 0.
by rewrite /ctrl_gramian big_ord0; apply.
Qed.
Print Assumptions C58_controllability_gramian.

(** x0' OG x0 is the energy of the first K outputs of the free response from x0. *)
Theorem C58_observability_gramian (F : realFieldType) (n : nat) (A C : 'M[F]_n.+1) max_iters tol :
  exists2 K, (K <= max_iters)%N &
  (forall x0, (x0^T *m computeObservabilityGramian A C max_iters tol *m x0) 0 0 = output_energy A C x0 K) /\
  computeObservabilityGramian A C max_iters tol = obs_gramian A C K /\
  (K = max_iters \/ (0 < K)%N /\ norm1 ((mpow A K.-1)^T *m C^T *m C *m mpow A K.-1) < tol).
Proof.
rewrite /computeObservabilityGramian; have := @obs_gram_loop F n A C max_iters tol 0 0.
rewrite {1 2}/obs_gramian big_ord0 => /(_ (fun _ => erefl _)) [K HK [E Hc]]; exists K => //; split=> //.
by move=> x0; rewrite E obs_energy.
Qed.
Print Assumptions C58_observability_gramian.

(** Witnesses: the double integrator is controllable, a system without actuation is not. *)
Definition dintA (F : realFieldType) : nat -> nat -> F := fun i j => if (i <= j)%N then 1 else 0.
Definition dintB (F : realFieldType) : nat -> nat -> F := fun i _ => if i is 0 then 0 else 1.
Example C57_nonvacuous (F : realFieldType) CO0 :
  isControllable 2 1 (dintA F) (dintB F) CO0 = Ok true /\
  isControllable 2 1 (dintA F) (fun _ _ => 0) CO0 = Ok false.
Proof.
split.
  have [b [-> Hb]] := @C57_isControllable_iff_reachable F 2 1 (dintA F) (dintB F) CO0 isT.
  suff -> : b = true by []. apply/Hb => x.
  exists [:: const_mx (x 0 0); const_mx (x 1 0 - x 0 0)].
  apply/matrixP => i j; rewrite /drive /= mulmx0 add0r !mxE !big_ord_recl !big_ord0 !mxE /= !big_ord_recl !big_ord0 !mxE.
  rewrite (ord1 j); case: i => [[|[|//]]] Hi; rewrite /dintA /dintB /= ?mul0r ?mul1r ?addr0 ?add0r ?addr0.
    by congr (x _ _); apply/val_inj.
  by rewrite addrC subrK; congr (x _ _); apply/val_inj.
have [b [-> Hb]] := @C57_isControllable_iff_reachable F 2 1 (dintA F) (fun _ _ => 0) CO0 isT.
case: b Hb => //= [[Hr _]]; exfalso; have [us Hus] := Hr (erefl _) (const_mx 1).
have B0 : mx 2 1 (fun _ _ => 0 : F) = 0 by apply/matrixP => i j; rewrite !mxE.
have H : drive (mx 2 2 (dintA F)) (mx 2 1 (fun _ _ => 0 : F)) 0 us = 0.
  by rewrite B0; elim: us {Hus} => //= u us IH; rewrite mulmx0 mul0mx addr0.
move: (congr1 (fun M : 'cV[F]_2 => M 0 0) Hus); rewrite H !mxE => /eqP; rewrite eq_sym; exact/negP/oner_neq0.
Qed.
Example C58_nonvacuous (F : realFieldType) :
  computeControllabilityGramian (0 : 'M[F]_2) (1%:M : 'M_2) 5 1 = 1%:M.
Proof.
rewrite /computeControllabilityGramian /=; do 2 (case: ifP => _; rewrite ?trmx1 ?mulmx1 ?mul0mx ?add0r ?addr0 ?mulmx0 ?mul0mx ?addr0 //).
by do 5 (case: ifP => _ //; rewrite ?mulmx0 ?mul0mx ?mulmx1 ?addr0 //).
Qed.
