(** The selection matrix (C74). *)
From mathcomp Require Import all_ssreflect all_algebra.
From Verif Require Import Base.Outcome Rbd.SelModel.
Set Implicit Arguments. Unset Strict Implicit. Unset Printing Implicit Defensive.
Import GRing.Theory.
Local Open Scope ring_scope.

Lemma sum_pick (F : fieldType) n (f : 'I_n -> F) (P : 'I_n -> bool) k (H : (k < n)%N) :
  (forall j : 'I_n, P j = (j == k :> nat)) -> \sum_j (P j)%:R * f j = f (Ordinal H).
Proof.
  move=> HP. rewrite (bigD1 (Ordinal H)) //= HP eqxx mul1r big1 ?addr0 // => j /negbTE Hj.
  rewrite HP. have -> : (j == k :> nat) = false by apply/negbTE; apply: contraFN Hj=> /eqP E; apply/eqP; exact: val_inj.
  by rewrite mul0r.
Qed.

(** Multiplying with the selection matrix returns the actuated coordinates (the last ones, all but the six of the base),
    multiplying with its transpose puts the controls there and zero elsewhere. *)
Theorem C74_selection (F : fieldType) (CD base : nat) (fb : bool) : (fb -> base = 6%N) ->
  exists S : 'M[F]_(CD, base + CD), selection F CD (base + CD) fb = Ok S /\
  (forall (bv : 'cV[F]_base) (v : 'cV[F]_CD), S *m col_mx bv v = v) /\
  (forall u : 'cV[F]_CD, S^T *m u = col_mx 0 u).
Proof.
  move=> Hb. have E : selection F CD (base + CD) fb = cornerIdentity F CD (base + CD) CD CD.
    rewrite /selection. case: fb Hb=> [/(_ isT) ->|_]; last by case: ifP.
    by rewrite leq_addr addKn.
  rewrite E /cornerIdentity leqnn leq_addl /=. set S := \matrix_(i, j) _. exists S. split=> //.
  have HS i j : S i j = (match split j with inl _ => false | inr k => i == k end)%:R.
    rewrite mxE subnn leq0n addnK subn0 /=. case: splitP=> k ->.
    - by rewrite leqNgt ltn_ord.
    - by rewrite leq_addr addKn.
  have ES : S = row_mx 0 1%:M.
    apply/matrixP=> i j. rewrite HS !mxE. by case: (split j)=> k; rewrite mxE.
  rewrite ES. split=> [bv v|u].
  - by rewrite mul_row_col mul0mx mul1mx add0r.
  - by rewrite tr_row_mx trmx0 trmx1 mul_col_mx mul0mx mul1mx.
Qed.

(** What the constructor does for the sizes without such a split. *)
Theorem C74_selection_sizes (F : fieldType) (CD SD : nat) :
  ((SD < 6)%N -> selection F CD SD true = Throw) /\ ((SD < CD)%N -> selection F CD SD false = UB) /\
  ((6 <= SD)%N -> exists S : 'M[F]_(CD, SD), selection F CD SD true = Ok S /\ forall i j, S i j = (j == 6 + i :> nat)%N%:R).
Proof.
  rewrite /selection /cornerIdentity. split; [|split].
  - move=> H. by rewrite leqNgt H.
  - move=> H. rewrite leqnn /= [(CD <= SD)%N]leqNgt H. by case: ifP.
  - move=> H. rewrite H leqnn leq_subr /=. eexists. split; first by reflexivity. move=> i j.
    rewrite mxE subnn leq0n subKn // subn0 /=. case: ifP=> [H6|/negbT].
    + congr (_%:R). by rewrite -[in RHS](subnKC H6) eqn_add2l eq_sym.
    + rewrite -ltnNge=> H6. case: eqP=> // E. by rewrite E ltnNge leq_addr in H6.
Qed.

Example C74_selection_example (F : fieldType) : exists S : 'M[F]_(2, 8), selection F 2 8 true = Ok S /\ S ord_max ord_max = 1.
Proof. have [_ [_ /(_ isT) [S [E H]]]] := C74_selection_sizes F 2 8. exists S. by rewrite H. Qed.
Print Assumptions C74_selection.
Print Assumptions C74_selection_sizes.
