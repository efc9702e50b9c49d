(** Proofs for the controllability and observability tests. *)
From mathcomp Require Import all_ssreflect all_algebra ring.
From Verif.Base Require Import Outcome.
From Verif.Core Require Import LtiSpec LtiModel.
Set Implicit Arguments. Unset Strict Implicit. Unset Printing Implicit Defensive.
Import GRing.Theory Num.Theory Order.TTheory.
Local Open Scope ring_scope.

Lemma ofor_recr (S : Type) lo hi (f : nat -> S -> outcome S) s : (lo <= hi)%N ->
  ofor lo hi.+1 f s = obind (ofor lo hi f s) (f hi).
Proof. move=> H; rewrite /ofor /index_iota subSn // -addn1 iotaD foldl_cat /= subnKC //. Qed.
Lemma ofor_nil (S : Type) lo (f : nat -> S -> outcome S) s : ofor lo lo f s = Ok s.
Proof. by rewrite /ofor /index_iota subnn. Qed.

Section LtiProofs.
Variable F : realFieldType.
Notation mat := (nat -> nat -> F).

(** The r x c matrix held in a storage function. *)
Notation mx r c M := (\matrix_(i < r, j < c) M i j).

Lemma mulm_mx n p q (M N : mat) (i j : nat) (Hi : (i < p)%N) (Hj : (j < q)%N) :
  mulm n M N i j = (mx p n M *m mx n q N) (Ordinal Hi) (Ordinal Hj).
Proof. by rewrite mxE /mulm big_mkord; apply: eq_bigr => k _; rewrite !mxE. Qed.

Definition co_inv n m (A B : mat) (h : nat) (CO : mat) : Prop :=
  forall i (r : 'I_n) (c : 'I_m), (i < h)%N -> CO r (i * m + c)%N = (mpow (mx n n A) i *m mx n m B) r c.

Lemma blk_fit i n m : (i < n)%N -> (i * m + m <= n * m)%N.
Proof. by move=> H; rewrite -mulSnr leq_mul2r H orbT. Qed.

Lemma blk_disj i j m (c d : 'I_m) : (i * m + c == j * m + d)%N = (i == j) && (c == d).
Proof.
have Hm : (0 < m)%N by apply: leq_ltn_trans (ltn_ord c).
apply/eqP/andP => [E|[/eqP -> /eqP ->] //].
have E1 : i = j by have := congr1 (divn^~ m) E; rewrite !divnMDl // !divn_small // !addn0.
by split; [apply/eqP|apply/eqP/val_inj; rewrite E1 in E; exact: addnI E].
Qed.

Lemma co_run n m A B CO0 : (0 < n)%N ->
  exists2 CO, computeControllabilityMatrix n m A B CO0 = Ok CO & co_inv n m A B n CO.
Proof.
move=> Hn; rewrite /computeControllabilityMatrix.
pose body i CO := obind (@block_get F n (n * m) 0 ((i - 1) * m) n m CO) (fun blk => block_set n (n * m) 0 (i * m) n m (mulm n A blk) CO).
set CO1 := block_set _ _ _ _ _ _ _ _.
have [CO' E1 I1] : exists2 CO', CO1 = Ok CO' & co_inv n m A B 1 CO'.
  rewrite /CO1 /block_set !add0n leqnn (_ : (m <= n * m)%N) ?leq_pmull //=.
  eexists; first by [].
  move=> [|//] r c _; rewrite mul0n !add0n !ltn_ord !subn0 /=.
  by rewrite mul1mx mxE.
rewrite E1 /=.
have: forall h, (1 <= h <= n)%N -> exists2 CO, ofor 1 h body CO' = Ok CO & co_inv n m A B h CO.
  elim=> [//|[_ _|h IH /andP [_ Hh]]].
    by exists CO'; rewrite // ofor_nil.
  have [CO EC IC] := IH (ltnW Hh).
  rewrite ofor_recr // EC /= /body /block_get /block_set !add0n leqnn subn1 /=.
  have Hh' : (h < n)%N by apply: ltnW.
  rewrite (blk_fit m Hh') /= (blk_fit m Hh) /=.
  eexists; first by [].
  move=> i r c Hi; rewrite ltn_ord subn0 /=.
  move: Hi; rewrite ltnS leq_eqVlt => /orP [/eqP ->|Hi].
    rewrite leq_addr ltn_add2l ltn_ord addKn /= -mulmxA.
    have E2 : mx n m (fun r c => CO r (h * m + c)%N) = mpow (mx n n A) h *m mx n m B.
      by apply/matrixP => a d; rewrite [LHS]mxE IC.
    rewrite -E2 (@mulm_mx n n m _ _ r c (ltn_ord r) (ltn_ord c)).
    by congr (_ _ _); apply/val_inj.
  case: ifP => [/andP [H _]|_]; last exact: IC.
  exfalso; move: H; rewrite leqNgt => /negP; apply.
  apply: leq_trans (_ : (i.+1 * m <= h.+1 * m)%N); last by rewrite leq_mul2r Hi orbT.
  by rewrite mulSnr ltn_add2l ltn_ord.
by move=> /(_ n); rewrite Hn leqnn => /(_ isT) [CO EC IC]; exists CO.
Qed.
End LtiProofs.

Section Reach.
Variables (F : realFieldType) (n' m : nat).
Notation n := n'.+1.
Implicit Types (A : 'M[F]_n) (B : 'M[F]_(n, m)).

Lemma mpow_exp A k : mpow A k = A ^+ k.
Proof. by elim: k => [|k IH] //=; rewrite IH exprS. Qed.

Lemma mpowSr A k : mpow A k *m A = mpow A k.+1.
Proof. by elim: k => [|k IH] /=; [rewrite mul1mx mulmx1|rewrite -mulmxA IH]. Qed.

(** A row that annihilates A^i B for i < n annihilates it for every i. *)
Lemma annihilate A B (z : 'rV[F]_n) : (forall i, (i < n)%N -> z *m mpow A i *m B = 0) ->
  forall i, z *m mpow A i *m B = 0.
Proof.
move=> H k; rewrite mpow_exp.
have Hp : forall p : {poly F}, (size p <= n)%N -> z *m horner_mx A p *m B = 0.
  move=> p Hs; rewrite -(coefK p) poly_def linear_sum /= mulmx_sumr mulmx_suml big1 // => i _.
  rewrite linearZ /= rmorphX /= horner_mx_X -scalemxAr -scalemxAl.
  by rewrite -mpow_exp H ?scaler0 // (leq_trans (ltn_ord i)).
have -> : A ^+ k = horner_mx A ('X^k) by rewrite rmorphX /= horner_mx_X.
rewrite (divp_eq 'X^k (char_poly A)) rmorphD rmorphM /= Cayley_Hamilton mulr0 add0r Hp //.
rewrite -ltnS -(size_char_poly A); apply: ltn_modpN0.
by rewrite -size_poly_eq0 size_char_poly.
Qed.

Lemma drive0 A B x us : drive A B x us = mpow A (size us) *m x + drive A B 0 us.
Proof.
elim: us x => [|u us IH] x /=; first by rewrite mul1mx addr0.
rewrite IH (IH (A *m 0 + _)) mulmx0 add0r mulmxDr addrA; congr (_ + _ + _).
by rewrite mulmxA mpowSr.
Qed.

Lemma drive_rev A B (u : nat -> 'cV[F]_m) k :
  drive A B 0 (rev [seq u i | i <- iota 0 k]) = \sum_(i < k) mpow A i *m B *m u i.
Proof.
elim: k => [|k IH]; first by rewrite big_ord0.
have -> : rev [seq u i | i <- iota 0 k.+1] = u k :: rev [seq u i | i <- iota 0 k].
  by rewrite -(addn1 k) iotaD map_cat rev_cat.
rewrite big_ord_recr /= -IH drive0 size_rev size_map size_iota.
by rewrite mulmx0 add0r mulmxA addrC.
Qed.

Lemma drive_ann A B (z : 'rV[F]_n) us : (forall i, z *m mpow A i *m B = 0) -> z *m drive A B 0 us = 0.
Proof.
move=> Hz; elim: us => [|u us IH] /=; first by rewrite mulmx0.
by rewrite drive0 mulmxDr IH addr0 mulmx0 add0r !mulmxA Hz mul0mx.
Qed.

Lemma rank_reachable A B (W : 'M[F]_(n, n * m)) :
  (forall (i : nat) (r : 'I_n) (c : 'I_m) (j : 'I_(n * m)), (i < n)%N -> val j = (i * m + c)%N -> W r j = (mpow A i *m B) r c) ->
  (\rank W == n) <-> reachable A B.
Proof.
move=> HW.
have Hidx (j : 'I_(n * m)) : exists2 i, (i < n)%N & exists c : 'I_m, val j = (i * m + c)%N.
  have Hm : (0 < m)%N by case: m j => [|//] [j]; rewrite muln0.
  exists (j %/ m)%N; first by rewrite ltn_divLR.
  by exists (Ordinal (ltn_pmod j Hm)); rewrite /= -divn_eq.
have Hfit (i : 'I_n) (c : 'I_m) : (i * m + c < n * m)%N.
  apply: leq_trans (_ : (i.+1 * m <= _)%N); last by rewrite leq_mul2r ltn_ord orbT.
  by rewrite mulSnr ltn_add2l.
split=> [Hr x|Hreach].
  have /row_freeP [X HX] : row_free W by [].
  pose w : 'cV[F]_(n * m) := X *m x.
  pose u i : 'cV[F]_m := \col_c (if insub (i * m + c)%N is Some j then w j 0 else 0).
  exists (rev [seq u i | i <- iota 0 n]); rewrite drive_rev.
  have <- : W *m w = x by rewrite /w mulmxA HX mul1mx.
  apply/matrixP => r o; rewrite summxE [RHS]mxE.
  pose W' j := if insub j is Some j' then W r j' * w j' o else 0.
  transitivity (\sum_(i < n) \sum_(c < m) W' (i * m + c)%N).
    apply: eq_bigr => i _; rewrite mxE; apply: eq_bigr => c _.
    rewrite /W' [u _ _ _]mxE (insubT (fun j => j < n * m)%N (Hfit i c)) /= ord1; congr (_ * _).
    by rewrite -(HW i r c (Ordinal (Hfit i c))).
  have Hb : forall k, \sum_(i < k) \sum_(c < m) W' (i * m + c)%N = \sum_(0 <= j < k * m) W' j.
    elim=> [|k IH]; first by rewrite big_ord0 mul0n big_geq.
    rewrite big_ord_recr /= IH mulSnr [RHS](@big_cat_nat _ _ _ (k * m)) ?leq_addr //=; congr (_ + _).
    rewrite -[X in \sum_(X <= _ < _) _]add0n [(k * m + m)%N]addnC big_addn addnK big_mkord.
    by apply: eq_bigr => c _; rewrite addnC.
  by rewrite Hb big_mkord; apply: eq_bigr => j _; rewrite /W' valK.
apply/negPn/negP => Hr.
have: kermx W != 0.
  rewrite -mxrank_eq0 mxrank_ker -lt0n subn_gt0 ltn_neqAle Hr; exact: rank_leq_row.
move=> /rowV0Pn [z Hz Hz0].
have HzW : z *m W = 0 by apply/sub_kermxP.
have Hall := @annihilate A B z _.
have Hann : forall i, z *m mpow A i *m B = 0.
  apply: Hall => i Hi; apply/matrixP => o c; rewrite -mulmxA.
  have := congr1 (fun M : 'rV_(n * m) => M o (Ordinal (Hfit (Ordinal Hi) c))) HzW.
  rewrite !mxE => E; rewrite -[RHS]E; apply: eq_bigr => k _; congr (_ * _).
  by rewrite (HW i k c).
have [us Hus] := Hreach z^T.
have := drive_ann us Hann; rewrite Hus => E.
move: Hz0; rewrite -subr_eq0 subr0 => /negP; apply; apply/eqP/matrixP => o c; rewrite [RHS]mxE.
have := congr1 (fun M : 'M_1 => M 0 0) E; rewrite !mxE => /eqP.
rewrite psumr_eq0 => [/allP /(_ c (mem_index_enum _))|k _]; rewrite mxE -expr2 ?sqr_ge0 //.
by rewrite sqrf_eq0 (ord1 o) => /eqP.
Qed.

(** Gramians. *)
Lemma trmul4 p (a : 'M[F]_n) (b : 'M[F]_(n, p)) : (a *m b *m b^T *m a^T)^T = a *m b *m b^T *m a^T.
Proof. by rewrite !trmx_mul !trmxK !mulmxA. Qed.

Lemma norm1_opp (M N : 'M[F]_n) : norm1 (M - (M + N)) = norm1 N.
Proof.
rewrite /norm1; apply: eq_bigr => r _; apply: eq_bigr => c _; rewrite !mxE.
by rewrite opprD addrA subrr add0r normrN.
Qed.

Lemma ctrl_gram_loop A B fuel tol K CG : (fuel = 0%N -> CG = ctrl_gramian A B K) ->
  exists2 k, (k <= fuel)%N & ctrlGramLoop fuel tol A B (ctrl_gramian A B K) CG (mpow A K) = ctrl_gramian A B (K + k)
    /\ (k = fuel \/ (0 < k)%N /\ norm1 (mpow A (K + k).-1 *m B *m B^T *m (mpow A (K + k).-1)^T) < tol).
Proof.
elim: fuel K CG => [|fuel IH] K CG H0 /=; first by exists 0%N; rewrite // addn0 H0; split; [|left].
rewrite norm1_opp; case: ifP => Hn.
  exists 1%N => //; rewrite addn1 /ctrl_gramian big_ord_recr; split=> //; right; by split.
have -> : ctrl_gramian A B K + mpow A K *m B *m B^T *m (mpow A K)^T = ctrl_gramian A B K.+1.
  by rewrite /ctrl_gramian big_ord_recr.
have [|k Hk [E Hc]] := IH K.+1 (ctrl_gramian A B K.+1); first by [].
rewrite mpowSr; exists k.+1 => //; rewrite -addSnnS; split=> //.
by case: Hc => [->|[H1 H2]]; [left|right].
Qed.

Lemma obs_gram_loop A (C : 'M[F]_n) fuel tol K OG : (fuel = 0%N -> OG = obs_gramian A C K) ->
  exists2 k, (k <= fuel)%N & obsGramLoop fuel tol A C (obs_gramian A C K) OG (mpow A K) = obs_gramian A C (K + k)
    /\ (k = fuel \/ (0 < k)%N /\ norm1 ((mpow A (K + k).-1)^T *m C^T *m C *m mpow A (K + k).-1) < tol).
Proof.
elim: fuel K OG => [|fuel IH] K OG H0 /=; first by exists 0%N; rewrite // addn0 H0; split; [|left].
rewrite norm1_opp; case: ifP => Hn.
  exists 1%N => //; rewrite addn1 /obs_gramian big_ord_recr; split=> //; right; by split.
have -> : obs_gramian A C K + (mpow A K)^T *m C^T *m C *m mpow A K = obs_gramian A C K.+1.
  by rewrite /obs_gramian big_ord_recr.
have [|k Hk [E Hc]] := IH K.+1 (obs_gramian A C K.+1); first by [].
rewrite mpowSr; exists k.+1 => //; rewrite -addSnnS; split=> //.
by case: Hc => [->|[H1 H2]]; [left|right].
Qed.

(** x0' OG x0 is the output energy. *)
Lemma obs_energy A (C : 'M[F]_n) x0 K : (x0^T *m obs_gramian A C K *m x0) 0 0 = output_energy A C x0 K.
Proof.
rewrite /obs_gramian /output_energy mulmx_sumr mulmx_suml summxE; apply: eq_bigr => k _.
by congr (fun_of_matrix _ _ _); rewrite !trmx_mul !mulmxA.
Qed.
End Reach.
