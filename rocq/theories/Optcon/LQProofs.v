(** Proofs about the Riccati LQ solver (LQModel.v). *)
From mathcomp Require Import all_ssreflect all_algebra.
From mathcomp Require Import ring.
From Verif Require Import Base.Outcome Base.Mx Optcon.LQSpec Optcon.LQModel.
Set Implicit Arguments. Unset Strict Implicit. Unset Printing Implicit Defensive.
Import GRing.Theory Num.Theory Order.TTheory.
Local Open Scope ring_scope.

Section LQProofs.
Variable F : realFieldType.
Variables n m : nat.
Variable la : linalg F m.
Variable se : settings F.
Implicit Types (p : lqproblem F n m) (s : solver F n m).

Lemma upd_same (T : Type) (f : nat -> T) k v : upd f k v k = v.
Proof. by rewrite /upd eqxx. Qed.
Lemma upd_other (T : Type) (f : nat -> T) k v i : i <> k -> upd f k v i = f i.
Proof. by move=> /eqP/negbTE H; rewrite /upd H. Qed.

Lemma low_symE d (M : 'M[F]_d) : symmetric M -> low_sym M = M.
Proof.
move=> Hs; apply/matrixP => i j; rewrite mxE; case: ifP => // _.
by rewrite -[in RHS]Hs mxE.
Qed.
Lemma low_sym_sym d (M : 'M[F]_d) : symmetric (low_sym M).
Proof.
apply/matrixP => i j; rewrite !mxE; case: (ltngtP i j) => // /val_inj ->; by [].
Qed.

(** The relations between the arrays of the solver after a backward pass. *)
Record terminal_eq p s : Prop := {
  te_S : s_S s (pN p) = pQ p (pN p);
  te_sv : s_sv s (pN p) = pqv p (pN p) }.
Record stage_eq p k s : Prop := {
  se_gv : s_gv s k = prv p k + (pB p k)^T *m s_sv s k.+1 + (pB p k)^T *m low_sym (s_S s k.+1) *m pb p k;
  se_G : s_G s k = pP p k + (pB p k)^T *m low_sym (s_S s k.+1) *m pA p k;
  se_H : s_H s k = pR p k + (pB p k)^T *m low_sym (s_S s k.+1) *m pB p k;
  se_Hi : s_Hi s k = (correctHessian la se (s_H s k)).1;
  se_Hinv : s_Hinv s k = (correctHessian la se (s_H s k)).2;
  se_L : s_L s k = s_Hinv s k *m s_G s k;
  se_lv : s_lv s k = s_Hinv s k *m s_gv s k }.
Record costtogo_eq p k s : Prop := {
  ce_S : s_S s k = let S1 := pQ p k + (pA p k)^T *m s_S s k.+1 *m pA p k
                             - (s_L s k)^T *m s_Hi s k *m s_L s k in 2%:R^-1 *: (S1 + S1^T);
  ce_sv : s_sv s k = pqv p k + (pA p k)^T *m s_sv s k.+1 + (pA p k)^T *m s_S s k.+1 *m pb p k
            + (s_G s k)^T *m s_lv s k }.
Record backward_eq p lo s : Prop := {
  be_t : terminal_eq p s;
  be_s : forall k, (lo <= k < pN p)%N -> stage_eq p k s;
  be_c : forall k, (lo <= k < pN p)%N -> (0 < k)%N -> costtogo_eq p k s }.

Lemma stages_snoc p lo c s : stages la se p lo c.+1 s = solveSingleStage la se p lo (stages la se p lo.+1 c s).
Proof.
elim: c s => [|c IH] s; first by rewrite /= addn0.
have -> : stages la se p lo c.+2 s = stages la se p lo c.+1 (solveSingleStage la se p (lo + c.+1) s) by [].
by rewrite IH addnS -addSn.
Qed.

Lemma neq_lt a b : (a < b)%N -> b <> a.
Proof. by move=> H E; rewrite E ltnn in H. Qed.

Lemma single_terminal p k s : (k < pN p)%N -> k.+1 = pN p \/ terminal_eq p s ->
  terminal_eq p (solveSingleStage la se p k s).
Proof.
move=> Hk Ht.
have HN : pN p <> k by exact: neq_lt.
rewrite /solveSingleStage; case HE: (k.+1 == pN p).
  by case: ifP => _; split; rewrite /= ?(upd_other _ _ HN) upd_same.
case: Ht => [Ht|[H1 H2]]; first by rewrite Ht eqxx in HE.
case: ifP => _; split; by rewrite /= ?(upd_other _ _ HN).
Qed.

Lemma stages_backward p c lo s : (lo + c = pN p)%N -> (0 < c)%N ->
  backward_eq p lo (stages la se p lo c s).
Proof.
elim: c lo s => [//|c IH] lo s Hc _.
rewrite stages_snoc.
have HloN : (lo < pN p)%N by rewrite -Hc addnS ltnS leq_addr.
set s1 := stages la se p lo.+1 c s.
have HB : c = 0%N \/ backward_eq p lo.+1 s1.
  case: (posnP c) => [-> |Hc0]; [by left|right].
  by apply: IH => //; rewrite addSn -addnS.
have Hlo1 : lo.+1 <> lo by apply: neq_lt.
have Hterm : terminal_eq p (solveSingleStage la se p lo s1).
  apply: single_terminal => //; case: HB => [H0|HB]; [left|right].
    by rewrite -Hc H0 addn1.
  exact: be_t HB.
split=> //.
- move=> k /andP [Hk1 Hk2]; case: (ltngtP lo k) Hk1 => // [Hlt|<-] _.
  + case: HB => [H0|HB].
      by move: Hk2; rewrite -Hc H0 addn1 ltnS leqNgt Hlt.
    have := be_s HB; move=> /(_ k); rewrite Hlt Hk2 => /(_ isT) Hs.
    have E1 : k <> lo by apply: neq_lt.
    have E2 : k.+1 <> lo by apply: neq_lt; apply: leq_trans Hlt _.
    rewrite /solveSingleStage.
    have -> : (lo.+1 == pN p) = false by apply/negbTE/eqP => E; move: Hk2; rewrite -E ltnS leqNgt Hlt.
    by case: Hs => *; case: ifP => _; split; rewrite /= ?(upd_other _ _ E1) ?(upd_other _ _ E2).
  + rewrite /solveSingleStage; set s2 := if _ == _ then _ else _.
    by case: ifP => _; split; rewrite /= ?upd_same ?(upd_other _ _ Hlo1).
- move=> k /andP [Hk1 Hk2]; case: (ltngtP lo k) Hk1 => // [Hlt|<-] _ Hk0.
  + case: HB => [H0|HB].
      by move: Hk2; rewrite -Hc H0 addn1 ltnS leqNgt Hlt.
    have := be_c HB; move=> /(_ k); rewrite Hlt Hk2 => /(_ isT Hk0) Hs.
    have E1 : k <> lo by apply: neq_lt.
    have E2 : k.+1 <> lo by apply: neq_lt; apply: leq_trans Hlt _.
    rewrite /solveSingleStage.
    have -> : (lo.+1 == pN p) = false by apply/negbTE/eqP => E; move: Hk2; rewrite -E ltnS leqNgt Hlt.
    by case: Hs => *; case: ifP => _; split; rewrite /= ?(upd_other _ _ E1) ?(upd_other _ _ E2).
  + rewrite /solveSingleStage; set s2 := if _ == _ then _ else _.
    by rewrite Hk0; split; rewrite /= ?upd_same ?(upd_other _ _ Hlo1).
Qed.

Lemma solve_backward p s : (0 < pN p)%N -> backward_eq p 0 (solve la se p s).
Proof. by move=> H; apply: stages_backward. Qed.

(** The forward pass. *)
Lemma forward_keeps p c s :
  s_L (forwardSteps p c s) = s_L s /\ s_lv (forwardSteps p c s) = s_lv s /\ s_H (forwardSteps p c s) = s_H s
  /\ s_S (forwardSteps p c s) = s_S s /\ s_sv (forwardSteps p c s) = s_sv s.
Proof. by elim: c => [//|c IH] /=. Qed.

Lemma forward_closed p s c : forall i, (i <= c)%N ->
  s_x (forwardSteps p c s) i = closed_loop p (s_L s) (s_lv s) 0 0 i /\
  ((i < c)%N -> s_u (forwardSteps p c s) i = s_lv s i + s_L s i *m closed_loop p (s_L s) (s_lv s) 0 0 i).
Proof.
elim: c => [|c IH] i Hi.
  by move: Hi; rewrite leqn0 => /eqP ->; rewrite /= upd_same.
have [HL [Hl _]] := forward_keeps p c s.
rewrite [forwardSteps _ _ _]/= /forwardStep /=.
case: (ltngtP i c.+1) Hi => // [Hlt|->] _.
- have Hne : i <> c.+1 by move=> E; rewrite E ltnn in Hlt.
  have [Hx Hu] := IH i Hlt.
  rewrite (upd_other _ _ Hne); split=> // _.
  move: (Hlt); rewrite ltnS leq_eqVlt => /orP [/eqP Heq|Hlt2].
    by move: Hx; rewrite Heq upd_same HL Hl => ->.
  by rewrite upd_other ?Hu //; move=> E; rewrite E ltnn in Hlt2.
- have [Hx _] := IH c (leqnn c).
  by rewrite upd_same; split=> //; rewrite HL Hl Hx.
Qed.

(** One Bellman step. *)
Lemma bellman_step (A : 'M[F]_n) (B : 'M[F]_(n, m)) (b qv sv' : 'cV[F]_n) (Q S' : 'M[F]_n) (R H : 'M[F]_m)
    (rv gv l : 'cV[F]_m) (P G L : 'M[F]_(m, n)) (x : 'cV[F]_n) (u : 'cV[F]_m) (q : F) :
  symmetric S' -> symmetric H ->
  gv = rv + B^T *m sv' + B^T *m S' *m b -> G = P + B^T *m S' *m A -> H = R + B^T *m S' *m B ->
  H *m L = - G -> H *m l = - gv ->
  let y := A *m x + B *m u + b in
  (q + dot x qv + dot u rv + dot x (Q *m x) / 2%:R + dot u (R *m u) / 2%:R + dot u (P *m x))
  + (dot y (S' *m y) / 2%:R + dot y sv')
  = dot x ((Q + A^T *m S' *m A - L^T *m H *m L) *m x) / 2%:R
    + dot x (qv + A^T *m sv' + A^T *m S' *m b + G^T *m l)
    + (q + dot b (S' *m b) / 2%:R + dot b sv' - dot l (H *m l) / 2%:R)
    + dot (u - L *m x - l) (H *m (u - L *m x - l)) / 2%:R.
Proof.
move=> HS HH Hg HG HHe HL Hl y.
have Hw : H *m (L *m x + l) = - (G *m x + gv).
  by rewrite mulmxDr mulmxA HL Hl mulNmx opprD.
have Hcs := complete_square u HH Hw.
have -> : u - L *m x - l = u - (L *m x + l) by rewrite opprD addrA.
have E : dot (u - (L *m x + l)) (H *m (u - (L *m x + l))) / 2%:R
  = dot u (H *m u) / 2%:R + dot u (G *m x + gv) + dot (L *m x + l) (H *m (L *m x + l)) / 2%:R.
  by rewrite Hcs; ring.
rewrite {}E /y.
have Eg : dot x (G^T *m l) = - dot (L *m x) (H *m l).
  rewrite -dot_mull -[G]opprK -HL mulNmx dotNl -mulmxA -[in LHS](dotC l) (sym_swap _ _ HH); congr (- _).
have EL : dot x (L^T *m H *m L *m x) = dot (L *m x) (H *m (L *m x)).
  by rewrite -!mulmxA -dot_mull.
have EA : dot x (A^T *m S' *m A *m x) = dot (A *m x) (S' *m (A *m x)).
  by rewrite -!mulmxA -dot_mull.
have EH : dot u (H *m u) = dot u (R *m u) + dot (B *m u) (S' *m (B *m u)).
  by rewrite HHe mulmxDl dotDr -!mulmxA -dot_mull.
have EG : dot u (G *m x) = dot u (P *m x) + dot (B *m u) (S' *m (A *m x)).
  by rewrite HG mulmxDl dotDr -!mulmxA -dot_mull.
have Egv : dot u gv = dot u rv + dot (B *m u) sv' + dot (B *m u) (S' *m b).
  by rewrite Hg !dotDr -!mulmxA -!dot_mull.
have Esv : dot x (A^T *m S' *m b) = dot (A *m x) (S' *m b) by rewrite -mulmxA -dot_mull.
rewrite !mulmxDl mulNmx !dotDr dotNr Eg EL EA Esv -[dot x (A^T *m sv')]dot_mull EG Egv EH.
rewrite !(mulmxDr S') !(mulmxDr H) !dotDl !dotDr.
rewrite (sym_swap (B *m u) (A *m x) HS) (sym_swap b (A *m x) HS) (sym_swap b (B *m u) HS)
        (sym_swap l (L *m x) HH).
by field.
Qed.

(** Stage data for which the solver's Hessian correction changes nothing. *)
Definition untouched (H : 'M[F]_m) : Prop := hessian_untouched (fixedHessianCorrection se) (epsilon se) H.
Definition factorised (H : 'M[F]_m) : Prop :=
  factorisation_correct (fixedHessianCorrection se) (la_eig la) (la_llt la) H.

Lemma diag_inv d (lam : 'rV[F]_d) : (forall j, lam 0 j != 0) ->
  diag_mx lam *m diag_mx (\row_j - (lam 0 j)^-1) = - 1%:M.
Proof.
move=> H; rewrite mulmx_diag; apply/matrixP => i j; rewrite !mxE.
case: eqP => [->|]; last by rewrite !mulr0n oppr0.
by rewrite !mulr1n mulrN mulfV.
Qed.

Lemma eig_value d (V : 'M[F]_d) lam M (j : 'I_d) : diagonalises V lam M ->
  dot (col j V) (M *m col j V) = lam 0 j /\ dot (col j V) (col j V) = 1.
Proof.
move=> [HV HM].
have HV' : V^T *m V = 1%:M by apply: mulmx1C.
have E1 : V^T *m col j V = col j 1%:M by rewrite -HV' !colE mulmxA.
have E2 : (col j V)^T *m V = row j 1%:M by rewrite tr_col -row_mul HV'.
split.
- rewrite /dot -HM !mulmxA E2 -!mulmxA E1 mulmxA.
  rewrite mul_mx_diag !mxE (bigD1 j) //= !mxE !eqxx big1 ?addr0 ?mul1r ?mulr1 //.
  by move=> i Hi; rewrite !mxE (negbTE Hi) mulr0.
- by rewrite /dot tr_col -row_mul E1 !mxE eqxx.
Qed.

Lemma correct_untouched H : symmetric H -> untouched H -> factorised H ->
  (correctHessian la se H).1 = H /\ H *m (correctHessian la se H).2 = - 1%:M.
Proof.
move=> Hs [Hp Hu] Hf; rewrite /correctHessian; move: Hu Hf; rewrite /factorised /factorisation_correct /tiny.
case: (fixedHessianCorrection se) => [Hle Hf|Hc Hf] /=.
- rewrite ltNge Hle /= (low_symE Hs); split=> //.
  have Hi := Hf Hs Hp.
  have Hinv : symmetric (- la_llt la H).
    rewrite /symmetric linearN /=; congr (- _).
    have Ht : (la_llt la H)^T *m H = 1%:M by rewrite -[X in _ *m X]Hs -trmx_mul Hi trmx1.
    by rewrite -[LHS]mulmx1 -Hi mulmxA Ht mul1mx.
  by rewrite (low_symE Hinv) mulmxN Hi.
- rewrite (low_symE Hs); move: Hf; rewrite /eigen_correct.
  case: (la_eig la H) => V lam /= Hd.
  have Hlam j : (epsilon se <= lam 0 j) /\ 0 < lam 0 j.
    have [E1 E2] := eig_value j Hd; split.
      by have := Hc (col j V); rewrite E1 E2 mulr1.
    rewrite -E1; apply: Hp; apply/eqP => E; move: E2; rewrite E dot0l => /eqP.
    by rewrite eq_sym oner_eq0.
  have HD : \row_j Num.max (lam 0 j) (epsilon se) = lam.
    apply/rowP => j; rewrite mxE; apply/max_idPl; exact: (Hlam j).1.
  rewrite HD; case: Hd => HV HM; split=> //.
  have HV' : V^T *m V = 1%:M by apply: mulmx1C.
  rewrite -[X in X *m _]HM !mulmxA -(mulmxA _ V^T V) HV' mulmx1 -(mulmxA V) diag_inv; last first.
    by move=> j; rewrite gt_eqF // (Hlam j).2.
  by rewrite mulmxN mulmx1 mulNmx HV.
Qed.

(** Symmetry of the cost-to-go. *)
Lemma half_sym d (M : 'M[F]_d) : symmetric (2%:R^-1 *: (M + M^T)).
Proof. by rewrite /symmetric linearZ /= linearD /= trmxK addrC. Qed.
Lemma half_symE d (M : 'M[F]_d) : symmetric M -> 2%:R^-1 *: (M + M^T) = M.
Proof.
move=> ->; rewrite -mulr2n -scaler_nat scalerA mulVf ?scale1r //.
by rewrite pnatr_eq0.
Qed.
Lemma quad_sym d e (B : 'M[F]_(d, e)) S : symmetric S -> symmetric (B^T *m S *m B).
Proof. by move=> H; rewrite /symmetric !trmx_mul trmxK H mulmxA. Qed.
Lemma symD d (M N : 'M[F]_d) : symmetric M -> symmetric N -> symmetric (M + N).
Proof. by move=> H1 H2; rewrite /symmetric linearD /= H1 H2. Qed.
Lemma symB d (M N : 'M[F]_d) : symmetric M -> symmetric N -> symmetric (M - N).
Proof. by move=> H1 H2; rewrite /symmetric linearB /= H1 H2. Qed.

Lemma S_sym p s k : symmetric_weights p -> backward_eq p 0 s -> (0 < k <= pN p)%N -> symmetric (s_S s k).
Proof.
move=> [HQ HR] HB /andP [H0 HN]; case: (ltngtP k (pN p)) HN => // [Hlt|->] _.
  by rewrite (ce_S (be_c HB (k := k) Hlt H0)); exact: half_sym.
by rewrite (te_S (be_t HB)); exact: HQ.
Qed.
Lemma H_sym p s k : symmetric_weights p -> backward_eq p 0 s -> (k < pN p)%N -> symmetric (s_H s k).
Proof.
move=> HW HB Hk; rewrite (se_H (be_s HB (k := k) Hk)).
by apply: symD; [exact: HW.2 | apply: quad_sym; exact: low_sym_sym].
Qed.

(** The quadratic form in the residuals of a control sequence. *)
Definition residual p s j x (u : nat -> 'cV[F]_m) i : 'cV[F]_m :=
  u (j + i)%N - s_L s (j + i)%N *m state_from p j x u i - s_lv s (j + i)%N.
Definition excess p s j x u c : F :=
  \sum_(i < c) dot (residual p s j x u i) (s_H s (j + i) *m residual p s j x u i) / 2%:R.

Lemma state_from_shift p j x u i :
  state_from p j x u i.+1 = state_from p j.+1 (next p j x (u j)) u i.
Proof.
elim: i => [|i IH]; first by rewrite /= addn0.
by rewrite [LHS]/= -[next p (j + i) _ _]/(state_from p j x u i.+1) IH addnS /= addSn.
Qed.
Lemma cost_from_step p j x u : (j < pN p)%N ->
  cost_from p j x u = stage_cost p j x (u j) + cost_from p j.+1 (next p j x (u j)) u.
Proof.
move=> Hj; rewrite /cost_from -(subnSK Hj) big_ord_recl /= addn0 -addrA; congr (_ + _).
rewrite -[next p (j + _) _ _]/(state_from p j x u (pN p - j.+1).+1) state_from_shift; congr (_ + _).
by apply: eq_bigr => i _; rewrite /bump /= add1n addnS -addSn -[next p (j + i) _ _]/(state_from p j x u i.+1) state_from_shift.
Qed.
Lemma excess_step p s j x u c :
  excess p s j x u c.+1
  = dot (u j - s_L s j *m x - s_lv s j) (s_H s j *m (u j - s_L s j *m x - s_lv s j)) / 2%:R
    + excess p s j.+1 (next p j x (u j)) u c.
Proof.
rewrite /excess big_ord_recl /residual /= addn0; congr (_ + _).
by apply: eq_bigr => i _; rewrite /bump /= add1n addnS -addSn -[next p (j + i) _ _]/(state_from p j x u i.+1) state_from_shift.
Qed.

Lemma gains_at p s k : symmetric_weights p -> backward_eq p 0 s -> (k < pN p)%N ->
  untouched (s_H s k) -> factorised (s_H s k) -> s_Hi s k = s_H s k /\
  s_H s k *m s_L s k = - s_G s k /\ s_H s k *m s_lv s k = - s_gv s k.
Proof.
move=> HW HB Hk Hu Hf; have HE := be_s HB (k := k) Hk.
have [E1 E2] := correct_untouched (H_sym HW HB Hk) Hu Hf.
rewrite (se_Hi HE) (se_L HE) (se_lv HE) (se_Hinv HE) E1 !mulmxA E2 !mulNmx !mul1mx; by [].
Qed.

Section Optimal.
Variable p : lqproblem F n m.
Variable s : solver F n m.
Hypothesis HW : symmetric_weights p.
Hypothesis HB : backward_eq p 0 s.
Hypothesis HU : forall k, (k < pN p)%N -> untouched (s_H s k) /\ factorised (s_H s k).

Lemma gains k : (k < pN p)%N -> s_Hi s k = s_H s k /\
  s_H s k *m s_L s k = - s_G s k /\ s_H s k *m s_lv s k = - s_gv s k.
Proof. by move=> Hk; have [Hu Hf] := HU Hk; exact (gains_at HW HB Hk Hu Hf). Qed.

(** Bellman at one stage, as the solver computes it. *)
Lemma stage_bellman k c : (k < pN p)%N ->
  exists c', forall x u,
  stage_cost p k x u + (dot (next p k x u) (s_S s k.+1 *m next p k x u) / 2%:R
                        + dot (next p k x u) (s_sv s k.+1) + c)
  = dot x ((pQ p k + (pA p k)^T *m s_S s k.+1 *m pA p k - (s_L s k)^T *m s_Hi s k *m s_L s k) *m x) / 2%:R
    + dot x (pqv p k + (pA p k)^T *m s_sv s k.+1 + (pA p k)^T *m s_S s k.+1 *m pb p k
             + (s_G s k)^T *m s_lv s k) + c'
    + dot (u - s_L s k *m x - s_lv s k) (s_H s k *m (u - s_L s k *m x - s_lv s k)) / 2%:R.
Proof.
move=> Hk; have HE := be_s HB (k := k) Hk.
have [EHi [EL El]] := gains Hk.
have HS : symmetric (s_S s k.+1) by apply: S_sym HW HB _.
have HH := H_sym HW HB Hk.
have [E1 E2 E3] := And3 (se_gv HE) (se_G HE) (se_H HE).
rewrite (low_symE HS) in E1 E2 E3.
exists (pq p k + dot (pb p k) (s_S s k.+1 *m pb p k) / 2%:R + dot (pb p k) (s_sv s k.+1)
        - dot (s_lv s k) (s_H s k *m s_lv s k) / 2%:R + c) => x u.
have HBm := bellman_step (pqv p k) (pQ p k) x u (pq p k) HS HH E1 E2 E3 EL El.
rewrite EHi addrA /stage_cost /next HBm.
by ring.
Qed.

Lemma cost_explicit c j : (j + c = pN p)%N -> (0 < j)%N ->
  exists V, forall x u, cost_from p j x u =
    dot x (s_S s j *m x) / 2%:R + dot x (s_sv s j) + V + excess p s j x u c.
Proof.
elim: c j => [|c IH] j Hj H0.
- exists (pq p (pN p)) => x u; rewrite /cost_from /excess -Hj addn0 subnn !big_ord0 /=.
  rewrite addn0 in Hj; rewrite Hj (te_S (be_t HB)) (te_sv (be_t HB)) /final_cost; ring.
- have Hlt : (j < pN p)%N by rewrite -Hj addnS ltnS leq_addr.
  have Hj' : (j.+1 + c = pN p)%N by rewrite addSn -addnS.
  have [V HV] := IH j.+1 Hj' isT.
  have [c' Hc'] := stage_bellman V Hlt.
  exists c' => x u; rewrite (cost_from_step _ _ Hlt) excess_step HV [LHS]addrA Hc'.
  have HC := be_c HB (k := j) Hlt H0.
  have ES := ce_S HC; cbv zeta in ES; rewrite ES half_symE -?(ce_sv HC) ?addrA //.
  have Hgt : symmetric (s_S s j.+1) by apply: S_sym HW HB _.
  have [EHi _] := gains Hlt.
  apply: symB; last by apply: quad_sym; rewrite EHi; exact: H_sym HW HB Hlt.
  by apply: symD; [exact: HW.1 _ (ltnW Hlt) | exact: quad_sym].
Qed.

Lemma cost_value j : (0 < pN p)%N -> (j <= pN p)%N ->
  exists V : 'cV[F]_n -> F, forall x u, cost_from p j x u = V x + excess p s j x u (pN p - j).
Proof.
move=> HN Hj; case: (posnP j) => [-> |Hj0].
- have [V HV] := cost_explicit (j := 1) (subnKC HN) isT.
  have [c' Hc'] := stage_bellman V HN.
  eexists => x u; rewrite (cost_from_step _ _ HN) HV subn0 -{2}(subnK HN) addn1 excess_step addrA Hc'.
  by rewrite addrA; reflexivity.
- have [V HV] := cost_explicit (subnKC Hj) Hj0.
  by eexists => x u; rewrite HV; reflexivity.
Qed.

Definition law j x k : 'cV[F]_m := s_lv s k + s_L s k *m closed_loop p (s_L s) (s_lv s) j x (k - j).

Lemma law_state j x i : state_from p j x (law j x) i = closed_loop p (s_L s) (s_lv s) j x i.
Proof. by elim: i => [//|i IH] /=; rewrite IH /law addKn. Qed.

Lemma optimal j x : (0 < pN p)%N -> (j <= pN p)%N -> unique_minimiser p j x (law j x).
Proof.
move=> HN Hj; have [V HV] := cost_value HN Hj.
have H0 : excess p s j x (law j x) (pN p - j) = 0.
  apply: big1 => i _; rewrite /residual law_state /law addKn.
  by rewrite addrK subrr dot0l mul0r.
have Hlt (i : 'I_(pN p - j)) : (j + i < pN p)%N.
  by have := ltn_ord i; rewrite ltn_subRL.
have Hpos u' (i : 'I_(pN p - j)) :
  0 <= dot (residual p s j x u' i) (s_H s (j + i) *m residual p s j x u' i) / 2%:R.
  have [[Hp _] _] := HU (Hlt i).
  by apply: divr_ge0; [exact: (posdef_semi Hp) | exact: ler0n].
move=> u'; rewrite !HV H0 addr0; split.
  by rewrite ler_addl; apply: sumr_ge0 => i _.
move=> /eqP; rewrite -subr_eq0 addrC addKr => /eqP Hz.
have Hres i : (i < pN p - j)%N -> residual p s j x u' i = 0.
  move=> Hi; have := psumr_eq0P _ Hz (i := Ordinal Hi) => H1.
  case: (eqVneq (residual p s j x u' i) 0) => // Hne.
  have [[Hp _] _] := HU (Hlt (Ordinal Hi)).
  have := Hp _ Hne; have : dot (residual p s j x u' i) (s_H s (j + i) *m residual p s j x u' i) / 2%:R = 0.
    by apply: H1 => // k _; exact: Hpos.
  move=> /eqP; rewrite mulf_eq0 invr_eq0 pnatr_eq0 orbF => /eqP Hd Hgt.
  by move: Hgt; rewrite /= Hd ltxx.
have Hst i : (i <= pN p - j)%N -> state_from p j x u' i = closed_loop p (s_L s) (s_lv s) j x i /\
  forall k, (k < i)%N -> u' (j + k)%N = law j x (j + k).
  elim: i => [//|i IH] Hi; have [E1 E2] := IH (ltnW Hi).
  have E3 : u' (j + i)%N = law j x (j + i).
    have := Hres i Hi; rewrite /residual E1 /law addKn => /eqP.
    by rewrite -addrA -opprD subr_eq0 => /eqP ->; rewrite addrC.
  split.
    by rewrite /= E1 E3 /law addKn.
  by move=> k; rewrite ltnS leq_eqVlt => /orP [/eqP -> |/E2].
move=> k /andP [Hk1 Hk2]; have [_ H] := Hst (pN p - j)%N (leqnn _).
by rewrite -(subnKC Hk1); apply: H; rewrite ltn_sub2r // (leq_ltn_trans Hk1).
Qed.
End Optimal.

(** Only the controls of the stages j..N-1 matter. *)
Lemma state_ext p j x u u' i : (j + i <= pN p)%N -> same_controls p j u u' ->
  state_from p j x u i = state_from p j x u' i.
Proof.
move=> + H; elim: i => [//|i IH]; rewrite addnS => Hi /=.
by rewrite (IH (ltnW Hi)) H // leq_addr.
Qed.
Lemma cost_ext p j x u u' : (j <= pN p)%N -> same_controls p j u u' -> cost_from p j x u = cost_from p j x u'.
Proof.
move=> Hj H; rewrite /cost_from; congr (_ + _).
  apply: eq_bigr => i _.
  have Hi : (j + i < pN p)%N by have := ltn_ord i; rewrite ltn_subRL.
  by rewrite (state_ext x (ltnW Hi) H) H // leq_addr.
by rewrite (state_ext x _ H) // subnKC.
Qed.
Lemma minimiser_ext p j x u u' : (j <= pN p)%N -> same_controls p j u u' ->
  unique_minimiser p j x u -> unique_minimiser p j x u'.
Proof.
move=> Hj H Hm v; rewrite -(cost_ext x Hj H); have [H1 H2] := Hm v; split=> // E k Hk.
by rewrite (H2 E k Hk) H.
Qed.

(** The theorem for the whole solver: backward pass, then forward pass. *)
Definition solved p s := computeStatesAndControls p (solve la se p s).

Lemma solved_keeps p s : s_L (solved p s) = s_L (solve la se p s) /\ s_lv (solved p s) = s_lv (solve la se p s)
  /\ s_H (solved p s) = s_H (solve la se p s).
Proof. by have [? [? [? _]]] := forward_keeps p (pN p) (solve la se p s). Qed.

Lemma solved_consistent p s :
  s_x (solved p s) 0 = 0 /\
  forall k, (k < pN p)%N ->
    s_u (solved p s) k = s_lv (solved p s) k + s_L (solved p s) k *m s_x (solved p s) k /\
    s_x (solved p s) k.+1 = next p k (s_x (solved p s) k) (s_u (solved p s) k).
Proof.
have [EL [El _]] := solved_keeps p s.
have HF := @forward_closed p (solve la se p s) (pN p).
split; first by have [-> _] := HF 0%N (leq0n _).
move=> k Hk; have [Hx Hu] := HF k (ltnW Hk); have [Hx' _] := HF k.+1 Hk.
by rewrite EL El /solved /computeStatesAndControls Hx Hx' Hu.
Qed.

Lemma solved_optimal p s : (0 < pN p)%N -> symmetric_weights p ->
  (forall k, (k < pN p)%N -> untouched (s_H (solved p s) k) /\ factorised (s_H (solved p s) k)) ->
  unique_minimiser p 0 0 (s_u (solved p s)) /\
  forall j x, (j <= pN p)%N -> unique_minimiser p j x
    (fun k => s_lv (solved p s) k
              + s_L (solved p s) k *m closed_loop p (s_L (solved p s)) (s_lv (solved p s)) j x (k - j)).
Proof.
have [EL [El EH]] := solved_keeps p s; rewrite EL El EH => HN HW HU.
have HO j x Hj := optimal HW (solve_backward s HN) HU (j := j) x HN Hj.
split; last by move=> j x Hj; exact: HO.
apply: minimiser_ext (HO 0%N 0 (leq0n _)) => // k /andP [_ Hk].
have [_ Hu] := @forward_closed p (solve la se p s) (pN p) k (ltnW Hk).
by rewrite /solved /computeStatesAndControls Hu // /law subn0.
Qed.

(** Convex problems: every stage Hessian is untouched. *)
Lemma convex_untouched p s : (0 < pN p)%N -> symmetric_weights p -> convex_weights p ->
  (forall k, (k < pN p)%N -> untouched (pR p k)) ->
  (forall k, (k < pN p)%N -> factorised (s_H s k)) -> backward_eq p 0 s ->
  forall c k, (k + c.+1 = pN p)%N -> possemi (s_S s k.+1) /\ untouched (s_H s k).
Proof.
move=> HN HW [HQN Hconv] HR Hf HB.
have HH k : (k < pN p)%N -> possemi (s_S s k.+1) -> untouched (s_H s k).
  move=> Hk HS; have [Rp Ru] := HR k Hk.
  have HSs : symmetric (s_S s k.+1) by apply: S_sym HW HB _.
  have E v : dot v (s_H s k *m v) = dot v (pR p k *m v) + dot (pB p k *m v) (s_S s k.+1 *m (pB p k *m v)).
    by rewrite (se_H (be_s HB (k := k) Hk)) (low_symE HSs) mulmxDl dotDr -!mulmxA -dot_mull.
  split; first by move=> v Hv; rewrite E ltr_paddr // Rp.
  move: Ru; case: (fixedHessianCorrection se) => // Rc v.
  by rewrite E; apply: le_trans (Rc v) _; rewrite ler_addl.
elim=> [|c IH] k Hk.
- have Hlt : (k < pN p)%N by rewrite -Hk addnS ltnS leq_addr.
  have HS : possemi (s_S s k.+1) by rewrite -addn1 Hk (te_S (be_t HB)).
  by split=> //; exact: HH.
- have Hk1 : (k.+1 + c.+1 = pN p)%N by rewrite addSn -addnS.
  have Hlt : (k.+1 < pN p)%N by rewrite -Hk1 addnS ltnS leq_addr.
  have [HS HU] := IH k.+1 Hk1.
  have [EHi [EL El]] := gains_at HW HB Hlt HU (Hf _ Hlt).
  have HSs : symmetric (s_S s k.+2) by apply: S_sym HW HB _.
  have HHs := H_sym HW HB Hlt.
  suff HS1 : possemi (s_S s k.+1) by split=> //; apply: HH => //; exact: ltnW.
  move=> x; have HC := be_c HB (k := k.+1) Hlt isT.
  have ES := ce_S HC; cbv zeta in ES; rewrite half_symE in ES; last first.
    apply: symB; last by apply: quad_sym; rewrite EHi.
    by apply: symD; [exact: HW.1 _ (ltnW Hlt) | exact: quad_sym].
  have HE := be_s HB (k := k.+1) Hlt.
  have [E1 E2 E3] := And3 (se_gv HE) (se_G HE) (se_H HE); rewrite (low_symE HSs) in E1 E2 E3.
  have Hg0 : (0 : 'cV[F]_m) = 0 + (pB p k.+1)^T *m 0 + (pB p k.+1)^T *m s_S s k.+2 *m 0.
    by rewrite !mulmx0 !addr0.
  have Hl0 : s_H s k.+1 *m 0 = - 0 :> 'cV[F]_m by rewrite mulmx0 oppr0.
  have HBm := bellman_step 0 (pQ p k.+1) x (s_L s k.+1 *m x) 0 HSs HHs Hg0 E2 E3 EL Hl0.
  move: HBm; cbv zeta; rewrite subrr subr0 !mulmx0 !addr0 !dot0r !mul0r ?dot0l ?subr0 ?addr0 ?add0r ?mul0r ?oppr0 ?addr0.
  rewrite -EHi -ES => HBm.
  have Hpos : 0 <= dot x (s_S s k.+1 *m x) / 2%:R.
    rewrite -HBm; set y := pA _ _ *m x + _.
    have := Hconv _ Hlt x (s_L s k.+1 *m x); have := HS y.
    move=> H1 H2; apply: addr_ge0; last by apply: divr_ge0; rewrite ?ler0n.
    have -> : dot x (pQ p k.+1 *m x) / 2%:R + dot (s_L s k.+1 *m x) (pR p k.+1 *m (s_L s k.+1 *m x)) / 2%:R
      + dot (s_L s k.+1 *m x) (pP p k.+1 *m x) =
      (dot x (pQ p k.+1 *m x) + dot (s_L s k.+1 *m x) (pR p k.+1 *m (s_L s k.+1 *m x))
       + 2%:R * dot (s_L s k.+1 *m x) (pP p k.+1 *m x)) / 2%:R by field.
    by apply: divr_ge0; rewrite ?ler0n.
  by rewrite -(pmulr_lge0 _ (x := 2%:R^-1)) // invr_gt0 ltr0n.
Qed.

Lemma solved_convex p s : (0 < pN p)%N -> symmetric_weights p -> convex_weights p ->
  (forall k, (k < pN p)%N -> untouched (pR p k)) ->
  (forall k, (k < pN p)%N -> factorised (s_H (solved p s) k)) ->
  (forall k, (k < pN p)%N -> untouched (s_H (solved p s) k)).
Proof.
have [_ [_ EH]] := solved_keeps p s; rewrite EH => HN HW HC HR Hf k Hk.
have [|_ H] // := convex_untouched HN HW HC HR Hf (solve_backward s HN) (c := pN p - k.+1) (k := k) _.
by rewrite -addSnnS subnKC.
Qed.

(** The eigenvalue correction always yields a Hessian with curvature at least epsilon, and the
    gains belong to that Hessian. *)
Lemma corrected_hessian H : fixedHessianCorrection se = false -> 0 < epsilon se ->
  symmetric H -> eigen_correct (la_eig la) H ->
  symmetric (correctHessian la se H).1 /\ curvature_at_least (epsilon se) (correctHessian la se H).1 /\
  (correctHessian la se H).1 *m (correctHessian la se H).2 = - 1%:M.
Proof.
move=> Hfix Heps Hs; rewrite /correctHessian Hfix (low_symE Hs) /eigen_correct.
case: (la_eig la H) => V lam /= [HV HM].
set D := \row_j _.
have HD j : epsilon se <= D 0 j by rewrite mxE le_maxr lexx orbT.
have HV' : V^T *m V = 1%:M by apply: mulmx1C.
split; first by rewrite /symmetric !trmx_mul trmxK tr_diag_mx mulmxA.
split.
- move=> v; rewrite -!mulmxA dot_mulr; set w := V^T *m v.
  have -> : dot v v = dot w w by rewrite /w dot_mull trmxK mulmxA HV mul1mx.
  rewrite !dotE mulr_sumr; apply: ler_sum => i _.
  clearbody w; move: (HD i); clearbody D => HDi.
  rewrite mul_diag_mx mxE (mulrCA (w i 0)).
  by rewrite ler_wpmul2r // -expr2 sqr_ge0.
- rewrite !mulmxA -(mulmxA _ V^T V) HV' mulmx1 -(mulmxA V) diag_inv; last first.
    by move=> j; rewrite gt_eqF // (lt_le_trans Heps).
  by rewrite mulmxN mulmx1 mulNmx HV.
Qed.

Lemma solved_corrected p s k : (k < pN p)%N -> fixedHessianCorrection se = false -> 0 < epsilon se ->
  symmetric_weights p -> eigen_correct (la_eig la) (s_H (solved p s) k) ->
  let r := solve la se p s in
  symmetric (s_Hi r k) /\ curvature_at_least (epsilon se) (s_Hi r k) /\
  s_Hi r k *m s_L r k = - s_G r k /\ s_Hi r k *m s_lv r k = - s_gv r k.
Proof.
have [_ [_ ->]] := solved_keeps p s => Hk Hfix Heps HW HE r.
have HN : (0 < pN p)%N by apply: leq_ltn_trans Hk.
have HB := solve_backward s HN; have HS := be_s HB (k := k) Hk.
have [H1 [H2 H3]] := corrected_hessian Hfix Heps (H_sym HW HB Hk) HE.
rewrite -/r in HS H1 H2 H3; rewrite (se_L HS) (se_lv HS) (se_Hi HS) (se_Hinv HS).
by split=> //; split=> //; rewrite !mulmxA H3 !mulNmx !mul1mx.
Qed.

(** Splitting the backward pass. *)
Lemma stages_add p lo c d s : stages la se p lo (c + d) s = stages la se p lo c (stages la se p (lo + c) d s).
Proof. by elim: d s => [|d IH] s; [rewrite addn0 | rewrite addnS /= IH addnA]. Qed.

Lemma single_agree p p' k i s : agree_from k p p' -> (k <= i < pN p)%N ->
  solveSingleStage la se p i s = solveSingleStage la se p' i s.
Proof.
move=> [EN [_ [EQ [Eq H]]]] Hi; have [[EA EB Eb] [EQi Eqi ER Er EP]] := H i Hi.
rewrite /solveSingleStage -EN.
have -> : (if i.+1 == pN p then initializeCostToGo p s else s)
        = (if i.+1 == pN p then initializeCostToGo p' s else s).
  by case: ifP => // _; rewrite /initializeCostToGo -EN EQ Eq.
set s1 := if _ == _ then _ else _.
have -> : designController la se p i s1 = designController la se p' i s1.
  by rewrite /designController EA EB Eb ER Er EP.
by case: ifP => // _; rewrite /computeCostToGo EA Eb EQi Eqi.
Qed.
Lemma stages_agree p p' k c lo s : agree_from k p p' -> (k <= lo)%N -> (lo + c <= pN p)%N ->
  stages la se p lo c s = stages la se p' lo c s.
Proof.
move=> HA Hk; elim: c s => [//|c IH] s Hc /=.
rewrite addnS in Hc.
rewrite (single_agree s HA); first by rewrite IH // ltnW.
by rewrite Hc (leq_trans Hk (leq_addr _ _)).
Qed.

Lemma split_pass p p' k s : (0 < k <= pN p)%N -> agree_from k p p' ->
  obind (prepareSolveLQProblem la se p k s) (finishSolveLQProblem la se p' k.-1) = solveFullLQProblem la se p' s.
Proof.
move=> /andP [H0 Hk] HA; have [EN [EC _]] := HA.
rewrite /prepareSolveLQProblem /finishSolveLQProblem /solveFullLQProblem /setProblem EC.
case: ifP => _; first by [].
rewrite /obind /solve prednK //.
rewrite (stages_agree s HA (leqnn k)); last by rewrite subnKC.
by rewrite -EN -[in RHS](subnKC Hk) stages_add add0n.
Qed.

Lemma full_ok p s r : solveFullLQProblem la se p s = Ok r -> r = solved p s.
Proof. by rewrite /solveFullLQProblem /setProblem; case: ifP => // _ [] <-. Qed.

Lemma full_optimal p s r : (0 < pN p)%N -> symmetric_weights p ->
  solveFullLQProblem la se p s = Ok r ->
  (forall k, (k < pN p)%N ->
     hessian_untouched (fixedHessianCorrection se) (epsilon se) (s_H r k) /\
     factorisation_correct (fixedHessianCorrection se) (la_eig la) (la_llt la) (s_H r k)) ->
  s_x r 0 = 0 /\
  (forall k, (k < pN p)%N -> s_x r k.+1 = next p k (s_x r k) (s_u r k)) /\
  (forall k, (k < pN p)%N -> s_u r k = s_lv r k + s_L r k *m s_x r k) /\
  unique_minimiser p 0 0 (s_u r) /\
  (forall j x, (j <= pN p)%N -> unique_minimiser p j x
     (fun k => s_lv r k + s_L r k *m closed_loop p (s_L r) (s_lv r) j x (k - j))).
Proof.
move=> HN HW /full_ok -> HU; have [H0 Hc] := solved_consistent p s.
have [H1 H2] := solved_optimal HN HW HU.
by split=> //; split; [|split] => // k Hk; have [? ?] := Hc k Hk.
Qed.

Lemma full_convex p s r : (0 < pN p)%N -> symmetric_weights p -> convex_weights p ->
  (forall k, (k < pN p)%N -> hessian_untouched (fixedHessianCorrection se) (epsilon se) (pR p k)) ->
  solveFullLQProblem la se p s = Ok r ->
  (forall k, (k < pN p)%N ->
     factorisation_correct (fixedHessianCorrection se) (la_eig la) (la_llt la) (s_H r k)) ->
  unique_minimiser p 0 0 (s_u r) /\
  (forall j x, (j <= pN p)%N -> unique_minimiser p j x
     (fun k => s_lv r k + s_L r k *m closed_loop p (s_L r) (s_lv r) j x (k - j))).
Proof.
move=> HN HW HC HR HE Hf.
have HU : forall k, (k < pN p)%N -> untouched (s_H r k) /\ factorised (s_H r k).
  move=> k Hk; split; last exact: Hf.
  by move: Hf; rewrite (full_ok HE) => Hf; exact: solved_convex HN HW HC HR Hf k Hk.
by have [_ [_ [_ H]]] := full_optimal HN HW HE HU.
Qed.

Lemma full_corrected p s r k : (k < pN p)%N -> fixedHessianCorrection se = false -> 0 < epsilon se ->
  symmetric_weights p -> solveFullLQProblem la se p s = Ok r ->
  eigen_correct (la_eig la) (s_H r k) ->
  symmetric (s_Hi r k) /\ curvature_at_least (epsilon se) (s_Hi r k) /\
  s_Hi r k *m s_L r k = - s_G r k /\ s_Hi r k *m s_lv r k = - s_gv r k.
Proof.
move=> Hk Hfix Heps HW /full_ok -> HE; have := solved_corrected Hk Hfix Heps HW HE; cbv zeta.
have K c : s_Hi (forwardSteps p c (solve la se p s)) = s_Hi (solve la se p s) /\
  s_G (forwardSteps p c (solve la se p s)) = s_G (solve la se p s) /\
  s_gv (forwardSteps p c (solve la se p s)) = s_gv (solve la se p s) by elim: c => [//|c IH] /=.
have [EL [El _]] := solved_keeps p s; have [K1 [K2 K3]] := K (pN p).
by rewrite EL El /solved /computeStatesAndControls K1 K2 K3.
Qed.
End LQProofs.
