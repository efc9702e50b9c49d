(** Proofs about the state estimators (FilterModel.v). *)
From mathcomp Require Import all_ssreflect all_algebra.
From mathcomp Require Import ring.
From Verif Require Import Base.Outcome Base.Mx Optcon.LQSpec Optcon.LQModel Optcon.LQProofs Optcon.LqrSpec
  Optcon.LqrModel Optcon.LqrProofs Optcon.FilterSpec Optcon.FilterModel Optcon.FilterUse.
Set Implicit Arguments. Unset Strict Implicit. Unset Printing Implicit Defensive.
Import GRing.Theory Num.Theory Order.TTheory.
Local Open Scope ring_scope.

Section Zmod.
Variables (F : realFieldType) (p q : nat).
Implicit Types a b c d e : 'M[F]_(p, q).
Lemma zmod1 a b c d e : a - b - (c - d) + e = a - b - c + (d + e).
Proof. by apply/matrixP => i j; rewrite !mxE; ring. Qed.
Lemma zmod2 a b c d e : a - b - c + d = a - e + (d - c - (b - e)).
Proof. by apply/matrixP => i j; rewrite !mxE; ring. Qed.
Lemma zmod3 a b c : (a + c + b) + (a - c + b) = (a + b) + (a + b).
Proof. by apply/matrixP => i j; rewrite !mxE; ring. Qed.
Lemma zmod4 a b c : (a + b) - (c + b) = a - c.
Proof. by apply/matrixP => i j; rewrite !mxE; ring. Qed.
End Zmod.

Section Cov.
Variable F : realFieldType.
Lemma trB (p q : nat) (X Y : 'M[F]_(p, q)) : (X - Y)^T = X^T - Y^T.
Proof. by apply/matrixP => i j; rewrite !mxE. Qed.
Lemma trD (p q : nat) (X Y : 'M[F]_(p, q)) : (X + Y)^T = X^T + Y^T.
Proof. by apply/matrixP => i j; rewrite !mxE. Qed.
Lemma covD d (P R : 'M[F]_d) : covariance P -> covariance R -> covariance (P + R).
Proof.
move=> [HP1 HP2] [HR1 HR2]; split; first by rewrite /symmetric trD HP1 HR1.
by move=> v; rewrite mulmxDl dotDr addr_ge0.
Qed.
Lemma cov_conj d e (P : 'M[F]_d) (A : 'M[F]_(e, d)) : covariance P -> covariance (A *m P *m A^T).
Proof.
move=> [HP1 HP2]; split; first by rewrite /symmetric !trmx_mul trmxK HP1 mulmxA.
by move=> v; rewrite -!mulmxA dot_mulr.
Qed.
Lemma covZ d (P : 'M[F]_d) k : 0 <= k -> covariance P -> covariance (k *: P).
Proof.
move=> Hk [HP1 HP2]; split; first by apply/matrixP => i j; rewrite !mxE -[in RHS]HP1 mxE.
by move=> v; rewrite -scalemxAl dotZr mulr_ge0.
Qed.
Lemma posdef_conj d (R W : 'M[F]_d) : posdef R -> W \in unitmx -> posdef (W *m R *m W^T).
Proof.
move=> HR HW v Hv; rewrite -!mulmxA dot_mulr; apply: HR.
apply/eqP => E; move/eqP: Hv; apply.
by rewrite -[v]mul1mx -trmx1 -(mulmxV HW) trmx_mul -mulmxA E mulmx0.
Qed.
Lemma posdefD d (P R : 'M[F]_d) : possemi P -> posdef R -> posdef (P + R).
Proof. by move=> HP HR v Hv; rewrite mulmxDl dotDr ltr_paddl // ?HP ?HR. Qed.
End Cov.

Section Kalman.
Variable F : realFieldType.
Variables n o : nat.
Variables (P : 'M[F]_n) (H : 'M[F]_(o, n)) (V : 'M[F]_o).
Hypothesis HP : covariance P.
Hypothesis HV : symmetric V.
Hypothesis HVp : posdef V.
Let S := H *m P *m H^T + V.
Let K := P *m H^T *m invmx S.

Lemma S_unit : S \in unitmx.
Proof. by apply: posdef_unit; apply: posdefD => //; case: (cov_conj H HP). Qed.
Lemma S_sym : S^T = S.
Proof. by rewrite /S trD HV !trmx_mul trmxK HP.1 mulmxA. Qed.
Lemma KS : K *m S = P *m H^T.
Proof. by rewrite /K -mulmxA mulVmx ?S_unit // mulmx1. Qed.
Lemma SKt : S *m K^T = H *m P.
Proof. by rewrite -{1}S_sym -trmx_mul KS trmx_mul trmxK HP.1. Qed.

(** The error covariance for an arbitrary gain, around the gain of the filter. *)
Lemma posteriorE (K' : 'M[F]_(n, o)) :
  posterior P H V K' = (P - K *m H *m P) + (K' - K) *m S *m (K' - K)^T.
Proof.
have E1 : posterior P H V K' = P - K' *m H *m P - P *m H^T *m K'^T + K' *m S *m K'^T.
  rewrite /posterior /S trB trmx1 mulmxBr mulmx1 mulmxBl mul1mx mulmxBl trmx_mul mulmxDr mulmxDl.
  rewrite !mulmxA; set d := K' *m H *m P *m H^T *m K'^T; set b := K' *m H *m P; set c := P *m H^T *m K'^T.
  set e := K' *m V *m K'^T.
  exact: zmod1.
have E2 : P *m H^T *m K^T = K *m H *m P by rewrite -KS -mulmxA SKt mulmxA.
rewrite E1 trB mulmxBr !mulmxBl KS -!mulmxA SKt !mulmxA E2.
set b := K' *m H *m P; set c := P *m H^T *m K'^T; set d := K' *m S *m K'^T; set e := K *m H *m P.
exact: zmod2.
Qed.
Lemma posterior_gain : posterior P H V K = P - K *m H *m P.
Proof. by rewrite posteriorE subrr mul0mx mul0mx addr0. Qed.
Lemma update_cov : covariance (P - K *m H *m P).
Proof.
rewrite -posterior_gain; apply: covD; apply: cov_conj => //.
by split=> //; exact: posdef_semi.
Qed.
Lemma S_cov : covariance S.
Proof. by apply: covD; [exact: cov_conj | split=> //; exact: posdef_semi]. Qed.
Lemma gain_optimal (K' : 'M[F]_(n, o)) : below (P - K *m H *m P) (posterior P H V K').
Proof.
rewrite /below posteriorE [X in possemi X]addrC addKr; exact: (cov_conj (K' - K) S_cov).2.
Qed.
Lemma update_below : below (P - K *m H *m P) P.
Proof.
have := gain_optimal 0; rewrite {1}/posterior mul0mx subr0 trmx1 mulmx1 mul1mx !mul0mx addr0; exact.
Qed.
Lemma gain_unique (K' : 'M[F]_(n, o)) : posterior P H V K' = P - K *m H *m P -> K' = K.
Proof.
rewrite posteriorE => /eqP; rewrite addrC -subr_eq0 addrK => /eqP E.
have HS : posdef S by apply: posdefD => //; case: (cov_conj H HP).
apply/eqP; rewrite -subr_eq0; apply/eqP/trmx_inj; rewrite trmx0; apply/matrixP => i j.
suff : col j (K' - K)^T = 0 by move/matrixP/(_ i 0); rewrite !mxE.
apply/eqP/negPn/negP => Hv.
have := HS _ Hv; rewrite colE dot_mull trmxK.
have -> : (K' - K) *m (S *m ((K' - K)^T *m delta_mx j 0)) = (0 : 'cV[F]_n).
  by rewrite !mulmxA E mul0mx.
by rewrite dot0r ltxx.
Qed.
End Kalman.

Section EkfProofs.
Variable F : realFieldType.
Variables n m o : nat.
Notation ekf := (ekf F n m o).

Lemma noise_ok (R W : 'M[F]_o) : symmetric R -> posdef R -> W \in unitmx ->
  symmetric (W *m R *m W^T) /\ posdef (W *m R *m W^T).
Proof. by move=> HR Hp HW; split; [rewrite /symmetric !trmx_mul trmxK HR mulmxA | exact: posdef_conj]. Qed.

Lemma ekf_step_valid (e : ekf) c : ekf_valid e -> calls_ok e [:: c] -> ekf_valid (ekf_step e c).
Proof.
move=> [HP HQ HR Hp]; case: c => [u dt t|y dt t|x|f|h] /= [Hc _]; split=> //=.
- by apply: covD; [exact: cov_conj | apply: cov_conj; exact: covZ].
- have [HV HVp] := noise_ok HR Hp Hc; exact: update_cov.
Qed.
Lemma ekf_run_valid cs (e : ekf) : ekf_valid e -> calls_ok e cs -> ekf_valid (ekf_run e cs).
Proof.
rewrite /ekf_run; elim: cs e => [//|c cs IH] e He /= [H1 H2].
by apply: IH => //; apply: ekf_step_valid.
Qed.
End EkfProofs.

Section SskfProofs.
Variable F : realFieldType.
Variables n o : nat.
Variable eig : 'M[F]_o -> 'M[F]_o * 'rV[F]_o.
Hypothesis Heig : forall M, symmetric M -> eigen_correct eig M.
Notation reg := ((10%:R ^+ 5)^-1 : F).
Notation tol := ((10%:R ^+ 6)^-1 : F).

Lemma tol_le1 : tol <= 1.
Proof.
rewrite invf_le1 ?exprn_gt0 ?ltr0n //; apply: exprn_ege1; by rewrite ler1n.
Qed.

Lemma sskf_gain K0 y dt t (k k' : sskf F n o) :
  covariance (k_Q k) -> covariance (k_R k) -> covariance (k_P k) ->
  sskf_update eig K0 y dt t k = Ok k' ->
  let H := measDerivativeState (k_h k) (k_x k) t in
  let A := k_A k in
  covariance (k_P k') /\
  exists P0 : 'M[F]_n, [/\ forall i j, `|k_P k' i j - P0 i j| < tol,
    k_P k' = riccati (k_Q k) (k_R k + reg%:M) A^T H^T P0 &
    k_x k' = k_x k + A *m P0^T *m H^T *m invmx (k_R k + reg%:M + H *m P0 *m H^T)^T
                       *m (y - computeMeasurement (k_h k) (k_x k) t)].
Proof.
move=> [HQ1 HQ2] [HR1 HR2] [HP1 HP2]; rewrite /sskf_update.
set H := measDerivativeState _ _ _; set A := k_A k.
case E : (dare _ _ _ _ _ _ _ _ _) => [[P K]| |] // [] <- /=.
have [H1 [H2 [P0 [E1 E2 E3]]]] := dare_spec Heig HQ1 HQ2 HR1 HR2 HP1 HP2 tol_le1 E.
split; first by split.
exists P0; split=> //.
rewrite -/H E2; congr (_ + _).
rewrite -[LHS]mulNmx; congr (_ *m _).
have -> : (- (invmx (k_R k + reg%:M + H^T^T *m P0 *m H^T) *m H^T^T *m P0 *m A^T))^T
   = - ((invmx (k_R k + reg%:M + H^T^T *m P0 *m H^T) *m H^T^T *m P0 *m A^T))^T.
  by apply/matrixP => i j; rewrite !mxE.
by rewrite opprK !trmxK !trmx_mul trmx_inv trmxK !mulmxA.
Qed.
End SskfProofs.

Section UkfProofs.
Variable F : rcfType.
Variables n m o : nat.
Notation sig := (1 + (n + n))%N.
Notation weights := (weights F n).

Lemma predictionE d (w : weights) (X : 'M[F]_(d, sig)) : predictionFrom w X = wmean X (w_m w).
Proof.
apply/colP => a; rewrite /predictionFrom /wmean mxE summxE; apply: eq_bigr => i _.
by rewrite !mxE mulrC.
Qed.
Lemma covarianceE d (w : weights) mean (X : 'M[F]_(d, sig)) noise :
  covarianceFrom w mean X noise = wcov X mean (w_c w) + noise.
Proof.
rewrite /covarianceFrom /wcov; congr (_ + _).
apply/matrixP => a b; rewrite mxE summxE; apply: eq_bigr => i _.
by rewrite !mxE big_ord1 !mxE mulrAC mulrC mulrA.
Qed.
Lemma gainE (w : weights) x (X : 'M[F]_(n, sig)) y (Y : 'M[F]_(o, sig)) Pyy :
  kalmanGain w x X y Y Pyy = wcross X x Y y (w_c w) *m invmx Pyy.
Proof.
rewrite /kalmanGain /wcross; congr (_ *m _).
apply/matrixP => a b; rewrite mxE summxE; apply: eq_bigr => i _.
by rewrite !mxE big_ord1 !mxE mulrAC mulrC mulrA.
Qed.

(** The three groups of sigma points. *)
Lemma sigma_sum (V : lmodType F) (w : 'I_sig -> F) c0 c1 (gamma : F) (x : 'cV[F]_n) (Sq : 'M[F]_n)
  (G : 'cV[F]_n -> V) :
  (forall i, w i = if (val i == 0)%N then c0 else c1) ->
  \sum_i w i *: G (col i (sigmaPoints gamma x Sq))
  = c0 *: G x + \sum_(j < n) c1 *: (G (x + gamma *: col j Sq) + G (x - gamma *: col j Sq)).
Proof.
move=> Hw; rewrite big_split_ord /= big_ord1 big_split_ord /= Hw /=.
have -> : col (lshift (n + n) 0) (sigmaPoints gamma x Sq) = x.
  by apply/colP => a; rewrite mxE row_mxEl.
congr (_ + _); rewrite -big_split /=; apply: eq_bigr => j _.
rewrite !Hw /= scalerDr; congr (_ *: G _ + _ *: G _); apply/colP => a.
- by rewrite mxE row_mxEr row_mxEl !mxE addrC.
- by rewrite mxE row_mxEr row_mxEr !mxE addrC mulNr.
Qed.

Variables (alpha beta kappa : F).
Hypothesis Hpos : 0 < alpha * alpha * (n%:R + kappa).
Let w := computeWeights n alpha beta kappa.

Lemma scale_eq : n%:R + (alpha * alpha * (n%:R + kappa) - n%:R) = alpha * alpha * (n%:R + kappa).
Proof. by rewrite addrC subrK. Qed.
Lemma gamma_sq : w_gamma w * w_gamma w = alpha * alpha * (n%:R + kappa).
Proof. by rewrite /w /= scale_eq -expr2 sqr_sqrtr // ltW. Qed.

Definition wi : F := (2%:R * (alpha * alpha * (n%:R + kappa)))^-1.
Lemma wi_eq : 1 / (2%:R * alpha * alpha * (n%:R + kappa)) = wi.
Proof. by rewrite /wi div1r !mulrA. Qed.
Lemma wi_gamma : wi * (w_gamma w * w_gamma w) + wi * (w_gamma w * w_gamma w) = 1.
Proof.
rewrite gamma_sq /wi; have := lt0r_neq0 Hpos; set z := alpha * alpha * _; clearbody z => Hz.
by field; rewrite Hz.
Qed.

Lemma weights_sum :
  (alpha * alpha * (n%:R + kappa) - n%:R) / (alpha * alpha * (n%:R + kappa)) + n%:R * (wi + wi) = 1.
Proof.
rewrite /wi; have := lt0r_neq0 Hpos; set z := alpha * alpha * _; clearbody z => Hz.
by field; rewrite Hz.
Qed.

(** Affine images of the sigma points: mean, covariance, cross covariance. *)
Section Affine.
Variables (x : 'cV[F]_n) (Sq : 'M[F]_n).
Let X := sigmaPoints (w_gamma w) x Sq.

Lemma w_m_cases i : w_m w i = if (val i == 0)%N
  then (alpha * alpha * (n%:R + kappa) - n%:R) / (alpha * alpha * (n%:R + kappa)) else wi.
Proof. by rewrite /w /= scale_eq wi_eq. Qed.
Lemma w_c_cases i : w_c w i = if (val i == 0)%N
  then (alpha * alpha * (n%:R + kappa) - n%:R) / (alpha * alpha * (n%:R + kappa)) + (1 - alpha * alpha + beta)
  else wi.
Proof. by rewrite /w /= scale_eq wi_eq. Qed.

Lemma affine_mean d (A : 'M[F]_(d, n)) (b : 'cV[F]_d) (Y : 'M[F]_(d, sig)) :
  (forall i, col i Y = A *m col i X + b) -> wmean Y (w_m w) = A *m x + b.
Proof.
move=> HY; rewrite /wmean (eq_bigr (fun i => w_m w i *: (A *m col i X + b))); last by move=> i _; rewrite HY.
rewrite (sigma_sum _ _ _ (fun v => A *m v + b) w_m_cases).
rewrite (eq_bigr (fun _ => (wi + wi) *: (A *m x + b))); last first.
  by move=> j _; rewrite mulmxDr mulmxBr scalerDl -scalerDr zmod3.
rewrite sumr_const card_ord -scaler_nat scalerA -scalerDl weights_sum scale1r; by [].
Qed.

Lemma affine_cross d e (A : 'M[F]_(d, n)) (b : 'cV[F]_d) (Y : 'M[F]_(d, sig))
   (C : 'M[F]_(e, n)) (c : 'cV[F]_e) (Z : 'M[F]_(e, sig)) :
  (forall i, col i Y = A *m col i X + b) -> (forall i, col i Z = C *m col i X + c) ->
  wcross Y (A *m x + b) Z (C *m x + c) (w_c w) = A *m (Sq *m Sq^T) *m C^T.
Proof.
move=> HY HZ; rewrite /wcross.
rewrite (eq_bigr (fun i => w_c w i *: ((A *m (col i X - x)) *m (C *m (col i X - x))^T))); last first.
  by move=> i _; rewrite HY HZ !zmod4 !mulmxBr.
rewrite (sigma_sum _ _ _ (fun v => (A *m (v - x)) *m (C *m (v - x))^T) w_c_cases).
rewrite subrr !mulmx0 mul0mx scaler0 add0r.
rewrite (eq_bigr (fun j => A *m (col j Sq *m (col j Sq)^T) *m C^T)); last first.
  move=> j _; set s := col j Sq.
  have -> : x + w_gamma w *: s - x = w_gamma w *: s by rewrite addrC addKr.
  have -> : x - w_gamma w *: s - x = (- w_gamma w) *: s by rewrite addrC addKr scaleNr.
  rewrite -!scalemxAr; have tZ (k : F) p q (M : 'M[F]_(p, q)) : (k *: M)^T = k *: M^T.
    by apply/matrixP => i i'; rewrite !mxE.
  rewrite !tZ -!scalemxAl -!scalemxAr !scalerDr !scalerA -scalerDl.
  have -> : wi * w_gamma w * w_gamma w + wi * - w_gamma w * - w_gamma w
          = wi * (w_gamma w * w_gamma w) + wi * (w_gamma w * w_gamma w) by ring.
  rewrite wi_gamma.
  by rewrite scale1r trmx_mul !mulmxA.
rewrite -mulmx_suml -mulmx_sumr; congr (_ *m _ *m _).
apply/matrixP => a b'; rewrite summxE mxE; apply: eq_bigr => j _.
by rewrite mxE big_ord1 !mxE.
Qed.
Lemma affine_cov d (A : 'M[F]_(d, n)) (b : 'cV[F]_d) (Y : 'M[F]_(d, sig)) :
  (forall i, col i Y = A *m col i X + b) ->
  wcov Y (A *m x + b) (w_c w) = A *m (Sq *m Sq^T) *m A^T.
Proof. by move=> HY; rewrite -(affine_cross HY HY). Qed.
End Affine.
End UkfProofs.

Section UkfCycle.
Variable F : rcfType.
Variables n m o : nat.
Variable llt : 'M[F]_n -> option 'M[F]_n.
Hypothesis Hllt : forall P Sq, llt P = Some Sq -> Sq *m Sq^T = P.

Lemma sigma_moments (alpha beta kappa : F) (x : 'cV[F]_n) P Sq :
  0 < alpha * alpha * (n%:R + kappa) -> llt P = Some Sq ->
  let w := computeWeights n alpha beta kappa in
  let X := sigmaPoints (w_gamma w) x Sq in
  wmean X (w_m w) = x /\ wcov X x (w_c w) = P.
Proof.
move=> Hpos HS w X.
have HX i : col i X = 1%:M *m col i X + 0 by rewrite mul1mx addr0.
split.
- by rewrite (affine_mean Hpos HX) mul1mx addr0.
- have := affine_cov Hpos HX; rewrite mul1mx addr0 trmx1 mulmx1 mul1mx => ->; exact: Hllt.
Qed.

Lemma col_fun d (g : 'I_(1 + (n + n)) -> 'cV[F]_d) j :
  col j (\matrix_(i, j) g j i 0 : 'M[F]_(d, 1 + (n + n))) = g j.
Proof. by apply/colP => a; rewrite !mxE. Qed.

Lemma ukf_cycle (k k1 k2 : ukf F n m o) u dt t z dt' t' A b C d :
  0 < u_alpha k * u_alpha k * (n%:R + u_kappa k) ->
  (forall v, computeDynamics (u_f k) v u dt t = A *m v + b) ->
  (forall v, computeMeasurement (u_h k) v t' = C *m v + d) ->
  ukf_predict llt u dt t (ukf_computeWeights k) = Ok k1 -> ukf_update z dt' t' k1 = Ok k2 ->
  let N := sysDerivativeNoise (u_f k) (u_x k1) u dt t in
  let V := measDerivativeNoise (u_h k) (u_x k1) t' in
  let M := A *m u_P k *m A^T in
  let Pyy := C *m M *m C^T + V in
  let K := M *m C^T *m invmx Pyy in
  [/\ u_x k1 = A *m u_x k + b, u_P k1 = M + N,
      u_x k2 = u_x k1 + K *m (z - (C *m u_x k1 + d)) & u_P k2 = u_P k1 - K *m Pyy *m K^T].
Proof.
move=> Hpos Hf Hh; rewrite /ukf_predict /=.
case HS : (llt _) => [Sq|//]; set w := computeWeights _ _ _ _.
set X0 := sigmaPoints _ _ _; set X := (\matrix_(i, j) _ : 'M[F]_(n, 1 + (n + n))).
have HX i : col i X = A *m col i X0 + b by rewrite col_fun Hf.
have Hx : predictionFrom w X = A *m u_x k + b by rewrite predictionE (affine_mean Hpos HX).
have HC : wcov X (A *m u_x k + b) (w_c w) = A *m u_P k *m A^T.
  by rewrite (affine_cov Hpos HX) (Hllt HS).
rewrite !Hx covarianceE HC => -[] <- /=; rewrite /ukf_update /= => -[] <- /=.
set Y := (\matrix_(i, j) _ : 'M[F]_(o, 1 + (n + n))).
have HY i : col i Y = (C *m A) *m col i X0 + (C *m b + d).
  by rewrite col_fun Hh HX mulmxDr mulmxA addrA.
have Hy : predictionFrom w Y = C *m (A *m u_x k + b) + d.
  by rewrite predictionE (affine_mean Hpos HY) mulmxDr mulmxA addrA.
have Ey : C *m (A *m u_x k + b) + d = C *m A *m u_x k + (C *m b + d) by rewrite mulmxDr mulmxA addrA.
have HYc : wcov Y (C *m (A *m u_x k + b) + d) (w_c w) = C *m (A *m u_P k *m A^T) *m C^T.
  by rewrite Ey (affine_cov Hpos HY) (Hllt HS) trmx_mul !mulmxA.
have HXY : wcross X (A *m u_x k + b) Y (C *m (A *m u_x k + b) + d) (w_c w) = (A *m u_P k *m A^T) *m C^T.
  by rewrite Ey (affine_cross Hpos HX HY) (Hllt HS) trmx_mul !mulmxA.
rewrite !Hy !covarianceE !gainE HYc HXY; split=> //.
Qed.

(** The covariance after a cycle, and how it relates to the error covariance of the estimate. *)
Lemma ukf_cycle_cov (M N : 'M[F]_n) (C : 'M[F]_(o, n)) (V : 'M[F]_o) :
  covariance M -> symmetric V -> posdef V ->
  let Pyy := C *m M *m C^T + V in
  let K := M *m C^T *m invmx Pyy in
  M + N - K *m Pyy *m K^T = posterior M C V K + N.
Proof.
move=> HM HV HVp Pyy K; rewrite posterior_gain //.
have -> : K *m Pyy *m K^T = K *m C *m M.
  by rewrite -mulmxA; have := SKt C HM HV HVp => ->; rewrite mulmxA.
by rewrite addrAC.
Qed.
End UkfCycle.

Section Final.
Lemma calls_ok_rcons (F : realFieldType) (n m o : nat) (cs : seq (ekf_call F n m o)) e c :
  calls_ok e (rcons cs c) -> calls_ok e cs /\ calls_ok (ekf_run e cs) [:: c].
Proof. by elim: cs e => [//|c' cs IH] e /= [H1 /IH [H2 H3]]. Qed.

Lemma ekf_update_optimal (F : realFieldType) (n m o : nat) (cs : seq (ekf_call F n m o)) (e0 : ekf F n m o) y dt t :
  ekf_valid e0 -> calls_ok e0 (rcons cs (Update _ _ y dt t)) ->
  let e := ekf_run e0 cs in
  let H := measDerivativeState (e_h e) (e_x e) t in
  let W := measDerivativeNoise (e_h e) (e_x e) t in
  let V := W *m e_R e *m W^T in
  let e' := ekf_run e0 (rcons cs (Update _ _ y dt t)) in
  exists K, [/\ e_x e' = e_x e + K *m (y - computeMeasurement (e_h e) (e_x e) 0),
    e_P e' = posterior (e_P e) H V K, below (e_P e') (e_P e) &
    forall K', below (e_P e') (posterior (e_P e) H V K') /\
               (posterior (e_P e) H V K' = e_P e' -> K' = K)].
Proof.
move=> He /calls_ok_rcons [Hc [Hu _]]; cbv zeta.
have -> : ekf_run e0 (rcons cs (Update _ _ y dt t)) = ekf_update y dt t (ekf_run e0 cs).
  by rewrite /ekf_run foldl_rcons.
have := ekf_run_valid He Hc; move: Hu; set e := ekf_run e0 cs; clearbody e => Hu [HP HQ HR Hp].
have [HV HVp] := noise_ok HR Hp Hu.
exists (ekf_gain t e); split.
- by [].
- by rewrite /ekf_update /= /ekf_gain posterior_gain.
- exact: update_below.
- move=> K'; split; first exact: gain_optimal.
  exact: gain_unique.
Qed.

Lemma ukf_kalman (F : rcfType) (n m o : nat) (llt : 'M[F]_n -> option 'M[F]_n) :
  (forall P Sq, llt P = Some Sq -> Sq *m Sq^T = P) ->
  forall (k k1 k2 : ukf F n m o) u dt t z dt' t' A b C d,
  0 < u_alpha k * u_alpha k * (n%:R + u_kappa k) ->
  (forall v, computeDynamics (u_f k) v u dt t = A *m v + b) ->
  (forall v, computeMeasurement (u_h k) v t' = C *m v + d) ->
  covariance (u_P k) -> (forall v, sysDerivativeNoise (u_f k) v u dt t = 0) ->
  (forall v, symmetric (measDerivativeNoise (u_h k) v t') /\ posdef (measDerivativeNoise (u_h k) v t')) ->
  ukf_predict llt u dt t (ukf_computeWeights k) = Ok k1 -> ukf_update z dt' t' k1 = Ok k2 ->
  let V := measDerivativeNoise (u_h k) (u_x k1) t' in
  exists K, [/\ u_x k2 = u_x k1 + K *m (z - (C *m u_x k1 + d)),
    u_P k2 = posterior (u_P k1) C V K & forall K', below (u_P k2) (posterior (u_P k1) C V K')].
Proof.
move=> Hllt k k1 k2 u dt t z dt' t' A b C d Hpos Hf Hh HP HN HV E1 E2 V.
have [_ HP1 Hx2 HP2] := ukf_cycle Hllt Hpos Hf Hh E1 E2.
rewrite HN addr0 in HP1.
have HM : covariance (A *m u_P k *m A^T) by exact: cov_conj.
have [HV1 HV2] := HV (u_x k1).
exists (A *m u_P k *m A^T *m C^T *m invmx (C *m (A *m u_P k *m A^T) *m C^T + V)).
have HE := ukf_cycle_cov (0 : 'M[F]_n) C HM HV1 HV2; cbv zeta in HE; rewrite !addr0 in HE.
split=> //; first by rewrite HP2 HP1 HE.
by move=> K'; rewrite HP2 HP1 HE posterior_gain //; exact: gain_optimal.
Qed.

Lemma ukf_time (F : rcfType) (n m o : nat) (k : ukf F n m o) z dt t h :
  (forall x, computeMeasurement h x t = computeMeasurement (u_h k) x t) ->
  (forall x, measDerivativeNoise h x t = measDerivativeNoise (u_h k) x t) ->
  omap (fun k' => (u_x k', u_P k')) (ukf_update z dt t k)
  = omap (fun k' => (u_x k', u_P k'))
      (ukf_update z dt t (mk_ukf (u_f k) h (u_x k) (u_P k) (u_alpha k) (u_beta k) (u_kappa k) (u_w k) (u_sigma k))).
Proof.
move=> H1 H2; rewrite /ukf_update /=; case: (u_w k) => [w|//] /=.
have -> : (\matrix_(i, j) computeMeasurement h (col j (u_sigma k)) t i 0 : 'M[F]_(o, 1 + (n + n)))
   = \matrix_(i, j) computeMeasurement (u_h k) (col j (u_sigma k)) t i 0.
  by apply/matrixP => i j; rewrite !mxE H1.
by rewrite H2.
Qed.
End Final.
