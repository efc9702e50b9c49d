(** Concrete filters used as counterexamples in FilterProps.v. *)
From mathcomp Require Import all_ssreflect all_algebra.
From mathcomp Require Import ring.
From Verif Require Import Base.Outcome Base.Mx Optcon.LQSpec Optcon.LQModel Optcon.LqrSpec Optcon.LqrModel
  Optcon.LqrProofs Optcon.LqrProps Optcon.FilterSpec Optcon.FilterModel Optcon.FilterUse Optcon.FilterProofs.
Set Implicit Arguments. Unset Strict Implicit. Unset Printing Implicit Defensive.
Import GRing.Theory Num.Theory Order.TTheory.
Local Open Scope ring_scope.

Section Scalar.
Variable F : realFieldType.
Lemma sc_add d (a b : F) : (a%:M + b%:M : 'M[F]_d) = (a + b)%:M.
Proof. by apply/matrixP => i j; rewrite !mxE mulrnDl. Qed.
Lemma sc_sub d (a b : F) : (a%:M - b%:M : 'M[F]_d) = (a - b)%:M.
Proof. by apply/matrixP => i j; rewrite !mxE mulrnBl. Qed.
Lemma posdef1 d : posdef (1%:M : 'M[F]_d).
Proof.
move=> v Hv; rewrite mul1mx lt_neqAle dot_ge0 andbT eq_sym.
by apply: contra Hv => /eqP /dot_eq0 ->.
Qed.
Lemma posterior_scalar (p v k : F) : posterior (p%:M : 'M[F]_1) 1%:M v%:M k%:M
  = ((1 - k) * p * (1 - k) + k * v * k)%:M.
Proof. by rewrite /posterior mulmx1 sc_sub !tr_scalar_mx -!scalar_mxM sc_add. Qed.

Lemma sskf_witness :
  exists k k' : sskf F 1 1, forall K0 y,
  k_A k = 0 /\ k_Q k = 1%:M /\ k_R k = 1%:M /\
  sskf_update (@eig1 F) K0 y 0 0 k = Ok k' /\ k_x k' = k_x k /\ k_P k' = 1%:M /\
  posterior (k_P k') 1%:M (k_R k) 0 = 1%:M /\
  posterior (k_P k') 1%:M (k_R k) (2%:R^-1)%:M = (2%:R^-1)%:M.
Proof.
set k := mk_sskf (lti_measurement (1%:M : 'M[F]_1) 1%:M) 0 1%:M 1%:M 0 1%:M 1.
exists k, k => K0 y; do 3 split=> //.
split; last first.
  split=> //; split=> //=; split.
    by have := posterior_scalar 1 1 0; rewrite subr0 !mul1r !mul0r addr0; have -> : (0%:M : 'M[F]_1) = 0 by apply/matrixP => i j; rewrite !mxE mul0rn.
  by rewrite posterior_scalar; congr (_%:M); field.
rewrite /sskf_update /k /=.
have Htol : (10%:R ^+ 6)^-1 < 1 :> F.
  by rewrite invf_lt1 ?exprn_gt0 ?ltr0n // exprn_egt1 // ltr1n.
have HR : iterateRobust (@eig1 F) (1%:M : 'M[F]_1) 1%:M 0 1%:M 1%:M
        = iterateNaive (1%:M : 'M[F]_1) (1%:M + (repsilon F)%:M) 0 1%:M 1%:M.
  apply: (robust_naive (@eig1_ok F)); [exact: sym_scalar | exact: sym_scalar |].
  by rewrite trmx1 !mulmx1; apply: semiD; exact: semi1.
have EN : iterateNaive (1%:M : 'M[F]_1) (1%:M + (repsilon F)%:M) 0 1%:M 1%:M = (1%:M, 0).
  rewrite /iterateNaive /= !mulmx0 oppr0 trmx0 !mul0mx subr0 addr0; congr (_, _).
  by rewrite /symmetrise trmx1 sc_add; apply/matrixP => i j; rewrite !mxE !ord1 eqxx !mulr1n; field.
rewrite trmx0 !trmx1.
have E : dareLoop (@eig1 F) 1 1%:M 1%:M 0 1%:M (10%:R ^+ 6)^-1 1%:M K0 1 = (1%:M, 0, maxAbs (1%:M - 1%:M : 'M[F]_1)).
  have HF : (1 < (10%:R ^+ 6)^-1 :> F) = false by rewrite ltNge (ltW Htol).
  by cbn [dareLoop]; rewrite HF; cbv zeta; rewrite HR EN.
rewrite /dare E /=.
have -> : maxAbs (1%:M - 1%:M : 'M[F]_1) = 0.
  by rewrite subrr /maxAbs !big_ord_recl !big_ord0 mxE normr0 !maxxx.
rewrite leNgt invr_gt0 exprn_gt0 ?ltr0n //=.
by rewrite trmx0 mul0mx subr0.
Qed.

Lemma ekf_time_witness :
  exists (e : ekf F 1 1 1) (y : 'cV[F]_1),
  ekf_valid e /\ y = computeMeasurement (e_h e) (e_x e) 1 /\ e_x (ekf_update y 1 1 e) <> e_x e.
Proof.
set f : system_model F 1 1 := mk_system_model (fun x u dt t => x) (fun _ _ _ _ => 1%:M) (fun _ _ _ _ => 1%:M).
set h : measurement_model F 1 1 := mk_measurement_model (fun x t => x + t%:M) (fun _ _ => 1%:M) (fun _ _ => 1%:M).
exists (mk_ekf f h 0 1%:M 1%:M 1%:M), 1%:M; split; last split.
- by split; [split; [exact: sym_scalar | exact: semi1] | split; [exact: sym_scalar | exact: semi1] | exact: sym_scalar | exact: posdef1].
- by rewrite /= add0r.
- rewrite /= /ekf_gain /= !trmx1 !mulmx1 !mul1mx !add0r sc_add sc_sub subr0 mulmx1 invmx_scalar.
  move/matrixP/(_ 0 0)/eqP; rewrite !mxE eqxx mulr1n invr_eq0.
  by rewrite -(natrD _ 1 1) pnatr_eq0.
Qed.
End Scalar.

Lemma ukf_noise_witness :
  forall F : rcfType, exists (llt : 'M[F]_1 -> option 'M[F]_1) (k k1 k2 : ukf F 1 1 1),
  (forall P Sq, llt P = Some Sq -> Sq *m Sq^T = P) /\
  (forall v, computeDynamics (u_f k) v 0 1 0 = v) /\ (forall v, computeMeasurement (u_h k) v 0 = v) /\
  ukf_predict llt 0 1 0 (ukf_computeWeights k) = Ok k1 /\ ukf_update (const_mx 1) 1 0 k1 = Ok k2 /\
  u_x k1 = 0 /\ u_P k1 = 2%:R%:M /\
  u_x k2 = (2%:R^-1)%:M /\ posterior (u_P k1) 1%:M 1%:M (2%:R^-1)%:M = (3%:R / 4%:R)%:M /\
  u_P k2 = (3%:R / 2%:R)%:M /\ posterior (u_P k1) 1%:M 1%:M (2%:R / 3%:R)%:M = (2%:R / 3%:R)%:M.
Proof.
move=> F.
pose llt := (fun P : 'M[F]_1 => if P == 1%:M then Some (1%:M : 'M[F]_1) else None).
have Hllt P Sq : llt P = Some Sq -> Sq *m Sq^T = P.
  by rewrite /llt; case: eqP => // -> [] <-; rewrite trmx1 mulmx1.
pose f : system_model F 1 1 := mk_system_model (fun x u dt t => x) (fun _ _ _ _ => 1%:M) (fun _ _ _ _ => 1%:M).
pose h : measurement_model F 1 1 := lti_measurement 1%:M 1%:M.
pose k : ukf F 1 1 1 := ukf_new f h 0 1 2%:R 0 1%:M 0.
have [k1 E1] : exists k1, ukf_predict llt 0 1 0 (ukf_computeWeights k) = Ok k1.
  by rewrite /ukf_predict /= /llt eqxx; eexists; reflexivity.
have [k2 E2] : exists k2, ukf_update (const_mx 1) 1 0 k1 = Ok k2.
  move: E1; rewrite /ukf_predict /= /llt eqxx => -[] <-.
  by rewrite /ukf_update /=; eexists; reflexivity.
have Hpos : 0 < u_alpha k * u_alpha k * (1%:R + u_kappa k) by rewrite /= !mul1r addr0 ltr01.
have Hf v : computeDynamics (u_f k) v 0 1 0 = 1%:M *m v + 0 by rewrite mul1mx addr0.
have Hh v : computeMeasurement (u_h k) v 0 = 1%:M *m v + 0 by rewrite addr0.
have [] := ukf_cycle Hllt Hpos Hf Hh E1 E2.
rewrite /= !trmx1 !mulmx1 !mul1mx !addr0 sc_add invmx_scalar => Hx1 HP1.
rewrite Hx1 subr0 HP1 => Hx2 HP2.
exists llt, k, k1, k2; do 2 split=> //; split; first by move=> v; rewrite /= mul1mx.
have H2 : 1 + 1 = 2%:R :> F by rewrite -(natrD _ 1 1).
rewrite H2 in Hx2 HP2.
do 3 split=> //; split; first by rewrite HP1 H2.
split.
  rewrite Hx2 add0r; apply/matrixP => i j; rewrite mxE big_ord1 !mxE !ord1 eqxx !mulr1n mulr1; by [].
rewrite HP1 H2 !posterior_scalar HP2; split; first by congr (_%:M); field.
split; last by congr (_%:M); field.
by rewrite tr_scalar_mx -!scalar_mxM sc_sub; congr (_%:M); field.
Qed.
