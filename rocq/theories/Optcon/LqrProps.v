(** Properties C17 (finite-horizon LQR) and C53 (steady-state Riccati iteration).
    Vocabulary: LqrSpec.v, LQSpec.v.  Model: LqrModel.v. *)
From mathcomp Require Import all_ssreflect all_algebra.
From mathcomp Require Import ring.
From Verif Require Import Base.Outcome Base.Mx Optcon.LQSpec Optcon.LQModel Optcon.LQProofs
  Optcon.LqrSpec Optcon.LqrModel Optcon.LqrProofs.
Set Implicit Arguments. Unset Strict Implicit. Unset Printing Implicit Defensive.
Import GRing.Theory Num.Theory Order.TTheory.
Local Open Scope ring_scope.

(** C17, the part that holds.  With given matrices A, B: for convex weights the gains K returned are the
    optimal feedback u = K x (sign as returned) of the regulation problem with stage weights dt*Q and
    dt*R + 1e-5*I, final weight Qf, from every stage and state.  Missing from the full statement: the
    weight 1e-5*I is not in the given cost, and the sign is not the documented one (see below). *)
Theorem C17_gains_optimal_partial :
  forall (F : realFieldType) (n m : nat) eig (mineig : 'M[F]_n -> F) (cf : costfunction F n m)
         x u A B dt K0 checks K,
  (forall M, symmetric M -> eigen_correct eig M) ->
  (0 < size u)%N -> 0 <= dt ->
  (forall k, (k < size u)%N -> symmetric (d2x cf (nth 0 x k) (nth 0 u k) (k%:R * dt)) /\
             possemi (d2x cf (nth 0 x k) (nth 0 u k) (k%:R * dt))) ->
  (forall k, (k < size u)%N -> symmetric (d2u cf (nth 0 x k) (nth 0 u k) (k%:R * dt)) /\
             possemi (d2u cf (nth 0 x k) (nth 0 u k) (k%:R * dt))) ->
  symmetric (d2xf cf (nth 0 x (size u)) 0 (dt * (size u)%:R)) ->
  possemi (d2xf cf (nth 0 x (size u)) 0 (dt * (size u)%:R)) ->
  designControllerAB eig mineig cf x u A B dt K0 checks = Ok K ->
  optimal_feedback
    (regulator (size u) (nth 0 A) (nth 0 B)
       (fun k => dt *: d2x cf (nth 0 x k) (nth 0 u k) (k%:R * dt))
       (fun k => dt *: d2u cf (nth 0 x k) (nth 0 u k) (k%:R * dt) + ((10%:R ^+ 5)^-1)%:M)
       (d2xf cf (nth 0 x (size u)) 0 (dt * (size u)%:R))) K.
Proof.
move=> F n m eig mineig cf x u A B dt K0 checks K Heig HN Hdt HQ HR Hf Hfp H.
have [_ HL] := designAB_ok H; exact: (fh_optimal Heig HN Hdt HQ HR Hf Hfp HL).
Qed.
Print Assumptions C17_gains_optimal_partial.

(** C17, with a derivatives object: the same for the forward-Euler discretisation of its linearisation. *)
Theorem C17_gains_optimal_linearised_partial :
  forall (F : realFieldType) (n m : nat) eig (mineig : 'M[F]_n -> F) (cf : costfunction F n m)
         dA dB x u dt K0 checks K,
  (forall M, symmetric M -> eigen_correct eig M) ->
  (0 < size u)%N -> 0 <= dt ->
  (forall k, (k < size u)%N -> symmetric (d2x cf (nth 0 x k) (nth 0 u k) (k%:R * dt)) /\
             possemi (d2x cf (nth 0 x k) (nth 0 u k) (k%:R * dt))) ->
  (forall k, (k < size u)%N -> symmetric (d2u cf (nth 0 x k) (nth 0 u k) (k%:R * dt)) /\
             possemi (d2u cf (nth 0 x k) (nth 0 u k) (k%:R * dt))) ->
  symmetric (d2xf cf (nth 0 x (size u)) 0 (dt * (size u)%:R)) ->
  possemi (d2xf cf (nth 0 x (size u)) 0 (dt * (size u)%:R)) ->
  designControllerLin eig mineig cf dA dB x u dt K0 checks = Ok K ->
  optimal_feedback
    (regulator (size u) (fun k => 1%:M + dt *: dA (nth 0 x k) (nth 0 u k))
       (fun k => dt *: dB (nth 0 x k) (nth 0 u k))
       (fun k => dt *: d2x cf (nth 0 x k) (nth 0 u k) (k%:R * dt))
       (fun k => dt *: d2u cf (nth 0 x k) (nth 0 u k) (k%:R * dt) + ((10%:R ^+ 5)^-1)%:M)
       (d2xf cf (nth 0 x (size u)) 0 (dt * (size u)%:R))) K.
Proof.
move=> F n m eig mineig cf dA dB x u dt K0 checks K Heig.
exact: (designLin_optimal Heig).
Qed.
Print Assumptions C17_gains_optimal_linearised_partial.

(** C17. A design succeeds only if the trajectories and matrices fit together, and without the numerical
    checks it succeeds exactly then. *)
Theorem C17_lengths :
  forall (F : realFieldType) (n m : nat) eig (mineig : 'M[F]_n -> F) (cf : costfunction F n m)
         x u A B dt K0,
  (exists K, designControllerAB eig mineig cf x u A B dt K0 false = Ok K) <->
  [/\ size x = (size u).+1, size A = size u & size B = size u].
Proof.
move=> F n m eig mineig cf x u A B dt K0; split; first by move=> [K /designAB_ok []].
move=> [Hx HA HB]; rewrite /designControllerAB /fhSolve Hx HA HB !eqxx /=.
elim: (size u) (d2xf _ _ _ _) K0 => [|c IH] P K0; first by exists K0.
cbn [fhLoop]; exact: IH.
Qed.
Print Assumptions C17_lengths.

(** C17. The numerical checks only reject: when they accept, the gains are those computed without them. *)
Theorem C17_checks_only_reject :
  forall (F : realFieldType) (n m : nat) eig (mineig : 'M[F]_n -> F) (cf : costfunction F n m)
         x u A B dt K0 K,
  designControllerAB eig mineig cf x u A B dt K0 true = Ok K ->
  designControllerAB eig mineig cf x u A B dt K0 false = Ok K.
Proof.
move=> F n m eig mineig cf x u A B dt K0 K; rewrite /designControllerAB /fhSolve.
case: eqP => // _; case: eqP => // _; case: eqP => // _; case: eqP => // _ /=; case: ifP => // _.
elim: (size x).-1 (d2xf _ _ _ _) K0 => [//|c IH] P K0; cbn [fhLoop]; cbv zeta.
by case: ifP => // _ /IH.
Qed.
Print Assumptions C17_checks_only_reject.

(** ** Witnesses *)
Section Scalar.
Variable F : realFieldType.
Local Notation reps := (repsilon F).

Definition eig1 (M : 'M[F]_1) : 'M[F]_1 * 'rV[F]_1 := (1%:M, \row_j M j j).
Lemma eig1_ok M : symmetric M -> eigen_correct eig1 M.
Proof.
move=> _; split; first by rewrite trmx1 mulmx1.
rewrite /= trmx1 mulmx1 mul1mx; apply/matrixP => i j; rewrite !mxE !ord1 eqxx mulr1n; by [].
Qed.
Lemma dot_scalar (a b : F) : dot (a%:M : 'cV[F]_1) b%:M = a * b.
Proof. by rewrite dotE big_ord_recl big_ord0 !mxE addr0 !mulr1n. Qed.

Definition cf1 : costfunction F 1 1 := mk_costfunction (fun _ _ _ => 0) (fun _ _ _ => 1%:M) (fun _ _ _ => 1%:M).
Definition design1 := designControllerAB eig1 (fun _ => 1) cf1 [:: 0; 0] [:: 0] [:: 1%:M] [:: 1%:M] 1 (fun _ => 0) true.

Lemma semi1 d : possemi (1%:M : 'M[F]_d).
Proof. by move=> v; rewrite mul1mx dot_ge0. Qed.
Lemma design1_ok : exists K, design1 = Ok K /\ K 0%N = (- (2%:R + reps)^-1)%:M.
Proof.
have Hno : weightsRejected (0 : 'M[F]_1) (1%:M : 'M[F]_1) = false.
  rewrite /weightsRejected; apply/negbTE/negP => /or3P [] /existsP [i]; rewrite ?ord1.
  - by move=> /existsP [j]; rewrite !ord1 mxE ltxx.
  - by move=> /existsP [j]; rewrite !ord1 !mxE ltNge ler01.
  - by rewrite mxE leNgt ltr01.
rewrite /design1 /designControllerAB /fhSolve /= ltNge ler01 /= scaler0 scale1r Hno.
eexists; split; first reflexivity.
have Hrn := @robust_naive F 1 1 eig1 eig1_ok 0 1%:M 1%:M 1%:M 1%:M (sym_scalar _ _) (sym_scalar _ _).
rewrite upd_same.
rewrite -[X in X = _]/((iterateRobust eig1 0 1%:M 1%:M 1%:M 1%:M).2) Hrn; last first.
  by rewrite trmx1 !mulmx1; apply: semiD; exact: semi1.
rewrite /= trmx1 !mulmx1.
have -> : (1%:M + reps%:M + 1%:M : 'M[F]_1) = (2%:R + reps)%:M.
  by apply/matrixP => i j; rewrite !mxE !ord1 !mulr1n addrAC.
by rewrite invmx_scalar; apply/matrixP => i j; rewrite !mxE !ord1 !mulr1n.
Qed.

Definition reg1 : lqproblem F 1 1 :=
  regulator 1 (nth 0 [:: 1%:M]) (nth 0 [:: 1%:M]) (fun _ => 1 *: 0) (fun _ => 1 *: 1%:M) 1%:M.
Lemma reg1_cost (a c : F) u : u 0%N = a%:M -> cost_from reg1 0 c%:M u = (a * a + (c + a) * (c + a)) / 2%:R.
Proof.
move=> Hu; rewrite /cost_from big_ord_recl big_ord0 /= /stage_cost /final_cost /next /= add0n Hu.
rewrite !mul0mx !dot0r scaler0 scale1r !mul1mx !mul0mx dot0r !mul0r !addr0 !add0r.
have -> : (c%:M + a%:M : 'cV[F]_1) = (c + a)%:M by apply/matrixP => i j; rewrite !mxE !ord1 !mulr1n.
by rewrite !dot_scalar; field.
Qed.
Lemma reps2 : 2%:R + reps != 0 :> F.
Proof. by rewrite gt_eqF // ltr_spaddl ?ltr0n // ltW // reps_gt0. Qed.

Lemma given_weights : exists K, design1 = Ok K /\ ~ optimal_feedback reg1 K.
Proof.
have [K [HK HK0]] := design1_ok; exists K; split=> // /(_ 0%N 1%:M (leq0n _)).
move=> /(_ (fun _ => (- 2%:R^-1)%:M)) [].
rewrite (reg1_cost _ (a := - (2%:R + reps)^-1)); last by rewrite /= HK0 mulmx1.
rewrite (reg1_cost _ (a := - 2%:R^-1)) // -subr_ge0.
have -> : (- 2%:R^-1 * - 2%:R^-1 + (1 + - 2%:R^-1) * (1 + - 2%:R^-1)) / 2%:R
  - (- (2%:R + reps)^-1 * - (2%:R + reps)^-1 + (1 + - (2%:R + reps)^-1) * (1 + - (2%:R + reps)^-1)) / 2%:R
  = - ((reps / (2%:R + reps)) ^+ 2 / 4%:R) by field; exact: reps2.
rewrite oppr_ge0 leNgt mulr_gt0 ?invr_gt0 ?ltr0n // exprn_gt0 // divr_gt0 ?reps_gt0 //.
by rewrite ltr_spaddl ?ltr0n // ltW // reps_gt0.
Qed.
Lemma documented_sign : exists K, design1 = Ok K /\
  let documented := fun k => - (K k *m closed_loop reg1 (fun k => - K k) (fun _ => 0) 0 1%:M (k - 0)) in
  cost_from reg1 0 1%:M (fun _ => 0) < cost_from reg1 0 1%:M documented.
Proof.
have [K [HK HK0]] := design1_ok; exists K; split=> //; cbv zeta.
rewrite (reg1_cost _ (a := 0)); last by apply/matrixP => i j; rewrite !mxE mul0rn.
rewrite (reg1_cost _ (a := (2%:R + reps)^-1)); last first.
  by rewrite /= HK0 mulmx1; apply/matrixP => i j; rewrite !mxE !ord1 !mulr1n opprK.
rewrite -subr_gt0.
have -> : ((2%:R + reps)^-1 * (2%:R + reps)^-1 + (1 + (2%:R + reps)^-1) * (1 + (2%:R + reps)^-1)) / 2%:R
  - (0 * 0 + (1 + 0) * (1 + 0)) / 2%:R = (2%:R + reps)^-1 * ((2%:R + reps)^-1 + 1).
  by field; exact: reps2.
have Hp : 0 < (2%:R + reps)^-1 :> F by rewrite invr_gt0 ltr_spaddl ?ltr0n // ltW // reps_gt0.
by rewrite mulr_gt0 // addr_gt0 // ltr01.
Qed.

(** Hypotheses of the partial theorems are met by this design. *)
Lemma partial_example : exists K, design1 = Ok K /\
  optimal_feedback (regulator 1 (nth 0 [:: 1%:M]) (nth 0 [:: 1%:M]) (fun _ => 1 *: 0)
     (fun _ => 1 *: 1%:M + ((10%:R ^+ 5)^-1)%:M) 1%:M) K.
Proof.
have [K [HK _]] := design1_ok; exists K; split=> //.
apply: (@C17_gains_optimal_partial F 1 1 eig1 (fun _ => 1) cf1 [:: 0; 0] [:: 0] [:: 1%:M] [:: 1%:M] 1
  (fun _ => 0) true K eig1_ok) => //.
- by move=> k _; split; [exact: trmx0 | move=> v; rewrite mul0mx dot0r].
- by move=> k _; split; [exact: sym_scalar | exact: semi1].
- exact: sym_scalar.
- exact: semi1.
Qed.

(** Positive definite weight with negative off-diagonal entries. *)
Definition Qneg : 'M[F]_2 := \matrix_(i, j) (if i == j then 2%:R else -1).
Lemma Qneg_ok : symmetric Qneg /\ posdef Qneg.
Proof.
split; first by apply/matrixP => i j; rewrite !mxE eq_sym.
move=> v Hv; suff H : dot v v <= dot v (Qneg *m v) by apply: lt_le_trans H; exact: dot_gt0.
rewrite !dotE !big_ord_recl !big_ord0 !mxE !big_ord_recl !big_ord0 !mxE /= !addr0 -subr_ge0.
set a := v _ 0; set b := v (lift _ _) 0.
have -> : a * (2%:R * a + -1 * b) + b * (-1 * a + 2%:R * b) - (a * a + b * b) = (a - b) ^+ 2 by ring.
exact: sqr_ge0.
Qed.
Definition cfneg : costfunction F 2 1 := mk_costfunction (fun _ _ _ => Qneg) (fun _ _ _ => 1%:M) (fun _ _ _ => 1%:M).
Lemma valid_rejected : designControllerAB eig1 (fun _ => 1) cfneg [:: 0; 0] [:: 0] [:: 1%:M] [:: 0] 1
  (fun _ => 0) true = Throw.
Proof.
rewrite /designControllerAB /fhSolve /= ltNge ler01 /=.
have -> : weightsRejected (1 *: Qneg) (1 *: (1%:M : 'M[F]_1)); last by [].
apply/or3P; apply: Or31; apply/existsP; exists ord0; apply/existsP; exists (lift ord0 ord0).
by rewrite !mxE /= mul1r oppr_lt0 ltr01.
Qed.

(** DARE with a tolerance above 1: nothing is computed. *)
Lemma dare_big_eps (Q R A B P : 'M[F]_1) K maxIter : dare eig1 Q R A B P K 2%:R maxIter = Ok (P, K).
Proof.
have H1 : (1 : F) < 2%:R by rewrite ltr1n.
have E : dareLoop eig1 maxIter Q R A B 2%:R P K 1 = (P, K, 1) by case: maxIter => [//|f] /=; rewrite H1.
by rewrite /dare E /= leNgt H1.
Qed.
End Scalar.

Example C17_example := partial_example.

(** C17, refuted: the gains are not optimal for the weights given (1e-5 is always added to the Hessian). *)
Theorem C17_given_weights_refuted :
  forall F : realFieldType, exists K, design1 F = Ok K /\ ~ optimal_feedback (reg1 F) K.
Proof. exact given_weights. Qed.
Print Assumptions C17_given_weights_refuted.

(** C17, refuted: the documented law u = -K x is worse than no control at all. *)
Theorem C17_documented_sign_refuted :
  forall F : realFieldType, exists K, design1 F = Ok K /\
  let documented := fun k => - (K k *m closed_loop (reg1 F) (fun k => - K k) (fun _ => 0) 0 1%:M (k - 0)) in
  cost_from (reg1 F) 0 1%:M (fun _ => 0) < cost_from (reg1 F) 0 1%:M documented.
Proof. exact documented_sign. Qed.
Print Assumptions C17_documented_sign_refuted.

(** C17, refuted: the (default) numerical checks reject a positive definite state weight. *)
Theorem C17_valid_weights_accepted_refuted :
  forall F : realFieldType, exists Q : 'M[F]_2, symmetric Q /\ posdef Q /\
  designControllerAB (@eig1 F) (fun _ => 1)
    (mk_costfunction (fun _ _ _ => Q) (fun _ _ _ => 1%:M) (fun _ _ _ => 1%:M))
    [:: 0; 0] [:: 0] [:: 1%:M] [:: 0] 1 (fun _ => 0) true = Throw.
Proof. by move=> F; exists (Qneg F); have [H1 H2] := Qneg_ok F; split=> //; split=> //; exact: valid_rejected. Qed.
Print Assumptions C17_valid_weights_accepted_refuted.

(** C53. A steady-state Riccati matrix that is returned (tolerance at most 1, convex weights) is symmetric
    positive semidefinite, is one exact Riccati step (with input weight R + 1e-5 I) away from a matrix that
    differs from it by less than the tolerance in every entry, and K is the gain of that step. *)
Theorem C53_dare_residual :
  forall (F : realFieldType) (n m : nat) eig,
  (forall M, symmetric M -> eigen_correct eig M) ->
  forall (Q : 'M[F]_n) (R : 'M[F]_m) A B P K eps maxIter P' K',
  symmetric Q -> possemi Q -> symmetric R -> possemi R -> symmetric P -> possemi P -> eps <= 1 ->
  dare eig Q R A B P K eps maxIter = Ok (P', K') ->
  symmetric P' /\ possemi P' /\
  exists P0, [/\ P' = riccati Q (R + ((10%:R ^+ 5)^-1)%:M) A B P0,
                 K' = - (invmx (R + ((10%:R ^+ 5)^-1)%:M + B^T *m P0 *m B) *m B^T *m P0 *m A) &
                 forall i j, `|P' i j - P0 i j| < eps].
Proof. exact dare_spec. Qed.
Print Assumptions C53_dare_residual.

(** C53. No iterations allowed: an exception, never an unconverged matrix. *)
Theorem C53_dare_gives_up :
  forall (F : realFieldType) (n m : nat) eig (Q : 'M[F]_n) (R : 'M[F]_m) A B P K eps,
  eps <= 1 -> dare eig Q R A B P K eps 0 = Throw.
Proof. exact dare_gives_up. Qed.
Print Assumptions C53_dare_gives_up.

(** C53, refuted without the bound on the tolerance: above 1 the inputs are returned as the solution. *)
Theorem C53_dare_large_tolerance_refuted :
  forall (F : realFieldType) (Q R A B P K : 'M[F]_1) maxIter,
  dare (@eig1 F) Q R A B P K 2%:R maxIter = Ok (P, K).
Proof. exact dare_big_eps. Qed.
Print Assumptions C53_dare_large_tolerance_refuted.

(** A run that converges: B = 0, A = 0 (P becomes Q at once). *)
Example C53_example : forall F : realFieldType,
  exists K', dare (@eig1 F) (1%:M : 'M[F]_1) 1%:M 0 0 1%:M 0 1 1 = Ok (1%:M, K').
Proof.
move=> F.
have HR : iterateRobust (@eig1 F) (1%:M : 'M[F]_1) 1%:M 0 0 1%:M
        = iterateNaive (1%:M : 'M[F]_1) (1%:M + (repsilon F)%:M) 0 0 1%:M.
  apply: (robust_naive (@eig1_ok F)); [exact: sym_scalar | exact: sym_scalar |].
  by rewrite mulmx0 addr0; exact: semi1.
have HE : (iterateNaive (1%:M : 'M[F]_1) (1%:M + (repsilon F)%:M) 0 (0 : 'M[F]_1) 1%:M).1 = 1%:M.
  rewrite /= symmetriseE !mulmx0 oppr0 mulmx0 subr0 addr0; exact: half_symE (sym_scalar _ _).
exists (iterateNaive (1%:M : 'M[F]_1) (1%:M + (repsilon F)%:M) 0 0 1%:M).2.
rewrite /dare; cbn [dareLoop]; cbv zeta; rewrite ltxx HR HE subrr.
rewrite /maxAbs big_ord_recl big_ord0 big_ord_recl big_ord0 mxE normr0 !maxxx.
by rewrite [(_, _, _).2]/= leNgt ltr01.
Qed.
