(** Properties C16 (the Riccati LQ solver returns the minimiser) and C18 (splitting the backward pass).
    Vocabulary: LQSpec.v.  Model: LQModel.v. *)
From mathcomp Require Import all_ssreflect all_algebra.
From mathcomp Require Import ring.
From Verif Require Import Base.Outcome Base.Mx Optcon.LQSpec Optcon.LQModel Optcon.LQProofs.
Set Implicit Arguments. Unset Strict Implicit. Unset Printing Implicit Defensive.
Import GRing.Theory Num.Theory Order.TTheory.
Local Open Scope ring_scope.

(** C16. For every problem whose stage Hessians are left alone by the configured correction, the
    solution obeys the dynamics from zero, is given by the returned gains, and is the only minimiser of
    the documented cost; the returned gains are optimal from every stage and every state. *)
Theorem C16_riccati_optimal :
  forall (F : realFieldType) (n m : nat) (la : linalg F m) (se : settings F) (p : lqproblem F n m) s r,
  (0 < pN p)%N -> symmetric_weights p ->
  solveFullLQProblem la se p s = Ok r ->
  (forall k, (k < pN p)%N ->
     hessian_untouched (fixedHessianCorrection se) (epsilon se) (s_H r k) /\
     factorisation_correct (fixedHessianCorrection se) (la_eig la) (la_llt la) (s_H r k)) ->
  s_x r 0 = 0 /\
  (forall k, (k < pN p)%N -> s_x r k.+1 = next p k (s_x r k) (s_u r k)) /\
  (forall k, (k < pN p)%N -> s_u r k = s_lv r k + s_L r k *m s_x r k) /\
  unique_minimiser p 0 0 (s_u r) /\
  (forall j x, (j <= pN p)%N -> unique_minimiser p j x
     (fun k => s_lv r k + s_L r k *m closed_loop p (s_L r) (s_lv r) j x (k - j))).
Proof. exact full_optimal. Qed.
Print Assumptions C16_riccati_optimal.

(** C16. Convex problems: the condition on the stage Hessians follows from conditions on the weights. *)
Theorem C16_convex_problem :
  forall (F : realFieldType) (n m : nat) (la : linalg F m) (se : settings F) (p : lqproblem F n m) s r,
  (0 < pN p)%N -> symmetric_weights p -> convex_weights p ->
  (forall k, (k < pN p)%N -> hessian_untouched (fixedHessianCorrection se) (epsilon se) (pR p k)) ->
  solveFullLQProblem la se p s = Ok r ->
  (forall k, (k < pN p)%N ->
     factorisation_correct (fixedHessianCorrection se) (la_eig la) (la_llt la) (s_H r k)) ->
  unique_minimiser p 0 0 (s_u r) /\
  (forall j x, (j <= pN p)%N -> unique_minimiser p j x
     (fun k => s_lv r k + s_L r k *m closed_loop p (s_L r) (s_lv r) j x (k - j))).
Proof. exact full_convex. Qed.
Print Assumptions C16_convex_problem.

(** C16. With the eigenvalue correction, whatever the problem, the Hessian used has curvature at least
    epsilon and the gains are the minimiser of the stage problem with that Hessian. *)
Theorem C16_corrected_hessian :
  forall (F : realFieldType) (n m : nat) (la : linalg F m) (se : settings F) (p : lqproblem F n m) s r k,
  (k < pN p)%N -> fixedHessianCorrection se = false -> 0 < epsilon se ->
  symmetric_weights p -> solveFullLQProblem la se p s = Ok r ->
  eigen_correct (la_eig la) (s_H r k) ->
  symmetric (s_Hi r k) /\ curvature_at_least (epsilon se) (s_Hi r k) /\
  s_Hi r k *m s_L r k = - s_G r k /\ s_Hi r k *m s_lv r k = - s_gv r k.
Proof. exact full_corrected. Qed.
Print Assumptions C16_corrected_hessian.

(** C16. Constrained problems are refused. *)
Theorem C16_constrained_refused :
  forall (F : realFieldType) (n m : nat) (la : linalg F m) (se : settings F) (p : lqproblem F n m) s,
  solveFullLQProblem la se p s = Throw <-> pconstrained p = true.
Proof. by move=> F n m la se p s; rewrite /solveFullLQProblem /setProblem; case: ifP. Qed.
Print Assumptions C16_constrained_refused.

(** C18. Preparing with the stages N-1..k of one problem and finishing with the stages k-1..0 of another
    problem that only differs in the data of the stages below k gives exactly the solver state (cost-to-go,
    gains, states, controls, or the same exception) of one full pass on the second problem. *)
Theorem C18_split_backward_pass :
  forall (F : realFieldType) (n m : nat) (la : linalg F m) (se : settings F) (p p' : lqproblem F n m) k s,
  (0 < k <= pN p)%N -> agree_from k p p' ->
  obind (prepareSolveLQProblem la se p k s) (finishSolveLQProblem la se p' k.-1)
  = solveFullLQProblem la se p' s.
Proof. exact split_pass. Qed.
Print Assumptions C18_split_backward_pass.

(** A concrete problem meeting the hypotheses: double integrator, two states, one input, affine term. *)
Lemma tiny_lt1 (F : realFieldType) : tiny F < 1.
Proof.
have H : (1 : F) < 10%:R by rewrite ltr1n.
have H2 : (1 : F) < 10%:R ^+ 10 by apply: exprn_egt1.
by rewrite /tiny invf_lt1 // (lt_trans ltr01).
Qed.
Section Elementary.
Variable F : realFieldType.
(** For one input the factorisations are elementary. *)
Definition exla : linalg F 1 := mk_linalg (fun M => (1%:M, \row_j M j j)) (fun M => invmx M).
Lemma exla_ok fixed M : factorisation_correct fixed (la_eig exla) (la_llt exla) M.
Proof.
case: fixed; first by move=> _ Hp; apply: mulmxV; apply: posdef_unit.
split; first by rewrite trmx1 mulmx1.
rewrite /= trmx1 mulmx1 mul1mx; apply/matrixP => i j; rewrite !mxE !ord1 eqxx mulr1n; by [].
Qed.
Lemma ex_scalar d (c eps : F) : eps <= c -> curvature_at_least eps (c%:M : 'M[F]_d).
Proof.
by move=> H v; rewrite mul_scalar_mx dotZr ler_wpmul2r // dot_ge0.
Qed.
Lemma ex_posdef d (c : F) : 0 < c -> posdef (c%:M : 'M[F]_d).
Proof.
move=> H v Hv; rewrite mul_scalar_mx dotZr mulr_gt0 //.
rewrite lt_neqAle dot_ge0 andbT eq_sym; apply/eqP => E; move/eqP: Hv; apply; exact: dot_eq0.
Qed.

End Elementary.

(** The condition is needed: with the fixed correction and epsilon above 1e-10 the solution of a strictly
    convex problem is not the minimiser (R = 1, r = 1, epsilon = 1: u = -1/2 instead of -1). *)
Section Fixed.
Variable F : realFieldType.
Lemma two_mx : 1%:M + 1%:M = (2%:R)%:M :> 'M[F]_1.
Proof. by apply/matrixP => i j; rewrite !mxE !ord1 /= !mulr1n. Qed.
Definition exfix : lqproblem F 1 1 :=
  mk_lqproblem 1 false (fun _ => 0) (fun _ => 0) (fun _ => 0)
    (fun _ => 0) (fun _ => 0) (fun _ => 0) (fun _ => const_mx 1) (fun _ => 1%:M) (fun _ => 0).
Definition exfix0 : solver F 1 1 :=
  mk_solver (fun _ => 0) (fun _ => 0) (fun _ => 0) (fun _ => 0) (fun _ => 0) (fun _ => 0) (fun _ => 0)
    (fun _ => 0) (fun _ => 0) (fun _ => 0) (fun _ => 0).
Lemma exfix_u : s_u (solved (exla F) (mk_settings true 1) exfix exfix0) 0%N = const_mx (- 2%:R^-1).
Proof.
rewrite /solved /computeStatesAndControls /exfix /solve /= /upd /=.
rewrite mulmx0 addr0 tiny_lt1 !trmx0 !mul0mx !addr0.
have HS (M : 'M[F]_1) : low_sym M = M by apply/matrixP => i j; rewrite mxE !ord1.
rewrite !HS scale1r two_mx invmx_scalar.
rewrite ?mulmx0 ?addr0 mulNmx mul_scalar_mx; apply/matrixP => i j; by rewrite !mxE mulr1.
Qed.
Lemma C16_fixed_correction_witness :
  exists (p : lqproblem F 1 1) (la : linalg F 1) (eps : F) s r,
  symmetric_weights p /\ convex_weights p /\ (forall k, posdef (pR p k)) /\
  (forall M, factorisation_correct true (la_eig la) (la_llt la) M) /\
  solveFullLQProblem la (mk_settings true eps) p s = Ok r /\
  (forall k, (k < pN p)%N -> posdef (s_Hi r k)) /\
  ~ unique_minimiser p 0 0 (s_u r).
Proof.
exists exfix, (exla F), 1, exfix0, (solved (exla F) (mk_settings true 1) exfix exfix0).
split; first by split=> k _; rewrite /symmetric ?trmx0 ?tr_scalar_mx.
split.
  split; first by move=> v; rewrite mul0mx dot0r.
  move=> k _ x u; rewrite !mul0mx !dot0r mulr0 addr0 add0r mul1mx; exact: dot_ge0.
split; first by move=> k; apply: ex_posdef; exact: ltr01.
split; first by move=> M; exact: exla_ok.
split; first by [].
split.
  case=> // _; rewrite /solved /computeStatesAndControls /solve /= /upd /= tiny_lt1.
  by rewrite !trmx0 !mul0mx addr0 scale1r two_mx; apply: ex_posdef; rewrite ltr0n.
move=> /(_ (fun _ => const_mx (-1))) [H _]; move: H.
have E u : cost_from exfix 0 0 u = dot (u 0%N) (const_mx 1) + dot (u 0%N) (u 0%N) / 2%:R.
  rewrite /cost_from big_ord_recl big_ord0 /= /stage_cost /final_cost /= !mul0mx ?mulmx0 !dot0r ?dot0l ?mul1mx.
  by rewrite ?mul0r ?add0r ?addr0 ?add0r ?addr0.
rewrite !E exfix_u !dotE !big_ord_recl !big_ord0 !mxE !addr0 -subr_ge0.
have -> : -1 * 1 + -1 * -1 / 2%:R - (- 2%:R^-1 * 1 + - 2%:R^-1 * - 2%:R^-1 / 2%:R) = - (8%:R^-1) :> F by field.
by rewrite oppr_ge0 leNgt invr_gt0 ltr0n.
Qed.
End Fixed.
Theorem C16_fixed_correction_not_optimal_refuted :
  forall F : realFieldType,
  exists (p : lqproblem F 1 1) (la : linalg F 1) (eps : F) s r,
  symmetric_weights p /\ convex_weights p /\ (forall k, posdef (pR p k)) /\
  (forall M, factorisation_correct true (la_eig la) (la_llt la) M) /\
  solveFullLQProblem la (mk_settings true eps) p s = Ok r /\
  (forall k, (k < pN p)%N -> posdef (s_Hi r k)) /\
  ~ unique_minimiser p 0 0 (s_u r).
Proof. exact C16_fixed_correction_witness. Qed.
Print Assumptions C16_fixed_correction_not_optimal_refuted.

Section Example.
Local Notation Fq := rat_realFieldType.
Definition exA : 'M[Fq]_2 := \matrix_(i, j) (if (i <= j)%N then 1 else 0).
Definition exB : 'M[Fq]_(2, 1) := \matrix_(i, j) (if i == 1 then 1 else 0).
Definition exproblem (N : nat) : lqproblem Fq 2 1 :=
  mk_lqproblem N false (fun _ => exA) (fun _ => exB) (fun k => const_mx k%:R)
    (fun _ => 0) (fun k => const_mx 1) (fun _ => 1%:M) (fun k => const_mx 1) (fun k => k.+1%:R%:M)
    (fun _ => 0).
Definition ex0 : solver Fq 2 1 :=
  mk_solver (fun _ => 0) (fun _ => 0) (fun _ => 0) (fun _ => 0) (fun _ => 0) (fun _ => 0) (fun _ => 0)
    (fun _ => 0) (fun _ => 0) (fun _ => 0) (fun _ => 0).

Example C16_example : forall fixed N, (0 < N)%N ->
  let se := mk_settings fixed (if fixed then 0 else 1) in
  exists r, solveFullLQProblem (exla _) se (exproblem N) ex0 = Ok r /\
  unique_minimiser (exproblem N) 0 0 (s_u r).
Proof.
move=> fixed N HN se; eexists; split; first reflexivity.
have H := @C16_convex_problem _ _ _ (exla _) se (exproblem N) ex0 _ HN _ _ _ erefl.
apply: (H _ _ _ _).1.
- by split=> k _; rewrite /symmetric tr_scalar_mx.
- split; first by apply: posdef_semi; apply: ex_posdef.
  move=> k Hk x u; rewrite !mul0mx dot0r mulr0 addr0 !mul_scalar_mx !dotZr.
  by apply: addr_ge0; apply: mulr_ge0; rewrite ?dot_ge0 ?ler0n.
- move=> k Hk; split; first by apply: ex_posdef; rewrite ltr0n.
  clear H; rewrite {}/se; case: fixed.
    by rewrite /fixedHessianCorrection /epsilon invr_ge0 exprn_ge0 // ler0n.
  by apply: ex_scalar; rewrite /epsilon ler1n.
- by move=> k Hk; exact: exla_ok.
Qed.

(** A concrete split: the finishing problem differs in the data of stage 0. *)
Definition exproblem' (N : nat) : lqproblem Fq 2 1 :=
  mk_lqproblem N false (fun _ => exA) (fun _ => exB) (fun k => if k == 0%N then const_mx 7%:R else const_mx k%:R)
    (fun _ => 0) (fun k => const_mx 1) (fun _ => 1%:M) (fun k => const_mx 1) (fun k => k.+1%:R%:M)
    (fun _ => 0).
Example C18_example : forall N, (0 < N)%N -> agree_from 1 (exproblem N) (exproblem' N) /\
  pb (exproblem N) 0 <> pb (exproblem' N) 0.
Proof.
move=> N HN; split.
  do 4 split=> //; move=> i /andP [Hi _]; split; split=> //=.
  by case: i Hi.
by move=> /= /matrixP /(_ 0 0); rewrite !mxE.
Qed.
End Example.
