(** Proofs about the continuous-time Riccati solver (CareModel.v). *)
From mathcomp Require Import all_ssreflect all_algebra.
From mathcomp Require Import ring.
From Verif Require Import Base.Mx Optcon.CareSpec Optcon.CareModel.
Set Implicit Arguments. Unset Strict Implicit. Unset Printing Implicit Defensive.
Import GRing.Theory Num.Theory Order.TTheory.
Local Open Scope ring_scope.

Section CareProofs.
Variable F : realFieldType.
Variables n m : nat.
Variable approx : 'M[F]_(n + n) -> 'M[F]_(n + n) -> bool.
Variable lu_solve : 'M[F]_(n + n, n) -> 'M[F]_(n + n, n) -> 'M[F]_n.
Hypothesis Hlu : forall U Y, (exists X, U *m X = Y) -> U *m lu_solve U Y = Y.
Implicit Types M W X : 'M[F]_(n + n).

Definition J : 'M[F]_(n + n) := block_mx 0 1%:M (- 1%:M) 0.
Definition hamil X : Prop := J *m X = - (X^T *m J).

Lemma two_ne0 : 2%:R != 0 :> F. Proof. by rewrite pnatr_eq0. Qed.

Lemma trN (p q : nat) (X : 'M[F]_(p, q)) : (- X)^T = - X^T.
Proof. by apply/matrixP => i j; rewrite !mxE. Qed.

Lemma half_sum (p q : nat) (X Y : 'M[F]_(p, q)) : X - 2%:R^-1 *: (X - Y) = 2%:R^-1 *: (X + Y).
Proof.
apply/matrixP => i j; rewrite !mxE; set x := X i j; set y := Y i j; clearbody x y.
by field.
Qed.

Lemma newton_hamil X : X \in unitmx -> hamil X -> hamil (X - 2%:R^-1 *: (X - invmx X)).
Proof.
move=> Hu HX.
have HI : hamil (invmx X).
  rewrite /hamil; have HuT : X^T \in unitmx by rewrite unitmx_tr.
  have E : J *m X *m invmx X = - (X^T *m J) *m invmx X by rewrite HX.
  rewrite -mulmxA mulmxV // mulmx1 mulNmx in E.
  rewrite trmx_inv {2}E mulmxN opprK !mulmxA mulVmx // mul1mx; by [].
have HX' : J *m X = - (X^T *m J) := HX.
have HI' : J *m invmx X = - ((invmx X)^T *m J) := HI.
set Y : 'M[F]_(n + n) := invmx X in HI' *.
clearbody Y.
rewrite half_sum.
rewrite /hamil -scalemxAr mulmxDr HX' HI'.
have -> : (2%:R^-1 *: (X + Y))^T = 2%:R^-1 *: (X^T + Y^T) by apply/matrixP => i j; rewrite !mxE.
by rewrite -scalemxAl mulmxDl -opprD scalerN.
Qed.
Lemma newton_comm M X : X \in unitmx -> X *m M = M *m X ->
  let X' := X - 2%:R^-1 *: (X - invmx X) in X' *m M = M *m X'.
Proof.
move=> Hu HC X'.
have HI : invmx X *m M = M *m invmx X.
  by rewrite -[LHS]mulmx1 -(mulmxV Hu) mulmxA -[in LHS](mulmxA _ M X) -HC mulmxA mulVmx // mul1mx.
by rewrite /X' mulmxBl mulmxBr -scalemxAl -scalemxAr mulmxBl mulmxBr HC HI.
Qed.

Lemma sign_spec fuel M X W : hamil X -> X *m M = M *m X -> signLoop approx fuel X = Some W ->
  hamil W /\ W *m M = M *m W.
Proof.
elim: fuel X => [//|f IH] X HX HC /=; case: ifP => // Hu; case: ifP => [E [] <-|_].
- by split; [exact: newton_hamil | exact: newton_comm].
- by apply: IH; [exact: newton_hamil | exact: newton_comm].
Qed.
(** With an exact comparison the limit is an involution. *)
Lemma sign_exact fuel X W : (forall Y Z, approx Y Z -> Y = Z) ->
  signLoop approx fuel X = Some W -> W *m W = 1%:M.
Proof.
move=> Happrox; elim: fuel X => [//|f IH] X /=; case: ifP => // Hu; case: ifP => [/Happrox E [] <-|_]; last exact: IH.
rewrite E.
have E2 : X - invmx X = 0.
  move/eqP: E; rewrite -subr_eq0 addrAC subrr sub0r oppr_eq0 scaler_eq0 invr_eq0 (negbTE two_ne0) /=.
  by move/eqP.
by move/eqP: E2; rewrite subr_eq0 => /eqP E2; rewrite {2}E2 mulmxV.
Qed.

Lemma J_unit : J \in unitmx.
Proof.
have E : J *m (- J) = 1%:M.
  rewrite /J mulmxN mulmx_block !mul0mx !mulmx0 !add0r !addr0 !mul1mx !mulmx1.
  by rewrite opp_block_mx !opprK !oppr0 -scalar_mx_block.
by case: (mulmx1_unit E).
Qed.

(** Half of the spectrum of the limit is -1. *)
Lemma sign_rank W : W *m W = 1%:M -> hamil W -> \rank (W + 1%:M)%R = n.
Proof.
move=> HW HJ.
have Hdim := leq_addr n n.
have HR : \rank (1%:M - W)%R = \rank (W + 1%:M)%R.
  have E : J *m (W + 1%:M) = (1%:M - W)^T *m J.
    by rewrite mulmxDr HJ mulmx1 linearB /= trmx1 mulmxBl mul1mx addrC.
  have E1 : \rank (J *m (W + 1%:M))%R = \rank (W + 1%:M)%R.
    have HF : row_free J^T by rewrite row_free_unit unitmx_tr J_unit.
    by rewrite -[LHS]mxrank_tr trmx_mul (mxrankMfree _ HF) mxrank_tr.
  have HG : row_free J by rewrite row_free_unit J_unit.
  by rewrite -E1 E (mxrankMfree _ HG) mxrank_tr.
have H1 : (\rank (W + 1%:M)%R + \rank (1%:M - W)%R <= n + n)%N.
  apply: mulmx0_rank_max; rewrite mulmxBr mulmx1 mulmxDl HW mul1mx.
  by rewrite addrC opprD addrA subrK addrC subrr.
have H2 : (n + n <= \rank (W + 1%:M)%R + \rank (1%:M - W)%R)%N.
  have E : (W + 1%:M) + (1%:M - W) = 2%:R%:M.
    apply/matrixP => i j; rewrite !mxE; case: (i == j) => /=; ring.
  rewrite -[X in (X <= _)%N](@mxrank_unit _ _ (2%:R%:M : 'M[F]_(n + n))) -?E ?mxrank_add //.
  by rewrite E unitmxE det_scalar unitrX // unitfE two_ne0.
have K : forall a b : nat, (a + a <= b + b -> b + b <= a + a -> a = b)%N.
  by move=> a b; rewrite !addnn !leq_double => Ha Hb; apply/eqP; rewrite eqn_leq Ha Hb.
by rewrite HR in H1 H2; exact: K.
Qed.

Lemma careUV W : row_mx (careV W) (careU W) = W + 1%:M.
Proof.
rewrite /careU /careV -[W in RHS]submxK scalar_mx_block add_block_mx !addr0.
by rewrite block_mxEh.
Qed.

(** The system for P is solvable as soon as U has full column rank. *)
Lemma care_solvable W : W *m W = 1%:M -> hamil W -> \rank (careU W) = n ->
  exists X : 'M[F]_n, careU W *m X = - careV W.
Proof.
move=> HW HJ HU.
have Hs : ((careU W)^T <= (W + 1%:M)%R^T)%MS.
  rewrite -careUV tr_row_mx; apply/submxP; exists (row_mx 0 1%:M).
  by rewrite mul_row_col mul0mx mul1mx add0r.
have Heq : ((W + 1%:M)%R^T <= (careU W)^T)%MS.
  by rewrite -(mxrank_leqif_sup Hs) !mxrank_tr HU sign_rank.
have Hv : ((careV W)^T <= (W + 1%:M)%R^T)%MS.
  rewrite -careUV tr_row_mx; apply/submxP; exists (row_mx 1%:M 0).
  by rewrite mul_row_col mul0mx mul1mx addr0.
have /submxP [D HD] := submx_trans Hv Heq.
exists (- D^T); rewrite mulmxN; congr (- _).
by rewrite -[RHS]trmxK HD trmx_mul trmxK.
Qed.

Lemma graph_kernel W P : careU W *m P = - careV W -> (W + 1%:M) *m col_mx 1%:M P = 0.
Proof. by move=> H; rewrite -careUV mul_row_col mulmx1 H subrr. Qed.

(** Every vector of the stable subspace lies on the graph of P. *)
Lemma graph_unique W P (a b : 'M[F]_n) : \rank (careU W) = n -> careU W *m P = - careV W ->
  (W + 1%:M) *m col_mx a b = 0 -> b = P *m a.
Proof.
move=> HU HP; rewrite -careUV mul_row_col => H.
have E : careU W *m (b - P *m a) = 0.
  by rewrite mulmxBr mulmxA HP mulNmx opprK addrC.
have Hf : row_free (careU W)^T by rewrite /row_free mxrank_tr HU.
have E2 : (b - P *m a)^T *m (careU W)^T = 0 by rewrite -trmx_mul E trmx0.
have : (b - P *m a)^T = 0.
  by apply: (row_free_inj Hf); rewrite E2 mul0mx.
by move/(congr1 trmx); rewrite trmxK trmx0 => /eqP; rewrite subr_eq0 => /eqP.
Qed.

Lemma care_equation (Q : 'M[F]_n) (Rinv : 'M[F]_m) (A : 'M[F]_n) (B : 'M[F]_(n, m)) W P :
  let M := hamiltonian Q Rinv A B in
  symmetric Q -> symmetric (Rinv) ->
  W *m W = 1%:M -> hamil W -> W *m M = M *m W -> \rank (careU W) = n ->
  careU W *m P = - careV W ->
  A^T *m P + P *m A - P *m B *m Rinv *m B^T *m P + Q = 0 /\ symmetric P.
Proof.
move=> M HQ HR HW HJ HC HU HP.
have Hk := graph_kernel HP.
split.
- have Hk2 : (W + 1%:M) *m (M *m col_mx 1%:M P) = 0.
    by rewrite mulmxA mulmxDl mul1mx HC -[X in _ + X]mulmx1 -mulmxDr -mulmxA Hk mulmx0.
  rewrite /M /hamiltonian mul_block_col !mulmx1 in Hk2.
  have E := graph_unique HU HP Hk2.
  move: E; rewrite mulmxDr !mulNmx mulmxN !mulmxA => E.
  have -> : A^T *m P + P *m A - P *m B *m Rinv *m B^T *m P + Q
          = (P *m A - P *m B *m Rinv *m B^T *m P) - (- Q - A^T *m P).
    by rewrite opprB opprK [RHS]addrA [in RHS](addrC (_ - _) _) [in RHS]addrA.
  by rewrite E subrr.
- have HWk : W *m col_mx 1%:M P = - col_mx 1%:M P.
    by move/eqP: Hk; rewrite mulmxDl mul1mx addr_eq0 => /eqP.
  set g := col_mx 1%:M P in HWk *.
  have E : g^T *m J *m g = 0.
    have E1 : g^T *m J *m (W *m g) = - (g^T *m J *m g) by rewrite HWk mulmxN.
    have E2 : g^T *m J *m (W *m g) = g^T *m J *m g.
      have -> : g^T *m J *m (W *m g) = - ((W *m g)^T *m J *m g).
        have HJ' : J *m W = - (W^T *m J) := HJ.
        by rewrite trmx_mul -!mulmxA [J *m (W *m g)]mulmxA HJ' mulNmx mulmxN !mulmxA.
      rewrite HWk; have -> : (- g)^T = - g^T by apply/matrixP => i j; rewrite !mxE.
      by rewrite !mulNmx opprK.
    rewrite E2 in E1.
    have : 2%:R *: (g^T *m J *m g) = 0 by rewrite scaler_nat mulr2n {1}E1 addNr.
    by move/eqP; rewrite scaler_eq0 (negbTE two_ne0) => /eqP.
  move: E; rewrite /g tr_col_mx trmx1 /J mul_row_block !mulmx0 !mulmx1 addr0 add0r mulmxN mulmx1.
  by rewrite mul_row_col mulmx1 mul1mx => /eqP; rewrite addrC subr_eq0 => /eqP E; rewrite /symmetric -E.
Qed.

Lemma hamiltonian_hamil (Q : 'M[F]_n) (Rinv : 'M[F]_m) (A : 'M[F]_n) (B : 'M[F]_(n, m)) :
  symmetric Q -> symmetric Rinv -> hamil (hamiltonian Q Rinv A B).
Proof.
move=> HQ HR; rewrite /hamil /hamiltonian /J tr_block_mx !mulmx_block.
have HG : (B *m Rinv *m B^T)^T = B *m Rinv *m B^T by rewrite !trmx_mul trmxK HR mulmxA.
rewrite !trN trmxK HG HQ; set G := B *m Rinv *m B^T; clearbody G.
by rewrite !mul0mx !mulmx0 !add0r !addr0 !mul1mx !mulmx1 !mulNmx !mul1mx !mulmxN !mulmx1 opp_block_mx !opprK.
Qed.

Lemma careRinv_sym (R : 'M[F]_m) d : symmetric R -> symmetric (careRinv R d).
Proof.
move=> H; rewrite /careRinv; case: d; last by rewrite /symmetric trmx_inv H.
by apply/matrixP => i j; rewrite !mxE eq_sym; case: eqP => [->|].
Qed.

Lemma careRinv_diag (R : 'M[F]_m) : is_diag_mx R -> (forall i, R i i != 0) -> careRinv R true = invmx R.
Proof.
move=> /is_diag_mxP Hd H0.
have E : careRinv R true *m R = 1%:M.
  apply/matrixP => i j; rewrite !mxE (bigD1 i) //= big1 => [|k Hk].
    rewrite !mxE eqxx addr0; case: (eqVneq i j) => [<-|Hij] /=; first by rewrite mulVf.
    by rewrite (Hd i j Hij) mulr0.
  by rewrite !mxE eq_sym (negbTE Hk) mul0r.
have [_ Hu] := mulmx1_unit E.
by rewrite -[LHS]mulmx1 -(mulmxV Hu) mulmxA E mul1mx.
Qed.

Lemma care_correct (Q : 'M[F]_n) (R : 'M[F]_m) (A : 'M[F]_n) (B : 'M[F]_(n, m)) (d : bool) maxIt P W :
  symmetric Q -> symmetric R -> (d -> is_diag_mx R /\ forall i, R i i != 0) ->
  signLoop approx maxIt.+1 (hamiltonian Q (careRinv R d) A B) = Some W ->
  W *m W = 1%:M -> \rank (careU W) = n ->
  careSolve approx lu_solve Q R A B d maxIt = Some P ->
  solves_care Q R A B P /\ symmetric P.
Proof.
move=> HQ HR Hd E H1 HUW; rewrite /careSolve /solveSchurIterative E => -[] <-.
have HM := hamiltonian_hamil A B HQ (careRinv_sym d HR).
have [H2 H3] := sign_spec HM erefl E.
have ER : careRinv R d = invmx R.
  by clear -Hd; case: d Hd => // /(_ isT) [H0 H4]; exact: careRinv_diag.
rewrite /solves_care -ER.
apply: (care_equation (W := W)) => //; first exact: careRinv_sym.
by apply: Hlu; exact: care_solvable.
Qed.

(** Completing the square: the Hamilton-Jacobi-Bellman identity. *)
Lemma care_hjb (Q : 'M[F]_n) (R : 'M[F]_m) (A : 'M[F]_n) (B : 'M[F]_(n, m)) P x u :
  symmetric Q -> symmetric R -> R \in unitmx -> symmetric P -> solves_care Q R A B P ->
  let K := invmx R *m (B^T *m P) in
  2%:R * dot (P *m x) (A *m x + B *m u) + dot x (Q *m x) + dot u (R *m u)
  = dot (u + K *m x) (R *m (u + K *m x)).
Proof.
move=> HQ HR Hu HP HC K.
have HK : R *m (K *m x) = B^T *m (P *m x) by rewrite /K !mulmxA mulmxV // mul1mx.
have HPt : P^T = P := HP.
have E1 : dot (K *m x) (R *m (K *m x)) = dot x (P *m B *m invmx R *m B^T *m P *m x).
  by rewrite HK /K dot_mull trmx_mul trmx_mul trmxK trmx_inv HR HPt !mulmxA.
have E2 : dot u (R *m (K *m x)) = dot (P *m x) (B *m u).
  by rewrite HK -dot_mull dotC.
have E3 : dot (K *m x) (R *m u) = dot (P *m x) (B *m u) by rewrite sym_swap.
have E4 : dot x (Q *m x) = dot x (P *m B *m invmx R *m B^T *m P *m x) - 2%:R * dot (P *m x) (A *m x).
  have EQ : Q = P *m B *m invmx R *m B^T *m P - (A^T *m P + P *m A).
    apply/eqP; rewrite -subr_eq0 opprB -HC; apply/eqP.
    by rewrite addrC.
  rewrite {1}EQ mulmxBl mulmxDl dotBr dotDr; congr (_ - _).
  rewrite -!mulmxA (dot_mulr A^T) trmxK (dot_mulr P x) HPt (dotC (A *m x)).
  set a := dot (P *m x) (A *m x); clearbody a; ring.
rewrite mulmxDr !dotDr !dotDl E1 E2 E3 E4; ring.
Qed.
End CareProofs.

(** An exact solver for the linear system, for the examples. *)
Section Exact.
Variable F : realFieldType.
Variable n : nat.
Definition solve_exact (U Y : 'M[F]_(n + n, n)) : 'M[F]_n := (Y^T *m pinvmx U^T)^T.
Lemma solve_exact_ok U Y : (exists X : 'M[F]_n, U *m X = Y) -> U *m solve_exact U Y = Y.
Proof.
move=> [X HX]; apply: trmx_inj; rewrite trmx_mul trmxK mulmxKpV //.
by apply/submxP; exists X^T; rewrite -trmx_mul HX.
Qed.
End Exact.

Lemma lqr_optimal (F : realFieldType) (n m : nat) (approx : 'M[F]_(n + n) -> 'M[F]_(n + n) -> bool) lu_solve :
  (forall U Y, (exists X : 'M[F]_n, U *m X = Y) -> U *m lu_solve U Y = Y) ->
  forall (Q : 'M[F]_n) (R : 'M[F]_m) A B (d : bool) maxIt K W,
  symmetric Q -> symmetric R -> posdef R -> (d -> is_diag_mx R) ->
  signLoop approx maxIt.+1 (hamiltonian Q (careRinv R d) A B) = Some W ->
  W *m W = 1%:M -> \rank (careU W) = n ->
  lqrCompute approx lu_solve Q R A B d maxIt = Some K ->
  exists P, [/\ solves_care Q R A B P, symmetric P, K = invmx R *m (B^T *m P) &
    forall x u,
      let rate v := 2%:R * dot (P *m x) (A *m x + B *m v) + dot x (Q *m x) + dot v (R *m v) in
      rate (- (K *m x)) = 0 /\ (u != - (K *m x) -> 0 < rate u)].
Proof.
move=> Hlu Q R A B d maxIt K W HQ HR HRp Hd HW H1 HU.
have Hd' : d -> is_diag_mx R /\ forall i, R i i != 0.
  move=> Ed; split; first exact: Hd.
  move=> i; apply: lt0r_neq0.
  have Hv : (delta_mx i 0 : 'cV[F]_m) != 0.
    by apply/eqP => /matrixP /(_ i 0) /eqP; rewrite !mxE !eqxx oner_eq0.
  have := HRp _ Hv; by rewrite /dot -colE trmx_delta -rowE !mxE.
have ER : careRinv R d = invmx R.
  by clear -Hd'; case: d Hd' => // /(_ isT) [H0 H4]; exact: careRinv_diag.
rewrite /lqrCompute; case EP : (careSolve _ _ _ _ _ _ _ _) => [P|//] [] <-.
have [HC HP] := care_correct Hlu HQ HR Hd' HW H1 HU EP.
exists P; rewrite ER; split=> //; move=> x u; cbv zeta.
have Hj v := care_hjb x v HQ HR (posdef_unit HRp) HP HC; cbv zeta in Hj; rewrite !Hj.
split; first by rewrite addNr dot0l.
move=> Hu; apply: HRp.
by apply: contra Hu; rewrite addr_eq0.
Qed.

Lemma diagonal_shortcut (F : realFieldType) (n m : nat) approx lu_solve (Q : 'M[F]_n) (R : 'M[F]_m) A B maxIt :
  is_diag_mx R -> (forall i, R i i != 0) ->
  lqrCompute approx lu_solve Q R A B true maxIt = lqrCompute approx lu_solve Q R A B false maxIt.
Proof. by move=> H1 H2; rewrite /lqrCompute /careSolve careRinv_diag. Qed.

Lemma example_integrator (F : realFieldType) :
  let approx := (fun X Y : 'M[F]_(1 + 1) => X == Y) in
  exists W, [/\ signLoop approx 1 (hamiltonian (1%:M : 'M[F]_1) (careRinv (1%:M : 'M[F]_1) false) 0 1%:M) = Some W,
    W *m W = 1%:M, \rank (careU W) = 1%N &
    lqrCompute approx (@solve_exact F 1) (1%:M : 'M[F]_1) (1%:M : 'M[F]_1) 0 1%:M false 0 = Some 1%:M].
Proof.
move=> approx.
set M := hamiltonian _ _ _ _.
have EM : M = block_mx 0 (- 1%:M) (- 1%:M) 0.
  by rewrite /M /hamiltonian /careRinv invmx1 trmx1 !mulmx1 trmx0 oppr0.
have EMM : M *m M = 1%:M.
  by rewrite EM mulmx_block !mul0mx !mulmx0 !add0r !addr0 !mulNmx !mulmxN !opprK !mulmx1 -scalar_mx_block.
have [Hu _] := mulmx1_unit EMM.
have EI : invmx M = M by rewrite -[LHS]mulmx1 -EMM mulmxA mulVmx // mul1mx.
have EL : signLoop approx 1 M = Some M.
  by rewrite /= Hu EI subrr scaler0 subr0 /approx eqxx.
have EU : careU M = col_mx (- 1%:M) 1%:M.
  by rewrite /careU EM block_mxKur block_mxKdr add0r.
have EV : careV M = col_mx 1%:M (- 1%:M).
  by rewrite /careV EM block_mxKul block_mxKdl add0r.
have HU : \rank (careU M) = 1%N.
  apply/eqP; rewrite eqn_leq rank_leq_col /= lt0n mxrank_eq0 EU.
  by apply/eqP => /(congr1 (@dsubmx F 1 1 1)); rewrite col_mxKd linear0 => /eqP; rewrite oner_eq0.
exists M; split=> //.
rewrite /lqrCompute /careSolve /solveSchurIterative -/M EL /careRinv invmx1 !mul1mx trmx1 mul1mx.
congr Some.
have [X HX] : exists X : 'M[F]_1, careU M *m X = - careV M.
  by exists 1%:M; rewrite mulmx1 EU EV opp_col_mx opprK.
have := @solve_exact_ok F 1 (careU M) (- careV M) (ex_intro _ X HX).
set Y := solve_exact _ _.
rewrite EU EV opp_col_mx opprK mul_col_mx => /eq_col_mx [_].
by rewrite mul1mx.
Qed.
