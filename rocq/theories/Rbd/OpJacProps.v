(** C70: the weighted right inverse of a Jacobian, its null space projector and their rates (properties about OpJacModel). *)
From mathcomp Require Import all_ssreflect all_algebra.
From Coq Require Import Reals.
From Coquelicot Require Import Coquelicot.
From Verif Require Import Base.Mx Base.RField Base.MxDerive Rbd.OpJacModel.
Set Implicit Arguments. Unset Strict Implicit. Unset Printing Implicit Defensive.
Import GRing.Theory Num.Theory Order.TTheory.
Local Open Scope ring_scope.

(** * Specification *)

(** Eigen's LDLT solve in exact arithmetic: for symmetric positive semi-definite matrices, singular ones included, the result
    is a symmetric generalized inverse (the pseudo-inverse of the diagonal factor is used). *)
Definition ldlt_ok (F : realFieldType) m (solve : 'M[F]_m -> 'M[F]_m) : Prop :=
  forall A, symmetric A -> possemi A -> A *m solve A *m A = A /\ (solve A)^T = solve A.

(** Questions to the object, and what they should be answered for a state and a weighting. *)
Inductive query := QJ | QdJ | QJdager | QdJdager | QP | QdP.
Section Histories.
Variables (F : fieldType) (m n : nat) (state : Type) (getJ getdJ : state -> 'M[F]_(m, n)) (solve : 'M[F]_m -> 'M[F]_m).
Inductive answer := AJac of 'M[F]_(m, n) | AInv of 'M[F]_(n, m) | AProj of 'M[F]_n.
Definition rightInverse (W : 'M[F]_n) (J : 'M[F]_(m, n)) : 'M[F]_(n, m) := W *m J^T *m solve (J *m W *m J^T).
Definition projector (W : 'M[F]_n) (J : 'M[F]_(m, n)) : 'M[F]_n := 1%:M - rightInverse W J *m J.
Definition expected (s : state) (W : 'M[F]_n) (q : query) : answer :=
  match q with
  | QJ => AJac (getJ s)
  | QdJ => AJac (getdJ s)
  | QJdager => AInv (rightInverse W (getJ s))
  | QdJdager => AInv (- rightInverse W (getJ s) *m getdJ s *m rightInverse W (getJ s))
  | QP => AProj (projector W (getJ s))
  | QdP => AProj (- rightInverse W (getJ s) *m getdJ s *m projector W (getJ s))
  end.
Inductive op := Update (s : state) (W : 'M[F]_n) | Ask (q : query).
Fixpoint expectedAll (s : state) (W : 'M[F]_n) (ops : seq op) : seq answer :=
  match ops with [::] => [::] | Update s' W' :: r => expectedAll s' W' r | Ask q :: r => expected s W q :: expectedAll s W r end.
(** The same questions to the object of the model. *)
Definition ask (o : opjac F m n state) (q : query) : answer * opjac F m n state :=
  match q with
  | QJ => let (v, o') := J getJ o in (AJac v, o')
  | QdJ => let (v, o') := dJdt getdJ o in (AJac v, o')
  | QJdager => let (v, o') := JdagerLDLT getJ solve o in (AInv v, o')
  | QdJdager => let (v, o') := dJdagerdt getJ getdJ solve o in (AInv v, o')
  | QP => let (v, o') := P getJ solve o in (AProj v, o')
  | QdP => let (v, o') := dPdt getJ getdJ solve o in (AProj v, o')
  end.
Fixpoint run (o : opjac F m n state) (ops : seq op) : seq answer :=
  match ops with
  | [::] => [::]
  | Update s W :: r => run (updateState o s W) r
  | Ask q :: r => let (a, o') := ask o q in a :: run o' r
  end.

(** * Histories *)

Definition good (s : state) (W : 'M[F]_n) (o : opjac F m n state) : Prop :=
  [/\ state_ o = s, W_ o = W, JUpdated o -> J_ o = getJ s, dJdtUpdated o -> dJdt_ o = getdJ s &
      [/\ JdagerUpdated o -> Jdager_ o = rightInverse W (getJ s), PUpdated o -> P_ o = projector W (getJ s) &
      dPdtUpdated o -> dPdt_ o = - rightInverse W (getJ s) *m getdJ s *m projector W (getJ s)]].
Lemma J_good s W o : good s W o -> (J getJ o).1 = getJ s /\ good s W (J getJ o).2.
Proof.
  case=> h1 h2 h3 h4 [h5 h6 h7]. rewrite /J. case E: (JUpdated o)=> /=; first by split; [exact: h3|split].
  by rewrite h1.
Qed.
Lemma dJ_good s W o : good s W o -> (dJdt getdJ o).1 = getdJ s /\ good s W (dJdt getdJ o).2.
Proof.
  case=> h1 h2 h3 h4 [h5 h6 h7]. rewrite /dJdt. case E: (dJdtUpdated o)=> /=; first by split; [exact: h4|split].
  by rewrite h1.
Qed.
Lemma Jd_good s W o : good s W o -> (JdagerLDLT getJ solve o).1 = rightInverse W (getJ s) /\ good s W (JdagerLDLT getJ solve o).2.
Proof.
  move=> H. rewrite /JdagerLDLT. case E: (JdagerUpdated o)=> /=; first by split=> //; case: H=> ? ? ? ? [h5 _ _]; exact: h5.
  have := J_good H. case: (J getJ o)=> [j o1] /= [-> [h1 h2 h3 h4 [h5 h6 h7]]]. by rewrite h2.
Qed.
Lemma P_good s W o : good s W o -> (P getJ solve o).1 = projector W (getJ s) /\ good s W (P getJ solve o).2.
Proof.
  move=> H. rewrite /P. case E: (PUpdated o)=> /=; first by split=> //; case: H=> ? ? ? ? [_ h6 _]; exact: h6.
  have := Jd_good H. case: (JdagerLDLT getJ solve o)=> [jd o1] /= [-> H1].
  have := J_good H1. case: (J getJ o1)=> [j o2] /= [-> [h1 h2 h3 h4 [h5 h6 h7]]]. by split.
Qed.
Lemma ask_good s W o q : good s W o -> (ask o q).1 = expected s W q /\ good s W (ask o q).2.
Proof.
  move=> H. case: q=> /=.
  - have := J_good H. by case: (J getJ o)=> [v o'] /= [-> H'].
  - have := dJ_good H. by case: (dJdt getdJ o)=> [v o'] /= [-> H'].
  - have := Jd_good H. by case: (JdagerLDLT getJ solve o)=> [v o'] /= [-> H'].
  - rewrite /dJdagerdt. have := Jd_good H. case: (JdagerLDLT getJ solve o)=> [jd o1] /= [-> H1].
    have := dJ_good H1. by case: (dJdt getdJ o1)=> [dj o2] /= [-> [h1 h2 h3 h4 [h5 h6 h7]]].
  - have := P_good H. by case: (P getJ solve o)=> [v o'] /= [-> H'].
  - rewrite /dPdt. case E: (dPdtUpdated o)=> /=; first by split=> //; case: (H)=> ? ? ? ? [_ _ h7]; rewrite h7.
    have := Jd_good H. case: (JdagerLDLT getJ solve o)=> [jd o1] /= [-> H1].
    have := dJ_good H1. case: (dJdt getdJ o1)=> [dj o2] /= [-> H2].
    have := P_good H2. by case: (P getJ solve o2)=> [p o3] /= [-> [h1 h2 h3 h4 [h5 h6 h7]]].
Qed.

(** Whatever was asked before and in whatever order: every answer is that for the state and weighting of the last update. *)
Theorem C70_answers (o : opjac F m n state) (s : state) (W : 'M[F]_n) (ops : seq op) :
  run (updateState o s W) ops = expectedAll s W ops.
Proof.
  have : good s W (updateState o s W) by [].
  elim: ops s W (updateState o s W)=> [//|[s' W'|q] ops IH] s W o' H /=; first exact: IH.
  have := ask_good q H. case: (ask o' q)=> [a o2] /= [-> H2]. by rewrite (IH s W).
Qed.
End Histories.

(** * Algebra *)

Section Algebra.
Variables (F : realFieldType) (m n : nat) (solve : 'M[F]_m -> 'M[F]_m).
Hypothesis Hs : ldlt_ok solve.
Notation Jd := (rightInverse solve).
Notation Pr := (projector solve).

Lemma gram_sym (W : 'M[F]_n) (J : 'M[F]_(m, n)) : symmetric W -> symmetric (J *m W *m J^T).
Proof. by rewrite /symmetric=> E; rewrite !trmx_mul trmxK E mulmxA. Qed.
Lemma gram_semi (W : 'M[F]_n) (J : 'M[F]_(m, n)) : possemi W -> possemi (J *m W *m J^T).
Proof. move=> H v. rewrite -!mulmxA dot_mulr. exact: H. Qed.
(** A matrix with K W K^T = 0 for a positive definite W is zero. *)
Lemma weighted_zero (W : 'M[F]_n) (K : 'M[F]_(m, n)) : posdef W -> K *m W *m K^T = 0 -> K = 0.
Proof.
  move=> HW HK. apply: trmx_inj. rewrite trmx0. apply/matrixP=> i j. rewrite [RHS]mxE.
  have E : dot (col j K^T) (W *m col j K^T) = 0.
  { by rewrite !colE dot_mull trmxK !mulmxA HK mul0mx dot0r. }
  case: (eqVneq (col j K^T) 0)=> [Z|N].
  - by have := congr1 (fun v : 'cV_n => v i 0) Z; rewrite !mxE.
  - by have := HW _ N; rewrite E ltxx.
Qed.

Lemma solves (W : 'M[F]_n) (J : 'M[F]_(m, n)) : symmetric W -> posdef W ->
  J *m W *m J^T *m solve (J *m W *m J^T) *m J = J /\ (solve (J *m W *m J^T))^T = solve (J *m W *m J^T).
Proof.
  move=> HS HW. have [E1 E2] := Hs (gram_sym J HS) (gram_semi J (posdef_semi HW)). split=> //.
  set A := J *m W *m J^T in E1 E2 *. set G := solve A in E1 E2 *.
  apply/eqP. rewrite -subr_eq0. apply/eqP. apply: (weighted_zero HW).
  have -> : (A *m G *m J - J) *m W *m (A *m G *m J - J)^T = (A *m G - 1%:M) *m A *m (A *m G - 1%:M)^T.
  { have -> : A *m G *m J - J = (A *m G - 1%:M) *m J by rewrite mulmxBl mul1mx. by rewrite trmx_mul /A !mulmxA. }
  by rewrite mulmxBl mul1mx E1 subrr mul0mx.
Qed.

(** For every Jacobian, of full rank or not, and every symmetric positive definite weighting: P is a projector, its image is
    the null space of the Jacobian, it removes all generalized forces W J^T f; without weighting it is the orthogonal
    projector.  If the rows of the Jacobian are independent (J W J^T is invertible), the inverse is a right inverse. *)
Theorem C70_projector (W : 'M[F]_n) (J : 'M[F]_(m, n)) : symmetric W -> posdef W ->
  [/\ Pr W J *m Pr W J = Pr W J,
      J *m Pr W J = 0,
      forall k (x : 'M[F]_(n, k)), J *m x = 0 -> Pr W J *m x = x,
      Pr W J *m (W *m J^T) = 0 &
      [/\ J *m Jd W J *m J = J,
          W = 1%:M -> (Pr W J)^T = Pr W J &
          J *m W *m J^T \in unitmx -> J *m Jd W J = 1%:M]].
Proof.
  move=> HS HW. have [E1 E2] := solves J HS HW. rewrite /projector /rightInverse.
  set G := solve (J *m W *m J^T) in E1 E2 *.
  have EJ : J *m (W *m J^T *m G *m J) = J by rewrite !mulmxA.
  have Et : J^T *m G *m J *m W *m J^T = J^T.
  { have := congr1 trmx E1. rewrite !trmx_mul trmxK E2 HS. by rewrite !mulmxA. }
  split.
  - rewrite mulmxBl mul1mx mulmxBr mulmx1. rewrite -[X in _ - (_ - X)]mulmxA EJ. by rewrite subrr subr0.
  - by rewrite mulmxBr mulmx1 EJ subrr.
  - move=> k x Hx. by rewrite mulmxBl mul1mx -!mulmxA Hx !mulmx0 subr0.
  - rewrite mulmxBl mul1mx -[X in _ - X]mulmxA -!mulmxA. rewrite -!mulmxA in Et. by rewrite Et subrr.
  - split.
    + by rewrite -[LHS]mulmxA -[X in J *m X]mulmxA -?mulmxA !mulmxA.
    + move=> EW. by rewrite linearB /= trmx1 !trmx_mul trmxK E2 HS EW mul1mx mulmx1 !mulmxA.
    + move=> U. have [E _] := Hs (gram_sym J HS) (gram_semi J (posdef_semi HW)). rewrite -/G in E.
      have := congr1 (fun X => X *m invmx (J *m W *m J^T)) E. rewrite mulmxK // mulmxV // => <-. by rewrite !mulmxA.
Qed.
End Algebra.

(** * Rates *)

Section Rates.
Variables (m n : nat) (solve : 'M[R]_m -> 'M[R]_m).
Hypothesis Hs : forall A, A \in unitmx -> solve A = invmx A.
Variables (W : 'M[R]_n) (J : R -> 'M[R]_(m, n)) (dJ : 'M[R]_(m, n)) (t : R).
Hypothesis HdJ : mderive J t dJ.
Hypothesis HU : J t *m W *m (J t)^T \in unitmx.
Notation Jd := (rightInverse solve W).
Notation Pr := (projector solve W).

(** The true rates along every motion: the reported -J+ dJ J+ and -J+ dJ P lack the terms with P W dJ^T (J W J^T)^-1. *)
Theorem C70_rates_partial :
  let missing := Pr (J t) *m W *m dJ^T *m invmx (J t *m W *m (J t)^T) in
  mderive (fun s => Jd (J s)) t (- Jd (J t) *m dJ *m Jd (J t) + missing) /\
  mderive (fun s => Pr (J s)) t (- Jd (J t) *m dJ *m Pr (J t) - missing *m J t).
Proof.
  move=> missing.
  have HA : mderive (fun s => J s *m W *m (J s)^T) t (dJ *m W *m (J t)^T + J t *m W *m dJ^T).
  { apply: mder_mul; last exact: mder_tr. apply: (mder_val (mder_mul HdJ (mder_const t W))). by rewrite mulmx0 addr0. }
  have [HG Hloc] := mder_inv HA HU.
  set A := J t *m W *m (J t)^T in HG missing *. set G := invmx A in HG missing *.
  have HJd : mderive (fun s => W *m (J s)^T *m invmx (J s *m W *m (J s)^T)) t
               (W *m dJ^T *m G + W *m (J t)^T *m - (G *m (dJ *m W *m (J t)^T + J t *m W *m dJ^T) *m G)).
  { apply: mder_mul; last exact: HG. apply: (mder_val (mder_mul (mder_const t W) (mder_tr HdJ))). by rewrite mul0mx add0r. }
  have E : Jd (J t) = W *m (J t)^T *m G by rewrite /rightInverse Hs.
  have HJd' : mderive (fun s => Jd (J s)) t (- Jd (J t) *m dJ *m Jd (J t) + missing).
  { move=> i j. apply: (@der_ext_loc (fun s => (W *m (J s)^T *m invmx (J s *m W *m (J s)^T)) i j)).
    - case: Hloc=> e He. exists e=> s Hs'. by rewrite /rightInverse (Hs (He s Hs')).
    - apply: (der_val (HJd i j)). congr (fun_of_matrix _ i j).
      have -> : W *m (J t)^T *m - (G *m (dJ *m W *m (J t)^T + J t *m W *m dJ^T) *m G) =
                - (Jd (J t) *m dJ *m Jd (J t)) - Jd (J t) *m J t *m W *m dJ^T *m G.
      { by rewrite mulmxN mulmxDr mulmxDl mulmxDr opprD E !mulmxA. }
      by rewrite /missing /projector mulmxBl mul1mx !mulmxBl !mulNmx addrCA. }
  split=> //. rewrite /projector.
  apply: (mder_val (mder_add (mder_const t 1%:M) (mder_opp (mder_mul HJd' HdJ)))).
  rewrite add0r mulmxDl !mulNmx mulmxBr mulmx1 !mulmxA !opprD !opprK.
  by rewrite addrC addrA.
Qed.
End Rates.

(** With as many independent outputs as coordinates the reported rates are the true ones. *)
Theorem C70_rates_square (n : nat) (solve : 'M[R]_n -> 'M[R]_n) (W : 'M[R]_n) (J : R -> 'M[R]_n) (dJ : 'M[R]_n) (t : R) :
  (forall A, A \in unitmx -> solve A = invmx A) -> mderive J t dJ -> J t \in unitmx -> W \in unitmx ->
  mderive (fun s => rightInverse solve W (J s)) t (- rightInverse solve W (J t) *m dJ *m rightInverse solve W (J t)) /\
  mderive (fun s => projector solve W (J s)) t (- rightInverse solve W (J t) *m dJ *m projector solve W (J t)).
Proof.
  move=> Hs HdJ UJ UW. have HU : J t *m W *m (J t)^T \in unitmx by rewrite !unitmx_mul unitmx_tr UJ UW.
  have E : projector solve W (J t) = 0.
  { rewrite /projector /rightInverse Hs //. have UT : (J t)^T \in unitmx by rewrite unitmx_tr.
    have -> : invmx (J t *m W *m (J t)^T) = invmx (J t)^T *m invmx W *m invmx (J t).
    { apply: (can_inj (mulKmx HU)). rewrite mulmxV // !mulmxA. by rewrite -[X in X *m _ *m _]mulmxA mulmxV // mulmx1 -[X in X *m _]mulmxA mulmxV // mulmx1 mulmxV. }
    by rewrite !mulmxA -[X in X *m _ *m _ *m _]mulmxA mulmxV // mulmx1 mulmxV // mul1mx mulVmx // subrr. }
  have [H1 H2] := C70_rates_partial Hs HdJ HU. split.
  - apply: (mder_val H1). by rewrite E !mul0mx addr0.
  - apply: (mder_val H2). by rewrite E !mul0mx subr0.
Qed.

(** In general they are not: a turning one-row Jacobian, without weighting. *)
Section Turning.
Variable k : nat.
Definition turning (s : R) : 'M[R]_(1, k.+2) := cos s *: delta_mx 0 0 + sin s *: delta_mx 0 1.
Lemma mder_scale m n (f : R -> R) (t d : R) (C : 'M[R]_(m, n)) : is_derive f t d -> mderive (fun s => f s *: C) t (d *: C).
Proof.
  move=> H i j. rewrite [X in is_derive _ _ X]mxE. apply: (@der_ext (fun s => f s * C i j)); first by move=> s; rewrite [RHS]mxE.
  apply: (der_val (der_mul H (der_const (C i j) t))). by rewrite mulr0 addr0.
Qed.
Lemma turning_0 : turning 0 = delta_mx 0 0.
Proof. by rewrite /turning cos_0 sin_0 scale1r scale0r addr0. Qed.
Lemma turning_rate : mderive turning 0 (delta_mx 0 1).
Proof.
  have H1 : is_derive cos 0 (0 : R) by apply: (der_val (is_derive_cos 0)); rewrite sin_0; exact: oppr0.
  have H2 : is_derive sin 0 (1 : R) by apply: (der_val (is_derive_sin 0)); rewrite cos_0.
  apply: (mder_val (mder_add (mder_scale _ H1) (mder_scale _ H2))). by rewrite scale0r scale1r add0r.
Qed.
End Turning.
Theorem C70_rates_refuted (NUM_JOINTS : nat) (solve : 'M[R]_1 -> 'M[R]_1) : (forall A, A \in unitmx -> solve A = invmx A) ->
  exists (J : R -> 'M[R]_(1, (6 + NUM_JOINTS)%nat)) (dJ : 'M[R]_(1, (6 + NUM_JOINTS)%nat)),
    let Jd s := rightInverse solve 1%:M (J s) in let P s := projector solve 1%:M (J s) in
    [/\ mderive J 0 dJ, J 0 *m 1%:M *m (J 0)^T \in unitmx,
        ~ mderive Jd 0 (- Jd 0 *m dJ *m Jd 0) & ~ mderive P 0 (- Jd 0 *m dJ *m P 0)].
Proof.
  move=> Hs. exists (turning (4 + NUM_JOINTS)%nat), (delta_mx 0 1)=> Jd P.
  have HdJ := @turning_rate (4 + NUM_JOINTS)%nat.
  have HA : turning (4 + NUM_JOINTS)%nat 0 *m 1%:M *m (turning (4 + NUM_JOINTS)%nat 0)^T = 1%:M.
  { rewrite turning_0 mulmx1 trmx_delta mul_delta_mx. by apply/matrixP=> i j; rewrite !mxE !ord1. }
  have HU : turning (4 + NUM_JOINTS)%nat 0 *m 1%:M *m (turning (4 + NUM_JOINTS)%nat 0)^T \in unitmx by rewrite HA unitmx1.
  have [H1 H2] := C70_rates_partial Hs HdJ HU. rewrite HA invmx1 !mulmx1 trmx_delta in H1 H2.
  have E : P 0 *m delta_mx 1 0 = (delta_mx 1 0 : 'M[R]_(((4 + NUM_JOINTS).+2)%nat, 1)).
  { rewrite /P /projector /rightInverse HA Hs ?unitmx1 // invmx1 mul1mx mulmx1 turning_0 trmx_delta mul_delta_mx mulmxBl mul1mx.
    by rewrite mul_delta_mx_0 // subr0. }
  rewrite -/(P 0) E in H1 H2. split=> // H.
  - have := mder_unique H1 H. move/eqP. rewrite -subr_eq0 addrAC subrr add0r=> /eqP /matrixP /(_ 1 0). rewrite !mxE /= => /eqP. by rewrite oner_eq0.
  - have := mder_unique H2 H. move/eqP. rewrite -subr_eq0 addrAC subrr add0r turning_0 mul_delta_mx oppr_eq0=> /eqP /matrixP /(_ 1 0).
    rewrite !mxE /= => /eqP. by rewrite oner_eq0.
Qed.

(** JdagerLDLT and JdagerSVD share one cache: after JdagerLDLT (or P), JdagerSVD returns the weighted inverse, and after
    JdagerSVD, JdagerLDLT and P are computed without the weighting. *)
Theorem C70_svd_refuted (F : realFieldType) (NUM_JOINTS : nat) (solve : 'M[F]_1 -> 'M[F]_1)
    (svdInverse : 'M[F]_(1, (6 + NUM_JOINTS)%nat) -> 'M[F]_(6 + NUM_JOINTS, 1)) :
  (forall A, A \in unitmx -> solve A = invmx A) ->
  (forall A, A *m svdInverse A *m A = A /\ (svdInverse A *m A)^T = svdInverse A *m A) ->
  exists (J W : _) (HW : symmetric W /\ posdef W), forall state (getJ : state -> _) (s : state) (o : opjac F 1 (6 + NUM_JOINTS)%nat state), getJ s = J ->
    let o0 := updateState o s W in
    let o1 := (JdagerLDLT getJ solve o0).2 in
    let o2 := (JdagerSVD getJ svdInverse o0).2 in
    (JdagerSVD getJ svdInverse o1).1 <> (JdagerSVD getJ svdInverse o0).1 /\
    (JdagerLDLT getJ solve o2).1 <> (JdagerLDLT getJ solve o0).1.
Proof.
  move=> Hs Hv.
  pose J : 'M[F]_(1, ((4 + NUM_JOINTS).+2)%nat) := delta_mx 0 0 + delta_mx 0 1.
  pose W : 'M[F]_(((4 + NUM_JOINTS).+2)%nat) := 1%:M + 2%:R *: (delta_mx 1 0 *m (delta_mx 1 0 : 'cV_(((4 + NUM_JOINTS).+2)%nat))^T).
  have WS : symmetric W by rewrite /symmetric /W linearD /= trmx1 linearZ /= trmx_mul trmxK.
  have WP : posdef W.
  { move=> v Hv0. rewrite /W mulmxDl mul1mx dotDr -scalemxAl dotZr -mulmxA dot_mulr. apply: ltr_paddr.
    - apply: mulr_ge0; first exact: ler0n. exact: dot_ge0.
    - rewrite lt_neqAle dot_ge0 andbT eq_sym. apply/eqP=> E. by rewrite (dot_eq0 E) eqxx in Hv0. }
  have WJ : W *m J^T = delta_mx 0 0 + 3%:R *: delta_mx 1 0.
  { rewrite /W /J mulmxDl mul1mx -scalemxAl linearD /= !trmx_delta mul_delta_mx mulmxDr mul_delta_mx_0 // mul_delta_mx add0r.
    by rewrite -addrA -[X in X + _ *: _]scale1r -scalerDl -(natrD F 1 2). }
  have JWJ : J *m W *m J^T = (4%:R)%:M.
  { rewrite -mulmxA WJ /J mulmxDl !mulmxDr -!scalemxAr !mul_delta_mx !mul_delta_mx_0 // scaler0 addr0 add0r.
    apply/matrixP=> i j; rewrite !mxE !ord1 /=. by rewrite !mulr1 -(natrD F 1 3). }
  have U4 : (4%:R : F) != 0 by rewrite pnatr_eq0.
  have U : J *m W *m J^T \in unitmx by rewrite JWJ unitmxE det_scalar1 unitfE.
  have N : rightInverse solve W J <> svdInverse J.
  { move=> E. have [_ HS] := Hv J. rewrite -E /rightInverse Hs // JWJ invmx_scalar mul_mx_scalar WJ -scalemxAl in HS.
    rewrite linearZ /= in HS. have := scalerI (invr_neq0 U4) HS. rewrite /J trmx_mul !linearD /= !linearZ /= !trmx_delta ?mulmxDl ?mulmxDr ?linearZ -?scalemxAl -?scalemxAr !mul_delta_mx.
    move/matrixP=> /(_ 0 1). rewrite !mxE /= !mulr0 !addr0 !add0r !mulr1 => /eqP. by rewrite eqr_nat. }
  exists J, W, (conj WS WP)=> state getJ s o EJ o0 o1 o2. subst o0 o1 o2.
  by rewrite /JdagerLDLT /JdagerSVD /= /OpJacModel.J /= EJ -/(rightInverse solve W J); split=> // E; apply: N.
Qed.

(** The hypotheses can be met: a solver with the assumed properties, for singular matrices too, a singular value inverse of
    rows and a weighting. *)
Example C70_example (F : realFieldType) n :
  [/\ ldlt_ok (fun A : 'M[F]_1 => (A 0 0)^-1%:M),
      forall A : 'M[F]_(1, n), let X := ((A *m A^T) 0 0)^-1 *: A^T in A *m X *m A = A /\ (X *m A)^T = X *m A &
      symmetric (1%:M : 'M[F]_n) /\ posdef (1%:M : 'M[F]_n)].
Proof.
  have D1 : forall B : 'M[F]_1, B = (B 0 0)%:M by move=> B; apply/matrixP=> i j; rewrite !mxE !ord1 mulr1n.
  split.
  - move=> A _ _. split; last by rewrite tr_scalar_mx. move: (A 0 0) (D1 A)=> a ->. rewrite -!scalar_mxM.
    case E : (a == 0); first by rewrite (eqP E) !mul0r. by rewrite divff ?E // mul1r.
  - move=> A X. rewrite /X. split; last by rewrite -scalemxAl linearZ /= trmx_mul trmxK.
    rewrite -scalemxAr -scalemxAl {2}(D1 (A *m A^T)) mul_scalar_mx scalerA.
    case E : ((A *m A^T) 0 0 == 0); last by rewrite mulVf ?E // scale1r.
    rewrite (eqP E) mulr0 scale0r. have A0 : A^T = 0 by apply: dot_eq0; rewrite /dot trmxK; exact/eqP.
    by rewrite -[A]trmxK A0 trmx0.
  - split; first by rewrite /symmetric trmx1. move=> v Hv. rewrite mul1mx lt_neqAle dot_ge0 andbT eq_sym.
    apply/eqP=> E. by rewrite (dot_eq0 E) eqxx in Hv.
Qed.

Print Assumptions C70_answers.
Print Assumptions C70_projector.
Print Assumptions C70_rates_partial.
Print Assumptions C70_rates_square.
Print Assumptions C70_rates_refuted.
Print Assumptions C70_svd_refuted.
