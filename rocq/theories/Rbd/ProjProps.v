(** C71: constrained forward and inverse dynamics of legged robots (properties about ProjModel). *)
From mathcomp Require Import all_ssreflect all_algebra.
From Verif Require Import Base.Mx Core.InverseModel Core.InverseSpec Core.InverseProofs Core.InverseProps.
From Verif Require Import Rbd.OpJacModel Rbd.OpJacProps Rbd.ProjModel.
Set Implicit Arguments. Unset Strict Implicit. Unset Printing Implicit Defensive.
Import GRing.Theory Num.Theory Order.TTheory.
Local Open Scope ring_scope.

Section Proj.
Variables (F : realFieldType) (NJOINTS NEE : nat) (state : Type).
Notation mat := (nat -> nat -> F).
Notation vec := (nat -> F).
Notation NDOF := (6 + NJOINTS)%N.
Variables (jSim : state -> mat) (C_terms G_terms : state -> vec).
Variables (footJ footdJ : nat -> state -> mat).
Variables (coordinateVelocity baseLocalAngularVelocity : state -> vec) (eeVelocityInBase : nat -> state -> vec).
Variable ldltSolveIdentity : 'M[F]_(3 * NEE) -> 'M[F]_(3 * NEE).
Variable pinv : 'M[F]_(NDOF, NJOINTS) -> 'M[F]_(NJOINTS, NDOF).
Notation forward := (ProjectedForwardDynamics jSim C_terms G_terms footJ footdJ coordinateVelocity baseLocalAngularVelocity eeVelocityInBase).
Notation forwardCommon := (ProjectedForwardDynamicsCommon jSim C_terms G_terms footJ footdJ coordinateVelocity baseLocalAngularVelocity eeVelocityInBase).
Notation inverse := (ProjectedInverseDynamics jSim C_terms G_terms footJ ldltSolveIdentity pinv).
Notation inverseNoGravity := (ProjectedInverseDynamicsNoGravity jSim C_terms footJ ldltSolveIdentity pinv).
Notation pd := (pd F NJOINTS NEE state).

(** * Specification *)

(** The equations of motion: inertia times acceleration plus the other terms balances the joint torques and the forces at the
    feet in contact (the base is not actuated). *)
Definition balance (h : state -> vec) (x : state) (c : nat -> bool) (u a : vec) (lam : nat -> vec) : Prop :=
  forall i, (i < NDOF)%N ->
    \sum_(0 <= j < NDOF) jSim x i j * a j + h x i =
    (if (i < 6)%N then 0 else u (i - 6)%N) + \sum_(0 <= e < NEE | c e) \sum_(0 <= r < 3) footJ e x r i * lam e r.
(** The feet in contact do not accelerate. *)
Definition feet_rest (x : state) (c : nat -> bool) (a : vec) : Prop :=
  forall e r, (e < NEE)%N -> c e -> (r < 3)%N ->
    \sum_(0 <= j < NDOF) footJ e x r j * a j + \sum_(0 <= j < NDOF) footdJ e x r j * coordinateVelocity x j +
    cross (baseLocalAngularVelocity x) (eeVelocityInBase e x) r = 0.
Definition gravity_and_velocity (x : state) : vec := fun i => C_terms x i + G_terms x i.
(** No force distribution over the feet in contact cancels out. *)
Definition independent (x : state) (c : nat -> bool) : Prop :=
  forall lam : nat -> vec,
    (forall i, (i < NDOF)%N -> \sum_(0 <= e < NEE | c e) \sum_(0 <= r < 3) footJ e x r i * lam e r = 0) ->
    forall e r, (e < NEE)%N -> c e -> (r < 3)%N -> lam e r = 0.

(** Everything a user can do with the object; every call may find other uninitialised memory. *)
Inductive op :=
| SetContacts (c : nat -> bool) (jm : mat) (jv : vec)
| Forward (x : state) (u : vec) (jm : mat) (jv : vec)
| Inverse (x : state) (qdd u0 : vec)
| InverseNoGravity (x : state) (qdd u0 : vec).
Definition step (s : pd) (o : op) : pd :=
  match o with
  | SetContacts c jm jv => setContactConfiguration s c jm jv
  | Forward x u jm jv => forwardCommon s x u jm jv
  | Inverse x qdd u0 => (inverse s x qdd u0).2
  | InverseNoGravity x qdd u0 => (inverseNoGravity s x qdd u0).2
  end.
Definition run (s : pd) (ops : seq op) : pd := foldl step s ops.
(** The contacts set last. *)
Definition current (c : nat -> bool) (ops : seq op) : nat -> bool :=
  foldl (fun c o => if o is SetContacts c' _ _ then c' else c) c ops.

(** * Contact lists *)

Definition feet (c : nat -> bool) (n : nat) : seq nat := [seq e <- iota 0 n | c e].
Lemma feet_S c n : feet c n.+1 = if c n then rcons (feet c n) n else feet c n.
Proof. rewrite /feet -addn1 iotaD filter_cat /= add0n. case: (c n)=> /=; last by rewrite cats0. by rewrite cats1. Qed.
Lemma mem_feet c n e : (e \in feet c n) = c e && (e < n)%N.
Proof. by rewrite mem_filter mem_iota. Qed.
Lemma feet_uniq c n : uniq (feet c n).
Proof. by apply: filter_uniq; exact: iota_uniq. Qed.
Lemma iota_foldl (S : Type) (f : S -> nat -> S) s n : foldl f s (iota 0 n.+1) = f (foldl f s (iota 0 n)) n.
Proof. by rewrite -addn1 iotaD foldl_cat. Qed.

Lemma reset_spec c k :
  let r := ResetJacobianStructure NEE c k in
  [/\ neec r = size (feet c NEE), c_size r = (3 * size (feet c NEE))%N, ee_indices r = feet c NEE &
      forall e, e \in feet c NEE -> eeInContact r e].
Proof.
  rewrite /ResetJacobianStructure. elim: NEE=> [//|n]. rewrite iota_foldl feet_S. move: (foldl _ _ _)=> r /= [h1 h2 h3 h4].
  case E: (c n)=> //=. rewrite h1 h2 h3 size_rcons. split=> //; first by rewrite mulnSr.
  move=> e. rewrite mem_rcons inE. case: eqP=> [->|_] //= H; exact: h4.
Qed.

Lemma block_div e r e' : (r < 3)%N -> (3 * e' <= 3 * e + r < 3 * e' + 3)%N = (e == e').
Proof.
  move=> Hr. apply/idP/eqP=> [/andP [H1 H2]|->]; last by rewrite leq_addr ltn_add2l.
  apply/eqP. rewrite eqn_leq. apply/andP; split.
  - rewrite -ltnS -(@ltn_pmul2l 3) // mulnS addnC. exact: leq_ltn_trans (leq_addr r _) H2.
  - rewrite -ltnS -(@ltn_pmul2l 3) // mulnS addnC. apply: leq_ltn_trans H1 _. by rewrite ltn_add2l.
Qed.
Lemma rows_spec k (foot : nat -> state -> mat) x e r j : uniq (ee_indices k) -> (forall e, e \in ee_indices k -> eeInContact k e) ->
  (e < NEE)%N -> (r < 3)%N -> (j < NDOF)%N ->
  at2 (constraintRows NJOINTS NEE k foot x) (3 * e + r) j = if e \in ee_indices k then foot e x r j else 0.
Proof.
  move=> Hu Hc He Hr Hj. have H1 : (3 * e + r < 3 * NEE)%N.
  { apply: leq_trans (_ : (3 * e.+1 <= _)%N); first by rewrite mulnS addnC ltn_add2r. by rewrite leq_pmul2l. }
  rewrite /at2 /constraintRows (insubT (fun i => i < 3 * NEE)%N H1) (insubT (fun j => j < NDOF)%N Hj) mxE /=.
  have G : forall (l : seq nat) A, (forall e, e \in l -> eeInContact k e) ->
    foldl (fun A ee => if eeInContact k ee then set_block A (3 * ee) 0 3 NDOF (foot ee x) else A) A l (3 * e + r)%N j =
    (if e \in l then foot e x r j else A (3 * e + r)%N j).
  { elim=> [//|a l IH] A Hl /=. rewrite IH; last by move=> e' H; apply: Hl; rewrite inE H orbT.
    rewrite inE Hl ?inE ?eqxx //. rewrite orbC. case: (e \in l)=> //=. rewrite /set_block block_div // add0n Hj andbT.
    case: eqP=> [->|] //=. by rewrite addnC addnK subn0. }
  by rewrite G.
Qed.

(** * Gathering the rows of the feet in contact *)

Record reach (c : nat -> bool) (s : pd) : Prop := mkReach {
  r_in : ee_in_contact s = c;
  r_neec : neec (cs s) = size (feet c NEE);
  r_idx : ee_indices (cs s) = feet c NEE;
  r_eein : forall e, e \in feet c NEE -> eeInContact (cs s) e;
  r_zero : forall i j, (NDOF <= i)%N -> (NDOF <= j)%N -> MJTJ0 (ms s) i j = 0;
  r_sized : sized (ms s) = Some (size (feet c NEE)) }.

Lemma set_rows (A : mat) (v : mat) n p r j : (r < 3)%N -> (j < NDOF)%N -> (p <= n)%N ->
  set_block A (3 * n) 0 3 NDOF v (3 * p + r) j = if p == n then v r j else A (3 * p + r)%N j.
Proof.
  move=> Hr Hj Hp. rewrite /set_block block_div // add0n Hj andbT subn0. case: eqP=> [->|//] /=. by rewrite addnC addnK.
Qed.
Lemma set_rows1 (a : vec) (v : vec) n p r : (r < 3)%N -> (p <= n)%N ->
  set_segment a (3 * n) 3 v (3 * p + r) = if p == n then v r else a (3 * p + r)%N.
Proof. move=> Hr Hp. rewrite /set_segment block_div //. case: eqP=> [->|//] /=. by rewrite addnC addnK. Qed.

Notation gather1 s x := (gatherFoot footJ footdJ baseLocalAngularVelocity eeVelocityInBase s x).
Lemma gather_spec c (s : pd) x o Jr dJr cr : reach c s -> forall n, (n <= NEE)%N ->
  let g := foldl (gather1 s x) (mkGather 0 (updateState o x 1%:M) Jr dJr cr) (iota 0 n) in
  [/\ rowCount g = (3 * size (feet c n))%N,
      good (constraintRows NJOINTS NEE (cs s) footJ) (constraintRows NJOINTS NEE (cs s) footdJ) ldltSolveIdentity x 1%:M (g_jac g),
      forall p r j, (p < size (feet c n))%N -> (r < 3)%N -> (j < NDOF)%N ->
        g_J g (3 * p + r) j = footJ (nth 0%N (feet c n) p) x r j /\ g_dJ g (3 * p + r) j = footdJ (nth 0%N (feet c n) p) x r j &
      forall p r, (p < size (feet c n))%N -> (r < 3)%N ->
        g_cross g (3 * p + r) = cross (baseLocalAngularVelocity x) (eeVelocityInBase (nth 0%N (feet c n) p) x) r].
Proof.
  move=> R. elim=> [|n IH] Hn; first by [].
  have := IH (ltnW Hn). rewrite iota_foldl. move: (foldl _ _ _)=> g /= [h1 h2 h3 h4] {IH}.
  rewrite /gatherFoot (r_in R) feet_S. case E: (c n)=> //.
  have := J_good h2. case: (J _ (g_jac g))=> [Jv o1] /= [-> h2a].
  have := dJ_good h2a. case: (dJdt _ o1)=> [dJv o2] /= [-> h2b].
  have rows : forall (foot : nat -> state -> mat) r j, (r < 3)%N -> (j < NDOF)%N ->
    at2 (constraintRows NJOINTS NEE (cs s) foot x) (3 * n + r) j = foot n x r j.
  { move=> foot r j Hr Hj. rewrite rows_spec ?(r_idx R) ?feet_uniq //; first by rewrite mem_feet E Hn. exact: r_eein. }
  rewrite h1 size_rcons. split=> //; first by rewrite mulnSr.
  - move=> p r j Hp Hr Hj. rewrite !set_rows // nth_rcons. case: eqP=> [->|Np].
    + by rewrite ltnn !rows.
    + have Hp' : (p < size (feet c n))%N by move: Hp; rewrite ltnS leq_eqVlt=> /orP [/eqP|]. rewrite Hp'. exact: h3.
  - move=> p r Hp Hr. rewrite !set_rows1 // nth_rcons. case: eqP=> [->|Np].
    + by rewrite ltnn.
    + have Hp' : (p < size (feet c n))%N by move: Hp; rewrite ltnS leq_eqVlt=> /orP [/eqP|]. rewrite Hp'. exact: h4.
Qed.

(** * Reachable objects *)

Lemma reach_set c c' (s : pd) jm jv : reach c s \/ True -> reach c' (setContactConfiguration s c' jm jv).
Proof.
  move=> _. have /= [h1 h2 h3 h4] := reset_spec c' (cs s). rewrite /setContactConfiguration /setSizes.
  by split=> //=; case: ifP=> [/eqP E|_] //=; rewrite ?E h1.
Qed.
Lemma reach_forward c (s : pd) x u jm jv : reach c s -> reach c (forwardCommon s x u jm jv).
Proof.
  move=> R. rewrite /ProjectedForwardDynamicsCommon /=. move: (g_jac _) (g_J _) (g_dJ _) (g_cross _)=> o A B D.
  split=> /=; rewrite ?(r_in R) ?(r_neec R) ?(r_idx R) ?(r_sized R) //; first exact: r_eein R.
  move=> i j Hi Hj. rewrite /set_block !leq0n /= !add0n (ltnNge j) Hj (ltnNge i) Hi /= ?andbF [(j < NDOF)%N]ltnNge Hj andbF. exact: (r_zero R).
Qed.
Lemma reach_inverse c (s : pd) t x qdd : reach c s -> reach c (ProjectedInverseDynamicsCommon footJ ldltSolveIdentity pinv s t x qdd).2.
Proof. move=> R. rewrite /ProjectedInverseDynamicsCommon. case: (OpJacModel.P _ _ _)=> P o /=. by case: R; split. Qed.
Lemma reach_run c (s : pd) ops : reach c s -> reach (current c ops) (run s ops).
Proof.
  elim: ops c s=> [//|o ops IH] c s R. rewrite /run /current /=. case: o=> [c' jm jv|x u jm jv|x q u0|x q u0] /=; apply: IH.
  - apply: (@reach_set c). by right.
  - exact: reach_forward.
  - exact: reach_inverse.
  - exact: reach_inverse.
Qed.
Lemma reach_new c (s0 : pd) jm jv ops : reach (current c ops) (run (setContactConfiguration s0 c jm jv) ops).
Proof. apply: reach_run. apply: (@reach_set c). by right. Qed.

(** * The system of equations *)

Definition stackJ (c : nat -> bool) (foot : nat -> state -> mat) x : mat :=
  fun q i => foot (nth 0%N (feet c NEE) (q %/ 3)%N) x (q %% 3)%N i.
Lemma split3 q : q = (3 * (q %/ 3) + q %% 3)%N.
Proof. by rewrite mulnC -divn_eq. Qed.
Lemma ltn_div3 q n : (q < 3 * n)%N -> (q %/ 3 < n)%N.
Proof. by move=> H; rewrite ltn_divLR // mulnC. Qed.
Lemma ltn_mod3 q : (q %% 3 < 3)%N.
Proof. exact: ltn_pmod. Qed.
Lemma stack_sum (l : seq nat) (f : nat -> nat -> F) :
  \sum_(0 <= q < 3 * size l) f (nth 0%N l (q %/ 3)%N) (q %% 3)%N = \sum_(e <- l) \sum_(0 <= r < 3) f e r.
Proof.
  elim/last_ind: l=> [|l e IH]; first by rewrite big_nil muln0 big_geq.
  rewrite size_rcons mulnS addnC.
  rewrite (@big_cat_nat _ _ _ (3 * size l)) ?leq_addr //=. 
  have -> : \sum_(0 <= i < 3 * size l) f (nth 0%N (rcons l e) (i %/ 3)%N) (i %% 3)%N = \sum_(e <- l) \sum_(0 <= r < 3) f e r.
  { rewrite -IH. apply: eq_big_nat=> i /andP [_ Hi]. by rewrite nth_rcons ltn_div3. }
  rewrite -[X in _ = \sum_(e <- X) _]cats1 big_cat big_seq1 /=. congr (_ + _).
  rewrite -{1}[(3 * size l)%N]add0n [(3 * size l + 3)%N]addnC big_addn addnK. apply: eq_big_nat=> r /andP [_ Hr].
  rewrite addnC mulnC divnMDl // divn_small // addn0 nth_rcons ltnn eqxx modnMDl modn_small //.
Qed.
Lemma feet_sum c (f : nat -> F) : \sum_(e <- feet c NEE) f e = \sum_(0 <= e < NEE | c e) f e.
Proof. by rewrite /feet big_filter /index_iota subn0. Qed.
Lemma sum_shift n m (f : nat -> F) : \sum_(0 <= j < n + m) f j = \sum_(0 <= j < n) f j + \sum_(0 <= j < m) f (n + j)%N.
Proof.
  rewrite (@big_cat_nat _ _ _ n) ?leq_addr //=. congr (_ + _). rewrite -{1}[n]add0n [(n + m)%N]addnC big_addn addnK.
  by apply: eq_big_nat=> j _; rewrite addnC.
Qed.
Lemma sum_swap n m (f : nat -> nat -> F) : \sum_(0 <= i < n) \sum_(0 <= j < m) f i j = \sum_(0 <= j < m) \sum_(0 <= i < n) f i j.
Proof. exact: exchange_big. Qed.
Lemma sum_mull n (a : F) (f : nat -> F) : a * (\sum_(0 <= i < n) f i) = \sum_(0 <= i < n) a * f i.
Proof. exact: big_distrr. Qed.

Section System.
Variables (c : nat -> bool) (x : state).
Notation n := (3 * size (feet c NEE))%N.
Variables (A : mat) (M : mat).
Hypothesis A00 : forall i j, (i < NDOF)%N -> (j < NDOF)%N -> A i j = M i j.
Hypothesis A10 : forall q j, (q < n)%N -> (j < NDOF)%N -> A (NDOF + q)%N j = - stackJ c footJ x q j.
Hypothesis A01 : forall q j, (q < n)%N -> (j < NDOF)%N -> A j (NDOF + q)%N = - stackJ c footJ x q j.
Hypothesis A11 : forall q q', (q < n)%N -> (q' < n)%N -> A (NDOF + q)%N (NDOF + q')%N = 0.
Hypothesis HM : positive_definite NDOF M.
Hypothesis HS : symmetric_mat NDOF M.
Hypothesis HI : independent x c.

Lemma index_split N m i : (i < N + m)%N -> (i < N)%N \/ exists2 q, i = (N + q)%N & (q < m)%N.
Proof.
  move=> H. case: (ltnP i N)=> Hi; first by left. right. exists (i - N)%N; first by rewrite subnKC.
  by rewrite ltn_subLR.
Qed.
Lemma A_sym : symmetric_mat (NDOF + n) A.
Proof.
  move=> i j Hi Hj. case: (index_split Hi)=> [Hi'|[q -> Hq]]; case: (index_split Hj)=> [Hj'|[q' -> Hq']].
  - by rewrite !A00 // HS.
  - by rewrite A01 // A10.
  - by rewrite A10 // A01.
  - by rewrite !A11.
Qed.
(** Force distributions in the order of the rows. *)
Lemma stack_independent (l : vec) : (forall i, (i < NDOF)%N -> \sum_(0 <= q < n) stackJ c footJ x q i * l q = 0) ->
  forall q, (q < n)%N -> l q = 0.
Proof.
  move=> H. pose lam e r := l (3 * index e (feet c NEE) + r)%N.
  have El : forall q, (q < n)%N -> l q = lam (nth 0%N (feet c NEE) (q %/ 3)%N) (q %% 3)%N.
  { move=> q Hq. rewrite /lam index_uniq ?feet_uniq ?ltn_div3 //. by rewrite -split3. }
  have L : forall e r, (e < NEE)%N -> c e -> (r < 3)%N -> lam e r = 0.
  { apply: HI=> i Hi. rewrite -feet_sum -(stack_sum (feet c NEE) (fun e r => footJ e x r i * lam e r)) -[RHS](H i Hi).
    apply: eq_big_nat=> q /andP [_ Hq]. by rewrite El. }
  move=> q Hq. rewrite El //. have : nth 0%N (feet c NEE) (q %/ 3)%N \in feet c NEE by apply: mem_nth; exact: ltn_div3.
  rewrite mem_feet=> /andP [H1 H2]. apply: L=> //. exact: ltn_mod3.
Qed.
Lemma A_leading : leading_nonsingular (NDOF + n) A.
Proof.
  move=> k v Hk Hv. case: (leqP k NDOF)=> Hk'.
  - have HL := posdef_leading HM. move=> i Hi. apply: (HL k v Hk')=> // i' Hi'. rewrite -[RHS](Hv i' Hi').
    apply: eq_big_nat=> j /andP [_ Hj]. by rewrite A00 //; exact: leq_trans Hk'.
  - have [r Ek Hr] : exists2 r, k = (NDOF + r)%N & (r <= n)%N.
    { exists (k - NDOF)%N; first by rewrite subnKC // ltnW. by rewrite leq_subLR. }
    subst k. pose l q := if (q < r)%N then v (NDOF + q)%N else 0.
    have El : forall f : vec, \sum_(0 <= q < n) f q * l q = \sum_(0 <= q < r) f q * v (NDOF + q)%N.
    { move=> f. rewrite (@big_cat_nat _ _ _ r) //= [X in _ + X]big1_seq ?addr0; last first.
      - move=> q /=. rewrite mem_index_iota=> /andP [Hq _]. by rewrite /l ltnNge Hq mulr0.
      - apply: eq_big_nat=> q /andP [_ Hq]. by rewrite /l Hq. }
    have E1 : forall i, (i < NDOF)%N -> \sum_(0 <= j < NDOF) M i j * v j = \sum_(0 <= q < n) stackJ c footJ x q i * l q.
    { move=> i Hi. have := Hv i (leq_trans Hi (leq_addr _ _)). rewrite sum_shift El=> /eqP. rewrite addr_eq0=> /eqP E.
      have -> : \sum_(0 <= j < NDOF) M i j * v j = \sum_(0 <= j < NDOF) A i j * v j by apply: eq_big_nat=> j /andP [_ Hj]; rewrite A00.
      rewrite E -sumrN. apply: eq_big_nat=> q /andP [_ Hq]. by rewrite A01 ?mulNr ?opprK //; exact: leq_trans Hr. }
    have E2 : forall q, (q < r)%N -> \sum_(0 <= j < NDOF) stackJ c footJ x q j * v j = 0.
    { move=> q Hq. have Hq' : (q < n)%N by exact: leq_trans Hr. have := Hv (NDOF + q)%N. rewrite ltn_add2l=> /(_ Hq). rewrite sum_shift.
      rewrite [X in _ + X]big1_seq ?addr0.
      - move=> E. apply/eqP. rewrite -oppr_eq0 -sumrN -[X in _ == X]E. apply/eqP. apply: eq_big_nat=> j /andP [_ Hj]. by rewrite A10 // mulNr.
      - move=> q' /=. rewrite mem_index_iota=> /andP [_ Hq2]. by rewrite A11 ?mul0r //; exact: leq_trans Hr. }
    have Z : \sum_(0 <= i < NDOF) v i * (\sum_(0 <= j < NDOF) M i j * v j) = 0.
    { have -> : \sum_(0 <= i < NDOF) v i * (\sum_(0 <= j < NDOF) M i j * v j) =
                \sum_(0 <= i < NDOF) \sum_(0 <= q < n) (v i * (stackJ c footJ x q i * l q)).
      { apply: eq_big_nat=> i /andP [_ Hi]. by rewrite E1 // sum_mull. }
      rewrite sum_swap. apply: big1_seq=> q /=. rewrite mem_index_iota=> /andP [_ Hq].
      case: (ltnP q r)=> Hqr.
      - have -> : \sum_(0 <= i < NDOF) v i * (stackJ c footJ x q i * l q) = l q * (\sum_(0 <= i < NDOF) stackJ c footJ x q i * v i).
        { rewrite sum_mull. apply: eq_big_nat=> i _. by rewrite mulrCA [v i * _]mulrC mulrCA. }
        by rewrite E2 // mulr0.
      - apply: big1_seq=> i _. by rewrite /l ltnNge Hqr !mulr0. }
    have V : forall i, (i < NDOF)%N -> v i = 0.
    { move=> i Hi. apply/eqP. case: (boolP (v i == 0))=> // Ni. have := HM (ex_intro2 _ _ i Hi Ni). by rewrite Z ltxx. }
    have LZ : forall q, (q < n)%N -> l q = 0.
    { apply: stack_independent=> i Hi. rewrite -E1 //. apply: big1_seq=> j /=. rewrite mem_index_iota=> /andP [_ Hj]. by rewrite V // mulr0. }
    move=> i Hi. case: (index_split Hi)=> [|[q -> Hq]]; first exact: V.
    have := LZ q (leq_trans Hq Hr). by rewrite /l Hq.
Qed.
End System.

Lemma block_in (A : mat) r k h w v i j : (r <= i < r + h)%N -> (k <= j < k + w)%N -> set_block A r k h w v i j = v (i - r)%N (j - k)%N.
Proof. by rewrite /set_block=> -> ->. Qed.
Lemma block_out (A : mat) r k h w v i j : ~~ ((r <= i < r + h)%N && (k <= j < k + w)%N) -> set_block A r k h w v i j = A i j.
Proof. by rewrite /set_block=> /negbTE ->. Qed.

(** Solutions of the stacked system and solutions of the equations of motion. *)
Section Stacked.
Variables (c : nat -> bool) (x : state) (u : vec) (A : mat) (b : vec).
Notation n := (3 * size (feet c NEE))%N.
Hypothesis A00 : forall i j, (i < NDOF)%N -> (j < NDOF)%N -> A i j = jSim x i j.
Hypothesis A10 : forall q j, (q < n)%N -> (j < NDOF)%N -> A (NDOF + q)%N j = - stackJ c footJ x q j.
Hypothesis A01 : forall q j, (q < n)%N -> (j < NDOF)%N -> A j (NDOF + q)%N = - stackJ c footJ x q j.
Hypothesis A11 : forall q q', (q < n)%N -> (q' < n)%N -> A (NDOF + q)%N (NDOF + q')%N = 0.
Hypothesis b0 : forall i, (i < NDOF)%N -> b i = (if (i < 6)%N then 0 else u (i - 6)%N) - gravity_and_velocity x i.
Hypothesis b1 : forall q, (q < n)%N -> b (NDOF + q)%N =
  \sum_(0 <= j < NDOF) stackJ c footdJ x q j * coordinateVelocity x j +
  cross (baseLocalAngularVelocity x) (eeVelocityInBase (nth 0%N (feet c NEE) (q %/ 3)%N) x) (q %% 3)%N.
Definition lamOf (X : vec) : nat -> vec := fun e r => X (NDOF + (3 * index e (feet c NEE) + r))%N.
Lemma lamOf_sum (X : vec) i :
  \sum_(0 <= e < NEE | c e) \sum_(0 <= r < 3) footJ e x r i * lamOf X e r = \sum_(0 <= q < n) stackJ c footJ x q i * X (NDOF + q)%N.
Proof.
  rewrite -feet_sum -(stack_sum (feet c NEE) (fun e r => footJ e x r i * lamOf X e r)).
  apply: eq_big_nat=> q /andP [_ Hq]. by rewrite /lamOf index_uniq ?feet_uniq ?ltn_div3 // -split3.
Qed.
Lemma stacked_iff (X : vec) :
  (forall i, (i < NDOF + n)%N -> \sum_(0 <= k < NDOF + n) A i k * X k = b i) <->
  balance gravity_and_velocity x c u X (lamOf X) /\ feet_rest x c X.
Proof.
  have R0 : forall i, (i < NDOF)%N -> \sum_(0 <= k < NDOF + n) A i k * X k =
              \sum_(0 <= j < NDOF) jSim x i j * X j - \sum_(0 <= q < n) stackJ c footJ x q i * X (NDOF + q)%N.
  { move=> i Hi. rewrite sum_shift -sumrN. congr (_ + _); apply: eq_big_nat=> j /andP [_ Hj]; first by rewrite A00.
    by rewrite A01 // mulNr. }
  have R1 : forall q, (q < n)%N -> \sum_(0 <= k < NDOF + n) A (NDOF + q)%N k * X k = - \sum_(0 <= j < NDOF) stackJ c footJ x q j * X j.
  { move=> q Hq. rewrite sum_shift -sumrN [X in _ + X]big1_seq ?addr0.
    - apply: eq_big_nat=> j /andP [_ Hj]. by rewrite A10 // mulNr.
    - move=> q' /=. rewrite mem_index_iota=> /andP [_ Hq']. by rewrite A11 // mul0r. }
  split=> [H|[HB HR] i Hi].
  - split.
    + move=> i Hi. have := H i (leq_trans Hi (leq_addr _ _)). rewrite R0 // b0 // lamOf_sum => /eqP.
      rewrite subr_eq -addrA [- _ + _]addrC addrA -[X in _ == X]/(_ - _) eq_sym subr_eq=> /eqP <-. by [].
    + move=> e r He Hc Hr. pose q := (3 * index e (feet c NEE) + r)%N.
      have He' : e \in feet c NEE by rewrite mem_feet Hc.
      have Hi : (index e (feet c NEE) < size (feet c NEE))%N by rewrite index_mem.
      have Hq : (q < n)%N.
      { rewrite /q. apply: leq_trans (_ : (3 * (index e (feet c NEE)).+1 <= _)%N); first by rewrite mulnS addnC ltn_add2r. by rewrite leq_pmul2l. }
      have Dq : (q %/ 3)%N = index e (feet c NEE) by rewrite /q mulnC divnMDl // divn_small // addn0.
      have Mq : (q %% 3)%N = r by rewrite /q mulnC modnMDl modn_small.
      have := H (NDOF + q)%N. rewrite ltn_add2l=> /(_ Hq). rewrite R1 // b1 // /stackJ Dq Mq nth_index //.
      move/eqP. rewrite eq_sym -addr_eq0 => /eqP E. by rewrite -addrA addrC.
  - case: (index_split Hi)=> [Hi'|[q -> Hq]].
    + rewrite R0 // b0 // -lamOf_sum. have := HB i Hi'. move/eqP. rewrite -subr_eq=> /eqP <-. by rewrite addrAC addrK.
    + rewrite R1 // b1 //. have : nth 0%N (feet c NEE) (q %/ 3)%N \in feet c NEE by apply: mem_nth; exact: ltn_div3.
      rewrite mem_feet=> /andP [H1 H2]. have := HR _ _ H2 H1 (ltn_mod3 q). rewrite -addrA=> /eqP. rewrite addr_eq0=> /eqP E.
      apply/eqP. rewrite eqr_oppLR. apply/eqP. exact: E.
Qed.
End Stacked.

Lemma forces_spec c (s : pd) lam0 e r : reach c s -> (e < NEE)%N ->
  getContactForcesInBase s lam0 e r = if c e then lamOf c (qddlambda (ms s)) e r else 0.
Proof.
  move=> R. rewrite /getContactForcesInBase /lamOf (r_in R). move: NEE (ms s)=> N m. 
  have : forall k, 
    let p := foldl (fun (p : nat * (nat -> vec)) ee =>
            if c ee
            then ((p.1 + 3)%N, fun e => if e == ee then (fun r => qddlambda m (NDOF + p.1 + r)%N) else p.2 e)
            else (p.1, fun e => if e == ee then (fun _ => 0) else p.2 e)) (0%N, lam0) (iota 0 k) in
    p.1 = (3 * size (feet c k))%N /\
    forall e, (e < k)%N -> p.2 e r = if c e then qddlambda m (NDOF + (3 * index e (feet c k) + r))%N else 0; last by move=> H He; case: (H N)=> _ H2; exact: H2.
  elim=> [//|k]. rewrite iota_foldl. move: (foldl _ _ _)=> p /= [h1 h2]. rewrite feet_S. case E: (c k)=> /=.
  - rewrite h1 size_rcons. split; first by rewrite mulnSr. move=> e' He'. case: eqP=> [->|Ne].
    + rewrite E -cats1 index_cat mem_feet ltnn andbF /= eqxx addn0 addnA //.
    + have He2 : (e' < k)%N by move: He'; rewrite ltnS leq_eqVlt=> /orP [/eqP|]. rewrite h2 //. case E' : (c e')=> //.
      by rewrite -cats1 index_cat mem_feet E' He2.
  - split=> // e' He'. case: eqP=> [->|Ne]; first by rewrite E.
    have He2 : (e' < k)%N by move: He'; rewrite ltnS leq_eqVlt=> /orP [/eqP|]. exact: h2.
Qed.

(** * Forward dynamics *)

Definition same_on (n : nat) (a b : vec) : Prop := forall i, (i < n)%N -> a i = b i.
Lemma balance_ext h x (c : nat -> bool) u u' a a' (lam lam' : nat -> vec) : same_on NJOINTS u u' -> same_on NDOF a a' ->
  (forall e r, (e < NEE)%N -> c e -> (r < 3)%N -> lam e r = lam' e r) -> balance h x c u a lam -> balance h x c u' a' lam'.
Proof.
  move=> Hu Ha Hl H i Hi. have -> : \sum_(0 <= j < NDOF) jSim x i j * a' j = \sum_(0 <= j < NDOF) jSim x i j * a j.
  { apply: eq_big_nat=> j /andP [_ Hj]. by rewrite Ha. }
  have -> : \sum_(0 <= e < NEE | c e) \sum_(0 <= r < 3) footJ e x r i * lam' e r = \sum_(0 <= e < NEE | c e) \sum_(0 <= r < 3) footJ e x r i * lam e r.
  { rewrite big_nat_cond [RHS]big_nat_cond. apply: eq_bigr=> e /andP [/andP [_ He] Hc]. apply: eq_big_nat=> r /andP [_ Hr]. by rewrite Hl. }
  rewrite H //. congr (_ + _). case: ltnP=> // H6. apply: Hu. by rewrite ltn_subLR.
Qed.
Lemma rest_ext x c a a' : same_on NDOF a a' -> feet_rest x c a -> feet_rest x c a'.
Proof.
  move=> Ha H e r He Hc Hr. rewrite -[RHS](H e r He Hc Hr). congr (_ + _ + _). apply: eq_big_nat=> j /andP [_ Hj]. by rewrite Ha.
Qed.

Section Forward.
Variables (c : nat -> bool) (s : pd) (x : state).
Hypothesis R : reach c s.
Hypothesis HS : symmetric_mat NDOF (jSim x).
Hypothesis HM : positive_definite NDOF (jSim x).
Hypothesis HI : independent x c.
Lemma forward_ok u jm jv : let s' := forwardCommon s x u jm jv in let a := qddlambda (ms s') in
  balance gravity_and_velocity x c u a (lamOf c a) /\ feet_rest x c a /\
  forall a' lam', balance gravity_and_velocity x c u a' lam' -> feet_rest x c a' ->
    same_on NDOF a' a /\ forall e r, (e < NEE)%N -> c e -> (r < 3)%N -> lam' e r = lamOf c a e r.
Proof.
  rewrite /ProjectedForwardDynamicsCommon /= (r_neec R).
  have := gather_spec x (jac s) (Jc_reduced (ms s)) (dJcdt_reduced (ms s)) (feet_crossproduct (ms s)) R (leqnn NEE).
  move: (foldl _ _ _)=> g /= [_ _ hJ hc].
  set n := (3 * size (feet c NEE))%N.
  have gJ : forall q j, (q < n)%N -> (j < NDOF)%N -> g_J g q j = stackJ c footJ x q j.
  { move=> q j Hq Hj. rewrite {1}(split3 q). by case: (hJ (q %/ 3)%N (q %% 3)%N j (ltn_div3 Hq) (ltn_mod3 q) Hj). }
  have gdJ : forall q j, (q < n)%N -> (j < NDOF)%N -> g_dJ g q j = stackJ c footdJ x q j.
  { move=> q j Hq Hj. rewrite {1}(split3 q). by case: (hJ (q %/ 3)%N (q %% 3)%N j (ltn_div3 Hq) (ltn_mod3 q) Hj). }
  set b := set_segment _ NDOF n _. set A := set_block _ 0 NDOF NDOF n _.
  have A00 : forall i j, (i < NDOF)%N -> (j < NDOF)%N -> A i j = jSim x i j.
  { move=> i j Hi Hj. rewrite /A block_out; last by rewrite (leqNgt NDOF j) Hj /= andbF.
    rewrite block_out; last by rewrite (leqNgt NDOF i) Hi. by rewrite block_in ?add0n ?subn0. }
  have A10 : forall q j, (q < n)%N -> (j < NDOF)%N -> A (NDOF + q)%N j = - stackJ c footJ x q j.
  { move=> q j Hq Hj. rewrite /A block_out; last by rewrite (leqNgt NDOF j) Hj /= andbF.
    by rewrite block_in ?leq_addr ?ltn_add2l ?add0n // addKn subn0 gJ. }
  have A01 : forall q j, (q < n)%N -> (j < NDOF)%N -> A j (NDOF + q)%N = - stackJ c footJ x q j.
  { move=> q j Hq Hj. by rewrite /A block_in ?leq_addr ?ltn_add2l ?add0n // addKn subn0 gJ. }
  have A11 : forall q q', (q < n)%N -> (q' < n)%N -> A (NDOF + q)%N (NDOF + q')%N = 0.
  { move=> q q' Hq Hq'. have N1 : forall k, ((NDOF + k < NDOF)%N = false) by move=> k; rewrite ltnNge leq_addr.
    rewrite /A block_out; last by rewrite add0n N1. rewrite block_out; last by rewrite add0n N1 !andbF.
    rewrite block_out; last by rewrite add0n N1. by rewrite (r_zero R) ?leq_addr. }
  have b0 : forall i, (i < NDOF)%N -> b i = (if (i < 6)%N then 0 else u (i - 6)%N) - gravity_and_velocity x i.
  { move=> i Hi. by rewrite /b /set_segment (leqNgt NDOF i) Hi /= ?subn0. }
  have b1 : forall q, (q < n)%N -> b (NDOF + q)%N =
    \sum_(0 <= j < NDOF) stackJ c footdJ x q j * coordinateVelocity x j +
    cross (baseLocalAngularVelocity x) (eeVelocityInBase (nth 0%N (feet c NEE) (q %/ 3)%N) x) (q %% 3)%N.
  { move=> q Hq. rewrite /b /set_segment leq_addr ltn_add2l Hq /= addKn. congr (_ + _).
    - apply: eq_big_nat=> j /andP [_ Hj]. by rewrite gdJ.
    - rewrite {1}(split3 q). apply: hc; [exact: ltn_div3|exact: ltn_mod3]. }
  have LN := A_leading A00 A10 A01 A11 HM HI.
  have SO := C08_ldlt_solves (m := 1) (fun i _ => b i) jv jv jm (A_sym A00 A10 A01 A11 HS) LN.
  set X := LDLTsolve _ _ _ _ _ _ _ in SO *.
  have SX : forall i, (i < NDOF + n)%N -> \sum_(0 <= k < NDOF + n) A i k * X k 0%N = b i by move=> i Hi; exact: SO.
  have [HB HR] := (stacked_iff A00 A10 A01 A11 b0 b1 (fun k => X k 0%N)).1 SX.
  split; [exact: HB|split; [exact: HR|]].
  move=> a' lam' HB' HR'.
  pose X' k := if (k < NDOF)%N then a' k else lam' (nth 0%N (feet c NEE) ((k - NDOF) %/ 3)%N) ((k - NDOF) %% 3)%N.
  have La : same_on NDOF a' X' by move=> i Hi; rewrite /X' Hi.
  have Ll : forall e r, (e < NEE)%N -> c e -> (r < 3)%N -> lam' e r = lamOf c X' e r.
  { move=> e r He Hc Hr. rewrite /lamOf /X' ltnNge leq_addr /= addKn mulnC divnMDl // divn_small // addn0 modnMDl modn_small //.
    by rewrite nth_index // mem_feet Hc. }
  have SX' := (stacked_iff A00 A10 A01 A11 b0 b1 X').2 (conj (balance_ext (fun _ _ => erefl) La Ll HB') (rest_ext La HR')).
  have D : forall k, (k < NDOF + n)%N -> X' k - X k 0%N = 0.
  { apply: (LN (NDOF + n)%N (fun k => X' k - X k 0%N) (leqnn _))=> i Hi.
    have -> : \sum_(0 <= j < NDOF + n) A i j * (X' j - X j 0%N) =
              \sum_(0 <= j < NDOF + n) A i j * X' j - \sum_(0 <= j < NDOF + n) A i j * X j 0%N.
    { rewrite -sumrB. apply: eq_bigr=> j _. exact: mulrBr. }
    by rewrite SX' // SX // subrr. }
  split.
  - move=> i Hi. rewrite La //. apply/eqP. rewrite -subr_eq0 D //. exact: leq_trans Hi (leq_addr _ _).
  - move=> e r He Hc Hr. rewrite Ll //. rewrite /lamOf. apply/eqP. rewrite -subr_eq0 D // ltn_add2l.
    have Hi : (index e (feet c NEE) < size (feet c NEE))%N by rewrite index_mem mem_feet Hc.
    apply: leq_trans (_ : (3 * (index e (feet c NEE)).+1 <= _)%N); first by rewrite mulnS addnC ltn_add2r. by rewrite leq_pmul2l.
Qed.
End Forward.

(** Whatever was done with the object before: forward dynamics finds the one motion with which the feet in contact rest and the
    equations of motion hold; the reported contact forces are those of that motion, and zero for feet in the air. *)
Theorem C71_forward (c0 : nat -> bool) (s0 : pd) jm0 jv0 (ops : seq op) (x : state) (u : vec) jm jv (lam0 : nat -> vec) :
  let s := run (setContactConfiguration s0 c0 jm0 jv0) ops in
  let c := current c0 ops in
  symmetric_mat NDOF (jSim x) -> positive_definite NDOF (jSim x) -> independent x c ->
  let (a, s') := forward s x u jm jv in
  let lam := getContactForcesInBase s' lam0 in
  [/\ balance gravity_and_velocity x c u a lam, feet_rest x c a,
      forall e r, (e < NEE)%N -> ~~ c e -> lam e r = 0 &
      forall a' lam', balance gravity_and_velocity x c u a' lam' -> feet_rest x c a' ->
        same_on NDOF a' a /\ forall e r, (e < NEE)%N -> c e -> (r < 3)%N -> lam' e r = lam e r].
Proof.
  move=> s c HS HM HI. have R : reach c s by exact: reach_new. rewrite /ProjectedForwardDynamics.
  have R' := reach_forward x u jm jv R. have [H1 [H2 H3]] := forward_ok R HS HM HI u jm jv.
  move: (forwardCommon s x u jm jv) R' H1 H2 H3=> s' R' H1 H2 H3 /=. split=> //.
  - apply: balance_ext H1=> // e r He Hc Hr. by rewrite (forces_spec lam0 r R' He) Hc.
  - move=> e r He Hc. by rewrite (forces_spec lam0 r R' He) (negbTE Hc).
  - move=> a' lam' HB HR. have [G1 G2] := H3 a' lam' HB HR. split=> // e r He Hc Hr. by rewrite (forces_spec lam0 r R' He) Hc G2.
Qed.

(** Every access stays within the matrices: after any history they are sized for exactly the feet now in contact (three rows
    per foot), and so they are after the solve itself. *)
Theorem C71_sizes (c0 : nat -> bool) (s0 : pd) jm0 jv0 (ops : seq op) (x : state) (u : vec) jm jv :
  let s := run (setContactConfiguration s0 c0 jm0 jv0) ops in
  let contacts := size [seq e <- iota 0 NEE | current c0 ops e] in
  [/\ sized (ms s) = Some contacts, neec (cs s) = contacts & sized (ms (forward s x u jm jv).2) = Some contacts].
Proof.
  move=> s n. have R : reach (current c0 ops) s by exact: reach_new.
  have R2 := reach_forward x u jm jv R. split; [exact: r_sized R|exact: r_neec R|exact: r_sized R2].
Qed.

(** * Inverse dynamics *)

Lemma at2_ord m n (A : 'M[F]_(m, n)) (i : 'I_m) (j : 'I_n) : at2 A i j = A i j.
Proof. by rewrite /at2 !valK. Qed.
Lemma balance_mx c (s : pd) h x u a lam : reach c s ->
  balance h x c u a lam <->
  (\matrix_(i < NDOF, j < NDOF) jSim x i j) *m (\col_i a i) + \col_i h x i =
  St F NJOINTS *m (\col_i u i) + (constraintRows NJOINTS NEE (cs s) footJ x)^T *m \col_i lam (i %/ 3)%N (i %% 3)%N.
Proof.
  move=> R. set Jm := constraintRows _ _ _ _ _.
  have EJ : forall i : 'I_NDOF, \sum_(q < 3 * NEE) Jm q i * lam (q %/ 3)%N (q %% 3)%N =
              \sum_(0 <= e < NEE | c e) \sum_(0 <= r < 3) footJ e x r i * lam e r.
  { move=> i. pose f e r := (if c e then footJ e x r i else 0) * lam e r.
    have -> : \sum_(q < 3 * NEE) Jm q i * lam (q %/ 3)%N (q %% 3)%N = \sum_(0 <= q < 3 * NEE) f (q %/ 3)%N (q %% 3)%N.
    { rewrite big_mkord. apply: eq_bigr=> q _. rewrite /f. congr (_ * _). rewrite -at2_ord {1}(split3 q) /Jm.
      have Hq : (q %/ 3 < NEE)%N by exact: ltn_div3.
      rewrite rows_spec ?(r_idx R) ?feet_uniq ?ltn_mod3 //; first by rewrite mem_feet Hq andbT. exact: r_eein R. }
    have -> : \sum_(0 <= q < 3 * NEE) f (q %/ 3)%N (q %% 3)%N = \sum_(e <- iota 0 NEE) \sum_(0 <= r < 3) f e r.
    { rewrite -stack_sum size_iota. apply: eq_big_nat=> q /andP [_ Hq]. by rewrite nth_iota ?ltn_div3. }
    rewrite [RHS]big_mkcond [X in _ = \sum_(_ <- X) _]/index_iota subn0. apply: eq_bigr=> e _. case E: (c e); first by apply: eq_bigr=> r _; rewrite /f E.
    by apply: big1=> r _; rewrite /f E mul0r. }
  have EM : forall i : 'I_NDOF, \sum_(j < NDOF) jSim x i j * a j = \sum_(0 <= j < NDOF) jSim x i j * a j by move=> i; rewrite big_mkord.
  have ES : forall i : 'I_NDOF, \sum_(j < NJOINTS) (if (i < 6)%N then 0 else ((i - 6)%N == j)%:R) * u j = if (i < 6)%N then 0 else u (i - 6)%N.
  { move=> i. case: ltnP=> H6; first by apply: big1=> j _; rewrite mul0r.
    have Hi : (i - 6 < NJOINTS)%N by rewrite ltn_subLR.
    rewrite (bigD1 (Ordinal Hi)) //= eqxx mul1r big1 ?addr0 // => j Nj. rewrite (_ : (i - 6 == j)%N = false) ?mul0r //.
    apply/negbTE. apply: contra Nj=> /eqP E. by apply/eqP/val_inj. }
  have EL : forall (i : 'I_NDOF) k, ((\matrix_(i < NDOF, j < NDOF) jSim x i j) *m (\col_i a i) + \col_i h x i) i k =
              \sum_(0 <= j < NDOF) jSim x i j * a j + h x i.
  { move=> i k. rewrite !mxE -EM. congr (_ + _). by apply: eq_bigr=> j _; rewrite !mxE. }
  have ER : forall (i : 'I_NDOF) k, (St F NJOINTS *m (\col_i u i) + Jm^T *m \col_i lam (i %/ 3)%N (i %% 3)%N) i k =
              (if (i < 6)%N then 0 else u (i - 6)%N) + \sum_(0 <= e < NEE | c e) \sum_(0 <= r < 3) footJ e x r i * lam e r.
  { move=> i k. rewrite !mxE -EJ -ES. congr (_ + _); by apply: eq_bigr=> j _; rewrite !mxE. }
  split=> [H|H].
  - apply/matrixP=> i k. rewrite EL ER. exact: H.
  - move=> i Hi. have := congr1 (fun A : 'M_(NDOF, 1) => A (Ordinal Hi) 0) H. by rewrite EL ER.
Qed.

Section Inverse.
Hypothesis Hldlt : ldlt_ok ldltSolveIdentity.
Hypothesis Hpinv : forall A, A *m pinv A *m A = A.
Lemma inverse_ok c (s : pd) h t x a u' lam' : reach c s -> M_ t = jSim x -> h_ t = h x -> balance h x c u' a lam' ->
  exists lam, balance h x c (ProjectedInverseDynamicsCommon footJ ldltSolveIdentity pinv s t x a).1 a lam.
Proof.
  move=> R EM Eh HB. have H := (balance_mx h x u' a lam' R).1 HB. rewrite /ProjectedInverseDynamicsCommon EM Eh.
  set Jm := constraintRows NJOINTS NEE (cs s) footJ x in H.
  have G0 : good (constraintRows NJOINTS NEE (cs s) footJ) (constraintRows NJOINTS NEE (cs s) footJ) ldltSolveIdentity x 1%:M
              (updateState (jac s) x 1%:M) by [].
  have := P_good G0. case: (OpJacModel.P _ _ _)=> P o /= [EP _]. rewrite -/Jm in EP.
  have S1 : symmetric (1%:M : 'M[F]_NDOF) by rewrite /symmetric trmx1.
  have P1 : posdef (1%:M : 'M[F]_NDOF).
  { move=> v Hv. rewrite mul1mx lt_neqAle dot_ge0 andbT eq_sym. apply/eqP=> E. by rewrite (dot_eq0 E) eqxx in Hv. }
  have [_ _ _ PJ _] := C70_projector Hldlt Jm S1 P1. rewrite -EP mul1mx in PJ.
  set z := _ + _. set U := pinv (P *m St F NJOINTS) *m P *m z.
  have Ez : P *m z = P *m St F NJOINTS *m \col_i u' i by rewrite /z H mulmxDr !mulmxA PJ mul0mx addr0.
  have EU : P *m (St F NJOINTS *m U) = P *m z.
  { rewrite mulmxA /U -[X in _ *m X]mulmxA Ez. move: (P *m St F NJOINTS)=> B. by rewrite 2!mulmxA Hpinv. }
  pose y := z - St F NJOINTS *m U.
  pose L := ldltSolveIdentity (Jm *m 1%:M *m Jm^T) *m Jm *m y.
  have Ey : y = Jm^T *m L.
  { have PY : P *m y = 0 by rewrite /y mulmxBr EU subrr. rewrite EP /projector /rightInverse mul1mx mulmxBl mul1mx in PY.
    move/eqP: PY. rewrite subr_eq0=> /eqP {1}->. by rewrite /L !mulmxA. }
  exists (fun e r => at2 L (3 * e + r) 0%N). apply/(balance_mx _ _ _ _ _ R). rewrite -/Jm -/z.
  have -> : \col_i at2 U i 0%N = U.
  { apply/matrixP=> i k. rewrite mxE (ord1 k). exact: (at2_ord U i ord0). }
  have -> : \col_i at2 L (3 * (i %/ 3) + i %% 3)%N 0%N = L.
  { apply/matrixP=> i k. rewrite mxE (ord1 k) -split3. exact: (at2_ord L i ord0). }
  by rewrite -Ey /y addrC subrK.
Qed.

(** Inverse dynamics of an acceleration some torques can produce returns torques that produce it, with and without gravity. *)
Theorem C71_inverse (c0 : nat -> bool) (s0 : pd) jm0 jv0 (ops : seq op) (x : state) (a u0 : vec) :
  let s := run (setContactConfiguration s0 c0 jm0 jv0) ops in
  let c := current c0 ops in
  ((exists u' lam', balance gravity_and_velocity x c u' a lam') -> exists lam, balance gravity_and_velocity x c (inverse s x a u0).1 a lam) /\
  ((exists u' lam', balance C_terms x c u' a lam') -> exists lam, balance C_terms x c (inverseNoGravity s x a u0).1 a lam).
Proof.
  move=> s c. have R : reach c s by exact: reach_new.
  split=> [[u' [lam' H]]|[u' [lam' H]]]; exact: (inverse_ok R _ _ H).
Qed.

(** Forward dynamics with the torques of inverse dynamics gives the acceleration back. *)
Theorem C71_inverse_forward (c0 : nat -> bool) (s0 : pd) jm0 jv0 (ops : seq op) (x : state) (a u0 u' : vec) lam' jm jv :
  let s := run (setContactConfiguration s0 c0 jm0 jv0) ops in
  let c := current c0 ops in
  symmetric_mat NDOF (jSim x) -> positive_definite NDOF (jSim x) -> independent x c ->
  balance gravity_and_velocity x c u' a lam' -> feet_rest x c a ->
  let (u, s1) := inverse s x a u0 in same_on NDOF a (forward s1 x u jm jv).1.
Proof.
  move=> s c HS HM HI HB HR. have R : reach c s by exact: reach_new.
  have [lam HB'] : exists lam, balance gravity_and_velocity x c (inverse s x a u0).1 a lam by exact: (inverse_ok R _ _ HB).
  have R1 : reach c (inverse s x a u0).2 by exact: reach_inverse.
  case: (inverse s x a u0) HB' R1=> u s1 /= HB' R1.
  have [_ [_ H3]] := forward_ok R1 HS HM HI u jm jv. by have [] := H3 a lam HB' HR.
Qed.
End Inverse.
End Proj.

(** * A body of unit inertia under gravity with two feet, and any number of unit joints *)

Section Body.
Variables (F : realFieldType) (NJOINTS : nat).
Notation mat := (nat -> nat -> F).
Notation vec := (nat -> F).
Notation NDOF := (6 + NJOINTS)%N.
Definition bodyM (x : unit) : mat := fun i j => (i == j)%:R.
Definition bodyC (x : unit) : vec := fun _ => 0.
Definition bodyG (x : unit) : vec := fun i => (i == 5)%N%:R.
(** Foot 0 holds the position, foot 1 the orientation. *)
Definition bodyJ (e : nat) (x : unit) : mat := fun r j => (j == (if e == 0%N then 3 + r else r)%N)%:R.
Definition bodydJ (e : nat) (x : unit) : mat := fun _ _ => 0.
Definition bodyV (x : unit) : vec := fun _ => 0.
Definition bodyE (e : nat) (x : unit) : vec := fun _ => 0.
Definition only (k : nat) : nat -> bool := fun e => e == k.
Definition bodyForward (s : pd F NJOINTS 2 unit) (u : vec) jm jv : pd F NJOINTS 2 unit :=
  ProjectedForwardDynamicsCommon bodyM bodyC bodyG bodyJ bodydJ bodyV bodyV bodyE s tt u jm jv.

Lemma sum_delta1 n i (f : vec) : (i < n)%N -> \sum_(0 <= j < n) (i == j)%:R * f j = f i.
Proof. move=> H. rewrite -[RHS](sum_delta f H). by apply: eq_bigr=> j _; rewrite mulrC eq_sym. Qed.
Lemma sum3 (f : vec) : \sum_(0 <= r < 3) f r = f 0%N + f 1%N + f 2%N.
Proof. by rewrite /index_iota /= !big_cons big_nil addr0 addrA. Qed.
Lemma lt3 r : (r < 3)%N -> [\/ r = 0%N, r = 1%N | r = 2%N].
Proof. by case: r=> [|[|[|r]]] //; [constructor 1|constructor 2|constructor 3]. Qed.
Lemma bodyM_sym : symmetric_mat NDOF (bodyM tt).
Proof. by move=> i j _ _; rewrite /bodyM eq_sym. Qed.
Lemma bodyM_pd : positive_definite NDOF (bodyM tt).
Proof.
  move=> v [i Hi Ni].
  have -> : \sum_(0 <= i < NDOF) v i * (\sum_(0 <= j < NDOF) bodyM tt i j * v j) = \sum_(0 <= i < NDOF) v i ^+ 2.
  { apply: eq_big_nat=> k /andP [_ Hk]. by rewrite sum_delta1. }
  rewrite (bigD1_seq i) ?mem_index_iota ?iota_uniq //=. apply: ltr_paddr; first by apply: sumr_ge0=> k _; exact: sqr_ge0.
  by rewrite lt_neqAle sqr_ge0 andbT eq_sym sqrf_eq0.
Qed.
Lemma body_independent (c : nat -> bool) : independent NJOINTS 2 bodyJ tt c.
Proof.
  move=> lam H.
  have K : forall i, (i < 6)%N -> (if c 0%N then bodyJ 0 tt 0%N i * lam 0%N 0%N + bodyJ 0 tt 1%N i * lam 0%N 1%N + bodyJ 0 tt 2%N i * lam 0%N 2%N else 0) +
    (if c 1%N then bodyJ 1 tt 0%N i * lam 1%N 0%N + bodyJ 1 tt 1%N i * lam 1%N 1%N + bodyJ 1 tt 2%N i * lam 1%N 2%N else 0) = 0.
  { move=> i Hi. have := H i (leq_trans Hi (leq_addr _ _)). rewrite big_mkcond /index_iota /= !big_cons big_nil addr0.
    by rewrite !big_nil !addr0 !addrA. }
  move=> e r He Hc /lt3 Hr. case: e He Hc=> [|[|e]] // _ Hc.
  - case: Hr=> ->; [have := K 3%N isT|have := K 4%N isT|have := K 5%N isT]; rewrite Hc /bodyJ /=; case: (c 1%N); by rewrite ?mul0r ?mul1r ?addr0 ?add0r.
  - case: Hr=> ->; [have := K 0%N isT|have := K 1%N isT|have := K 2%N isT]; rewrite Hc /bodyJ /=; case: (c 0%N); by rewrite ?mul0r ?mul1r ?addr0 ?add0r.
Qed.
Lemma body_rest : balance NJOINTS 2 bodyM bodyJ (gravity_and_velocity bodyC bodyG) tt (only 0) (fun _ => 0) (fun _ => 0) (fun _ r => (r == 2)%N%:R) /\
  feet_rest NJOINTS 2 bodyJ bodydJ bodyV bodyV bodyE tt (only 0) (fun _ => 0).
Proof.
  have Z : forall (f : vec) n, \sum_(0 <= j < n) f j * (0 : F) = 0 by move=> f n; apply: big1=> j _; rewrite mulr0.
  split.
  - move=> i Hi. rewrite Z add0r /gravity_and_velocity /bodyC add0r. have -> : (if (i < 6)%N then 0 else 0 : F) = 0 by case: ltnP.
    rewrite add0r big_mkcond /index_iota /= !big_cons !big_nil /only /= addr0 ?big_cons ?big_nil /= !mulr0 !add0r mulr1 !addr0.
    by rewrite /bodyG /bodyJ.
  - move=> e r He Hc Hr. rewrite !Z add0r /bodyV /bodyE /cross. case: r Hr=> [|[|r]] _ /=; rewrite ?mulr0 ?subr0 ?addr0 //.
Qed.

(** The contact forces "from the last dynamics call" are read with the current contacts: after moving the contact from foot 0 to
    foot 1 the force of foot 0 is reported for foot 1.  Before the first dynamics call any value may be reported. *)
Theorem C71_forces_refuted (s0 : pd F NJOINTS 2 unit) jm0 jv0 jm jv jm1 jv1 lam0 :
  let s := bodyForward (setContactConfiguration s0 (only 0) jm0 jv0) (fun _ => 0) jm jv in
  let s' := setContactConfiguration s (only 1) jm1 jv1 in
  [/\ getContactForcesInBase s lam0 0%N 2%N = 1, getContactForcesInBase s lam0 1%N 2%N = 0,
      getContactForcesInBase s' lam0 0%N 2%N = 0, getContactForcesInBase s' lam0 1%N 2%N = 1 &
      forall v : F, exists jv2, sized (ms s0) = None ->
        getContactForcesInBase (setContactConfiguration s0 (only 0) jm0 jv2) lam0 0%N 2%N = v].
Proof.
  move=> s s'.
  have R0 : reach (only 0) (setContactConfiguration s0 (only 0) jm0 jv0) by apply: (@reach_set _ _ _ _ (only 0)); right.
  have R : reach (only 0) s by exact: reach_forward.
  have R' : reach (only 1) s' by apply: (@reach_set _ _ _ _ (only 0)); right.
  have [_ [_ H3]] := forward_ok bodyC bodyG bodydJ bodyV bodyV bodyE (fun A => A) R0 bodyM_sym bodyM_pd (@body_independent _) (fun _ => 0) jm jv. rewrite -/(bodyForward _ _ _ _) -/s in H3.
  have [HB HR] := body_rest. have [_ L] := H3 _ _ HB HR. have L2 := L 0%N 2%N isT isT isT.
  have E1 : qddlambda (ms s') = qddlambda (ms s).
  { by rewrite /s' /setContactConfiguration /= /setSizes (r_sized R). }
  clearbody s' s. split.
  - by rewrite (forces_spec _ _ R).
  - by rewrite (forces_spec _ _ R).
  - by rewrite (forces_spec _ _ R').
  - rewrite (forces_spec _ _ R') // /only eqxx /lamOf E1. exact: esym L2.
  - move=> v. exists (fun _ => v)=> E.
    have R2 : reach (only 0) (setContactConfiguration s0 (only 0) jm0 (fun _ => v)) by apply: (@reach_set _ _ _ _ (only 0)); right.
    rewrite (forces_spec _ _ R2) //= /lamOf /setSizes E //.
Qed.
End Body.

(** The inverse dynamics of the fully actuated floating base do not use the given base acceleration, but an uninitialised one. *)
Theorem C71_fully_actuated_refuted : exists (id : unit -> nat -> unit -> unit -> nat * unit), forall b_accel : nat,
  exists base_a, FloatingBaseFullyActuatedID id tt base_a tt tt b_accel <> id tt base_a tt tt.
Proof. exists (fun _ a _ _ => (a, tt))=> b. exists b.+1=> H. have := congr1 fst H. exact: n_Sn. Qed.

(** The hypotheses can be met: a resting foot under gravity, any number of joints. *)
Example C71_example (F : realFieldType) (NJOINTS : nat) :
  [/\ symmetric_mat (6 + NJOINTS) (@bodyM F tt), positive_definite (6 + NJOINTS) (@bodyM F tt),
      independent NJOINTS 2 (@bodyJ F) tt (only 0) &
      balance NJOINTS 2 (@bodyM F) (@bodyJ F) (gravity_and_velocity (@bodyC F) (@bodyG F)) tt (only 0) (fun _ => 0) (fun _ => 0) (fun _ r => (r == 2)%N%:R) /\
      feet_rest NJOINTS 2 (@bodyJ F) (@bodydJ F) (@bodyV F) (@bodyV F) (@bodyE F) tt (only 0) (fun _ => 0)].
Proof. split; [exact: bodyM_sym|exact: bodyM_pd|exact: body_independent|exact: body_rest]. Qed.

(** Solvers as assumed exist in all dimensions. *)
Example C71_example_solvers (F : realFieldType) m n :
  ldlt_ok (fun A : 'M[F]_m => pinvmx A *m A *m (pinvmx A)^T) /\ forall A : 'M[F]_(m, n), A *m pinvmx A *m A = A.
Proof.
  have P : forall k l (A : 'M[F]_(k, l)), A *m pinvmx A *m A = A by move=> k l A; apply: mulmxKpV; exact: submx_refl.
  split=> // A HS _. rewrite /symmetric in HS. move: (pinvmx A) (P _ _ A)=> X E. split; last by rewrite !trmx_mul trmxK HS mulmxA.
  rewrite !mulmxA E. have := congr1 trmx E. by rewrite !trmx_mul HS mulmxA.
Qed.

Print Assumptions C71_forward.
Print Assumptions C71_sizes.
Print Assumptions C71_inverse.
Print Assumptions C71_inverse_forward.
Print Assumptions C71_forces_refuted.
Print Assumptions C71_fully_actuated_refuted.
