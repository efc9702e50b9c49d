(** Proofs for the LU and LDLT solvers. *)
From mathcomp Require Import all_ssreflect all_algebra ring.
From Verif.Core Require Import InverseSpec InverseModel.
Set Implicit Arguments. Unset Strict Implicit. Unset Printing Implicit Defensive.
Import GRing.Theory Num.Theory Order.TTheory.
Local Open Scope ring_scope.

Lemma for_up_recr (S : Type) lo hi (f : nat -> S -> S) s : (lo <= hi)%N ->
  for_up lo hi.+1 f s = f hi (for_up lo hi f s).
Proof.
move=> H; rewrite /for_up /index_iota subSn // -addn1 iotaD foldl_cat /= subnKC //.
Qed.
Lemma for_up_nil (S : Type) lo hi (f : nat -> S -> S) s : (hi <= lo)%N -> for_up lo hi f s = s.
Proof. by move=> H; rewrite /for_up /index_iota (eqP H). Qed.

Lemma for_up_ind (S : Type) lo hi (f : nat -> S -> S) s (P : nat -> S -> Prop) : (lo <= hi)%N ->
  P lo s -> (forall k t, (lo <= k < hi)%N -> P k t -> P k.+1 (f k t)) -> P hi (for_up lo hi f s).
Proof.
elim: hi => [|h IH] Hle H0 HS; first by move: Hle H0; rewrite leqn0 => /eqP -> ?; rewrite for_up_nil.
move: Hle; rewrite leq_eqVlt => /orP [/eqP E|Hlt]; first by rewrite E in H0 *; rewrite for_up_nil.
rewrite ltnS in Hlt; rewrite for_up_recr //; apply: (HS); first by rewrite Hlt ltnSn.
by apply: IH => // k t /andP [a b]; apply: HS; rewrite a ltnW.
Qed.

Lemma for_down_ind (S : Type) n (f : nat -> S -> S) s (P : nat -> S -> Prop) :
  P n s -> (forall k t, (k < n)%N -> P k.+1 t -> P k (f k t)) -> P 0%N (for_down n f s).
Proof.
rewrite /for_down; elim: n s => [//|n IH] s H0 HS.
rewrite -addn1 iotaD foldr_cat /= add0n; apply: IH; first by apply: (HS).
by move=> k t Hk; apply: HS; apply: ltnW.
Qed.

Section InverseProofs.
Variable F : realFieldType.
Notation mat := (nat -> nat -> F).
Notation vec := (nat -> F).
Implicit Types (A LU L b x : mat) (y d : vec).

Lemma eq_sum lo hi (f g : nat -> F) : (forall k, (lo <= k < hi)%N -> f k = g k) ->
  \sum_(lo <= k < hi) f k = \sum_(lo <= k < hi) g k.
Proof. by move=> H; apply: eq_big_nat => k; apply: H. Qed.

Lemma set2_same (M : mat) i j v : set2 M i j v i j = v. Proof. by rewrite /set2 !eqxx. Qed.
Lemma set2_other (M : mat) i j v a c : (a != i) || (c != j) -> set2 M i j v a c = M a c.
Proof. by rewrite /set2 -negb_and => /negbTE ->. Qed.

(** Closed form of the two inner loops of lu. *)
Lemma lu_col n A k LU a c :
  for_up k n (fun i LU => set2 LU i k (A i k - \sum_(0 <= p < k) LU i p * LU p k)) LU a c
  = if (c == k) && (k <= a < n)%N then A a k - \sum_(0 <= p < k) LU a p * LU p k else LU a c.
Proof.
case: (leqP k n) => Hkn; last first.
  rewrite for_up_nil ?(ltnW Hkn) //; case: ifP => // /andP [_ /andP [H1 H2]].
  by move: (leq_ltn_trans H1 H2); rewrite ltnNge (ltnW Hkn).
pose P h (M : mat) := forall a c, M a c =
  if (c == k) && (k <= a < h)%N then A a k - \sum_(0 <= p < k) LU a p * LU p k else LU a c.
apply: (@for_up_ind _ k n _ LU P) => //.
  by move=> a' c'; case: ifP => // /andP [_ /andP [H1 H2]]; move: (leq_ltn_trans H1 H2); rewrite ltnn.
move=> h M /andP [Hkh _] HM a' c'; rewrite /set2.
case: (boolP ((a' == h) && (c' == k))) => [/andP [/eqP -> /eqP ->]|Hne].
  rewrite eqxx Hkh ltnSn /=; congr (_ - _); apply: eq_sum => p /andP [_ Hp].
  by rewrite !HM (ltn_eqF Hp) /= leqNgt Hp /= andbF.
rewrite HM ltnS (leq_eqVlt a'); case: (c' =P k) Hne => [->|] //=.
by rewrite andbT => /negbTE ->.
Qed.

Lemma lu_row n A k LU a c : (k < n)%N ->
  for_up k.+1 n (fun j LU => set2 LU k j ((A k j - \sum_(0 <= p < k) LU k p * LU p j) / LU k k)) LU a c
  = if (a == k) && (k < c < n)%N then (A k c - \sum_(0 <= p < k) LU k p * LU p c) / LU k k else LU a c.
Proof.
move=> Hkn.
pose P h (M : mat) := forall a c, M a c =
  if (a == k) && (k < c < h)%N then (A k c - \sum_(0 <= p < k) LU k p * LU p c) / LU k k else LU a c.
apply: (@for_up_ind _ k.+1 n _ LU P) => //.
  by move=> a' c'; case: ifP => // /andP [_ /andP [H1 H2]]; move: (leq_ltn_trans H1 H2); rewrite ltnn.
move=> h M /andP [Hkh _] HM a' c'; rewrite /set2.
case: (boolP ((a' == k) && (c' == h))) => [/andP [/eqP -> /eqP ->]|Hne].
  rewrite eqxx Hkh ltnSn /= (HM k k) ltnn andbF; congr ((_ - _) / _); apply: eq_sum => p /andP [_ Hp].
  by rewrite !HM (ltn_eqF Hp) /= ltnNge (ltnW Hp) andbF.
rewrite HM ltnS (leq_eqVlt c'); case: (a' =P k) Hne => [->|] //=.
by move=> /negbTE ->.
Qed.

(** What an entry of a (partial) factorisation satisfies. *)
Definition lu_entry A LU a c : Prop :=
  LU a c = if (c <= a)%N then A a c - \sum_(0 <= p < c) LU a p * LU p c
           else (A a c - \sum_(0 <= p < a) LU a p * LU p c) / LU a a.

Definition lu_step n A k LU : mat :=
  let LU := for_up k n (fun i LU => set2 LU i k (A i k - \sum_(0 <= p < k) LU i p * LU p k)) LU in
  for_up k.+1 n (fun j LU => set2 LU k j ((A k j - \sum_(0 <= p < k) LU k p * LU p j) / LU k k)) LU.

Lemma lu_step_old n A k LU a c : (k < n)%N -> (minn a c < k)%N -> lu_step n A k LU a c = LU a c.
Proof.
move=> Hk Hm; rewrite /lu_step (lu_row A _ a c Hk).
case: ifP => [/andP [/eqP E /andP [H1 _]]|_]; first by move: Hm; rewrite E gtn_min ltnn ltnNge (ltnW H1).
rewrite (lu_col n A k LU a c); case: ifP => // /andP [/eqP E /andP [H1 _]].
by move: Hm; rewrite E gtn_min ltnn orbF ltnNge H1.
Qed.

Lemma lu_step_inv n A k LU : (k < n)%N ->
  (forall a c, (a < n)%N -> (c < n)%N -> (minn a c < k)%N -> lu_entry A LU a c) ->
  forall a c, (a < n)%N -> (c < n)%N -> (minn a c < k.+1)%N -> lu_entry A (lu_step n A k LU) a c.
Proof.
move=> Hk IH a c Ha Hc; rewrite ltnS leq_eqVlt => /orP [/eqP E|Hm]; last first.
  have Hold := lu_step_old A LU Hk.
  have := IH a c Ha Hc Hm; rewrite /lu_entry (Hold a c Hm) => ->.
  case: leqP => Hac.
    move: Hm; rewrite (minn_idPr Hac) => Hck.
    congr (_ - _); apply: eq_sum => p /andP [_ Hp].
    by rewrite !Hold // gtn_min (ltn_trans Hp Hck) ?orbT.
  move: Hm; rewrite (minn_idPl (ltnW Hac)) => Hak.
  rewrite (Hold a a) ?minnn //; congr ((_ - _) / _); apply: eq_sum => p /andP [_ Hp].
  by rewrite !Hold // gtn_min (ltn_trans Hp Hak) ?orbT.
have Hold := lu_step_old A LU Hk.
rewrite /lu_entry; case: leqP => Hac.
  move: E; rewrite (minn_idPr Hac) => E; subst c.
  rewrite {1}/lu_step lu_row // ltnn andbF lu_col eqxx Hac Ha /=.
  by congr (_ - _); apply: eq_sum => p /andP [_ Hp]; rewrite !Hold // gtn_min Hp ?orbT.
move: E; rewrite (minn_idPl (ltnW Hac)) => E; subst a.
rewrite {1}/lu_step lu_row // eqxx Hac Hc /=.
have -> : lu_step n A k LU k k = for_up k n (fun i LU => set2 LU i k (A i k - \sum_(0 <= p < k) LU i p * LU p k)) LU k k.
  by rewrite /lu_step lu_row // ltnn andbF.
congr ((_ - _) / _); apply: eq_sum => p /andP [_ Hp].
rewrite !Hold ?gtn_min ?Hp ?orbT // !lu_col (ltn_eqF Hp) /= leqNgt Hp andbF //.
Qed.

Lemma lu_ind n A LU0 (P : nat -> mat -> Prop) : P 0%N LU0 ->
  (forall k M, (k < n)%N -> P k M -> P k.+1 (lu_step n A k M)) -> P n (lu n A LU0).
Proof.
move=> H0 HS; rewrite /lu.
apply: (@for_up_ind _ 0 n _ LU0 P) => // k t /andP [_ Hk] HP; exact: HS.
Qed.

Lemma lu_entries n A LU0 a c : (a < n)%N -> (c < n)%N -> lu_entry A (lu n A LU0) a c.
Proof.
move=> Ha Hc.
have H : forall a c, (a < n)%N -> (c < n)%N -> (minn a c < n)%N -> lu_entry A (lu n A LU0) a c.
  apply: (@lu_ind n A LU0 (fun k M => forall a c, (a < n)%N -> (c < n)%N -> (minn a c < k)%N -> lu_entry A M a c)) => //.
  by move=> k M Hk IH; apply: lu_step_inv.
by apply: H => //; rewrite gtn_min Ha.
Qed.

(** The factors. *)
Definition Lm LU i p : F := if (p <= i)%N then LU i p else 0.
Definition Um LU p c : F := if (p < c)%N then LU p c else (p == c)%:R.

Lemma sum_split n k (f : nat -> F) : (k < n)%N ->
  \sum_(0 <= p < n) f p = \sum_(0 <= p < k) f p + f k + \sum_(k.+1 <= p < n) f p.
Proof. by move=> H; rewrite (@big_cat_nat _ _ _ k) ?(ltnW H) //= (@big_ltn _ _ _ k n) // addrA. Qed.

Lemma sum0 lo hi (f : nat -> F) : (forall k, (lo <= k < hi)%N -> f k = 0) -> \sum_(lo <= k < hi) f k = 0.
Proof. by move=> H; rewrite (eq_sum H) big1. Qed.

(** Product of the factors, from the entry equations on the leading block. *)
Lemma lu_product n A LU a c : (a < n)%N -> (c < n)%N -> lu_entry A LU a c -> ((a < c)%N -> LU a a != 0) ->
  \sum_(0 <= p < n) Lm LU a p * Um LU p c = A a c.
Proof.
rewrite /lu_entry => Ha Hc; case: leqP => Hac E Hnz.
  rewrite (sum_split _ Hc) (@sum0 c.+1) ?addr0; last first.
    by move=> k /andP [Hk _]; rewrite /Um ltnNge (ltnW Hk) /= (gtn_eqF Hk) mulr0.
  rewrite /Um ltnn eqxx mulr1 {2}/Lm Hac E addrC.
  rewrite (_ : \sum_(0 <= p < c) _ = \sum_(0 <= p < c) LU a p * LU p c) ?subrK //.
  by apply: eq_sum => k /andP [_ Hk]; rewrite /Lm Hk (leq_trans (ltnW Hk) Hac).
rewrite (sum_split _ Ha) (@sum0 a.+1) ?addr0; last first.
  by move=> k /andP [Hk _]; rewrite /Lm leqNgt Hk mul0r.
rewrite {2}/Lm leqnn {2}/Um Hac E.
rewrite (_ : \sum_(0 <= p < a) _ = \sum_(0 <= p < a) LU a p * LU p c).
  by rewrite mulrC divfK ?(Hnz isT) // addrC subrK.
by apply: eq_sum => k /andP [_ Hk]; rewrite /Lm /Um (ltnW Hk) (ltn_trans Hk Hac).
Qed.

(** Forward and backward substitution loops. *)
Lemma fwd_loop n (g : nat -> vec -> F) y :
  (forall i y y', (forall k, (k < i)%N -> y k = y' k) -> g i y = g i y') ->
  let z := for_up 0 n (fun i y => set1 y i (g i y)) y in forall i, (i < n)%N -> z i = g i z.
Proof.
move=> Hg z; rewrite {}/z.
apply: (@for_up_ind _ 0 n _ y (fun h z => forall i, (i < h)%N -> z i = g i z)) => //.
move=> k t _ IH i; rewrite ltnS leq_eqVlt => /orP [/eqP ->|Hi].
  by rewrite {1}/set1 eqxx; apply: Hg => p Hp; rewrite /set1 (ltn_eqF Hp).
rewrite {1}/set1 (ltn_eqF Hi) IH //; apply: Hg => p Hp.
by rewrite /set1 (ltn_eqF (ltn_trans Hp Hi)).
Qed.

Lemma bwd_loop n j (g : nat -> mat -> F) x :
  (forall i x x', (forall k, (i < k)%N -> x k j = x' k j) -> g i x = g i x') ->
  let z := for_down n (fun i x => set2 x i j (g i x)) x in
  (forall i, (i < n)%N -> z i j = g i z) /\ (forall i c, c != j -> z i c = x i c).
Proof.
move=> Hg z; rewrite {}/z.
suff: (forall i, (0 <= i < n)%N -> for_down n (fun i x => set2 x i j (g i x)) x i j = g i (for_down n (fun i x => set2 x i j (g i x)) x)) /\
  (forall i c, c != j -> for_down n (fun i x => set2 x i j (g i x)) x i c = x i c).
  by case=> H1 H2; split.
apply: (@for_down_ind _ n _ x (fun h z => (forall i, (h <= i < n)%N -> z i j = g i z) /\ (forall i c, c != j -> z i c = x i c))).
  by split=> // i /andP [a c]; move: (leq_ltn_trans a c); rewrite ltnn.
move=> k t Hk [IH1 IH2]; split; last by move=> i c Hc; rewrite set2_other ?Hc ?orbT // IH2.
move=> i /andP []; rewrite leq_eqVlt => /orP [/eqP <- _|Hi Hin].
  by rewrite set2_same; apply: Hg => p Hp; rewrite set2_other // (gtn_eqF Hp).
rewrite set2_other ?(gtn_eqF Hi) // IH1 ?Hi //; apply: Hg => p Hp.
by rewrite set2_other // (gtn_eqF (ltn_trans Hi Hp)).
Qed.

(** The column loop of both solvers. *)
Lemma col_loop n m (g : nat -> nat -> vec -> F) (h : nat -> nat -> vec -> mat -> F) y x :
  (forall j i y y', (forall k, (k < i)%N -> y k = y' k) -> g j i y = g j i y') ->
  (forall j i y x x', (forall k, (i < k)%N -> x k j = x' k j) -> h j i y x = h j i y x') ->
  let z := (for_up 0 m (fun j s =>
     let y := for_up 0 n (fun i y => set1 y i (g j i y)) s.1 in
     let x := for_down n (fun i x => set2 x i j (h j i y x)) s.2 in (y, x)) (y, x)).2 in
  forall j, (j < m)%N -> exists w, forall i, (i < n)%N -> w i = g j i w /\ z i j = h j i w z.
Proof.
move=> Hg Hh z; rewrite {}/z.
apply: (@for_up_ind _ 0 m _ (y, x) (fun h' z => forall j, (j < h')%N -> exists w, forall i, (i < n)%N -> w i = g j i w /\ z.2 i j = h j i w z.2)) => //.
move=> k [y' x'] _ IH j; cbv zeta; rewrite [(_, _).1]/= ![(_, _).2]/=.
have H1 := @fwd_loop n (g k) y' (Hg k).
set w := for_up 0 n _ y' in H1 *.
have [H2 H3] := @bwd_loop n k (fun i => h k i w) x' (fun i => Hh k i w).
set v := for_down n _ x' in H2 H3 *.
rewrite ltnS leq_eqVlt => /orP [/eqP ->|Hj].
  by exists w => i Hi; split; [apply: H1|apply: H2].
have [w' Hw'] := IH j Hj; exists w' => i Hi; have [E1 E2] := Hw' i Hi; split=> //.
have Hne : j != k by rewrite (ltn_eqF Hj).
by rewrite H3 //; rewrite /= in E2; rewrite E2; apply: Hh => p _; rewrite H3.
Qed.

Lemma exchange3 n (P Q : nat -> nat -> F) (f : vec) i :
  \sum_(0 <= k < n) (\sum_(0 <= p < n) P i p * Q p k) * f k
  = \sum_(0 <= p < n) P i p * \sum_(0 <= k < n) Q p k * f k.
Proof.
rewrite (eq_sum (g := fun k => \sum_(0 <= p < n) P i p * Q p k * f k)); last by move=> k _; rewrite mulr_suml.
rewrite exchange_big_nat; apply: eq_sum => p _; rewrite mulr_sumr; apply: eq_sum => k _; exact: esym (mulrA _ _ _).
Qed.

Lemma Um_sum n LU (f : vec) p : (p < n)%N ->
  \sum_(0 <= k < n) Um LU p k * f k = f p + \sum_(p.+1 <= k < n) LU p k * f k.
Proof.
move=> Hp; rewrite (sum_split _ Hp) (@sum0 0 p) ?add0r; last first.
  by move=> k /andP [_ Hk]; rewrite /Um ltnNge (ltnW Hk) (gtn_eqF Hk) mul0r.
rewrite {1}/Um ltnn eqxx mul1r; congr (_ + _); apply: eq_sum => k /andP [Hk _]; by rewrite /Um Hk.
Qed.

Lemma Lm_sum n LU (f : vec) i : (i < n)%N ->
  \sum_(0 <= p < n) Lm LU i p * f p = \sum_(0 <= p < i) LU i p * f p + LU i i * f i.
Proof.
move=> Hi; rewrite (sum_split _ Hi) (@sum0 i.+1) ?addr0; last first.
  by move=> k /andP [Hk _]; rewrite /Lm leqNgt Hk mul0r.
rewrite {2}/Lm leqnn; congr (_ + _); apply: eq_sum => k /andP [_ Hk]; by rewrite /Lm (ltnW Hk).
Qed.

Lemma lu_solve n m A b LU0 y x :
  (forall i, (i < n)%N -> lu n A LU0 i i != 0) -> solves n m A b (LUsolve n m A b LU0 y x).
Proof.
move=> Hnz i j Hi Hj; rewrite /LUsolve /solveLU.
set LU := lu n A LU0 in Hnz *.
pose g j i y := (b i j - \sum_(0 <= k < i) LU i k * y k) / LU i i : F.
pose h (j i : nat) y x := y i - \sum_(i.+1 <= k < n) LU i k * x k j : F.
have [|j' i' y1 x1 x2 E|w Hw] := @col_loop n m g h y x _ _ j Hj.
- by move=> j' i' y1 y2 E; rewrite /g; congr ((_ - _) / _); apply: eq_sum => p /andP [_ Hp]; rewrite E.
- by rewrite /h; congr (_ - _); apply: eq_sum => p /andP [Hp _]; rewrite E.
set X := (_).2; rewrite -/X in Hw.
rewrite (eq_sum (g := fun k => (\sum_(0 <= p < n) Lm LU i p * Um LU p k) * X k j)); last first.
  move=> k /andP [_ Hk]; congr (_ * _); symmetry; apply: (lu_product Hi Hk); first exact: lu_entries.
  by move=> _; apply: Hnz.
rewrite exchange3 (eq_sum (g := fun p => Lm LU i p * w p)); last first.
  move=> p /andP [_ Hp]; congr (_ * _); rewrite (@Um_sum n LU (fun k => X k j)) //.
  by have [_ ->] := Hw p Hp; rewrite /h subrK.
rewrite Lm_sum //; have [-> _] := Hw i Hi; rewrite /g mulrC divfK ?Hnz //; by rewrite addrC subrK.
Qed.

(** A unit upper triangular system solved for a unit vector on the leading block. *)
Lemma unit_back (N : nat) (U : mat) : exists v : vec,
  (forall i, (i < N)%N -> v i = (i == N.-1)%:R - \sum_(i.+1 <= k < N) U i k * v k)
  /\ (forall i, (N <= i)%N -> v i = 0).
Proof.
pose g i (x : mat) := (i == N.-1)%:R - \sum_(i.+1 <= k < N) U i k * x k 0%N : F.
have [|H _] := @bwd_loop N 0%N g (fun _ _ => 0).
  by move=> i x x' E; rewrite /g; congr (_ - _); apply: eq_sum => k /andP [Hk _]; rewrite E.
set z := for_down _ _ _ in H.
exists (fun i => if (i < N)%N then z i 0%N else 0); split=> i Hi; last by rewrite ltnNge Hi.
rewrite Hi H // /g; congr (_ - _); apply: eq_sum => k /andP [_ ->]; by [].
Qed.

Lemma sum_trunc n N (f : nat -> F) : (N <= n)%N -> (forall i, (N <= i)%N -> f i = 0) ->
  \sum_(0 <= i < n) f i = \sum_(0 <= i < N) f i.
Proof.
by move=> HN H0; rewrite (@big_cat_nat _ _ _ N) //= [X in _ + X]sum0 ?addr0 // => k /andP [Hk _]; apply: H0.
Qed.

Lemma sum_delta n j (f : nat -> F) : (j < n)%N -> \sum_(0 <= p < n) f p * (p == j)%:R = f j.
Proof.
move=> Hj; rewrite (sum_split _ Hj) eqxx mulr1 !sum0 ?add0r ?addr0 // => k /andP [H1 H2].
  by rewrite (gtn_eqF H1) mulr0.
by rewrite (ltn_eqF H2) mulr0.
Qed.

(** Columns of the product on the leading block, for the vector that U maps to a unit vector. *)
Lemma lu_unit_image n A LU0 j v : (j < n)%N -> (forall i, (i < j)%N -> lu n A LU0 i i != 0) ->
  (forall i, (i < j.+1)%N -> v i = (i == j)%:R - \sum_(i.+1 <= k < j.+1) lu n A LU0 i k * v k) ->
  forall i, (i < j.+1)%N -> \sum_(0 <= k < j.+1) A i k * v k = Lm (lu n A LU0) i j.
Proof.
set LU := lu n A LU0 => Hj Hnz Hv i Hi.
rewrite (eq_sum (g := fun k => (\sum_(0 <= p < j.+1) Lm LU i p * Um LU p k) * v k)); last first.
  move=> k /andP [_ Hk]; congr (_ * _); symmetry; apply: (lu_product Hi Hk).
    by apply: lu_entries; [exact: leq_trans Hi Hj|exact: leq_trans Hk Hj].
  by move=> Hik; apply: Hnz; apply: leq_trans Hik _; rewrite -ltnS.
rewrite exchange3 (eq_sum (g := fun p => Lm LU i p * (p == j)%:R)); first by rewrite sum_delta.
by move=> p /andP [_ Hp]; congr (_ * _); rewrite Um_sum // Hv // subrK.
Qed.

Lemma lu_pivots n A LU0 : leading_nonsingular n A -> forall j, (j < n)%N -> lu n A LU0 j j != 0.
Proof.
move=> Hln j; elim/ltn_ind: j => j IH Hj; apply/negP => /eqP E0.
have [v [Hv Hv0]] := unit_back j.+1 (lu n A LU0).
have Hvj : v j = 1 by rewrite Hv //= eqxx big_geq // subr0.
have Hnz i : (i < j)%N -> lu n A LU0 i i != 0 by move=> Hi; apply: IH => //; exact: ltn_trans Hi Hj.
have Himg := lu_unit_image Hj Hnz Hv.
suff Hz : v j = 0 by move: (oner_eq0 F); rewrite -Hvj Hz eqxx.
apply: (Hln j.+1 v Hj) => // i Hi; rewrite Himg // /Lm.
move: Hi; rewrite ltnS leq_eqVlt => /orP [/eqP ->|Hi]; first by rewrite leqnn.
by rewrite leqNgt Hi.
Qed.

Lemma lu_pivots_pos n A LU0 : positive_definite n A -> leading_nonsingular n A ->
  forall j, (j < n)%N -> 0 < lu n A LU0 j j.
Proof.
move=> Hpd Hln j Hj.
have [v [Hv Hv0]] := unit_back j.+1 (lu n A LU0).
have Hvj : v j = 1 by rewrite Hv //= eqxx big_geq // subr0.
have Hnz i : (i < j)%N -> lu n A LU0 i i != 0 by move=> Hi; apply: lu_pivots Hln _ _; exact: ltn_trans Hi Hj.
have Himg := lu_unit_image Hj Hnz Hv.
have := Hpd v; rewrite (@sum_trunc n j.+1) //; last by move=> i Hi; rewrite Hv0 // mul0r.
rewrite (_ : \sum_(0 <= i < j.+1) _ = lu n A LU0 j j); first by apply; exists j => //; rewrite Hvj oner_eq0.
rewrite (eq_sum (g := fun i => v i * Lm (lu n A LU0) i j)); last first.
  move=> i /andP [_ Hi]; congr (_ * _).
  by rewrite (@sum_trunc n j.+1) ?Himg //; move=> c Hc; rewrite Hv0 // mulr0.
rewrite (sum_split _ (ltnSn j)) Hvj mul1r {2}/Lm leqnn [X in _ + X]big_geq // addr0.
by rewrite sum0 ?add0r // => k /andP [_ Hk]; rewrite /Lm leqNgt Hk mulr0.
Qed.

(** Positive definite matrices meet the elimination condition. *)
Lemma posdef_leading n A : positive_definite n A -> leading_nonsingular n A.
Proof.
move=> Hpd k v Hk Hv i Hi; apply/eqP/negPn/negP => Hne.
pose w c := if (c < k)%N then v c else 0.
have Hw := Hpd w.
have Hex : exists2 i, (i < n)%N & w i != 0 by exists i; [exact: leq_trans Hi Hk|rewrite /w Hi].
move: (Hw Hex); rewrite (@sum_trunc n k) //; last by move=> c Hc; rewrite /w ltnNge Hc mul0r.
rewrite sum0 ?ltxx // => a /andP [_ Ha].
rewrite (@sum_trunc n k) //; last by move=> c Hc; rewrite /w ltnNge Hc mulr0.
rewrite (eq_sum (g := fun c => A a c * v c)) ?Hv ?mulr0 //.
by move=> c /andP [_ Hc]; rewrite /w Hc.
Qed.

(** LDLT. *)
Definition ldlt_step n A j (s : mat * vec) : mat * vec :=
  let d := set1 s.2 j (A j j - \sum_(0 <= k < j) s.1 j k * s.1 j k * s.2 k) in
  let L := for_up j.+1 n (fun i L => set2 L i j ((A i j - \sum_(0 <= k < j) L i k * L j k * d k) / d j)) s.1 in
  (L, d).

Lemma ldlt_col n A j L d a c : (j < n)%N ->
  for_up j.+1 n (fun i L => set2 L i j ((A i j - \sum_(0 <= k < j) L i k * L j k * d k) / d j)) L a c
  = if (c == j) && (j < a < n)%N then (A a j - \sum_(0 <= k < j) L a k * L j k * d k) / d j else L a c.
Proof.
move=> Hj.
pose P h (M : mat) := forall a c, M a c =
  if (c == j) && (j < a < h)%N then (A a j - \sum_(0 <= k < j) L a k * L j k * d k) / d j else L a c.
apply: (@for_up_ind _ j.+1 n _ L P) => //.
  by move=> a' c'; case: ifP => // /andP [_ /andP [H1 H2]]; move: (leq_ltn_trans H1 H2); rewrite ltnn.
move=> h M /andP [Hkh _] HM a' c'; rewrite /set2.
case: (boolP ((a' == h) && (c' == j))) => [/andP [/eqP -> /eqP ->]|Hne].
  rewrite eqxx Hkh ltnSn /=; congr ((_ - _) / _); apply: eq_sum => p /andP [_ Hp].
  by rewrite !HM (ltn_eqF Hp).
rewrite HM ltnS (leq_eqVlt a'); case: (c' =P j) Hne => [->|] //=.
by rewrite andbT => /negbTE ->.
Qed.

Record ldlt_inv n A k (s : mat * vec) : Prop := LdltInv {
  li_diag : forall j, (j < k)%N -> s.2 j = A j j - \sum_(0 <= p < j) s.1 j p * s.1 j p * s.2 p;
  li_low : forall i j, (j < k)%N -> (j < i < n)%N ->
     s.1 i j = (A i j - \sum_(0 <= p < j) s.1 i p * s.1 j p * s.2 p) / s.2 j;
  li_one : forall i, s.1 i i = 1;
  li_up : forall i j, (i < j)%N -> s.1 i j = 0 }.

Lemma ldlt_step_inv n A k s : (k < n)%N -> ldlt_inv n A k s -> ldlt_inv n A k.+1 (ldlt_step n A k s).
Proof.
case: s => L d Hk [Hd Hl Ho Hu]; rewrite /= in Hd Hl Ho Hu.
rewrite /ldlt_step /=; set d' := set1 _ _ _; set L' := for_up _ _ _ _.
have Ed p : (p < k)%N -> d' p = d p by move=> Hp; rewrite /d' /set1 (ltn_eqF Hp).
have EL a c : (c < k)%N -> L' a c = L a c.
  by move=> Hc; rewrite /L' (ldlt_col A L d' a c Hk) (ltn_eqF Hc).
split=> /=.
- move=> j; rewrite ltnS leq_eqVlt => /orP [/eqP ->|Hj].
    rewrite {1}/d' /set1 eqxx; congr (_ - _); apply: eq_sum => p /andP [_ Hp].
    by rewrite Ed // EL.
  rewrite Ed // Hd //; congr (_ - _); apply: eq_sum => p /andP [_ Hp].
  by rewrite Ed ?(ltn_trans Hp) // !EL // (ltn_trans Hp).
- move=> i j; rewrite ltnS leq_eqVlt => /orP [/eqP ->|Hj] Hij.
    rewrite {1}/L' (ldlt_col A L d' i k Hk) eqxx Hij; congr ((_ - _) / _); apply: eq_sum => p /andP [_ Hp].
    by rewrite !EL.
  rewrite EL // Hl // Ed //; congr ((_ - _) / _); apply: eq_sum => p /andP [_ Hp].
  by rewrite Ed ?(ltn_trans Hp) // !EL // (ltn_trans Hp).
- move=> i; rewrite /L' (ldlt_col A L d' i i Hk); case: ifP => // /andP [/eqP -> /andP [H _]].
  by rewrite ltnn in H.
- move=> i j Hij; rewrite /L' (ldlt_col A L d' i j Hk); case: ifP => [/andP [/eqP E /andP [H _]]|_]; last exact: Hu.
  by rewrite E in Hij; move: (ltn_trans Hij H); rewrite ltnn.
Qed.

Lemma ldlt_ok n A d : ldlt_inv n A n (ldlt n A d).
Proof.
rewrite /ldlt; apply: (@for_up_ind _ 0 n _ _ (ldlt_inv n A)) => //.
  by split=> //= [i|i j /ltn_eqF ->] //; rewrite eqxx.
by move=> k t /andP [_ Hk]; apply: ldlt_step_inv.
Qed.

Lemma ldlt_product n A s N a c : ldlt_inv n A n s -> (N <= n)%N -> (c <= a)%N -> (a < N)%N ->
  ((c < a)%N -> s.2 c != 0) ->
  \sum_(0 <= p < N) s.1 a p * (s.2 p * s.1 c p) = A a c.
Proof.
move=> [Hd Hl Ho Hu] HN Hca Ha Hnz.
have Hc : (c < N)%N by apply: leq_ltn_trans Ha.
rewrite (sum_split _ Hc) [X in _ + X]sum0 ?addr0; last by move=> k /andP [Hk _]; rewrite (Hu c k) // !mulr0.
rewrite Ho mulr1.
rewrite (_ : \sum_(0 <= p < c) _ = \sum_(0 <= p < c) s.1 a p * s.1 c p * s.2 p); last first.
  by apply: eq_sum => k _; ring.
move: Hca; rewrite leq_eqVlt => /orP [/eqP E|Hlt].
  by rewrite E Ho mul1r Hd ?(leq_trans Ha) // addrC subrK.
by rewrite (Hl a c) ?Hlt ?(leq_trans Hc) ?(leq_trans Ha) // divfK ?Hnz // addrC subrK.
Qed.

(** Same for any position, when A is symmetric. *)
Lemma ldlt_product_sym n A s N a c : ldlt_inv n A n s -> symmetric_mat n A -> (N <= n)%N ->
  (a < N)%N -> (c < N)%N -> (forall k, (k.+1 < N)%N -> s.2 k != 0) ->
  \sum_(0 <= p < N) s.1 a p * (s.2 p * s.1 c p) = A a c.
Proof.
move=> Hi Hs HN Ha Hc Hnz; case: (leqP c a) => Hca.
  by apply: (ldlt_product Hi HN Hca Ha) => H; apply: Hnz; exact: leq_ltn_trans H Ha.
rewrite (Hs a c) ?(leq_trans Ha) ?(leq_trans Hc) //.
rewrite -(ldlt_product Hi HN (ltnW Hca) Hc); last by move=> H; apply: Hnz; exact: leq_ltn_trans H Hc.
by apply: eq_sum => p _; ring.
Qed.

Lemma Lt_sum n (L : mat) (f : vec) p : (p < n)%N -> L p p = 1 -> (forall i, (i < p)%N -> L i p = 0) ->
  \sum_(0 <= k < n) L k p * f k = f p + \sum_(p.+1 <= k < n) L k p * f k.
Proof.
move=> Hp H1 H0; rewrite (sum_split _ Hp) H1 mul1r [X in X + _ + _]sum0 ?add0r // => k /andP [_ Hk].
by rewrite H0 // mul0r.
Qed.

Lemma ldlt_unit_image n A s j v : ldlt_inv n A n s -> symmetric_mat n A -> (j < n)%N ->
  (forall i, (i < j)%N -> s.2 i != 0) ->
  (forall i, (i < j.+1)%N -> v i = (i == j)%:R - \sum_(i.+1 <= k < j.+1) s.1 k i * v k) ->
  forall i, (i < j.+1)%N -> \sum_(0 <= k < j.+1) A i k * v k = s.1 i j * s.2 j.
Proof.
move=> Hinv Hs Hj Hnz Hv i Hi; have [_ _ Ho Hu] := Hinv.
have Hdelta p : (p < j.+1)%N -> \sum_(0 <= k < j.+1) s.1 k p * v k = (p == j)%:R.
  by move=> Hp; rewrite Lt_sum // => [|a Ha]; [rewrite Hv // subrK|apply: Hu].
rewrite (eq_sum (g := fun k => (\sum_(0 <= p < j.+1) s.1 i p * (s.2 p * s.1 k p)) * v k)); last first.
  move=> k /andP [_ Hk]; congr (_ * _); symmetry; apply: (ldlt_product_sym Hinv Hs Hj Hi Hk).
  by move=> q Hq; apply: Hnz.
rewrite (@exchange3 j.+1 s.1 (fun p k => s.2 p * s.1 k p)).
rewrite (eq_sum (g := fun p => (s.1 i p * s.2 p) * (p == j)%:R)); first by rewrite sum_delta.
move=> p /andP [_ Hp]; rewrite -mulrA -Hdelta //; congr (_ * _); rewrite mulr_sumr.
by apply: eq_sum => k _; ring.
Qed.

Lemma ldlt_pivots n A d : symmetric_mat n A -> leading_nonsingular n A ->
  forall j, (j < n)%N -> (ldlt n A d).2 j != 0.
Proof.
move=> Hs Hln j; have Hinv := ldlt_ok n A d; set s := ldlt n A d in Hinv *.
have [_ _ _ Hu] := Hinv.
elim/ltn_ind: j => j IH Hj; apply/negP => /eqP E0.
have [v [Hv Hv0]] := unit_back j.+1 (fun i k => s.1 k i).
have Hvj : v j = 1 by rewrite Hv //= eqxx big_geq // subr0.
have Hnz i : (i < j)%N -> s.2 i != 0 by move=> Hi; apply: IH => //; exact: ltn_trans Hi Hj.
have Himg := ldlt_unit_image Hinv Hs Hj Hnz Hv.
suff Hz : v j = 0 by move: (oner_eq0 F); rewrite -Hvj Hz eqxx.
by apply: (Hln j.+1 v Hj) => // i Hi; rewrite Himg // E0 mulr0.
Qed.

Lemma ldlt_solve n m A b d0 y x : symmetric_mat n A ->
  (forall i, (i < n)%N -> (ldlt n A d0).2 i != 0) -> solves n m A b (LDLTsolve n m A b d0 y x).
Proof.
move=> Hs Hnz i j Hi Hj; rewrite /LDLTsolve /solveLDLT.
have Hinv := ldlt_ok n A d0; set s := ldlt n A d0 in Hinv Hnz *.
have [_ _ Ho Hu] := Hinv.
pose g j i (y : vec) := b i j - \sum_(0 <= k < i) s.1 i k * y k : F.
pose h (j i : nat) (y : vec) (x : mat) := y i / s.2 i - \sum_(i.+1 <= k < n) s.1 k i * x k j : F.
have [|j' i' y1 x1 x2 E|w Hw] := @col_loop n m g h y x _ _ j Hj.
- by move=> j' i' y1 y2 E; rewrite /g; congr (_ - _); apply: eq_sum => p /andP [_ Hp]; rewrite E.
- by rewrite /h; congr (_ - _); apply: eq_sum => p /andP [Hp _]; rewrite E.
cbv zeta; set X := (for_up _ _ _ _).2; rewrite -/X in Hw.
rewrite (eq_sum (g := fun k => (\sum_(0 <= p < n) s.1 i p * (s.2 p * s.1 k p)) * X k j)); last first.
  move=> k /andP [_ Hk]; congr (_ * _); symmetry; apply: (ldlt_product_sym Hinv Hs (leqnn n) Hi Hk).
  by move=> q Hq; apply: Hnz; apply: ltnW.
rewrite (@exchange3 n s.1 (fun p k => s.2 p * s.1 k p) (fun k => X k j)).
rewrite (eq_sum (g := fun p => s.1 i p * w p)); last first.
  move=> p /andP [_ Hp]; congr (_ * _).
  rewrite (eq_sum (g := fun k => s.2 p * (s.1 k p * X k j))); last by move=> k _; rewrite mulrA.
  rewrite -mulr_sumr (@Lt_sum n s.1 (fun k => X k j) p Hp (Ho p) (fun i Hip => Hu i p Hip)).
  by have [_ ->] := Hw p Hp; rewrite /h subrK mulrC divfK ?Hnz.
rewrite (sum_split _ Hi) Ho mul1r [X in _ + X]sum0 ?addr0; last by move=> k /andP [Hk _]; rewrite Hu // mul0r.
by have [-> _] := Hw i Hi; rewrite /g addrC subrK.
Qed.

(** A positive definite system has at most one solution. *)
Lemma posdef_unique n m A B X Y : positive_definite n A -> solves n m A B X -> solves n m A B Y ->
  forall i j, (i < n)%N -> (j < m)%N -> X i j = Y i j.
Proof.
move=> Hpd HX HY i j Hi Hj; apply/eqP; rewrite -subr_eq0; apply/negPn/negP => Hne.
have Hp := Hpd (fun k => X k j - Y k j).
move: (Hp (ex_intro2 _ _ i Hi Hne)); rewrite sum0 ?ltxx // => k /andP [_ Hk].
rewrite (eq_sum (g := fun c => A k c * X c j - A k c * Y c j)); last by move=> c _; ring.
by rewrite sumrB HX // HY // subrr mulr0.
Qed.
End InverseProofs.
