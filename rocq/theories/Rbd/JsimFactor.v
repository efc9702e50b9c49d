(** The L^T L factorisation and the inverse, for any size. *)
From Coq Require Import Reals List Bool Arith Lia Lra.
From Verif Require Import Base.RVec Rbd.SpatialModel Rbd.JsimModel.
Local Open Scope R_scope.

(** The symmetric matrix with the lower triangle of M. *)
Definition sy (M : mat) : mat := fun i j => M (Nat.max i j) (Nat.min i j).
Definition pdef (n : nat) (M : mat) : Prop := forall x : rvec, (exists i, (i < n)%nat /\ x i <> 0) -> 0 < rquad n M x x.

Lemma sy_ge M i j : (j <= i)%nat -> sy M i j = M i j.
Proof. intros H. unfold sy. rewrite Nat.max_l, Nat.min_r by lia. reflexivity. Qed.
Lemma sy_lt M i j : (i <= j)%nat -> sy M i j = M j i.
Proof. intros H. unfold sy. rewrite Nat.max_r, Nat.min_l by lia. reflexivity. Qed.
Lemma sy_sym M i j : sy M i j = sy M j i.
Proof. unfold sy. rewrite Nat.max_comm, Nat.min_comm. reflexivity. Qed.

Lemma rquad_last n A x : rquad (S n) A x x =
  rquad n A x x + x n * rsum n (fun j => A n j * x j) + rsum n (fun i => x i * A i n) * x n + x n * A n n * x n.
Proof.
  unfold rquad, rdot, rmv. cbn [rsum].
  rewrite (rsum_ext n (fun i => x i * (rsum n (fun j => A i j * x j) + A i n * x n)) (fun i => x i * rsum n (fun j => A i j * x j) + x i * A i n * x n)) by (intros; ring).
  rewrite rsum_plus, rsum_scal_r. ring.
Qed.

Lemma blockL_low n M i j : (j <= i)%nat -> (i < n)%nat -> blockL n M i j = M i j - M n i / sqrt (M n n) * (M n j / sqrt (M n n)).
Proof.
  intros Hj Hi. unfold blockL. cbv zeta. destruct (Nat.eqb_spec i n); [lia|]. cbn [andb].
  destruct (Nat.ltb_spec i n); [|lia]. destruct (Nat.leb_spec j i); [|lia]. reflexivity.
Qed.
Lemma blockL_sy n M i j : (i < n)%nat -> (j < n)%nat -> sy (blockL n M) i j = sy M i j - M n i / sqrt (M n n) * (M n j / sqrt (M n n)).
Proof.
  intros Hi Hj. destruct (Nat.le_ge_cases j i).
  - rewrite !sy_ge, blockL_low by lia. reflexivity.
  - rewrite !sy_lt, blockL_low by lia. ring.
Qed.

Lemma schur n M : pdef (S n) (sy M) -> 0 < M n n /\ pdef n (sy (blockL n M)).
Proof.
  intros P.
  assert (D : 0 < M n n).
  { assert (K : 0 < rquad (S n) (sy M) (runit n) (runit n)).
    { apply P. exists n. split; [lia|]. unfold runit. rewrite Nat.eqb_refl. lra. }
    revert K. unfold rquad. rewrite rdot_comm, rdot_unit by lia. unfold rmv.
    change (rsum (S n) (fun j => sy M n j * runit n j)) with (rdot (S n) (sy M n) (runit n)).
    rewrite rdot_unit by lia. rewrite sy_ge by lia. trivial. }
  split; [exact D|]. intros x [k [Hk Xk]].
  set (b := rsum n (fun j => M n j * x j)). set (t := - b / M n n).
  set (y := rset x n t).
  assert (K : 0 < rquad (S n) (sy M) y y).
  { apply P. exists k. split; [lia|]. unfold y. rewrite rset_other by lia. exact Xk. }
  assert (Q : rquad n (sy (blockL n M)) x x = rquad (S n) (sy M) y y); [|rewrite Q; exact K].
  rewrite rquad_last.
  assert (E1 : rquad n (sy M) y y = rquad n (sy M) x x) by (apply rquad_ext; intros i Hi; unfold y; apply rset_other; lia).
  assert (E2 : rsum n (fun j => sy M n j * y j) = b).
  { apply rsum_ext. intros i Hi. unfold y. rewrite rset_other, sy_ge by lia. reflexivity. }
  assert (E3 : rsum n (fun i => y i * sy M i n) = b).
  { apply rsum_ext. intros i Hi. unfold y. rewrite rset_other, sy_lt by lia. ring. }
  rewrite E1, E2, E3, sy_ge by lia. replace (y n) with t by (unfold y; rewrite rset_eq; reflexivity).
  assert (SQ : sqrt (M n n) * sqrt (M n n) = M n n) by (apply sqrt_sqrt; lra).
  assert (SP : 0 < sqrt (M n n)) by (apply sqrt_lt_R0; exact D).
  set (d := sqrt (M n n)) in *.
  transitivity (rquad n (sy M) x x - b / d * (b / d)).
  - unfold rquad, rdot, rmv.
    rewrite (rsum_ext n _ (fun i => x i * rsum n (fun j => sy M i j * x j) - (b / d) * (M n i * x i / d))).
    + rewrite rsum_minus, rsum_scal. f_equal. f_equal. unfold b, Rdiv. rewrite <- rsum_scal_r. apply rsum_ext. intros. ring.
    + intros i Hi. rewrite (rsum_ext n (fun j => sy (blockL n M) i j * x j) (fun j => sy M i j * x j - (M n i / d / d) * (M n j * x j))).
      * rewrite rsum_minus, rsum_scal. fold b. field. lra.
      * intros j Hj. rewrite blockL_sy by lia. fold d. field. lra.
  - unfold t. replace (b / d * (b / d)) with (b * b / (d * d)) by (field; lra). rewrite SQ. field. lra.
Qed.

Lemma blockL_upper n M : (forall i j, (i < j)%nat -> M i j = 0) -> forall i j, (i < j)%nat -> blockL n M i j = 0.
Proof.
  intros HM a b Hab. unfold blockL. cbv zeta. destruct (Nat.eqb_spec a n).
  - subst. destruct (Nat.eqb_spec b n); [lia|]. destruct (Nat.ltb_spec b n); [lia|]. cbn [andb]. destruct (Nat.ltb_spec n n); [lia|]. apply HM; lia.
  - cbn [andb]. destruct (Nat.leb_spec b a); [lia|]. rewrite andb_false_r. apply HM; lia.
Qed.
(** Rows below are final. *)
Lemma blocks_row n : forall M i j, (n <= i)%nat -> blocks n M i j = M i j.
Proof.
  induction n as [|n IH]; intros M i j Hi; [reflexivity|]. cbn [blocks]. rewrite IH by lia. unfold blockL. cbv zeta.
  destruct (Nat.eqb_spec i n); [lia|]. destruct (Nat.ltb_spec i n); [lia|]. reflexivity.
Qed.
Lemma blocks_upper n : forall M i j, (forall i j, (i < j)%nat -> M i j = 0) -> (i < j)%nat -> blocks n M i j = 0.
Proof.
  induction n as [|n IH]; intros M i j HM Hij; [apply HM; exact Hij|]. cbn [blocks]. apply IH; [|exact Hij].
  apply blockL_upper; exact HM.
Qed.
Lemma blocks_factor n : forall M, (forall i j, (i < j)%nat -> M i j = 0) -> pdef n (sy M) ->
  (forall i, (i < n)%nat -> 0 < blocks n M i i) /\
  (forall i j, (i < n)%nat -> (j < n)%nat -> rsum n (fun k => blocks n M k i * blocks n M k j) = sy M i j).
Proof.
  induction n as [|n IH]; intros M HM P; [split; intros; lia|].
  destruct (schur n M P) as [D P']. cbn [blocks].
  pose proof (blockL_upper n M HM) as HM'.
  destruct (IH (blockL n M) HM' P') as [I1 I2].
  assert (SP : 0 < sqrt (M n n)) by (apply sqrt_lt_R0; exact D).
  assert (SQ : sqrt (M n n) * sqrt (M n n) = M n n) by (apply sqrt_sqrt; lra).
  assert (Bnn : blockL n M n n = sqrt (M n n)) by (unfold blockL; rewrite Nat.eqb_refl; reflexivity).
  assert (Bnj : forall j, (j < n)%nat -> blockL n M n j = M n j / sqrt (M n n)).
  { intros j Hj. unfold blockL. cbv zeta. rewrite Nat.eqb_refl. destruct (Nat.eqb_spec j n); [lia|]. destruct (Nat.ltb_spec j n); [|lia]. reflexivity. }
  assert (Z : forall k, (k < n)%nat -> blocks n (blockL n M) k n = 0) by (intros; apply blocks_upper; [exact HM'|lia]).
  split.
  - intros i Hi. destruct (Nat.eq_dec i n); [subst; rewrite blocks_row by lia; rewrite Bnn; exact SP|apply I1; lia].
  - intros i j Hi Hj. cbn [rsum]. rewrite !blocks_row by lia.
    destruct (Nat.eq_dec i n) as [->|Ni].
    + rewrite (rsum_ext n _ (fun _ => 0)) by (intros k Hk; rewrite Z by exact Hk; ring). rewrite RVec.rsum_zero, Bnn, sy_ge by lia.
      destruct (Nat.eq_dec j n) as [->|Nj]; [rewrite Bnn; lra|]. rewrite Bnj by lia. field. lra.
    + destruct (Nat.eq_dec j n) as [->|Nj].
      * rewrite (rsum_ext n _ (fun _ => 0)) by (intros k Hk; rewrite Z by exact Hk; ring). rewrite RVec.rsum_zero, Bnn, sy_lt, Bnj by lia. field. lra.
      * rewrite I2, blockL_sy, !Bnj by lia. ring.
Qed.

Lemma rquad_mext n A B x : (forall i j, (i < n)%nat -> (j < n)%nat -> A i j = B i j) -> rquad n A x x = rquad n B x x.
Proof.
  intros H. unfold rquad, rdot. apply rsum_ext. intros i Hi. f_equal. unfold rmv. apply rsum_ext. intros j Hj. rewrite H by assumption. reflexivity.
Qed.

(** ** The factor *)
Section Fac.
Variables (n : nat) (H : mat).
Hypothesis HS : forall i j, (i < n)%nat -> (j < n)%nat -> H i j = H j i.
Hypothesis HP : pdef n H.
Let L := computeL n H.

Lemma factor_upper i j : (i < j)%nat -> L i j = 0.
Proof. intros Hij. apply blocks_upper; [|exact Hij]. intros a b Hab. destruct (Nat.leb_spec b a); [lia|reflexivity]. Qed.
Lemma view_sy i j : (i < n)%nat -> (j < n)%nat -> sy (fun i j => if (j <=? i)%nat then H i j else 0) i j = H i j.
Proof.
  intros Hi Hj. destruct (Nat.le_ge_cases j i).
  - rewrite sy_ge by lia. destruct (Nat.leb_spec j i); [reflexivity|lia].
  - rewrite sy_lt by lia. destruct (Nat.leb_spec i j); [apply HS; assumption|lia].
Qed.
Lemma factor_both : (forall i, (i < n)%nat -> 0 < L i i) /\
  (forall i j, (i < n)%nat -> (j < n)%nat -> rsum n (fun k => L k i * L k j) = H i j).
Proof.
  destruct (blocks_factor n (fun i j => if (j <=? i)%nat then H i j else 0)) as [A B].
  - intros i j Hij. destruct (Nat.leb_spec j i); [lia|reflexivity].
  - intros x Hx. rewrite (rquad_mext n _ H) by (intros; apply view_sy; assumption). apply HP; exact Hx.
  - split; [exact A|]. intros i j Hi Hj. rewrite <- view_sy by assumption. apply B; assumption.
Qed.

(** ** Its inverse *)
Lemma row_far i d : forall k, (i < k)%nat \/ (k + d < i)%nat -> rowLinv L i d k = 0.
Proof.
  induction d as [|d IH]; intros k Hk; cbn [rowLinv].
  - rewrite rset_other by lia. reflexivity.
  - rewrite rset_other by lia. apply IH. lia.
Qed.
Lemma row_stable i d e k : (d <= e)%nat -> (e <= i)%nat -> (i <= k + d)%nat -> rowLinv L i e k = rowLinv L i d k.
Proof.
  induction 1 as [|e He IH]; intros Hei Hk; [reflexivity|]. cbn [rowLinv].
  rewrite rset_other by lia. apply IH; lia.
Qed.
Lemma rsum_split a b f : rsum (a + b) f = rsum a f + rsum b (fun m => f (a + m)%nat).
Proof. induction b as [|b IH]; [rewrite Nat.add_0_r; cbn [rsum]; ring|]. rewrite Nat.add_succ_r. cbn [rsum]. rewrite IH. ring. Qed.
Lemma rsum_range f i j : (j <= i)%nat -> (i < n)%nat -> (forall k, (k < n)%nat -> (k < j)%nat \/ (i < k)%nat -> f k = 0) ->
  rsum n f = f j + rsum (i - j) (fun m => f (j + 1 + m)%nat).
Proof.
  intros Hj Hi Z. replace n with (j + (1 + (i - j) + (n - S i)))%nat by lia. rewrite rsum_split, rsum_split.
  rewrite (rsum_ext j f (fun _ => 0)) by (intros k Hk; apply Z; lia).
  rewrite (rsum_ext (n - S i) _ (fun _ => 0)) by (intros k Hk; apply Z; lia). rewrite !RVec.rsum_zero.
  rewrite rsum_split. cbn [rsum]. rewrite Nat.add_0_r.
  rewrite (rsum_ext (i - j) (fun m => f (j + (1 + m))%nat) (fun m => f (j + 1 + m)%nat)) by (intros; f_equal; lia). ring.
Qed.
Let Li := computeLInverse L.
Lemma Linv_upper i j : (i < j)%nat -> Li i j = 0.
Proof. intros Hij. apply row_far. lia. Qed.
Lemma Linv_diag i : Li i i = 1 / L i i.
Proof. unfold Li, computeLInverse. rewrite (row_stable i 0 i i) by lia. cbn [rowLinv]. apply rset_eq. Qed.
Lemma Linv_left i j : (i < n)%nat -> (j < n)%nat -> rsum n (fun k => Li i k * L k j) = if (i =? j)%nat then 1 else 0.
Proof.
  intros Hi Hj. destruct factor_both as [D _].
  destruct (Nat.lt_ge_cases i j) as [G|G].
  - destruct (Nat.eqb_spec i j); [lia|]. rewrite (rsum_ext n _ (fun _ => 0)), RVec.rsum_zero; [reflexivity|].
    intros k Hk. destruct (Nat.lt_ge_cases k j); [rewrite factor_upper by lia; ring|rewrite Linv_upper by lia; ring].
  - rewrite (rsum_range _ i j G Hi).
    2:{ intros k _ [Hk|Hk]; [rewrite factor_upper by lia; ring|rewrite Linv_upper by lia; ring]. }
    destruct (Nat.eqb_spec i j) as [<-|N].
    + rewrite Nat.sub_diag. cbn [rsum]. rewrite Linv_diag. field. specialize (D i Hi). lra.
    + assert (E : Li i j = - (1 / L j j) * rsum (i - j) (fun m => Li i (j + 1 + m)%nat * L (j + 1 + m)%nat j)).
      { unfold Li at 1. unfold computeLInverse. rewrite (row_stable i (i - j) i j) by lia.
        destruct (i - j)%nat as [|d] eqn:Ed; [lia|]. cbn [rowLinv]. replace (i - S d)%nat with j by lia. rewrite rset_eq, Ed.
        rewrite Rplus_0_r. f_equal. apply rsum_ext. intros m Hm. f_equal. unfold Li, computeLInverse. symmetry. apply row_stable; lia. }
      rewrite E. field. specialize (D j Hj). lra.
Qed.
(** Nothing but zero is annihilated by L. *)
Lemma L_inj (y : rvec) : (forall j, (j < n)%nat -> rsum n (fun k => y k * L k j) = 0) -> forall k, (k < n)%nat -> y k = 0.
Proof.
  intros Hy. destruct factor_both as [D _].
  assert (K : forall m k, (m <= n)%nat -> (n - m <= k < n)%nat -> y k = 0).
  { induction m as [|m IH]; intros k Hm Hk; [lia|]. destruct (Nat.eq_dec k (n - S m)) as [E|N]; [|apply IH; lia].
    specialize (Hy k ltac:(lia)). rewrite (rsum_range _ (n - 1) k ltac:(lia) ltac:(lia)) in Hy.
    2:{ intros x Hn [Hx|Hx]; [rewrite factor_upper by lia; ring|lia]. }
    rewrite (rsum_ext (n - 1 - k) _ (fun _ => 0)) in Hy by (intros x Hx; rewrite (IH (k + 1 + x)%nat) by lia; ring).
    rewrite RVec.rsum_zero, Rplus_0_r in Hy. apply Rmult_integral in Hy. destruct Hy as [Hy|Hy]; [exact Hy|]. specialize (D k ltac:(lia)). lra. }
  intros k Hk. apply (K n k); lia.
Qed.
Lemma Linv_right i j : (i < n)%nat -> (j < n)%nat -> rsum n (fun k => L i k * Li k j) = if (i =? j)%nat then 1 else 0.
Proof.
  intros Hi Hj. apply Rminus_diag_uniq. revert j Hj.
  apply (L_inj (fun j => rsum n (fun k => L i k * Li k j) - (if (i =? j)%nat then 1 else 0))).
  intros j Hj.
  rewrite (rsum_ext n _ (fun x => rsum n (fun k => L i k * (Li k x * L x j)) - (if (x =? i)%nat then L x j else 0))).
  - rewrite rsum_minus, rsum_delta by exact Hi. rewrite rsum_swap.
    rewrite (rsum_ext n _ (fun k => if (k =? j)%nat then L i k else 0)).
    + rewrite rsum_delta by exact Hj. ring.
    + intros k Hk. rewrite rsum_scal, Linv_left by assumption. destruct (k =? j)%nat; ring.
  - intros x Hx. rewrite Nat.eqb_sym. rewrite Rmult_minus_distr_r, <- rsum_scal_r. f_equal.
    + apply rsum_ext. intros. ring.
    + destruct (i =? x)%nat eqn:E; rewrite Nat.eqb_sym, E; ring.
Qed.
Let Inv := computeInverse L.
Lemma inverse_sum i j : (i < n)%nat -> (j < n)%nat -> Inv i j = rsum n (fun k => Li i k * Li j k).
Proof.
  intros Hi Hj. unfold Inv, computeInverse. cbv zeta. fold Li.
  assert (K : forall a b, (a < n)%nat -> (b < n)%nat -> (b <= a)%nat -> rsum (S b) (fun k => Li a k * Li b k) = rsum n (fun k => Li a k * Li b k)).
  { intros a b Ha Hb Hab. replace n with (S b + (n - S b))%nat at 1 by lia. rewrite rsum_split.
    rewrite (rsum_ext (n - S b) _ (fun _ => 0)) by (intros k Hk; rewrite (Linv_upper b) by lia; ring). rewrite RVec.rsum_zero. ring. }
  destruct (Nat.le_ge_cases j i).
  - rewrite Nat.min_r, Nat.max_l by lia. apply K; lia.
  - rewrite Nat.min_l, Nat.max_r by lia. rewrite K by lia. apply rsum_ext. intros; ring.
Qed.
Lemma inverse_left i j : (i < n)%nat -> (j < n)%nat -> rsum n (fun k => Inv i k * H k j) = if (i =? j)%nat then 1 else 0.
Proof.
  intros Hi Hj. destruct factor_both as [_ F].
  rewrite (rsum_ext n _ (fun k => rsum n (fun a => Li i a * (Li k a * rsum n (fun b => L b k * L b j))))).
  2:{ intros k Hk. rewrite inverse_sum, <- F by assumption. rewrite <- rsum_scal_r. apply rsum_ext. intros; ring. }
  rewrite rsum_swap.
  rewrite (rsum_ext n _ (fun a => Li i a * rsum n (fun b => if (b =? a)%nat then L b j else 0))).
  - rewrite (rsum_ext n _ (fun a => Li i a * L a j)) by (intros a Ha; rewrite rsum_delta by exact Ha; reflexivity). apply Linv_left; assumption.
  - intros a Ha. rewrite rsum_scal. f_equal.
    rewrite (rsum_ext n _ (fun k => rsum n (fun b => L b j * (L b k * Li k a)))).
    2:{ intros k Hk. rewrite <- rsum_scal. apply rsum_ext. intros; ring. }
    rewrite rsum_swap. apply rsum_ext. intros b Hb. rewrite rsum_scal, Linv_right by assumption. destruct (b =? a)%nat; ring.
Qed.
Lemma inverse_right i j : (i < n)%nat -> (j < n)%nat -> rsum n (fun k => H i k * Inv k j) = if (i =? j)%nat then 1 else 0.
Proof.
  intros Hi Hj. rewrite Nat.eqb_sym, <- inverse_left by assumption. apply rsum_ext. intros k Hk.
  rewrite (HS i k), !inverse_sum by assumption. rewrite Rmult_comm. f_equal. apply rsum_ext. intros; ring.
Qed.
End Fac.
