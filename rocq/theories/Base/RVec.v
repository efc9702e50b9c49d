(** Real vectors and matrices as functions on indices (entries beyond the dimension are never
    looked at), with finite sums.  Library file: no model of /repo in here. *)
From Coq Require Import Reals Lra Lia Arith.
Local Open Scope R_scope.

Definition rvec := nat -> R.
Definition rmat := nat -> nat -> R.

(** [rsum n f] is f 0 + ... + f (n-1). *)
Fixpoint rsum (n : nat) (f : nat -> R) : R :=
  match n with O => 0 | S k => rsum k f + f k end.

Definition rdot (n : nat) (a b : rvec) : R := rsum n (fun i => a i * b i).
Definition rmv (n : nat) (A : rmat) (x : rvec) : rvec := fun i => rsum n (fun j => A i j * x j).
Definition rquad (n : nat) (A : rmat) (x y : rvec) : R := rdot n x (rmv n A y).
Definition radd (x y : rvec) : rvec := fun i => x i + y i.
Definition rsubv (x y : rvec) : rvec := fun i => x i - y i.
Definition rscal (c : R) (x : rvec) : rvec := fun i => c * x i.
Definition rzero : rvec := fun _ => 0.
(** [rset x i v]: x with entry i replaced by v. *)
Definition rset (x : rvec) (i : nat) (v : R) : rvec := fun j => if Nat.eqb j i then v else x j.
Definition runit (i : nat) : rvec := fun j => if Nat.eqb j i then 1 else 0.

Lemma rsum_ext n f g : (forall i, (i < n)%nat -> f i = g i) -> rsum n f = rsum n g.
Proof. induction n as [|n IH]; intros H; simpl; auto. rewrite IH, H; auto. Qed.

Lemma rsum_plus n f g : rsum n (fun i => f i + g i) = rsum n f + rsum n g.
Proof. induction n as [|n IH]; simpl; try rewrite IH; ring. Qed.

Lemma rsum_minus n f g : rsum n (fun i => f i - g i) = rsum n f - rsum n g.
Proof. induction n as [|n IH]; simpl; try rewrite IH; ring. Qed.

Lemma rsum_scal n c f : rsum n (fun i => c * f i) = c * rsum n f.
Proof. induction n as [|n IH]; simpl; try rewrite IH; ring. Qed.

Lemma rsum_scal_r n c f : rsum n (fun i => f i * c) = rsum n f * c.
Proof. induction n as [|n IH]; simpl; try rewrite IH; ring. Qed.

Lemma rsum_zero n : rsum n (fun _ => 0) = 0.
Proof. induction n as [|n IH]; simpl; try rewrite IH; ring. Qed.

Lemma rsum_delta n i c : (i < n)%nat -> rsum n (fun j => if Nat.eqb j i then c j else 0) = c i.
Proof.
  induction n as [|n IH]; intros H; simpl; [lia|].
  destruct (Nat.eqb_spec n i) as [->|Hn].
  - rewrite (rsum_ext _ _ (fun _ => 0)), rsum_zero; [ring|].
    intros j Hj. destruct (Nat.eqb_spec j i); [lia|reflexivity].
  - rewrite IH by lia. ring.
Qed.

Lemma rsum_swap n m f :
  rsum n (fun i => rsum m (fun j => f i j)) = rsum m (fun j => rsum n (fun i => f i j)).
Proof.
  induction n as [|n IH]; simpl.
  - now rewrite rsum_zero.
  - rewrite IH, rsum_plus. reflexivity.
Qed.

Lemma rsum_nonneg n f : (forall i, (i < n)%nat -> 0 <= f i) -> 0 <= rsum n f.
Proof.
  induction n as [|n IH]; intros H; simpl; [lra|].
  apply Rplus_le_le_0_compat; auto.
Qed.

Lemma rset_eq x i v : rset x i v i = v.
Proof. unfold rset. now rewrite Nat.eqb_refl. Qed.

Lemma rset_other x i v j : j <> i -> rset x i v j = x j.
Proof. unfold rset. intros H. destruct (Nat.eqb_spec j i); [contradiction|reflexivity]. Qed.

Lemma rset_unit x i v j : rset x i v j = x j + (v - x i) * runit i j.
Proof. unfold rset, runit. destruct (Nat.eqb_spec j i) as [->|]; ring. Qed.

Lemma rdot_unit n a i : (i < n)%nat -> rdot n a (runit i) = a i.
Proof.
  intros H. unfold rdot, runit.
  rewrite <- (rsum_delta n i a H). apply rsum_ext; intros j _.
  destruct (Nat.eqb j i); ring.
Qed.

Lemma rdot_comm n a b : rdot n a b = rdot n b a.
Proof. apply rsum_ext; intros; ring. Qed.

Lemma rdot_add_r n a b c : rdot n a (radd b c) = rdot n a b + rdot n a c.
Proof. unfold rdot. rewrite <- rsum_plus. apply rsum_ext; intros; unfold radd; ring. Qed.

Lemma rdot_scal_r n a k b : rdot n a (rscal k b) = k * rdot n a b.
Proof. unfold rdot. rewrite <- rsum_scal. apply rsum_ext; intros; unfold rscal; ring. Qed.

Lemma rdot_ext n a a' b b' :
  (forall i, (i < n)%nat -> a i = a' i) -> (forall i, (i < n)%nat -> b i = b' i) ->
  rdot n a b = rdot n a' b'.
Proof. intros Ha Hb. apply rsum_ext; intros i Hi. now rewrite Ha, Hb. Qed.

Lemma rdot_set n a x i v : (i < n)%nat -> rdot n a (rset x i v) = rdot n a x + a i * (v - x i).
Proof.
  intros Hi. rewrite <- (rdot_unit n a i Hi) at 1.
  unfold rdot. rewrite <- rsum_scal_r, <- rsum_plus.
  apply rsum_ext; intros j _. rewrite rset_unit. ring.
Qed.

Lemma rmv_add n A x y i : rmv n A (radd x y) i = rmv n A x i + rmv n A y i.
Proof. exact (rdot_add_r n (A i) x y). Qed.

Lemma rmv_scal n A k x i : rmv n A (rscal k x) i = k * rmv n A x i.
Proof. exact (rdot_scal_r n (A i) k x). Qed.

Definition rtr (A : rmat) : rmat := fun i j => A j i.
Definition raddm (A B : rmat) : rmat := fun i j => A i j + B i j.

Lemma rquad_tr n A x y : rquad n A x y = rquad n (rtr A) y x.
Proof.
  unfold rquad, rdot, rmv, rtr.
  rewrite (rsum_ext n (fun i => x i * rsum n (fun j => A i j * y j))
                      (fun i => rsum n (fun j => x i * A i j * y j))).
  - rewrite rsum_swap. apply rsum_ext; intros j _.
    rewrite <- rsum_scal. apply rsum_ext; intros; ring.
  - intros i _. rewrite <- rsum_scal. apply rsum_ext; intros; ring.
Qed.

Lemma rquad_add_l n A x y z : rquad n A (radd x y) z = rquad n A x z + rquad n A y z.
Proof. unfold rquad. now rewrite !(rdot_comm n _ (rmv n A z)), rdot_add_r. Qed.

Lemma rquad_scal_l n A k y z : rquad n A (rscal k y) z = k * rquad n A y z.
Proof. unfold rquad. now rewrite !(rdot_comm n _ (rmv n A z)), rdot_scal_r. Qed.

Lemma rquad_add_r n A x y z : rquad n A x (radd y z) = rquad n A x y + rquad n A x z.
Proof. now rewrite !(rquad_tr n A x), rquad_add_l. Qed.

Lemma rquad_scal_r n A k y z : rquad n A z (rscal k y) = k * rquad n A z y.
Proof. now rewrite !(rquad_tr n A z), rquad_scal_l. Qed.

Lemma rquad_ext n A x x' y y' :
  (forall i, (i < n)%nat -> x i = x' i) -> (forall i, (i < n)%nat -> y i = y' i) ->
  rquad n A x y = rquad n A x' y'.
Proof.
  intros Hx Hy. apply rdot_ext; auto. intros i _. apply rsum_ext; intros j Hj. now rewrite Hy.
Qed.

(** A quadratic form along a line. *)
Lemma rquad_line n A x d s :
  rquad n A (radd x (rscal s d)) (radd x (rscal s d)) =
  rquad n A x x + s * (rquad n A x d + rquad n A d x) + s * s * rquad n A d d.
Proof. rewrite !rquad_add_l, !rquad_add_r, !rquad_scal_l, !rquad_scal_r. ring. Qed.
