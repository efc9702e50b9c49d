(** C95: the generated kinematics of HyA is the one of its mounting. *)
From Coq Require Import Reals List Bool Arith Lia Lra.
From Coquelicot Require Import Coquelicot.
From Verif Require Import Base.Outcome Base.RVec Optcon.CostProofs Rbd.SpatialModel Rbd.SpatialProofs Rbd.SpatialProps Rbd.PendulumModel Rbd.PendulumProps Rbd.HyaProps Rbd.HyaKinModel.
Import ListNotations.
Local Open Scope R_scope.

(** ** Specification *)
(** Axes and place of link [k] in the coordinates of the base, when the joints before it are turned by [q]. *)
Fixpoint worldR (q : nat -> R) (k : nat) : mat :=
  match k with 0%nat => axes (mountF 0) (q 0%nat) | S k' => mul3 (worldR q k') (axes (mountF k) (q k)) end.
Fixpoint worldP (q : nat -> R) (k : nat) : rvec :=
  match k with 0%nat => mountP 0 | S k' => fun i => worldP q k' i + rmv 3 (worldR q k') (mountP k) i end.
(** The end effector sits on the last link. *)
Definition eeR (q : nat -> R) : mat := worldR q 5.
Definition eeP (q : nat -> R) : rvec := fun i => worldP q 5 i + rmv 3 (worldR q 5) (vec3 (3 / 100) 0 0) i.
(** The 4x4 matrix of axes [E] and place [p]. *)
Definition homogeneous (E : mat) (p : rvec) : mat := fun i j =>
  if (i <? 3)%nat then if (j <? 3)%nat then E i j else p i else if (j <? 3)%nat then 0 else 1.

Inductive liveQ (mk : mat -> mat) (upd : (nat -> R) -> mat -> mat) : mat -> Prop :=
| liveQ_new G : liveQ mk upd (mk G)
| liveQ_upd q M : liveQ mk upd M -> liveQ mk upd (upd q M).
Lemma tableQ n (new : mat -> mat) (upd : (nat -> R) -> mat -> mat) (T : (nat -> R) -> mat) :
  (forall G q i j, (i < n)%nat -> (j < n)%nat -> upd q (new G) i j = T q i j) ->
  (forall M p q i j, (i < n)%nat -> (j < n)%nat -> upd q (upd p M) i j = upd q M i j) ->
  forall M, liveQ new upd M -> forall q i j, (i < n)%nat -> (j < n)%nat -> upd q M i j = T q i j.
Proof. intros H1 H2 M HM. induction HM as [G|p M HM IH]; intros q i j Hi Hj; [apply H1; assumption|]. rewrite (H2 M p q i j Hi Hj). apply IH; assumption. Qed.

Lemma hyaH k : (k < 6)%nat -> forall M, liveQ (newHb k) (updHb k) M -> forall q i j, (i < 4)%nat -> (j < 4)%nat ->
  updHb k q M i j = homogeneous (worldR q k) (worldP q k) i j.
Proof.
  intros Hk. apply tableQ.
  - intros G q. six k Hk; intros i j Hi Hj; idx i; idx j; ev; lra.
  - intros M p q. six k Hk; intros i j Hi Hj; idx i; idx j; reflexivity.
Qed.
Lemma hyaEE M : liveQ newHee updHee M -> forall q i j, (i < 4)%nat -> (j < 4)%nat -> updHee q M i j = homogeneous (eeR q) (eeP q) i j.
Proof.
  revert M. apply tableQ.
  - intros G q i j Hi Hj. idx i; idx j; ev; lra.
  - intros M p q i j Hi Hj. idx i; idx j; reflexivity.
Qed.

(** ** Rotations *)
Lemma rotation_entries E : rotation E -> rot9 (E 0%nat 0%nat) (E 0%nat 1%nat) (E 0%nat 2%nat) (E 1%nat 0%nat) (E 1%nat 1%nat) (E 1%nat 2%nat) (E 2%nat 0%nat) (E 2%nat 1%nat) (E 2%nat 2%nat).
Proof. intros H. exact (rotation_rot E H). Qed.
Lemma rotation_cross E a b : rotation E -> forall i, (i < 3)%nat -> cross (rmv 3 E a) (rmv 3 E b) i = rmv 3 E (cross a b) i.
Proof.
  intros H i Hi. destruct (rot9_cof _ _ _ _ _ _ _ _ _ (rotation_entries E H)) as (K1 & K2 & K3 & K4 & K5 & K6 & K7 & K8 & K9).
  idx i; unfold rmv; cbn [rsum cross].
  - rewrite <- K1, <- K2, <- K3. ring.
  - rewrite <- K4, <- K5, <- K6. ring.
  - rewrite <- K7, <- K8, <- K9. ring.
Qed.
Lemma rotation_mul A B : rotation A -> rotation B -> rotation (mul3 A B).
Proof.
  intros [A1 A2] [B1 B2]. split.
  - intros i j Hi Hj. rewrite <- (A1 i j Hi Hj). unfold mul3.
    transitivity (rsum 3 (fun m => rsum 3 (fun n => A i m * A j n * rsum 3 (fun k => B m k * B n k)))).
    { cbn [rsum]. ring. }
    rewrite (rsum_ext 3 _ (fun m => rsum 3 (fun n => A i m * A j n * if (m =? n)%nat then 1 else 0))).
    2:{ intros m Hm. apply rsum_ext. intros n Hn. rewrite B1 by assumption. reflexivity. }
    cbn [rsum Nat.eqb]. ring.
  - transitivity (det3 A * det3 B); [|rewrite A2, B2; ring]. unfold det3, mul3. cbn [rsum]. ring.
Qed.
Lemma worldR_rotation q k : (k < 6)%nat -> rotation (worldR q k).
Proof.
  induction k as [|k IH]; intros Hk; cbn [worldR].
  - apply axes_rotation; exact Hk.
  - apply rotation_mul; [apply IH; lia|apply axes_rotation; exact Hk].
Qed.

(** ** Force transforms *)
(** The force transform from the base to coordinates with axes [E] (columns) and origin [p]; the upper right block is [L]. *)
Definition forceBlocks (E L : mat) : mat := fun i j =>
  if (i <? 3)%nat then if (j <? 3)%nat then E j i else L i (j - 3)%nat else if (j <? 3)%nat then 0 else E (j - 3)%nat (i - 3)%nat.
(** The block of link [k], collected along the arm. *)
Fixpoint momentArm (q : nat -> R) (k : nat) : mat :=
  match k with
  | 0%nat => fun i j => - mul3 (tr (worldR q 0)) (crossMx (mountP 0)) i j
  | S k' => mul3 (tr (axes (mountF k) (q k))) (fun i j => momentArm q k' i j - mul3 (crossMx (mountP k)) (tr (worldR q k')) i j)
  end.
Lemma hyaFb k : (k < 6)%nat -> forall M, liveQ (newFb k) (updFb k) M -> forall q i j, (i < 6)%nat -> (j < 6)%nat ->
  updFb k q M i j = forceBlocks (worldR q k) (momentArm q k) i j.
Proof.
  intros Hk. apply tableQ.
  - intros G q. six k Hk; intros i j Hi Hj; idx i; idx j; ev; lra.
  - intros M p q. six k Hk; intros i j Hi Hj; idx i; idx j; reflexivity.
Qed.
Lemma arm_is q k : (k < 6)%nat -> forall i j, (i < 3)%nat -> (j < 3)%nat ->
  momentArm q k i j = - mul3 (tr (worldR q k)) (crossMx (worldP q k)) i j.
Proof.
  induction k as [|k IH]; intros Hk i j Hi Hj; [reflexivity|].
  assert (HR : rotation (worldR q k)) by (apply worldR_rotation; lia).
  set (m := mountP (S k)). set (A := axes (mountF (S k)) (q (S k))).
  change (rsum 3 (fun n => A n i * (momentArm q k n j - mul3 (crossMx m) (tr (worldR q k)) n j)) =
    - mul3 (tr (mul3 (worldR q k) A)) (crossMx (fun x => worldP q k x + rmv 3 (worldR q k) m x)) i j).
  assert (RM : forall n, (n < 3)%nat -> mul3 (crossMx m) (tr (worldR q k)) n j = mul3 (tr (worldR q k)) (crossMx (rmv 3 (worldR q k) m)) n j).
  { intros n Hn. destruct (rot9_cof _ _ _ _ _ _ _ _ _ (rotation_entries _ HR)) as (K1 & K2 & K3 & K4 & K5 & K6 & K7 & K8 & K9).
    clear - K1 K2 K3 K4 K5 K6 K7 K8 K9 Hn Hj. generalize dependent (worldR q k). intros E **.
    unfold mul3, tr, rmv. idx j; cbn [crossMx rsum].
    - rewrite <- K1, <- K2, <- K3. idx n; cbn [crossMx rsum]; ring.
    - rewrite <- K4, <- K5, <- K6. idx n; cbn [crossMx rsum]; ring.
    - rewrite <- K7, <- K8, <- K9. idx n; cbn [crossMx rsum]; ring. }
  rewrite (rsum_ext 3 _ (fun n => A n i * (- mul3 (tr (worldR q k)) (crossMx (worldP q k)) n j - mul3 (tr (worldR q k)) (crossMx (rmv 3 (worldR q k) m)) n j))).
  2:{ intros n Hn. rewrite IH, RM by (lia || assumption). reflexivity. }
  unfold mul3, tr. cbn [rsum]. idx j; unfold crossMx; ring.
Qed.
Lemma forceBlocks_ok E p (X : mat) : (forall i j, (i < 6)%nat -> (j < 6)%nat -> X i j = forceBlocks E (fun a b => - mul3 (tr E) (crossMx p) a b) i j) ->
  forceTransform (tr E) p X.
Proof.
  intros H f i Hi. unfold rmv at 1. rewrite (rsum_ext 6 _ (fun k => forceBlocks E (fun a b => - mul3 (tr E) (crossMx p) a b) i k * f k)).
  2:{ intros k Hk. rewrite H by assumption. reflexivity. }
  clear H X. idx i; ev; ring.
Qed.

(** ** Velocities *)
Definition ez : rvec := fun i => if (i =? 2)%nat then 1 else 0.
(** The axis of joint [j] in the base. *)
Definition axisOf (q : nat -> R) (j : nat) : rvec := rmv 3 (worldR q j) ez.
(** From link [5 - n] to the end effector, in that link's coordinates. *)
Fixpoint ahead (q : nat -> R) (n : nat) : rvec :=
  match n with
  | 0%nat => vec3 (3 / 100) 0 0
  | S n' => fun i => mountP (5 - n') i + rmv 3 (axes (mountF (5 - n')) (q (5 - n')%nat)) (ahead q n') i
  end.
Lemma rmv_mul3 A B x i : rmv 3 (mul3 A B) x i = rmv 3 A (rmv 3 B x) i.
Proof. unfold rmv, mul3. cbn [rsum]. ring. Qed.
Lemma rmv_add3 A x y i : rmv 3 A (fun k => x k + y k) i = rmv 3 A x i + rmv 3 A y i.
Proof. unfold rmv. cbn [rsum]. ring. Qed.
Lemma ahead_is q n : (n < 6)%nat -> forall i, eeP q i = worldP q (5 - n) i + rmv 3 (worldR q (5 - n)) (ahead q n) i.
Proof.
  induction n as [|n IH]; intros Hn i; [reflexivity|].
  rewrite (IH ltac:(lia) i). replace (5 - n)%nat with (S (5 - S n)) by lia.
  change (worldP q (S (5 - S n)) i) with (worldP q (5 - S n) i + rmv 3 (worldR q (5 - S n)) (mountP (S (5 - S n))) i).
  change (worldR q (S (5 - S n))) with (mul3 (worldR q (5 - S n)) (axes (mountF (S (5 - S n))) (q (S (5 - S n))))).
  cbn [ahead]. replace (5 - n)%nat with (S (5 - S n)) by lia. rewrite rmv_add3, rmv_mul3. ring.
Qed.
(** The Jacobian of the end effector: axis, and axis times lever. *)
Lemma hyaJ M : liveQ newJee updJee M -> forall q i j, (i < 6)%nat -> (j < 6)%nat ->
  updJee q M i j = if (i <? 3)%nat then axisOf q j i else rmv 3 (worldR q j) (cross ez (ahead q (5 - j))) (i - 3)%nat.
Proof.
  revert M. apply tableQ with (T := fun q i j => if (i <? 3)%nat then axisOf q j i else rmv 3 (worldR q j) (cross ez (ahead q (5 - j))) (i - 3)%nat).
  - intros G q i j Hi Hj. idx i; idx j; ev; lra.
  - intros M p q i j Hi Hj. idx i; idx j; reflexivity.
Qed.
Lemma lever q j i : (j < 6)%nat -> (i < 3)%nat -> rmv 3 (worldR q j) (cross ez (ahead q (5 - j))) i = cross (axisOf q j) (fun k => eeP q k - worldP q j k) i.
Proof.
  intros Hj Hi. rewrite <- (rotation_cross _ ez (ahead q (5 - j)) (worldR_rotation q j Hj) i Hi).
  pose proof (ahead_is q (5 - j) ltac:(lia)) as K. replace (5 - (5 - j))%nat with j in K by lia.
  unfold axisOf. idx i; unfold cross; rewrite !K; ring.
Qed.

(** ** Motions *)
Lemma colrot E i j : rotation E -> (i < 3)%nat -> (j < 3)%nat -> rsum 3 (fun m => E i m * crossMx ez m j) = cross (rmv 3 E ez) (fun m => E m j) i.
Proof.
  intros HE Hi Hj. transitivity (rmv 3 E (cross ez (fun k => if (k =? j)%nat then 1 else 0)) i).
  { unfold rmv. idx j; cbn [rsum crossMx cross ez Nat.eqb]; ring. }
  rewrite <- (rotation_cross E ez _ HE i Hi). idx j; idx i; unfold cross, rmv, ez; cbn [rsum Nat.eqb]; ring.
Qed.
Lemma cross_sum n (w : nat -> rvec) b i : (i < 3)%nat -> cross (fun m => rsum n (fun j => w j m)) b i = rsum n (fun j => cross (w j) b i).
Proof.
  intros Hi. induction n as [|n IH]; [idx i; unfold cross; cbn [rsum]; ring|].
  cbn [rsum]. rewrite <- IH. idx i; unfold cross; ring.
Qed.
Lemma axes_derive F y i j : (i < 3)%nat -> (j < 3)%nat -> is_derive (fun x => axes F x i j) y (rsum 3 (fun m => axes F y i m * crossMx ez m j)).
Proof.
  intros Hi Hj. unfold axes, mul3. idx j; unfold turnZ, rows3; cbn [rsum nth crossMx ez Nat.eqb]; (auto_derive; [exact I|ring]).
Qed.
Section Motion.
Variable q : nat -> R -> R.
Variable t : R.
Variable qd : nat -> R.
Hypothesis Hq : forall k, (k < 6)%nat -> is_derive (q k) t (qd k).
Notation Q x := (fun k => q k x).
Definition omega (k : nat) : rvec := fun i => rsum (S k) (fun j => axisOf (Q t) j i * qd j).
Lemma axesQ k i j : (k < 6)%nat -> (i < 3)%nat -> (j < 3)%nat ->
  is_derive (fun x => axes (mountF k) (q k x) i j) t (qd k * rsum 3 (fun m => axes (mountF k) (q k t) i m * crossMx ez m j)).
Proof. intros Hk Hi Hj. apply (is_derive_comp (fun y => axes (mountF k) y i j) (q k)); [apply axes_derive; assumption|apply Hq; exact Hk]. Qed.
Lemma mult_derive (f g : R -> R) (x a b : R) : is_derive f x a -> is_derive g x b -> is_derive (fun y => f y * g y) x (a * g x + f x * b).
Proof. intros H1 H2. apply (is_derive_mult f g x a b H1 H2). intros n m. apply Rmult_comm. Qed.
Lemma derive_val (f : R -> R) (x a b : R) : is_derive f x a -> a = b -> is_derive f x b. Proof. intros H <-. exact H. Qed.
Lemma worldR_derive k : (k < 6)%nat -> forall i j, (i < 3)%nat -> (j < 3)%nat ->
  is_derive (fun x => worldR (Q x) k i j) t (cross (omega k) (fun m => worldR (Q t) k m j) i).
Proof.
  induction k as [|k IH]; intros Hk i j Hi Hj.
  - apply (derive_val _ _ _ _ (axesQ 0 i j Hk Hi Hj)). rewrite colrot by (try apply axes_rotation; assumption).
    unfold omega, axisOf. cbn [rsum worldR]. idx i; unfold cross; cbn [worldR]; ring.
  - change (is_derive (fun x => rsum 3 (fun m => worldR (Q x) k i m * axes (mountF (S k)) (q (S k) x) m j)) t
      (cross (omega (S k)) (fun m => worldR (Q t) (S k) m j) i)).
    apply (derive_val _ _ (rsum 3 (fun m => cross (omega k) (fun n => worldR (Q t) k n m) i * axes (mountF (S k)) (q (S k) t) m j +
      worldR (Q t) k i m * (qd (S k) * rsum 3 (fun n => axes (mountF (S k)) (q (S k) t) m n * crossMx ez n j))))).
    { apply derive_rsum. intros m Hm. apply (mult_derive (fun x => worldR (Q x) k i m) (fun x => axes (mountF (S k)) (q (S k) x) m j)); [apply IH|apply axesQ]; lia. }
    pose proof (colrot (worldR (Q t) (S k)) i j (worldR_rotation _ _ Hk) Hi Hj) as C.
    transitivity (cross (omega k) (fun m => worldR (Q t) (S k) m j) i + qd (S k) * cross (axisOf (Q t) (S k)) (fun m => worldR (Q t) (S k) m j) i).
    + unfold axisOf. rewrite <- C. cbn [worldR]. unfold mul3. idx i; unfold cross; cbn [rsum]; ring.
    + assert (O : forall n, omega (S k) n = omega k n + axisOf (Q t) (S k) n * qd (S k)) by (intros n; reflexivity).
      idx i; unfold cross; rewrite !O; ring.
Qed.
Lemma moving k m : (k < 6)%nat -> forall i, (i < 3)%nat -> is_derive (fun x => rmv 3 (worldR (Q x) k) m i) t (cross (omega k) (rmv 3 (worldR (Q t) k) m) i).
Proof.
  intros Hk i Hi. apply (derive_val _ _ (rsum 3 (fun j => cross (omega k) (fun n => worldR (Q t) k n j) i * m j + worldR (Q t) k i j * 0))).
  - unfold rmv. apply derive_rsum. intros j Hj. apply (mult_derive (fun x => worldR (Q x) k i j) (fun _ => m j)); [apply worldR_derive; assumption|apply @is_derive_const].
  - unfold rmv. idx i; unfold cross; cbn [rsum]; ring.
Qed.
Definition speed (k : nat) (p : rvec) : rvec := fun i => rsum (S k) (fun j => cross (axisOf (Q t) j) (fun n => p n - worldP (Q t) j n) i * qd j).
Lemma speed_omega k p m i : (i < 3)%nat -> speed k p i + cross (omega k) m i = speed k (fun n => p n + m n) i.
Proof.
  intros Hi. unfold speed, omega. rewrite (cross_sum (S k) (fun j n => axisOf (Q t) j n * qd j) m i Hi), <- rsum_plus. apply rsum_ext.
  intros j _. idx i; unfold cross; ring.
Qed.
Lemma speed_ext k p p' i : (forall n, p n = p' n) -> speed k p i = speed k p' i.
Proof. intros H. unfold speed. apply rsum_ext. intros j _. unfold cross. rewrite !H. reflexivity. Qed.
Lemma worldP_derive k : (k < 6)%nat -> forall i, (i < 3)%nat -> is_derive (fun x => worldP (Q x) k i) t (speed k (worldP (Q t) k) i).
Proof.
  induction k as [|k IH]; intros Hk i Hi.
  - apply (derive_val _ _ 0); [exact (is_derive_const (mountP 0 i) t)|]. unfold speed. cbn [rsum worldP]. idx i; unfold cross; ring.
  - apply (derive_val _ _ (speed k (worldP (Q t) k) i + cross (omega k) (rmv 3 (worldR (Q t) k) (mountP (S k))) i)).
    + apply (is_derive_plus (fun x => worldP (Q x) k i) (fun x => rmv 3 (worldR (Q x) k) (mountP (S k)) i)); [apply IH; [lia|exact Hi]|apply moving; [lia|exact Hi]].
    + rewrite speed_omega by exact Hi. unfold speed at 2. change (rsum (S (S k)) ?f) with (rsum (S k) f + f (S k)).
      cbv beta. unfold speed. cbn [worldP]. replace (cross _ _ i * qd (S k)) with 0 by (idx i; unfold cross; ring). rewrite Rplus_0_r. reflexivity.
Qed.
Lemma eeP_derive i : (i < 3)%nat -> is_derive (fun x => eeP (Q x) i) t (speed 5 (eeP (Q t)) i).
Proof.
  intros Hi. apply (derive_val _ _ (speed 5 (worldP (Q t) 5) i + cross (omega 5) (rmv 3 (worldR (Q t) 5) (vec3 (3 / 100) 0 0)) i)).
  - apply (is_derive_plus (fun x => worldP (Q x) 5 i) (fun x => rmv 3 (worldR (Q x) 5) (vec3 (3 / 100) 0 0) i)); [apply worldP_derive; [lia|exact Hi]|apply moving; [lia|exact Hi]].
  - rewrite speed_omega by exact Hi. reflexivity.
Qed.
End Motion.

(** ** Histories of the container *)
Inductive cReach : container -> Prop :=
| c_new gH gF gE gJ : cReach (newContainer gH gF gE gJ)
| c_link s l q : cReach s -> cReach (snd (getHomogeneousTransformBaseLinkById l q s))
| c_force s l q : cReach s -> cReach (snd (getForceTransformLinkBaseById l q s))
| c_ee s e q : cReach s -> cReach (snd (getHomogeneousTransformBaseEEById e q s))
| c_jac s e q : cReach s -> cReach (snd (getJacobianBaseEEbyId e q s)).
Definition zeroMx : mat := fun _ _ => 0.
Definition cInv (s : container) : Prop :=
  length (cH s) = 6%nat /\ length (cF s) = 6%nat /\ liveQ newHee updHee (cHee s) /\ liveQ newJee updJee (cJ s) /\
  (forall k, (k < 6)%nat -> liveQ (newHb k) (updHb k) (nth k (cH s) zeroMx)) /\ (forall k, (k < 6)%nat -> liveQ (newFb k) (updFb k) (nth k (cF s) zeroMx)).
Lemma setNth_len {A} k (x : A) l : (k < length l)%nat -> length (setNth k x l) = length l.
Proof. intros H. unfold setNth. rewrite app_length, firstn_length. cbn [length]. rewrite skipn_length. lia. Qed.
Lemma setNth_nth {A} k (x d : A) l i : (k < length l)%nat -> nth i (setNth k x l) d = if (i =? k)%nat then x else nth i l d.
Proof.
  revert l i. induction k as [|k IH]; intros [|y l] i H; cbn [length] in H; try lia; destruct i as [|i]; try reflexivity.
  change (nth i (setNth k x l) d = if (i =? k)%nat then x else nth i l d). apply IH. lia.
Qed.
Lemma nth_mapseq {A} (f : nat -> A) n d i : (i < n)%nat -> nth i (map f (seq 0 n)) d = f i.
Proof. intros H. rewrite (nth_indep _ d (f 0%nat)) by (rewrite map_length, seq_length; exact H). rewrite map_nth, seq_nth by exact H. reflexivity. Qed.
Lemma reach_inv s : cReach s -> cInv s.
Proof.
  intros H. induction H as [gH gF gE gJ|s l q H (I1 & I2 & I3 & I4 & I5 & I6)|s l q H (I1 & I2 & I3 & I4 & I5 & I6)|s e q H (I1 & I2 & I3 & I4 & I5 & I6)|s e q H (I1 & I2 & I3 & I4 & I5 & I6)].
  - split; [reflexivity|split; [reflexivity|split; [apply liveQ_new|split; [apply liveQ_new|]]]].
    split; intros k Hk; [change (liveQ (newHb k) (updHb k) (nth k (map (fun k => newHb k (gH k)) (seq 0 6)) zeroMx))|change (liveQ (newFb k) (updFb k) (nth k (map (fun k => newFb k (gF k)) (seq 0 6)) zeroMx))];
      rewrite nth_mapseq by exact Hk; apply liveQ_new.
  - destruct l as [|l]; [repeat split; assumption|]. unfold getHomogeneousTransformBaseLinkById. destruct (l <? 6)%nat eqn:E; [|repeat split; assumption].
    apply Nat.ltb_lt in E. split; [cbn [snd cH]; rewrite setNth_len; lia|]. split; [exact I2|split; [exact I3|split; [exact I4|split; [|exact I6]]]].
    intros k Hk. cbn [snd cH]. rewrite setNth_nth by lia. destruct (k =? l)%nat eqn:E2; [|apply I5; exact Hk].
    apply Nat.eqb_eq in E2. subst k. apply liveQ_upd, I5. exact Hk.
  - destruct l as [|l]; [repeat split; assumption|]. unfold getForceTransformLinkBaseById. destruct (l <? 6)%nat eqn:E; [|repeat split; assumption].
    apply Nat.ltb_lt in E. split; [exact I1|split; [cbn [snd cF]; rewrite setNth_len; lia|]]. split; [exact I3|split; [exact I4|split; [exact I5|]]].
    intros k Hk. cbn [snd cF]. rewrite setNth_nth by lia. destruct (k =? l)%nat eqn:E2; [|apply I6; exact Hk].
    apply Nat.eqb_eq in E2. subst k. apply liveQ_upd, I6. exact Hk.
  - destruct e as [|e]; [|repeat split; assumption]. split; [exact I1|split; [exact I2|split; [apply liveQ_upd; exact I3|split; [exact I4|split; assumption]]]].
  - destruct e as [|e]; [|repeat split; assumption]. split; [exact I1|split; [exact I2|split; [exact I3|split; [apply liveQ_upd; exact I4|split; assumption]]]].
Qed.

(** ** Theorems *)
(** Links 1 to 6: the transform is the pose of the link in the base; other links are rejected. *)
Theorem C95_link_pose : forall s l q, cReach s ->
  ((1 <= l <= 6)%nat -> exists M, fst (getHomogeneousTransformBaseLinkById l q s) = Ok M /\ rotation (worldR q (l - 1)) /\
     forall i j, (i < 4)%nat -> (j < 4)%nat -> M i j = homogeneous (worldR q (l - 1)) (worldP q (l - 1)) i j) /\
  ((6 < l)%nat -> getHomogeneousTransformBaseLinkById l q s = (Throw, s) /\ getForceTransformLinkBaseById l q s = (Throw, s)).
Proof.
  intros s l q H. apply reach_inv in H. destruct H as (I1 & I2 & I3 & I4 & I5 & I6). split.
  - intros Hl. destruct l as [|l]; [lia|]. cbn [getHomogeneousTransformBaseLinkById]. replace (l <? 6)%nat with true by (symmetry; apply Nat.ltb_lt; lia).
    eexists. split; [reflexivity|]. replace (S l - 1)%nat with l by lia. split; [apply worldR_rotation; lia|]. intros i j Hi Hj. apply hyaH; try assumption; [lia|apply I5; lia].
  - intros Hl. destruct l as [|l]; [lia|]. cbn [getHomogeneousTransformBaseLinkById getForceTransformLinkBaseById]. replace (l <? 6)%nat with false by (symmetry; apply Nat.ltb_ge; lia). split; reflexivity.
Qed.
(** A force and moment on the base, taken over to link 1 to 6. *)
Theorem C95_force_transform : forall s l q, cReach s -> (1 <= l <= 6)%nat ->
  exists M, fst (getForceTransformLinkBaseById l q s) = Ok M /\ forceTransform (tr (worldR q (l - 1))) (worldP q (l - 1)) M.
Proof.
  intros s l q H Hl. apply reach_inv in H. destruct H as (I1 & I2 & I3 & I4 & I5 & I6).
  destruct l as [|l]; [lia|]. cbn [getForceTransformLinkBaseById]. replace (l <? 6)%nat with true by (symmetry; apply Nat.ltb_lt; lia).
  eexists. split; [reflexivity|]. replace (S l - 1)%nat with l by lia. apply forceBlocks_ok. intros i j Hi Hj.
  etransitivity; [exact (hyaFb l ltac:(lia) _ (I6 l ltac:(lia)) q i j Hi Hj)|]. unfold forceBlocks.
  destruct (i <? 3)%nat eqn:E1; [|reflexivity]. destruct (j <? 3)%nat eqn:E2; [reflexivity|].
  apply Nat.ltb_lt in E1. apply Nat.ltb_ge in E2. apply arm_is; lia.
Qed.
(** The end effector sits on link 6, three centimetres out; other end effectors are rejected. *)
Theorem C95_end_effector : forall s q, cReach s ->
  (exists M, fst (getHomogeneousTransformBaseEEById 0 q s) = Ok M /\ forall i j, (i < 4)%nat -> (j < 4)%nat -> M i j = homogeneous (eeR q) (eeP q) i j) /\
  (exists p, fst (getEEPositionInBase 0 q s) = Ok p /\ forall i, (i < 3)%nat -> p i = eeP q i) /\
  (exists E, fst (getEERotInBase 0 q s) = Ok E /\ forall i j, (i < 3)%nat -> (j < 3)%nat -> E i j = eeR q i j) /\
  eeIdToLinkId 0 = Ok 6%nat /\
  (forall e, (0 < e)%nat -> getHomogeneousTransformBaseEEById e q s = (Throw, s) /\ fst (getEEPositionInBase e q s) = Throw /\
     fst (getEERotInBase e q s) = Throw /\ eeIdToLinkId e = Throw /\ getJacobianBaseEEbyId e q s = (Throw, s)).
Proof.
  intros s q H. apply reach_inv in H. destruct H as (I1 & I2 & I3 & I4 & I5 & I6).
  pose proof (hyaEE _ I3 q) as K. split; [|split; [|split; [|split]]].
  - eexists. split; [reflexivity|]. exact K.
  - eexists. split; [reflexivity|]. intros i Hi. cbv beta. rewrite (K i 3%nat ltac:(lia) ltac:(lia)). idx i; reflexivity.
  - eexists. split; [reflexivity|]. intros i j Hi Hj. cbv beta. rewrite (K i j ltac:(lia) ltac:(lia)). idx i; idx j; reflexivity.
  - reflexivity.
  - intros [|e] He; [lia|]. repeat split; reflexivity.
Qed.
Definition valOf {A} (d : A) (o : outcome A) : A := match o with Ok x => x | _ => d end.
(** The Jacobian: along every motion of the joints, its lower half gives the velocity of the end effector's position and its
    upper half the angular velocity of its axes; for any states of the containers that earlier calls left. *)
Theorem C95_jacobian : forall s s' (q : nat -> R -> R) qd t, cReach s -> cReach s' -> (forall k, (k < 6)%nat -> is_derive (q k) t (qd k)) ->
  exists J, fst (getJacobianBaseEEbyId 0 (fun k => q k t) s') = Ok J /\
  (forall i, (i < 3)%nat -> is_derive (fun x => valOf (fun _ => 0) (fst (getEEPositionInBase 0 (fun k => q k x) s)) i) t (rsum 6 (fun j => J (3 + i)%nat j * qd j))) /\
  (forall i j, (i < 3)%nat -> (j < 3)%nat -> is_derive (fun x => valOf zeroMx (fst (getEERotInBase 0 (fun k => q k x) s)) i j) t
     (cross (fun a => rsum 6 (fun b => J a b * qd b)) (fun a => valOf zeroMx (fst (getEERotInBase 0 (fun k => q k t) s)) a j) i)).
Proof.
  intros s s' q qd t Hs Hs' Hq. apply reach_inv in Hs, Hs'. destruct Hs as (_ & _ & I3 & _ & _ & _). destruct Hs' as (_ & _ & _ & I4 & _ & _).
  eexists. split; [reflexivity|].
  pose proof (hyaJ _ I4 (fun k => q k t)) as KJ. split.
  - intros i Hi. apply (is_derive_ext (fun x => eeP (fun k => q k x) i)).
    { intros x. pose proof (hyaEE _ I3 (fun k => q k x) i 3%nat ltac:(lia) ltac:(lia)) as K.
      transitivity (updHee (fun k => q k x) (cHee s) i 3%nat); [rewrite K; idx i; reflexivity|reflexivity]. }
    apply (derive_val _ _ _ _ (eeP_derive q t qd Hq i Hi)). unfold speed. apply rsum_ext. intros j Hj.
    rewrite <- (lever (fun k => q k t) j i Hj Hi). replace (((3 + i <? 6) && (j <? 6))%nat) with true.
    2:{ symmetry. apply andb_true_iff. split; apply Nat.ltb_lt; lia. }
    rewrite (KJ (3 + i)%nat j ltac:(lia) Hj). replace (3 + i <? 3)%nat with false by (symmetry; apply Nat.ltb_ge; lia).
    replace (3 + i - 3)%nat with i by lia. reflexivity.
  - intros i j Hi Hj.
    assert (KE : forall x a, (a < 3)%nat -> valOf zeroMx (fst (getEERotInBase 0 (fun k => q k x) s)) a j = worldR (fun k => q k x) 5 a j).
    { intros x a Ha. pose proof (hyaEE _ I3 (fun k => q k x) a j ltac:(lia) ltac:(lia)) as K.
      transitivity (updHee (fun k => q k x) (cHee s) a j); [reflexivity|rewrite K; idx a; idx j; reflexivity]. }
    apply (is_derive_ext (fun x => worldR (fun k => q k x) 5 i j)); [intros x; symmetry; apply KE; exact Hi|].
    apply (derive_val _ _ _ _ (worldR_derive q t qd Hq 5 ltac:(lia) i j Hi Hj)).
    assert (W : forall a, (a < 3)%nat -> omega q t qd 5 a = rsum 6 (fun b => (if ((a <? 6) && (b <? 6))%nat then updJee (fun k => q k t) (cJ s') a b else 0) * qd b)).
    { intros a Ha. unfold omega. apply rsum_ext. intros b Hb. replace (((a <? 6) && (b <? 6))%nat) with true.
      2:{ symmetry. apply andb_true_iff. split; apply Nat.ltb_lt; lia. }
      rewrite (KJ a b ltac:(lia) Hb). replace (a <? 3)%nat with true by (symmetry; apply Nat.ltb_lt; lia). reflexivity. }
    idx i; unfold cross; rewrite !KE, !W by lia; reflexivity.
Qed.
Example kin_case : exists s s' (q : nat -> R -> R) qd t, cReach s /\ cReach s' /\ (forall k, (k < 6)%nat -> is_derive (q k) t (qd k)) /\ qd 2%nat <> 0.
Proof.
  pose (s0 := newContainer (fun _ _ _ => 5) (fun k _ _ => INR k) (fun i j => INR (i + j)) (fun _ _ => 1)).
  exists s0, (snd (getJacobianBaseEEbyId 0 (fun _ => 3) (snd (getForceTransformLinkBaseById 4 (fun _ => 1) s0)))), (fun k x => INR k * x), INR, 7.
  split; [apply c_new|]. split; [apply c_jac, c_force, c_new|]. split.
  - intros k _. auto_derive; [exact I|]. ring.
  - cbn. lra.
Qed.
(** The base itself is link 0: the identity is expected, and the matrix returned is another one.  A force becomes a moment. *)
Theorem C95_base_link_refuted : forall s q,
  (exists M, fst (getHomogeneousTransformBaseLinkById 0 q s) = Ok M /\ M 0%nat 0%nat = 0 /\ M 3%nat 3%nat = 0 /\
     ~ (forall i j, (i < 4)%nat -> (j < 4)%nat -> M i j = if (i =? j)%nat then 1 else 0)) /\
  (exists M, fst (getForceTransformLinkBaseById 0 q s) = Ok M /\
     (forall f i, (i < 3)%nat -> rmv 6 M f i = f (3 + i)%nat /\ rmv 6 M f (3 + i)%nat = 0) /\
     ~ (forall f i, (i < 6)%nat -> rmv 6 M f i = f i)).
Proof.
  intros s q. split; eexists; (split; [reflexivity|]).
  - split; [reflexivity|]. split; [reflexivity|]. intros K. specialize (K 0%nat 0%nat ltac:(lia) ltac:(lia)). cbn in K. lra.
  - split.
    + intros f i Hi. idx i; split; ev; ring.
    + intros K. specialize (K (fun _ => 1) 5%nat ltac:(lia)). revert K. ev. lra.
Qed.
(** The transform of the end effector takes coordinates in the end effector's frame to the base, not the other way round. *)
Theorem C95_direction_refuted : forall s, cReach s -> exists q M, fst (getHomogeneousTransformBaseEEById 0 q s) = Ok M /\
  rsum 4 (fun j => M 0%nat j * (if (j <? 3)%nat then eeP q j else 1)) <> 0 /\
  (forall i, (i < 3)%nat -> rsum 4 (fun j => M i j * (if (j <? 3)%nat then 0 else 1)) = eeP q i).
Proof.
  intros s Hs. exists (fun _ => 0). destruct (C95_end_effector s (fun _ => 0) Hs) as ((M & K1 & K2) & _). exists M. split; [exact K1|]. split.
  - rewrite (rsum_ext 4 _ (fun j => homogeneous (eeR (fun _ => 0)) (eeP (fun _ => 0)) 0%nat j * (if (j <? 3)%nat then eeP (fun _ => 0) j else 1))).
    2:{ intros j Hj. rewrite (K2 0%nat j ltac:(lia) Hj). reflexivity. }
    ev. rewrite !cos_0, !sin_0. lra.
  - intros i Hi. cbn [rsum Nat.ltb Nat.leb]. rewrite !K2 by lia. idx i; unfold homogeneous; cbn [Nat.ltb Nat.leb]; ring.
Qed.

Print Assumptions C95_link_pose.
Print Assumptions C95_force_transform.
Print Assumptions C95_end_effector.
Print Assumptions C95_jacobian.
Print Assumptions C95_base_link_refuted.
Print Assumptions C95_direction_refuted.
