(** C69: Jacobians in the inertial frame and of the contacts, and their time derivatives (properties about JacModel). *)
From Coq Require Import Reals List Lia Lra.
From Coquelicot Require Import Coquelicot.
From Verif Require Import Base.Outcome Rbd.ContactModel Rbd.KinModel Rbd.KinProps Rbd.JacModel.
Import ListNotations.
Local Open Scope R_scope.

(** * Specification *)

(** The rotation from the base to the inertial frame of a base with angular velocity omega (in base coordinates). *)
Definition spins (Rm : R -> m3) (t : R) (omega : vec3) : Prop :=
  forall x, derive3 (fun s => mulv (Rm s) x) t (mulv (Rm t) (cross3 omega x)).
(** The columns of a matrix-valued function have the columns D as derivatives. *)
Definition deriveCols (n : nat) (J : R -> list vec3) (t : R) (D : list vec3) : Prop :=
  (forall s, length (J s) = n) /\ length D = n /\ forall i, (i < n)%nat -> derive3 (fun s => nth i (J s) zero3) t (nth i D zero3).
(** All components of a list of numbers are differentiable. *)
Definition deriveList (q : R -> list R) (t : R) (qd : list R) : Prop :=
  (forall s, length (q s) = length qd) /\ forall i, is_derive (fun s => nth i (q s) 0) t (nth i qd 0).

(** Robots: the joints in the order from the base to the tip.  A joint is placed by a fixed displacement after its
    predecessor and turns about or slides along its z axis; joints that are not between base and tip do not move it. *)
Inductive joint := Revolute (A : m3) (b : vec3) | Prismatic (A : m3) (b : vec3) | Elsewhere.
Definition joint_ok (j : joint) : Prop := match j with Revolute A _ | Prismatic A _ => proper A | Elsewhere => True end.
(** Position in the base frame of the point e of the last body. *)
Fixpoint tip (c : list joint) (q : list R) (e : vec3) : vec3 :=
  match c, q with
  | Revolute A b :: c', a :: q' => add3 b (mulv A (mulv (rZ a) (tip c' q' e)))
  | Prismatic A b :: c', a :: q' => add3 b (mulv A (add3 (0, 0, a) (tip c' q' e)))
  | Elsewhere :: c', _ :: q' => tip c' q' e
  | _, _ => e
  end.
(** Its geometric Jacobian: the joint axis and the axis crossed with the lever arm, or zero and the axis. *)
Fixpoint geometricJacobian (c : list joint) (q : list R) (e : vec3) : list (vec3 * vec3) :=
  match c, q with
  | Revolute A b :: c', a :: q' =>
      let z := mulv A (0, 0, 1) in let m v := mulv A (mulv (rZ a) v) in
      (z, cross3 z (sub3 (tip c q e) b)) :: map (fun p => (m (fst p), m (snd p))) (geometricJacobian c' q' e)
  | Prismatic A b :: c', a :: q' =>
      (zero3, mulv A (0, 0, 1)) :: map (fun p => (mulv A (fst p), mulv A (snd p))) (geometricJacobian c' q' e)
  | Elsewhere :: c', _ :: q' => (zero3, zero3) :: geometricJacobian c' q' e
  | _, _ => []
  end.

(** * Lemmas *)

Lemma derive3_ext f g t d : (forall s, f s = g s) -> derive3 f t d -> derive3 g t d.
Proof.
  intros E (A & B & C). split; [|split]; (eapply is_derive_ext; [|eassumption]); intros s; cbn beta; now rewrite E.
Qed.
Lemma derive3_val f t d d' : derive3 f t d -> d = d' -> derive3 f t d'.
Proof. intros H <-. exact H. Qed.
Lemma derive3_const v t : derive3 (fun _ => v) t zero3.
Proof. unfold derive3, zero3, vx, vy, vz; cbn [fst snd]. split; [|split]; apply @is_derive_const. Qed.
Lemma derive3_cmul m f t d : derive3 f t d -> derive3 (fun s => mulv m (f s)) t (mulv m d).
Proof.
  intros H. eapply derive3_val.
  - apply (derive3_mul (fun _ => m) f t d); [intros x; exists zero3; apply derive3_const|exact H|apply derive3_const].
  - v3. unf. eq3; ring.
Qed.
Lemma cross_mul z v : cross3 z v = mulv (CrossProductMatrix z) v.
Proof. v3. unfold CrossProductMatrix. unf. eq3; ring. Qed.
Lemma derive3_ccross z f t d : derive3 f t d -> derive3 (fun s => cross3 z (f s)) t (cross3 z d).
Proof. intros H. rewrite cross_mul. eapply derive3_ext; [|apply (derive3_cmul _ _ _ _ H)]. intros s. now rewrite cross_mul. Qed.
Lemma derive3_scale f v t d : is_derive (f : R -> R) t d -> derive3 (fun s => scale3 (f s) v) t (scale3 d v).
Proof.
  intros H. v3. unfold derive3, scale3, vx, vy, vz. cbn [fst snd].
  split; [|split]; apply (is_derive_scal_l (K := R_AbsRing) (V := R_NormedModule) f t d _ H).
Qed.

Lemma add3_0l v : add3 zero3 v = v. Proof. v3. unf. eq3; ring. Qed.
Lemma add3_0r v : add3 v zero3 = v. Proof. v3. unf. eq3; ring. Qed.
Lemma add3_A a b c : add3 (add3 a b) c = add3 a (add3 b c). Proof. v3. unf. eq3; ring. Qed.
Lemma add3_C a b : add3 a b = add3 b a. Proof. v3. unf. eq3; ring. Qed.
Lemma mulv_0 m : mulv m zero3 = zero3. Proof. v3. unf. eq3; ring. Qed.
Lemma mulv_scale m x v : mulv m (scale3 x v) = scale3 x (mulv m v). Proof. v3. unf. eq3; ring. Qed.
Lemma scale3_0 x : scale3 x zero3 = zero3. Proof. unf. eq3; ring. Qed.
Lemma scale_zero v : scale3 0 v = zero3. Proof. v3. unf. eq3; ring. Qed.
Lemma scale_add x u v : scale3 x (add3 u v) = add3 (scale3 x u) (scale3 x v). Proof. v3. unf. eq3; ring. Qed.
Lemma cross_add z u v : cross3 z (add3 u v) = add3 (cross3 z u) (cross3 z v). Proof. v3. unf. eq3; ring. Qed.
Lemma cross_scale z x v : cross3 z (scale3 x v) = scale3 x (cross3 z v). Proof. v3. unf. eq3; ring. Qed.
Lemma cross_0r z : cross3 z zero3 = zero3. Proof. v3. unf. eq3; ring. Qed.
Lemma cross_0l z : cross3 zero3 z = zero3. Proof. v3. unf. eq3; ring. Qed.
Lemma idm_mul v : mulv idm v = v. Proof. v3. unfold idm. unf. eq3; ring. Qed.

Lemma mulJ_cols m J x y z v : mulJ (cols3 m ++ J) (x :: y :: z :: v) = add3 (mulv m (x, y, z)) (mulJ J v).
Proof. cbn [cols3 app mulJ]. destruct (mulJ J v) as [[? ?] ?]. v3. unf. eq3; ring. Qed.
Lemma mulJ_map m J v : mulJ (map (mulv m) J) v = mulv m (mulJ J v).
Proof.
  revert v. induction J as [|c J IH]; intros [|x v]; cbn [map mulJ]; rewrite ?mulv_0; try reflexivity.
  now rewrite IH, mulv_add, mulv_scale.
Qed.
Lemma mulJ_translation Rm r J g : mulJ (FromBaseJacToInertiaJacTranslation Rm r J) (gvec g) =
  mulv Rm (add3 (add3 (g_lin g) (cross3 (g_rot g) r)) (mulJ J (g_joints g))).
Proof.
  destruct g as [w l q]. unfold FromBaseJacToInertiaJacTranslation, gvec. cbn [g_rot g_lin g_joints app].
  rewrite (mulJ_cols _ _ (vx w) (vy w) (vz w)), (mulJ_cols _ _ (vx l) (vy l) (vz l)), mulJ_map, !mulv_add.
  destruct (mulJ J q) as [[? ?] ?]. v3. unfold negm, neg3, CrossProductMatrix. unf. eq3; ring.
Qed.
Lemma mulJ_orientation Rm r J g : mulJ (FromBaseJacToInertiaJacOrientation Rm r J) (gvec g) =
  mulv Rm (add3 (g_rot g) (mulJ J (g_joints g))).
Proof.
  destruct g as [w l q]. unfold FromBaseJacToInertiaJacOrientation, gvec. cbn [g_rot g_lin g_joints app].
  rewrite (mulJ_cols _ _ (vx w) (vy w) (vz w)), (mulJ_cols _ _ (vx l) (vy l) (vz l)), mulJ_map, !mulv_add.
  destruct (mulJ J q) as [[? ?] ?]. v3. unfold zerom. unf. eq3; ring.
Qed.

(** * C69 *)

(** The velocity of a point: the Jacobian in the inertial frame times the generalized velocities is the time derivative of
    the point's position, along every motion of the base and of the point in the base. *)
Theorem C69_point_velocity (Rm : R -> m3) (x r : R -> vec3) (J : list vec3) (g : gvel) (t : R) :
  spins Rm t (g_rot g) -> derive3 x t (mulv (Rm t) (g_lin g)) -> derive3 r t (mulJ J (g_joints g)) ->
  derive3 (fun s => add3 (x s) (mulv (Rm s) (r s))) t (mulJ (FromBaseJacToInertiaJacTranslation (Rm t) (r t) J) (gvec g)).
Proof.
  intros HR Hx Hr. eapply derive3_val.
  - apply derive3_add; [exact Hx|]. apply (derive3_mul Rm r t); [intros y; eexists; apply HR|exact Hr|apply HR].
  - rewrite mulJ_translation, !mulv_add, add3_A. reflexivity.
Qed.

(** The angular velocity: if the link turns in the base with the rotational Jacobian times the joint velocities, it turns in
    the inertial frame with the rotational Jacobian of the inertial frame times the generalized velocities. *)
Theorem C69_orientation (Rm L : R -> m3) (r : vec3) (J : list vec3) (g : gvel) (t : R) : proper (Rm t) ->
  spins Rm t (g_rot g) -> (forall x, derive3 (fun s => mulv (L s) x) t (cross3 (mulJ J (g_joints g)) (mulv (L t) x))) ->
  forall x, derive3 (fun s => mulv (Rm s) (mulv (L s) x)) t
    (cross3 (mulJ (FromBaseJacToInertiaJacOrientation (Rm t) r J) (gvec g)) (mulv (Rm t) (mulv (L t) x))).
Proof.
  intros (P1 & P2 & P3 & P4) HR HL x. eapply derive3_val.
  - apply (derive3_mul Rm (fun s => mulv (L s) x) t); [intros y; eexists; apply HR|apply HL|apply HR].
  - rewrite mulJ_orientation, <- P4, <- mulv_add. f_equal. destruct (mulJ J (g_joints g)) as [[? ?] ?], (mulv (L t) x) as [[? ?] ?]. v3. unf. eq3; ring.
Qed.

(** ** Time derivatives *)

Lemma deriveCols_app n k J1 J2 t D1 D2 : deriveCols n J1 t D1 -> deriveCols k J2 t D2 ->
  deriveCols (n + k) (fun s => J1 s ++ J2 s) t (D1 ++ D2).
Proof.
  intros (L1 & M1 & H1) (L2 & M2 & H2). split; [|split].
  - intros s. now rewrite app_length, L1, L2.
  - now rewrite app_length, M1, M2.
  - intros i Hi. destruct (Nat.lt_ge_cases i n) as [A|A].
    + rewrite app_nth1 by lia. eapply derive3_ext; [|apply (H1 i A)]. intros s. cbn beta. rewrite app_nth1; [reflexivity|rewrite L1; exact A].
    + rewrite app_nth2 by lia. rewrite M1. eapply derive3_ext; [|apply (H2 (i - n)%nat); lia].
      intros s. cbn beta. rewrite app_nth2 by (rewrite L1; exact A). now rewrite L1.
Qed.
Definition unit3 (i : nat) : vec3 := match i with 0%nat => (1, 0, 0) | 1%nat => (0, 1, 0) | _ => (0, 0, 1) end.
Lemma nth_cols3 m i : (i < 3)%nat -> nth i (cols3 m) zero3 = mulv m (unit3 i).
Proof. intros H. destruct i as [|[|[|]]]; [| | |lia]; v3; cbn [cols3 nth unit3]; unf; eq3; ring. Qed.
Lemma deriveCols_cols3 (M : R -> m3) t D : (forall e, derive3 (fun s => mulv (M s) e) t (mulv D e)) ->
  deriveCols 3 (fun s => cols3 (M s)) t (cols3 D).
Proof.
  intros H. split; [reflexivity|]. split; [reflexivity|]. intros i Hi. rewrite nth_cols3 by exact Hi.
  eapply derive3_ext; [|apply H]. intros s. cbn beta. now rewrite nth_cols3.
Qed.
Lemma zipWith_length {A B C} (f : A -> B -> C) l k : length l = length k -> length (zipWith f l k) = length l.
Proof. revert k. induction l as [|a l IH]; intros [|b k] H; try discriminate; cbn; auto. Qed.
Lemma nth_zipWith {A B C} (f : A -> B -> C) l k a b c i : length l = length k -> (i < length l)%nat ->
  nth i (zipWith f l k) c = f (nth i l a) (nth i k b).
Proof.
  revert k i. induction l as [|x l IH]; intros [|y k] i H Hi; try discriminate; cbn in Hi; try lia.
  destruct i as [|i]; [reflexivity|]. cbn. apply IH; [now inversion H|lia].
Qed.
Lemma nth_mapv m l i : nth i (map (mulv m) l) zero3 = mulv m (nth i l zero3).
Proof. rewrite <- (mulv_0 m) at 1. apply map_nth. Qed.
Lemma deriveCols_mul n (Rm : R -> m3) J t w D dR : spins Rm t w -> (forall e, mulv dR e = mulv (Rm t) (cross3 w e)) ->
  deriveCols n J t D -> deriveCols n (fun s => map (mulv (Rm s)) (J s)) t (zipWith (fun c d => add3 (mulv dR c) (mulv (Rm t) d)) (J t) D).
Proof.
  intros HR HdR (L & M & H). split; [|split].
  - intros s. now rewrite map_length.
  - rewrite zipWith_length; [apply L|now rewrite M, L].
  - intros i Hi. rewrite (nth_zipWith _ _ _ zero3 zero3) by (rewrite ?L, ?M; auto).
    eapply derive3_ext; [intros s; symmetry; apply nth_mapv|]. rewrite HdR.
    apply (derive3_mul Rm (fun s => nth i (J s) zero3) t); [intros y; eexists; apply HR|apply H; exact Hi|apply HR].
Qed.
Lemma dR_mul Rm w e : mulv (mulm Rm (CrossProductMatrix w)) e = mulv Rm (cross3 w e).
Proof. now rewrite mulv_mulm, cross_mul. Qed.
Lemma negm_mul m v : mulv (negm m) v = mulv m (neg3 v).
Proof. v3. unfold negm, neg3. unf. eq3; ring. Qed.
Lemma derive3_neg f t d : derive3 f t d -> derive3 (fun s => neg3 (f s)) t (neg3 d).
Proof.
  intros H. assert (E : forall v, neg3 v = mulv ((-1, 0, 0), (0, -1, 0), (0, 0, -1)) v) by (intros; v3; unfold neg3; unf; eq3; ring).
  rewrite E. eapply derive3_ext; [intros s; symmetry; apply E|]. now apply derive3_cmul.
Qed.
Lemma cross_anti a b : cross3 a b = neg3 (cross3 b a).
Proof. v3. unfold neg3. unf. eq3; ring. Qed.
Lemma subm_mul a b v : mulv (subm a b) v = sub3 (mulv a v) (mulv b v).
Proof. v3. unfold subm. unf. eq3; ring. Qed.

(** The time derivatives of the inertial Jacobians returned by the class are the derivatives of their columns along every
    motion. *)
Theorem C69_jacobian_rates (n : nat) (Rm : R -> m3) (r : R -> vec3) (Jr Jt : R -> list vec3) (dJr dJt : list vec3) (g : gvel) (t : R) :
  spins Rm t (g_rot g) -> derive3 r t (mulJ (Jt t) (g_joints g)) -> deriveCols n Jr t dJr -> deriveCols n Jt t dJt ->
  deriveCols (6 + n) (fun s => FromBaseJacToInertiaJacOrientation (Rm s) (r s) (Jr s)) t
    (FromBaseJacobianDevToInertiaJacobianDevOrientation g (Rm t) (r t) (Jr t) dJr) /\
  deriveCols (6 + n) (fun s => FromBaseJacToInertiaJacTranslation (Rm s) (r s) (Jt s)) t
    (FromBaseJacobianDevToInertiaJacobianDevTranslation g (Rm t) (r t) (Jt t) dJt) /\
  forall s, FromBaseJacobianToInertiaJacobian (Rm s) (r s) (combine (Jr s) (Jt s)) =
              combine (FromBaseJacToInertiaJacOrientation (Rm s) (r s) (Jr s)) (FromBaseJacToInertiaJacTranslation (Rm s) (r s) (Jt s)) /\
            FromBaseJacobianDevToInertiaJacobianDev g (Rm t) (r t) (combine (Jr t) (Jt t)) (combine dJr dJt) =
              combine (FromBaseJacobianDevToInertiaJacobianDevOrientation g (Rm t) (r t) (Jr t) dJr)
                (FromBaseJacobianDevToInertiaJacobianDevTranslation g (Rm t) (r t) (Jt t) dJt).
Proof.
  intros HR Hr HJr HJt. split; [|split].
  - apply (deriveCols_app 3 (3 + n)).
    + apply deriveCols_cols3. intros e. rewrite dR_mul. apply HR.
    + apply (deriveCols_app 3 n).
      * apply deriveCols_cols3. intros e. eapply derive3_val; [apply derive3_const|]. v3. unfold zerom. unf. eq3; ring.
      * apply (deriveCols_mul n Rm Jr t (g_rot g)); [exact HR|intros; apply dR_mul|exact HJr].
  - apply (deriveCols_app 3 (3 + n)).
    + apply deriveCols_cols3. intros e. rewrite subm_mul, mulv_mulm, negm_mul, dR_mul, mulv_mulm, <- !cross_mul.
      apply (derive3_ext (fun s => mulv (Rm s) (neg3 (cross3 (r s) e)))); [intros s; now rewrite mulv_mulm, negm_mul, <- cross_mul|].
      eapply derive3_val.
      * apply (derive3_mul Rm (fun s => neg3 (cross3 (r s) e)) t); [intros y; eexists; apply HR| |apply HR].
        apply (derive3_ext (fun s => cross3 e (r s))); [intros s; apply cross_anti|]. apply derive3_ccross. exact Hr.
      * rewrite (cross_anti e (mulJ (Jt t) (g_joints g))). destruct (mulJ (Jt t) (g_joints g)) as [[? ?] ?]. destruct (r t) as [[? ?] ?], (Rm t) as [[[[? ?] ?] [[? ?] ?]] [[? ?] ?]], (g_rot g) as [[? ?] ?]. v3. unfold neg3. unf. eq3; ring.
    + apply (deriveCols_app 3 n).
      * apply deriveCols_cols3. intros e. rewrite dR_mul. apply HR.
      * apply (deriveCols_mul n Rm Jt t (g_rot g)); [exact HR|intros; apply dR_mul|exact HJt].
  - assert (F : forall l k : list vec3, length l = length k -> map fst (combine l k) = l /\ map snd (combine l k) = k).
    { induction l as [|a l IH]; intros [|b k] E; try discriminate; cbn; [now split|].
      destruct (IH k) as (-> & ->); [now inversion E|]. now split. }
    intros s. destruct HJr as (L1 & M1 & _), HJt as (L2 & M2 & _).
    unfold FromBaseJacobianToInertiaJacobian, FromBaseJacobianDevToInertiaJacobianDev.
    destruct (F (Jr s) (Jt s)) as (-> & ->); [now rewrite L1, L2|]. destruct (F (Jr t) (Jt t)) as (-> & ->); [now rewrite L1, L2|].
    destruct (F dJr dJt) as (-> & ->); [now rewrite M1, M2|]. now split.
Qed.

(** ** Serial chains *)

Lemma deriveList_cons q t v qd : deriveList q t (v :: qd) ->
  (forall s, q s = nth 0 (q s) 0 :: tl (q s)) /\ is_derive (fun s => nth 0 (q s) 0) t v /\ deriveList (fun s => tl (q s)) t qd.
Proof.
  intros (L & D). split; [|split; [|split]].
  - intros s. specialize (L s). destruct (q s); [discriminate|reflexivity].
  - apply (D 0%nat).
  - intros s. specialize (L s). destruct (q s); [discriminate|]. now inversion L.
  - intros i. eapply is_derive_ext; [|apply (D (S i))]. intros s. cbn beta. specialize (L s). destruct (q s); [discriminate|reflexivity].
Qed.
Lemma rZ_spins (a : R -> R) (t v : R) : is_derive a t v -> spins (fun s => rZ (a s)) t (0, 0, v).
Proof.
  intros H x. destruct x as [[x y] z]. unfold derive3, rZ. unf.
  assert (E : Derive (fun x0 : R => a x0) t = v) by exact (is_derive_unique _ _ _ H).
  split; [|split]; (auto_derive; [repeat split; (apply I || (eexists; exact H))|rewrite ?E; ring]).
Qed.
Lemma rZ_proper a : proper (rZ a).
Proof.
  assert (E : sin a * sin a = 1 - cos a * cos a) by (pose proof (sin2_cos2 a) as H; unfold Rsqr in H; lra).
  unfold proper, rZ. repeat split; intros; v3; unf; try (eq3; ring [E]); ring [E].
Qed.
Lemma tip_rate c : List.Forall joint_ok c -> forall q qd t e, length c = length qd -> deriveList q t qd ->
  derive3 (fun s => tip c (q s) e) t (mulJ (map snd (geometricJacobian c (q t) e)) qd).
Proof.
  induction 1 as [|j c Hj Hc IH]; intros q qd t e Hl D.
  - cbn [tip geometricJacobian map mulJ]. apply (derive3_const e).
  - destruct qd as [|v qd]; [discriminate|]. apply deriveList_cons in D. destruct D as (Eq & Dv & Dq).
    specialize (IH (fun s => tl (q s)) qd t e ltac:(now inversion Hl) Dq). cbn beta in IH.
    apply (derive3_ext (fun s => tip (j :: c) (nth 0 (q s) 0 :: tl (q s)) e)); [intros s; now rewrite <- Eq|].
    rewrite (Eq t). set (a := fun s => nth 0 (q s) 0) in *. change (nth 0 (q t) 0) with (a t).
    destruct j as [A b|A b|]; cbn [tip geometricJacobian map mulJ fst snd].
    + eapply derive3_val.
      * apply derive3_add; [apply derive3_const|]. apply derive3_cmul.
        apply (derive3_mul (fun s => rZ (a s)) (fun s => tip c (tl (q s)) e) t); [intros y; eexists; apply (rZ_spins a t v Dv)|exact IH|apply (rZ_spins a t v Dv)].
      * rewrite map_map. cbn [snd].
        assert (E : map (fun p : vec3 * vec3 => mulv A (mulv (rZ (a t)) (snd p))) (geometricJacobian c (tl (q t)) e) =
                    map (mulv A) (map (mulv (rZ (a t))) (map snd (geometricJacobian c (tl (q t)) e)))) by (now rewrite !map_map).
        rewrite E, !mulJ_map, add3_0l, mulv_add. f_equal. clear E.
        destruct Hj as (_ & _ & _ & P4). destruct (rZ_proper (a t)) as (_ & _ & _ & Z4).
        rewrite Z4, P4. set (y := mulv (rZ (a t)) (tip c (tl (q t)) e)).
        assert (Ez : mulv (rZ (a t)) (0, 0, v) = scale3 v (0, 0, 1)) by (unfold rZ; unf; eq3; ring).
        rewrite Ez, mulv_scale. assert (Es : sub3 (add3 b (mulv A y)) b = mulv A y) by (destruct (mulv A y) as [[? ?] ?]; v3; unf; eq3; ring).
        rewrite Es. destruct (mulv A y) as [[? ?] ?], (mulv A (0, 0, 1)) as [[? ?] ?]. unf. eq3; ring.
    + eapply derive3_val.
      * apply derive3_add; [apply derive3_const|]. apply derive3_cmul. apply derive3_add; [|exact IH].
        apply (derive3_ext (fun s => scale3 (a s) (0, 0, 1))); [intros s; change (a s) with (nth 0 (q s) 0); unf; eq3; ring|]. apply derive3_scale. exact Dv.
      * rewrite map_map. cbn [snd].
        assert (E : map (fun p : vec3 * vec3 => mulv A (snd p)) (geometricJacobian c (tl (q t)) e) =
                    map (mulv A) (map snd (geometricJacobian c (tl (q t)) e))) by (now rewrite map_map).
        rewrite E, mulJ_map, add3_0l, mulv_add, mulv_scale. reflexivity.
    + rewrite scale3_0, add3_0l. exact IH.
Qed.

(** The double loop of the contact Jacobian's derivative, as a recursion over the joints. *)
Fixpoint dcols (J : list (vec3 * vec3)) (qd : list R) : list vec3 :=
  match J, qd with
  | p :: J', v :: qd' => cross3 (fst p) (mulJ (map snd J) qd) ::
      zipWith (fun x d => add3 (scale3 v (cross3 (fst p) (snd x))) d) J' (dcols J' qd')
  | _, _ => []
  end.
Fixpoint fsum (f : nat -> vec3) (l : list nat) : vec3 := match l with [] => zero3 | j :: l' => add3 (f j) (fsum f l') end.
Lemma fold_fsum f l a : fold_left (fun acc j => add3 acc (f j)) l a = add3 a (fsum f l).
Proof. revert a. induction l as [|j l IH]; intros a; cbn; [now rewrite add3_0r|]. now rewrite IH, add3_A. Qed.
Lemma fsum_ext f g l : (forall j, In j l -> f j = g j) -> fsum f l = fsum g l.
Proof. induction l as [|j l IH]; intros H; cbn; [reflexivity|]. rewrite IH by (intros; apply H; now right). now rewrite H by (now left). Qed.
Lemma fsum_map f (g : nat -> nat) l : fsum f (map g l) = fsum (fun j => f (g j)) l.
Proof. induction l as [|j l IH]; cbn; [reflexivity|]. now rewrite IH. Qed.
Lemma fsum_mulJ J qd : length J = length qd -> fsum (fun j => scale3 (nth j qd 0) (nth j J zero3)) (seq 0 (length J)) = mulJ J qd.
Proof.
  revert qd. induction J as [|c J IH]; intros [|v qd] H; try discriminate; [reflexivity|].
  cbn [length seq]. rewrite <- seq_shift. cbn [fsum mulJ nth]. f_equal.
  rewrite fsum_map. apply IH. now inversion H.
Qed.
Lemma fsum_cross z f l : fsum (fun j => cross3 z (f j)) l = cross3 z (fsum f l).
Proof. induction l as [|j l IH]; cbn; [now rewrite cross_0r|]. rewrite cross_add. f_equal. exact IH. Qed.
Lemma nth_map_seq {A} (f : nat -> A) n d i : (i < n)%nat -> nth i (map f (seq 0 n)) d = f i.
Proof. intros H. rewrite (nth_indep _ d (f 0%nat)) by (now rewrite map_length, seq_length). rewrite map_nth, seq_nth by exact H. reflexivity. Qed.
Lemma dJdt_dcols J qd : length J = length qd -> dJdt_joints (length J) (map fst J) (map snd J) qd = dcols J qd.
Proof.
  revert qd. induction J as [|p J IH]; intros [|v qd] H; try discriminate; [reflexivity|].
  unfold dJdt_joints. cbn [length seq]. rewrite <- seq_shift. cbn [map dcols]. f_equal.
  - rewrite fold_fsum, add3_0l.
    rewrite (fsum_ext _ (fun j => cross3 (fst p) (scale3 (nth j (v :: qd) 0) (nth j (map snd (p :: J)) zero3)))).
    + rewrite fsum_cross. f_equal. rewrite seq_shift. change (0%nat :: seq 1 (length J)) with (seq 0 (length (p :: J))).
      rewrite <- (map_length snd (p :: J)). apply fsum_mulJ. cbn [length]. rewrite map_length. exact H.
    + intros j Hj. rewrite cross_scale. f_equal. unfold dJidqj. destruct j; reflexivity.
  - specialize (IH qd ltac:(now inversion H)). rewrite map_map.
    apply nth_ext with (d := zero3) (d' := zero3).
    + rewrite map_length, seq_length, zipWith_length; [reflexivity|]. rewrite <- IH. unfold dJdt_joints. now rewrite map_length, seq_length.
    + intros i Hi. rewrite map_length, seq_length in Hi.
      rewrite (nth_zipWith _ _ _ (zero3, zero3) zero3); [|rewrite <- IH; unfold dJdt_joints; now rewrite map_length, seq_length|exact Hi].
      rewrite <- IH. unfold dJdt_joints. rewrite !nth_map_seq by exact Hi.
      rewrite !fold_fsum, !add3_0l. cbn [fsum].
      change (nth 0 (v :: qd) 0) with v. f_equal.
      * unfold dJidqj. cbn [Nat.leb nth]. change zero3 with (snd (zero3, zero3)) at 1. now rewrite map_nth.
      * rewrite fsum_map. reflexivity.
Qed.
Lemma dcols_map (m : vec3 -> vec3) : m zero3 = zero3 -> (forall u v, m (add3 u v) = add3 (m u) (m v)) ->
  (forall x v, m (scale3 x v) = scale3 x (m v)) -> (forall u v, m (cross3 u v) = cross3 (m u) (m v)) ->
  forall J qd, dcols (map (fun p => (m (fst p), m (snd p))) J) qd = map m (dcols J qd).
Proof.
  intros M0 Ma Ms Mc. assert (MJ : forall J qd, mulJ (map m J) qd = m (mulJ J qd)).
  { induction J as [|c J IH]; intros [|v qd]; cbn; try (now rewrite M0). now rewrite IH, Ma, Ms. }
  induction J as [|p J IH]; intros [|v qd]; try reflexivity. cbn [map dcols fst snd]. rewrite IH, Mc, map_map. cbn [snd].
  rewrite <- map_map with (f := snd) (g := m). f_equal.
  - f_equal. rewrite <- MJ. reflexivity.
  - clear IH. generalize (dcols J qd). induction J as [|x J IH]; intros [|d D]; try reflexivity. cbn [map zipWith fst snd].
    rewrite Ma, Ms, Mc. f_equal. apply IH.
Qed.
Lemma geometric_length c : forall q e, length c = length q -> length (geometricJacobian c q e) = length q.
Proof.
  induction c as [|j c IH]; intros [|a q] e H; try discriminate; [reflexivity|].
  destruct j; cbn [geometricJacobian length]; rewrite ?map_length, IH; auto.
Qed.
Lemma dcols_length J : forall qd, length J = length qd -> length (dcols J qd) = length qd.
Proof.
  induction J as [|p J IH]; intros [|v qd] H; try discriminate; [reflexivity|]. cbn [dcols length]. f_equal.
  rewrite zipWith_length; [now inversion H|]. rewrite IH; now inversion H.
Qed.
Lemma nth_map_snd (m : vec3 -> vec3) (J : list (vec3 * vec3)) i : m zero3 = zero3 ->
  nth i (map snd (map (fun p => (m (fst p), m (snd p))) J)) zero3 = m (nth i (map snd J) zero3).
Proof. intros M0. rewrite map_map. cbn [snd]. rewrite <- map_map with (f := snd) (g := m). rewrite <- M0 at 1. apply map_nth. Qed.

(** The derivatives of the translational columns of a chain. *)
Lemma chain_rate c : List.Forall joint_ok c -> forall q qd t e, length c = length qd -> deriveList q t qd ->
  deriveCols (length qd) (fun s => map snd (geometricJacobian c (q s) e)) t (dcols (geometricJacobian c (q t) e) qd).
Proof.
  intros Hok q qd t e Hl D. split; [|split].
  - intros s. rewrite map_length, geometric_length; [apply D|]. rewrite Hl. symmetry. apply D.
  - apply dcols_length. rewrite geometric_length; [apply D|]. rewrite Hl. symmetry. apply D.
  - revert q qd Hl D. induction Hok as [|j c Hj Hc IH]; intros q qd Hl D i Hi.
    { destruct qd; [cbn in Hi; lia|discriminate]. }
    destruct qd as [|v qd]; [discriminate|].
    assert (Tip := tip_rate (j :: c) (List.Forall_cons j Hj Hc) q (v :: qd) t e Hl D).
    apply deriveList_cons in D. destruct D as (Eq & Dv & Dq).
    specialize (IH (fun s => tl (q s)) qd ltac:(now inversion Hl) Dq). cbn beta in IH.
    apply (derive3_ext (fun s => nth i (map snd (geometricJacobian (j :: c) (nth 0 (q s) 0 :: tl (q s)) e)) zero3)); [intros s; now rewrite <- Eq|].
    assert (Tip' : derive3 (fun s => tip (j :: c) (nth 0 (q s) 0 :: tl (q s)) e) t
      (mulJ (map snd (geometricJacobian (j :: c) (nth 0 (q t) 0 :: tl (q t)) e)) (v :: qd))).
    { apply (derive3_ext (fun s => tip (j :: c) (q s) e)); [intros s; now rewrite <- Eq|]. rewrite <- Eq. exact Tip. }
    rewrite (Eq t). clear Tip. set (J' := geometricJacobian c (tl (q t)) e) in *.
    assert (Lq : forall s, length (tl (q s)) = length qd) by apply Dq.
    assert (LJ : length J' = length qd) by (unfold J'; rewrite geometric_length; [apply Lq|rewrite Lq; now inversion Hl]).
    assert (LD : length J' = length (dcols J' qd)) by (now rewrite dcols_length).
    destruct j as [A b|A b|].
    + set (a := fun s => nth 0 (q s) 0) in *. change (nth 0 (q t) 0) with (a t) in *.
      destruct i as [|i]; cbn [geometricJacobian map nth dcols fst snd].
      * apply derive3_ccross. eapply derive3_val.
        -- apply (derive3_ext (fun s => add3 (tip (Revolute A b :: c) (nth 0 (q s) 0 :: tl (q s)) e) (neg3 b))).
           { intros s. generalize (tip (Revolute A b :: c) (nth 0 (q s) 0 :: tl (q s)) e). intros y. v3. unfold neg3. unf. eq3; ring. }
           apply derive3_add; [exact Tip'|apply derive3_const].
        -- rewrite add3_0r. reflexivity.
      * destruct Hj as (P1 & P2 & P3 & P4). destruct (rZ_proper (a t)) as (Z1 & Z2 & Z3 & Z4).
        set (m := fun s v => mulv A (mulv (rZ (a s)) v)).
        assert (M0 : forall s, m s zero3 = zero3) by (intros; unfold m; now rewrite !mulv_0).
        rewrite (dcols_map (m t)); [|apply M0|intros; unfold m; now rewrite !mulv_add|intros; unfold m; now rewrite !mulv_scale|intros; unfold m; now rewrite Z4, P4].
        fold J'. rewrite (nth_zipWith _ _ _ (zero3, zero3) zero3) by (rewrite ?map_length, ?LJ, <- ?LD; try (cbn in Hi; lia); congruence).
        apply (derive3_ext (fun s => m s (nth i (map snd (geometricJacobian c (tl (q s)) e)) zero3))).
        { intros s. symmetry. apply (nth_map_snd (m s)). apply M0. }
        eapply derive3_val.
        -- unfold m. apply derive3_cmul. apply (derive3_mul (fun s => rZ (a s)) (fun s => nth i (map snd (geometricJacobian c (tl (q s)) e)) zero3) t);
             [intros y; eexists; apply (rZ_spins a t v Dv)|apply IH; cbn in Hi; lia|apply (rZ_spins a t v Dv)].
        -- fold J'. rewrite mulv_add.
           assert (En : nth i (map (m t) (dcols J' qd)) zero3 = m t (nth i (dcols J' qd) zero3)) by (rewrite <- (M0 t) at 1; apply map_nth).
           rewrite En. assert (Ej : snd (nth i (map (fun p : vec3 * vec3 => (m t (fst p), m t (snd p))) J') (zero3, zero3)) = m t (nth i (map snd J') zero3)).
           { rewrite <- (nth_map_snd (m t)) by apply M0. symmetry. change zero3 with (snd (zero3, zero3)) at 1. apply map_nth. }
           unfold m in Ej |- *. rewrite Ej. f_equal. rewrite Z4, P4.
           assert (Ez : mulv (rZ (a t)) (0, 0, v) = scale3 v (0, 0, 1)) by (unfold rZ; unf; eq3; ring).
           rewrite Ez, mulv_scale. generalize (mulv A (mulv (rZ (a t)) (nth i (map snd J') zero3))), (mulv A (0, 0, 1)). intros y z. v3. unf. eq3; ring.
    + destruct i as [|i]; cbn [geometricJacobian map nth dcols fst snd].
      * rewrite cross_0l. apply derive3_const.
      * destruct Hj as (P1 & P2 & P3 & P4). set (m := mulv A).
        rewrite (dcols_map m); [|apply mulv_0|apply mulv_add|apply mulv_scale|exact P4]. fold J'.
        rewrite (nth_zipWith _ _ _ (zero3, zero3) zero3) by (rewrite ?map_length, ?LJ, <- ?LD; try (cbn in Hi; lia); congruence).
        apply (derive3_ext (fun s => m (nth i (map snd (geometricJacobian c (tl (q s)) e)) zero3))).
        { intros s. symmetry. apply (nth_map_snd m). apply mulv_0. }
        eapply derive3_val; [unfold m; apply derive3_cmul, IH; cbn in Hi; lia|].
        rewrite cross_0l, scale3_0, add3_0l. fold J'. unfold m. now rewrite nth_mapv.
    + destruct i as [|i]; cbn [geometricJacobian map nth dcols fst snd].
      * rewrite cross_0l. apply derive3_const.
      * fold J'. rewrite (nth_zipWith _ _ _ (zero3, zero3) zero3) by (rewrite ?LJ, <- ?LD; try (cbn in Hi; lia); congruence).
        rewrite cross_0l, scale3_0, add3_0l. apply IH. cbn in Hi; lia.
Qed.

(** ** Contacts *)

Section Contact.
(** A robot with n joints whose end-effectors are points on chains of its joints. *)
Variables (n blocks : nat) (chain : nat -> list joint) (point : nat -> vec3).
Hypothesis chain_ok : forall ee, length (chain ee) = n /\ List.Forall joint_ok (chain ee).
Definition position ee q := tip (chain ee) q (point ee).
Definition jacobian ee q := geometricJacobian (chain ee) q (point ee).
Notation J_ := (getJacobianOrigin n blocks position jacobian).
Notation dJdt_ := (getJacobianOriginDerivative n blocks jacobian).
(** The end-effectors listed by the user exist. *)
Definition indices_ok (c : contacts) : Prop :=
  List.Forall (fun ee => (ee < blocks)%nat /\ (ee < length (eeInContact c))%nat) (ee_indices c).
Definition touches (c : contacts) (ee : nat) : Prop := In ee (ee_indices c) /\ nth ee (eeInContact c) false = true.

Lemma vec_set_spec {A} (l : list A) i v : (i < length l)%nat ->
  exists l', vec_set l i v = Ok l' /\ length l' = length l /\ forall k d, nth k l' d = if Nat.eqb k i then v else nth k l d.
Proof.
  revert i. induction l as [|x l IH]; intros i H; [cbn in H; lia|]. destruct i as [|i].
  - exists (v :: l). split; [reflexivity|]. split; [reflexivity|]. intros [|k] d; reflexivity.
  - destruct (IH i) as (l' & E & L & N); [cbn in H; lia|]. exists (x :: l'). cbn [vec_set]. rewrite E. split; [reflexivity|].
    split; [cbn; lia|]. intros [|k] d; [reflexivity|]. cbn. apply N.
Qed.
Lemma forEE_spec c f l J : List.Forall (fun ee => (ee < length J)%nat /\ (ee < length (eeInContact c))%nat) l ->
  exists J', forEE c f l J = Ok J' /\ length J' = length J /\ forall ee d, (ee < length J)%nat ->
    (In ee l /\ nth ee (eeInContact c) false = true -> nth ee J' d = f ee) /\
    (~ (In ee l /\ nth ee (eeInContact c) false = true) -> nth ee J' d = nth ee J d).
Proof.
  revert J. induction l as [|x l IH]; intros J H.
  - exists J. split; [reflexivity|]. split; [reflexivity|]. intros ee d Hee. split; [intros [[] _]|reflexivity].
  - inversion H as [|? ? (H1 & H2) H3]; subst. cbn [forEE]. unfold vec_get. rewrite (nth_error_nth' _ false H2). cbn [obind].
    destruct (nth x (eeInContact c) false) eqn:E.
    + destruct (vec_set_spec J x (f x) H1) as (J1 & E1 & L1 & N1). rewrite E1. cbn [obind].
      destruct (IH J1) as (J' & E' & L' & N'); [now rewrite L1|]. exists J'. split; [exact E'|]. split; [now rewrite L'|].
      intros ee d Hee. destruct (N' ee d) as (A & B); [now rewrite L1|]. split.
      * intros [Hin Hc]. destruct (In_dec Nat.eq_dec ee l) as [I|I]; [apply A; now split|].
        rewrite B by tauto. rewrite N1. destruct Hin as [->|]; [now rewrite Nat.eqb_refl|tauto].
      * intros Hn. rewrite B by (intros [I Hc]; apply Hn; split; [now right|exact Hc]). rewrite N1.
        destruct (Nat.eqb_spec ee x) as [->|]; [|reflexivity]. exfalso. apply Hn. split; [now left|exact E].
    + destruct (IH J H3) as (J' & E' & L' & N'). exists J'. split; [exact E'|]. split; [exact L'|].
      intros ee d Hee. destruct (N' ee d Hee) as (A & B). split.
      * intros [[->|I] Hc]; [congruence|]. apply A. now split.
      * intros Hn. apply B. intros [I Hc]. apply Hn. split; [now right|exact Hc].
Qed.
Lemma zeroJ_length : length (zeroJ n blocks) = blocks.
Proof. apply repeat_length. Qed.
Lemma origin_rows c q : indices_ok c ->
  exists J, J_ c q = Ok J /\ length J = blocks /\ forall ee, (ee < blocks)%nat ->
    (touches c ee -> nth ee J [] = FromBaseJacToInertiaJacTranslation idm (position ee q) (map snd (jacobian ee q))) /\
    (~ touches c ee -> nth ee J [] = repeat zero3 (6 + n)).
Proof.
  intros H. unfold getJacobianOrigin.
  destruct (forEE_spec c (fun ee => FromBaseJacToInertiaJacTranslation idm (position ee q) (map snd (jacobian ee q))) (ee_indices c) (zeroJ n blocks))
    as (J & E & L & N); [now rewrite zeroJ_length|].
  rewrite zeroJ_length in *. exists J. split; [exact E|]. split; [exact L|]. intros ee Hee. destruct (N ee [] Hee) as (A & B).
  split; [exact A|]. intros Hn. rewrite (B Hn). unfold zeroJ. rewrite (nth_indep _ [] (repeat zero3 (6 + n))) by (now rewrite repeat_length). apply nth_repeat.
Qed.

(** The contact Jacobian: for every end-effector in contact its rows times the generalized velocities are the velocity of the
    contact point in base coordinates, along every motion; the other rows are zero. *)
Theorem C69_contact_jacobian (c : contacts) (Rm : R -> m3) (x : R -> vec3) (q : R -> list R) (g : gvel) (t : R) (ee : nat) :
  indices_ok c -> (ee < blocks)%nat -> length (g_joints g) = n ->
  spins Rm t (g_rot g) -> derive3 x t (mulv (Rm t) (g_lin g)) -> deriveList q t (g_joints g) ->
  exists J, J_ c (q t) = Ok J /\ length J = blocks /\
    (touches c ee -> derive3 (fun s => add3 (x s) (mulv (Rm s) (position ee (q s)))) t (mulv (Rm t) (mulJ (nth ee J []) (gvec g)))) /\
    (~ touches c ee -> nth ee J [] = repeat zero3 (6 + n)).
Proof.
  intros Hi Hee Hn HR Hx Hq. destruct (chain_ok ee) as (Lc & Oc).
  destruct (origin_rows c (q t) Hi) as (J & E & L & N). exists J. split; [exact E|]. split; [exact L|].
  destruct (N ee Hee) as (A & B). split; [|exact B]. intros T. rewrite (A T), mulJ_translation, idm_mul.
  eapply derive3_val.
  - apply (C69_point_velocity Rm x (fun s => position ee (q s)) (map snd (jacobian ee (q t))) g t HR Hx).
    apply tip_rate; [exact Oc|now rewrite Lc|exact Hq].
  - apply mulJ_translation.
Qed.

Lemma base_rates (r : R -> vec3) t d : derive3 r t d ->
  deriveCols 6 (fun s => cols3 (mulm (negm idm) (CrossProductMatrix (r s))) ++ cols3 idm) t (dJdt_base d).
Proof.
  intros H. unfold dJdt_base. apply (deriveCols_app 3 3); apply deriveCols_cols3; intros e.
  - apply (derive3_ext (fun s => cross3 e (r s))).
    { intros s. rewrite mulv_mulm, negm_mul, idm_mul, <- cross_mul. apply cross_anti. }
    eapply derive3_val; [apply derive3_ccross; exact H|]. v3. unf. eq3; ring.
  - eapply derive3_val; [apply derive3_const|]. v3. unfold zerom. unf. eq3; ring.
Qed.

(** The derivative of the contact Jacobian is the derivative of all of its columns, along every motion of the joints. *)
Theorem C69_contact_rates (c : contacts) (q : R -> list R) (qd : list R) (t : R) :
  indices_ok c -> length qd = n -> deriveList q t qd ->
  exists (J : R -> list (list vec3)) D, (forall s, J_ c (q s) = Ok (J s)) /\ dJdt_ c (q t) qd = Ok D /\
    forall ee, (ee < blocks)%nat -> deriveCols (6 + n) (fun s => nth ee (J s) []) t (nth ee D []).
Proof.
  intros Hi Hn Hq.
  exists (fun s => match J_ c (q s) with Ok J => J | _ => [] end).
  destruct (forEE_spec c (fun ee => let J := jacobian ee (q t) in
                     dJdt_base (mulJ (map snd J) qd) ++ dJdt_joints n (map fst J) (map snd J) qd) (ee_indices c) (zeroJ n blocks))
    as (D & ED & LD & ND); [now rewrite zeroJ_length|]. rewrite zeroJ_length in *.
  exists D. split; [intros s; destruct (origin_rows c (q s) Hi) as (J & -> & _); reflexivity|]. split; [exact ED|].
  intros ee Hee. destruct (chain_ok ee) as (Lc & Oc). destruct (ND ee [] Hee) as (A & B).
  destruct (In_dec Nat.eq_dec ee (ee_indices c)) as [I1|I1]; [destruct (Bool.bool_dec (nth ee (eeInContact c) false) true) as [I2|I2]|].
  - rewrite A by (now split). cbv zeta.
    assert (LJ : length (jacobian ee (q t)) = n).
    { unfold jacobian. rewrite geometric_length; [rewrite (proj1 Hq); exact Hn|]. rewrite Lc, (proj1 Hq). now symmetry. }
    assert (ED' : dJdt_joints n (map fst (jacobian ee (q t))) (map snd (jacobian ee (q t))) qd = dcols (jacobian ee (q t)) qd)
      by (rewrite <- LJ at 1; apply dJdt_dcols; rewrite LJ; now symmetry).
    rewrite ED'.
    assert (X : deriveCols (6 + n) (fun s => (cols3 (mulm (negm idm) (CrossProductMatrix (position ee (q s)))) ++ cols3 idm) ++ map snd (jacobian ee (q s)))
      t (dJdt_base (mulJ (map snd (jacobian ee (q t))) qd) ++ dcols (jacobian ee (q t)) qd)).
    { apply deriveCols_app.
      - apply base_rates. apply tip_rate; [exact Oc|now rewrite Lc|exact Hq].
      - rewrite <- Hn. apply chain_rate; [exact Oc|now rewrite Lc|exact Hq]. }
    assert (R : forall s, nth ee (match J_ c (q s) with Ok J => J | _ => [] end) [] =
      (cols3 (mulm (negm idm) (CrossProductMatrix (position ee (q s)))) ++ cols3 idm) ++ map snd (jacobian ee (q s))).
    { intros s. destruct (origin_rows c (q s) Hi) as (J & -> & _ & N). destruct (N ee Hee) as (A' & _). rewrite A' by (now split).
      unfold FromBaseJacToInertiaJacTranslation. rewrite <- app_assoc. do 2 f_equal. rewrite <- map_id. apply map_ext. intros v. apply idm_mul. }
    destruct X as (X1 & X2 & X3). split; [intros s; rewrite R; apply X1|]. split; [exact X2|].
    intros i Hi'. eapply derive3_ext; [|apply (X3 i Hi')]. intros s. cbn beta. now rewrite R.
  - assert (Nt : ~ (In ee (ee_indices c) /\ nth ee (eeInContact c) false = true)) by tauto.
    assert (R : forall s, nth ee (match J_ c (q s) with Ok J => J | _ => [] end) [] = repeat zero3 (6 + n)).
    { intros s. destruct (origin_rows c (q s) Hi) as (J & -> & _ & N). now apply (N ee Hee). }
    rewrite (B Nt). unfold zeroJ. rewrite (nth_indep _ [] (repeat zero3 (6 + n))) by (now rewrite repeat_length). rewrite nth_repeat.
    split; [intros s; rewrite R; apply repeat_length|]. split; [apply repeat_length|]. intros i Hi'.
    apply (derive3_ext (fun _ => zero3)); [intros s; rewrite R; symmetry; apply nth_repeat|]. rewrite nth_repeat. apply derive3_const.
  - assert (Nt : ~ (In ee (ee_indices c) /\ nth ee (eeInContact c) false = true)) by tauto.
    assert (R : forall s, nth ee (match J_ c (q s) with Ok J => J | _ => [] end) [] = repeat zero3 (6 + n)).
    { intros s. destruct (origin_rows c (q s) Hi) as (J & -> & _ & N). now apply (N ee Hee). }
    rewrite (B Nt). unfold zeroJ. rewrite (nth_indep _ [] (repeat zero3 (6 + n))) by (now rewrite repeat_length). rewrite nth_repeat.
    split; [intros s; rewrite R; apply repeat_length|]. split; [apply repeat_length|]. intros i Hi'.
    apply (derive3_ext (fun _ => zero3)); [intros s; rewrite R; symmetry; apply nth_repeat|]. rewrite nth_repeat. apply derive3_const.
Qed.

Lemma deriveCols_mulJ k : forall (J : R -> list vec3) D (v : R -> list R) vd t, deriveCols k J t D -> deriveList v t vd -> length vd = k ->
  derive3 (fun s => mulJ (J s) (v s)) t (add3 (mulJ D (v t)) (mulJ (J t) vd)).
Proof.
  induction k as [|k IH]; intros J D v vd t (L & M & H) Hv Hk.
  - destruct vd; [|discriminate]. destruct D; [|discriminate]. destruct Hv as (Lv & _).
    apply (derive3_ext (fun _ => zero3)).
    + intros s. specialize (L s). specialize (Lv s). destruct (J s), (v s); try discriminate. reflexivity.
    + specialize (L t). destruct (J t); [|discriminate]. cbn [mulJ]. rewrite add3_0l. apply derive3_const.
  - destruct vd as [|a vd]; [discriminate|]. destruct D as [|d D]; [discriminate|].
    apply deriveList_cons in Hv. destruct Hv as (Ev & Da & Hv).
    assert (EJ : forall s, J s = nth 0 (J s) zero3 :: tl (J s)) by (intros s; specialize (L s); destruct (J s); [discriminate|reflexivity]).
    apply (derive3_ext (fun s => mulJ (nth 0 (J s) zero3 :: tl (J s)) (nth 0 (v s) 0 :: tl (v s)))); [intros s; now rewrite <- EJ, <- Ev|].
    rewrite (EJ t), (Ev t). cbn [mulJ].
    assert (X : derive3 (fun s => mulJ (tl (J s)) (tl (v s))) t (add3 (mulJ D (tl (v t))) (mulJ (tl (J t)) vd))).
    { apply (IH (fun s => tl (J s)) D (fun s => tl (v s))); [|exact Hv|now inversion Hk]. split; [|split].
      - intros s. specialize (L s). rewrite (EJ s) in L. cbn in L. now inversion L.
      - now inversion M.
      - intros i Hi. specialize (H (S i) ltac:(lia)). cbn [nth] in H. eapply derive3_ext; [|exact H]. intros s. cbn beta. rewrite (EJ s). reflexivity. }
    assert (Y : derive3 (fun s => scale3 (nth 0 (v s) 0) (nth 0 (J s) zero3)) t (add3 (scale3 (nth 0 (v t) 0) d) (scale3 a (nth 0 (J t) zero3)))).
    { specialize (H 0%nat ltac:(lia)). cbn [nth] in H. destruct H as (H0 & H1 & H2).
      unfold derive3, scale3, add3, vx at 1 3, vy at 1 3, vz at 1 3. cbn [fst snd]. unfold vx at 1 2, vy at 1 2, vz at 1 2. cbn [fst snd].
      assert (P : forall (f h : R -> R) (df dh : R), is_derive f t df -> is_derive h t dh -> is_derive (fun s => f s * h s) t (f t * dh + df * h t)).
      { intros f h df dh F G. assert (Z := is_derive_mult f h t df dh F G Rmult_comm). unfold mult, plus in Z. cbn in Z.
        replace (f t * dh + df * h t) with (df * h t + f t * dh) by ring. exact Z. }
      split; [|split].
      - apply (P (fun s => nth 0 (v s) 0) (fun s => vx (nth 0 (J s) zero3)) _ _ Da H0).
      - apply (P (fun s => nth 0 (v s) 0) (fun s => vy (nth 0 (J s) zero3)) _ _ Da H1).
      - apply (P (fun s => nth 0 (v s) 0) (fun s => vz (nth 0 (J s) zero3)) _ _ Da H2). }
    eapply derive3_val; [apply derive3_add; [exact Y|exact X]|].
    generalize (mulJ D (tl (v t))), (mulJ (tl (J t)) vd), (scale3 (nth 0 (v t) 0) d), (scale3 a (nth 0 (J t) zero3)). intros u1 u2 u3 u4. v3. unf. eq3; ring.
Qed.

(** The acceleration of a contact point: in base coordinates it is J a + dJ/dt v + omega cross (J v), the expression the
    projected dynamics set to zero, where a are the time derivatives of the generalized velocities v. *)
Theorem C69_contact_acceleration (c : contacts) (Rm : R -> m3) (q : R -> list R) (g : R -> gvel) (a : gvel) (t : R) (ee : nat) :
  indices_ok c -> (ee < blocks)%nat -> length (g_joints a) = n -> (forall s, length (g_joints (g s)) = n) ->
  spins Rm t (g_rot (g t)) -> deriveList q t (g_joints (g t)) -> deriveList (fun s => gvec (g s)) t (gvec a) ->
  exists (J : R -> list (list vec3)) D, (forall s, J_ c (q s) = Ok (J s)) /\ dJdt_ c (q t) (g_joints (g t)) = Ok D /\
    derive3 (fun s => mulv (Rm s) (mulJ (nth ee (J s) []) (gvec (g s)))) t
      (mulv (Rm t) (add3 (add3 (mulJ (nth ee (J t) []) (gvec a)) (mulJ (nth ee D []) (gvec (g t))))
                         (cross3 (g_rot (g t)) (mulJ (nth ee (J t) []) (gvec (g t)))))).
Proof.
  intros Hi Hee Ha Hg HR Hq Hv. destruct (C69_contact_rates c q (g_joints (g t)) t Hi (Hg t) Hq) as (J & D & EJ & ED & N).
  exists J, D. split; [exact EJ|]. split; [exact ED|].
  pose proof (deriveCols_mulJ (6 + n) (fun s => nth ee (J s) []) (nth ee D []) (fun s => gvec (g s)) (gvec a) t (N ee Hee) Hv) as X.
  cbn beta in X. specialize (X ltac:(unfold gvec; rewrite app_length, Ha; reflexivity)).
  eapply derive3_val.
  - apply (derive3_mul Rm (fun s => mulJ (nth ee (J s) []) (gvec (g s))) t); [intros y; eexists; apply HR|exact X|apply HR].
  - rewrite <- mulv_add. f_equal. generalize (mulJ (nth ee D []) (gvec (g t))), (mulJ (nth ee (J t) []) (gvec a)),
      (cross3 (g_rot (g t)) (mulJ (nth ee (J t) []) (gvec (g t)))). intros u1 u2 u3. v3. unf. eq3; ring.
Qed.
End Contact.

(** The hypotheses can be met: a leg with a turning hip and a sliding knee, standing on its only foot. *)
Example C69_example : let leg := [Revolute ((0, 0, 1), (1, 0, 0), (0, 1, 0)) (0, 0, 1); Prismatic idm (0, 1, 0)] in
  (forall ee : nat, length leg = 2%nat /\ List.Forall joint_ok leg) /\ indices_ok 1 (mkContacts [0%nat] [true]) /\
  touches (mkContacts [0%nat] [true]) 0 /\ (forall w, spins (fun s => rZ (w * s)) 0 (0, 0, w)) /\
  deriveList (fun s => [s; 2 * s]) 0 [1; 2] /\ proper idm.
Proof.
  cbv zeta. split; [|split; [|split; [|split; [|split]]]].
  - intros _. split; [reflexivity|]. apply List.Forall_cons; [|apply List.Forall_cons; [|apply List.Forall_nil]]; unfold joint_ok, proper, idm;
      (split; [|split; [|split]]; intros; v3; unf; (ring || (eq3; ring))).
  - repeat constructor.
  - split; [now left|reflexivity].
  - intros w. apply rZ_spins. auto_derive; [exact I|ring].
  - split; [reflexivity|]. intros [|[|i]]; cbn [nth].
    + apply @is_derive_id.
    + auto_derive; [exact I|ring].
    + destruct i; apply @is_derive_const.
  - unfold proper, idm. split; [|split; [|split]]; intros; v3; unf; (ring || (eq3; ring)).
Qed.
Print Assumptions C69_point_velocity.
Print Assumptions C69_orientation.
Print Assumptions C69_jacobian_rates.
Print Assumptions C69_contact_jacobian.
Print Assumptions C69_contact_rates.
Print Assumptions C69_contact_acceleration.
