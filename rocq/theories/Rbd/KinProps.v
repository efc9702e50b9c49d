(** C75: frame transformations, end-effector poses and velocities, and the mapping of end-effector forces to links. *)
From Coq Require Import Reals List Lra Lia.
From Coquelicot Require Import Coquelicot.
From Verif Require Import Base.Outcome Rbd.ContactModel Rbd.KinModel.
Import ListNotations.
Local Open Scope R_scope.

(** * Specification *)

Definition unit_quat (q : quat) : Prop := let '(w, x, y, z) := q in w * w + x * x + y * y + z * z = 1.
(** A pose is valid if a stored quaternion has length one. *)
Definition valid (p : pose) : Prop := p_storage p = QUAT -> unit_quat (p_quat p).
(** The rotation of a pose: the product of the rotations about x, y and z by the Euler angles, or that of the quaternion. *)
Definition rotation (p : pose) : m3 :=
  match p_storage p with EULER => mulm (mulm (rX (vx (p_euler p))) (rY (vy (p_euler p)))) (rZ (vz (p_euler p))) | QUAT => qmat (p_quat p) end.
(** A point with base coordinates x has these coordinates in the frame in which the pose is given. *)
Definition toFrame (p : pose) (x : vec3) : vec3 := add3 (p_position p) (mulv (rotation p) x).
(** kindr's conversion to Euler angles keeps the rotation. *)
Definition keeps_rotation (quatToEuler : quat -> vec3) : Prop :=
  forall q, unit_quat q -> mulm (mulm (rX (vx (quatToEuler q))) (rY (vy (quatToEuler q)))) (rZ (vz (quatToEuler q))) = qmat q.
(** Power of a wrench (torque, force) along a twist (angular, linear velocity). *)
Definition power6 (w t : vec3 * vec3) : R := dot3 (fst w) (fst t) + dot3 (snd w) (snd t).
(** Velocity of the point x of a body with twist t. *)
Definition pointVelocity (t : vec3 * vec3) (x : vec3) : vec3 := add3 (snd t) (cross3 (fst t) x).
Definition derive3 (f : R -> vec3) (t : R) (d : vec3) : Prop :=
  is_derive (fun s => vx (f s)) t (vx d) /\ is_derive (fun s => vy (f s)) t (vy d) /\ is_derive (fun s => vz (f s)) t (vz d).
(** A rotating body: the derivative of the rotation matrix is R [omega]x, that is, R' x = R (omega cross x) for every x. *)
Definition rotates (P : R -> pose) (t : R) (omega : vec3) : Prop :=
  forall x, derive3 (fun s => mulv (rotation (P s)) x) t (mulv (rotation (P t)) (cross3 omega x)).

(** * Algebra *)

Ltac v3 := repeat match goal with v : vec3 |- _ => destruct v as [[? ?] ?] | m : m3 |- _ => destruct m as [[[[? ?] ?] [[? ?] ?]] [[? ?] ?]]
  | q : quat |- _ => destruct q as [[[? ?] ?] ?] end.
Ltac unf := cbv [unit_quat add3 sub3 dot3 cross3 mulv mulm transp qmat qmul qconj row0 row1 row2 vx vy vz fst snd scale3 zero3] in *.
Ltac eq3 := apply f_equal2; [apply f_equal2|].
Ltac eq9 := apply f_equal2; [apply f_equal2|]; eq3.

Definition proper (m : m3) : Prop := (forall v, mulv (transp m) (mulv m v) = v) /\ (forall v, mulv m (mulv (transp m) v) = v) /\
  (forall u v, dot3 (mulv m u) (mulv m v) = dot3 u v) /\ (forall u v, mulv m (cross3 u v) = cross3 (mulv m u) (mulv m v)).
Lemma qmat_proper q : unit_quat q -> proper (qmat q).
Proof.
  destruct q as [[[w x] y] z]. intros U. unf. assert (E : w * w = 1 - x * x - y * y - z * z) by lra. clear U.
  split; [|split; [|split]].
  - intros [[a b] c]. unf. eq3; ring [E].
  - intros [[a b] c]. unf. eq3; ring [E].
  - intros [[a b] c] [[d e] f]. unf. ring [E].
  - intros [[a b] c] [[d e] f]. unf. eq3; ring [E].
Qed.
Lemma qmul_unit a b : unit_quat a -> unit_quat b -> unit_quat (qmul a b).
Proof.
  v3. unf. intros H H0.
  match type of H with ?x = 1 => match type of H0 with ?y = 1 => transitivity (x * y); [ring|rewrite H, H0; ring] end end.
Qed.
Lemma qconj_unit a : unit_quat a -> unit_quat (qconj a).
Proof. v3. unf. intros H. rewrite <- H. ring. Qed.
Lemma qmat_mul a b : unit_quat a -> unit_quat b -> qmat (qmul a b) = mulm (qmat a) (qmat b).
Proof.
  destruct a as [[[w x] y] z], b as [[[a b] c] d]. unf. intros H H0.
  assert (E : w * w = 1 - x * x - y * y - z * z) by lra. assert (F : a * a = 1 - b * b - c * c - d * d) by lra. clear H H0.
  eq9; ring [E F].
Qed.
Lemma qmat_conj a : qmat (qconj a) = transp (qmat a).
Proof. v3. unf. eq9; ring. Qed.
Lemma mulv_mulm a b v : mulv (mulm a b) v = mulv a (mulv b v).
Proof. v3. unf. eq3; ring. Qed.
Lemma mulv_add m u v : mulv m (add3 u v) = add3 (mulv m u) (mulv m v).
Proof. v3. unf. eq3; ring. Qed.
Lemma aa_unit a : unit_quat (aaX a) /\ unit_quat (aaY a) /\ unit_quat (aaZ a).
Proof. pose proof (sin2_cos2 (a / 2)) as H. unfold Rsqr in H. unfold aaX, aaY, aaZ. unf. repeat split; lra. Qed.
Lemma half a : cos a = cos (a / 2) * cos (a / 2) - sin (a / 2) * sin (a / 2) /\ sin a = 2 * sin (a / 2) * cos (a / 2).
Proof. rewrite <- cos_2a, <- sin_2a. replace (2 * (a / 2)) with a by field. auto. Qed.
Lemma aa_mat a : qmat (aaX a) = rX a /\ qmat (aaY a) = rY a /\ qmat (aaZ a) = rZ a.
Proof.
  destruct (half a) as (C & S). pose proof (sin2_cos2 (a / 2)) as H. unfold Rsqr in H. unfold aaX, aaY, aaZ, rX, rY, rZ. rewrite C, S. unf.
  assert (E : sin (a / 2) * sin (a / 2) = 1 - cos (a / 2) * cos (a / 2)) by lra.
  split; [|split]; eq9; ring [E].
Qed.
Lemma euler_unit e : unit_quat (eulerToQuat e).
Proof. unfold eulerToQuat. destruct (aa_unit (vx e)), (aa_unit (vy e)), (aa_unit (vz e)). apply qmul_unit; [apply qmul_unit|]; tauto. Qed.
Lemma euler_mat e : qmat (eulerToQuat e) = mulm (mulm (rX (vx e)) (rY (vy e))) (rZ (vz e)).
Proof.
  unfold eulerToQuat. destruct (aa_unit (vx e)) as (X & _), (aa_unit (vy e)) as (_ & Y & _), (aa_unit (vz e)) as (_ & _ & Z).
  rewrite !qmat_mul by (try apply qmul_unit; auto).
  now rewrite (proj1 (aa_mat _)), (proj1 (proj2 (aa_mat _))), (proj2 (proj2 (aa_mat _))).
Qed.

Section C75.
Variable quatToEuler : quat -> vec3.
Hypothesis Hkeep : keeps_rotation quatToEuler.

Lemma rot_quat p : valid p -> unit_quat (getRotationQuaternion p) /\ qmat (getRotationQuaternion p) = rotation p.
Proof.
  unfold valid, getRotationQuaternion, rotation. destruct (p_storage p); intros V.
  - split; [now apply V|reflexivity].
  - split; [apply euler_unit|apply euler_mat].
Qed.
Lemma rot_proper p : valid p -> proper (rotation p).
Proof. intros V. destruct (rot_quat p V) as (U & <-). now apply qmat_proper. Qed.
Lemma b2i p v : rotateBaseToInertia p v = mulv (rotation p) v.
Proof.
  unfold rotateBaseToInertia, getRotationMatrix, rotation. destruct (p_storage p); [reflexivity|]. f_equal. apply euler_mat.
Qed.
Lemma i2b p v : rotateInertiaToBase p v = mulv (transp (rotation p)) v.
Proof. unfold rotateInertiaToBase, rotation. now destruct (p_storage p). Qed.
Lemma fromQuat_rotation q x : unit_quat q -> rotation (poseFromQuat quatToEuler q x) = qmat q.
Proof. intros U. unfold rotation, poseFromQuat. cbn. now apply Hkeep. Qed.
Lemma fromEuler_rotation e x : rotation (poseFromEuler e x) = mulm (mulm (rX (vx e)) (rY (vy e))) (rZ (vz e)).
Proof. reflexivity. Qed.

(** * C75 *)

(** Rotations between base and inertia frame, for both representations: the rotation of the pose and its inverse; they keep
    lengths, angles and orientation; matrix and quaternion of a pose describe the same rotation. *)
Theorem C75_rotations (p : pose) (u v : vec3) (m : m3) : valid p ->
  rotateBaseToInertia p v = mulv (rotation p) v /\ getRotationMatrix p = rotation p /\ qmat (getRotationQuaternion p) = rotation p /\
  mulv (rotateBaseToInertiaMat p m) v = mulv (rotation p) (mulv m v) /\
  rotateInertiaToBase p (rotateBaseToInertia p v) = v /\ rotateBaseToInertia p (rotateInertiaToBase p v) = v /\
  dot3 (rotateBaseToInertia p u) (rotateBaseToInertia p v) = dot3 u v /\
  rotateBaseToInertia p (cross3 u v) = cross3 (rotateBaseToInertia p u) (rotateBaseToInertia p v) /\
  mulv (rotation p) (computeGravityB p v) = v.
Proof.
  intros V. destruct (rot_quat p V) as (U & E). destruct (rot_proper p V) as (P1 & P2 & P3 & P4).
  assert (G : getRotationMatrix p = rotation p).
  { unfold getRotationMatrix, rotation. destruct (p_storage p); [reflexivity|]. apply euler_mat. }
  unfold computeGravityB, rotateBaseToInertiaMat. rewrite G, !i2b, !b2i, mulv_mulm. rewrite P1, P2, P3, <- P4. auto 10.
Qed.
(** A pose in a reference frame, seen from the frame in which both are given, is the pose itself. *)
Theorem C75_reference_frame (p ref : pose) (x : vec3) : valid p -> valid ref ->
  toFrame ref (toFrame (inReferenceFrame quatToEuler p ref) x) = toFrame p x /\ valid (inReferenceFrame quatToEuler p ref).
Proof.
  intros V Vr. destruct (rot_quat p V) as (U & E). destruct (rot_quat ref Vr) as (Ur & Er).
  destruct (rot_proper ref Vr) as (P1 & P2 & P3 & P4).
  assert (A : rotation (inReferenceFrame quatToEuler p ref) = mulm (transp (rotation ref)) (rotation p) /\
    p_position (inReferenceFrame quatToEuler p ref) = mulv (transp (rotation ref)) (sub3 (p_position p) (p_position ref)) /\
    p_storage (inReferenceFrame quatToEuler p ref) = EULER).
  { assert (K : qmat (qmul (qconj (getRotationQuaternion ref)) (getRotationQuaternion p)) = mulm (transp (rotation ref)) (rotation p)).
    { rewrite qmat_mul by (auto; now apply qconj_unit). now rewrite qmat_conj, E, Er. }
    assert (UK : unit_quat (qmul (qconj (getRotationQuaternion ref)) (getRotationQuaternion p))) by (apply qmul_unit; [now apply qconj_unit|auto]).
    revert K UK. unfold inReferenceFrame, getRotationQuaternion, getEulerAnglesXyz, rotation. destruct (p_storage ref), (p_storage p); intros K UK;
      cbn [p_storage p_position poseFromEuler poseFromQuat p_euler p_quat]; (split; [rewrite <- K; now apply Hkeep|split; reflexivity]). }
  destruct A as (A & B & C). split; [|intros Q; congruence].
  unfold toFrame. rewrite A, B, mulv_mulm, mulv_add, !P2.
  destruct (p_position p) as [[? ?] ?], (p_position ref) as [[? ?] ?], (mulv (rotation p) x) as [[? ?] ?]. unf. eq3; ring.
Qed.

(** ** End-effectors *)

Section Kin.
Context {Q : Type} (eePosition : nat -> Q -> vec3) (eePose : nat -> Q -> pose) (eeRot : nat -> Q -> m3).
Context (eeJacobian : nat -> Q -> Q -> vec3) (forceTransform : nat -> Q -> wrench -> wrench).
Local Notation eeVelW := (getEEVelocityInWorld Q eePosition eeJacobian).
Local Notation eePosW := (getEEPositionInWorld Q eePosition).
Local Notation eePoseW := (getEEPoseInWorld quatToEuler Q eePose).
Local Notation eeRotW := (getEERotInWorld Q eeRot).

(** The end-effector pose in the world is the composition of the base pose and the pose in the base; position and rotation
    matrix agree with it if the generated functions agree with each other. *)
Theorem C75_ee_pose (ee : nat) (p : pose) (q : Q) (x : vec3) (v : vec3) : valid p -> valid (eePose ee q) ->
  toFrame (eePoseW ee p q) x = toFrame p (toFrame (eePose ee q) x) /\
  (p_position (eePose ee q) = eePosition ee q -> p_position (eePoseW ee p q) = eePosW ee p q) /\
  (rotation (eePose ee q) = eeRot ee q -> mulv (rotation (eePoseW ee p q)) v = mulv (eeRotW ee p q) v) /\
  eePosW ee p q = toFrame p (eePosition ee q).
Proof.
  intros V Ve. destruct (rot_quat p V) as (U & E). destruct (rot_quat _ Ve) as (Ue & Ee).
  assert (RQ : rotateBaseToInertiaQuaternion p (getRotationQuaternion (eePose ee q)) = qmul (getRotationQuaternion p) (getRotationQuaternion (eePose ee q))).
  { unfold rotateBaseToInertiaQuaternion, getRotationQuaternion. now destruct (p_storage p). }
  assert (RR : rotation (eePoseW ee p q) = mulm (rotation p) (rotation (eePose ee q))).
  { unfold getEEPoseInWorld. rewrite fromQuat_rotation by (rewrite RQ; now apply qmul_unit). rewrite RQ, qmat_mul, E, Ee by auto. reflexivity. }
  split; [|split; [|split]].
  - unfold toFrame. rewrite RR, mulv_mulm, mulv_add. unfold getEEPoseInWorld. cbn [poseFromQuat p_position]. rewrite b2i.
    destruct (p_position p) as [[? ?] ?], (mulv (rotation p) (p_position _)) as [[? ?] ?], (mulv (rotation p) _) as [[? ?] ?]. unf. eq3; ring.
  - intros H. unfold getEEPoseInWorld, getEEPositionInWorld. cbn [poseFromQuat p_position]. now rewrite H.
  - intros H. rewrite RR. unfold getEERotInWorld, rotateBaseToInertiaMat.
    destruct (C75_rotations p v v (eeRot ee q) V) as (_ & -> & _). now rewrite H.
  - unfold getEEPositionInWorld, toFrame. now rewrite b2i.
Qed.

Lemma derive3_add f g t df dg : derive3 f t df -> derive3 g t dg -> derive3 (fun s => add3 (f s) (g s)) t (add3 df dg).
Proof.
  intros (F0 & F1 & F2) (G0 & G1 & G2). unfold derive3, add3, vx, vy, vz. cbn [fst snd].
  split; [|split]; apply @is_derive_plus; assumption.
Qed.
Lemma derive3_mul (m : R -> m3) (f : R -> vec3) t df : (forall x, exists d, derive3 (fun s => mulv (m s) x) t d) ->
  derive3 f t df -> forall d, derive3 (fun s => mulv (m s) (f t)) t d ->
  derive3 (fun s => mulv (m s) (f s)) t (add3 d (mulv (m t) df)).
Proof.
  intros D (F0 & F1 & F2) d (M0 & M1 & M2).
  destruct (D (1, 0, 0)) as (a & A0 & A1 & A2). destruct (D (0, 1, 0)) as (b & B0 & B1 & B2). destruct (D (0, 0, 1)) as (c & C0 & C1 & C2).
  assert (X : forall (r : m3 -> vec3) (a1 b1 c1 dd : R),
    is_derive (fun s => dot3 (r (m s)) (1, 0, 0)) t a1 -> is_derive (fun s => dot3 (r (m s)) (0, 1, 0)) t b1 ->
    is_derive (fun s => dot3 (r (m s)) (0, 0, 1)) t c1 -> is_derive (fun s => dot3 (r (m s)) (f t)) t dd ->
    is_derive (fun s => dot3 (r (m s)) (f s)) t (dd + dot3 (r (m t)) df)).
  { intros r a1 b1 c1 dd E0 E1 E2 E3.
    assert (G0 : is_derive (fun s => vx (r (m s))) t a1).
    { apply (is_derive_ext (fun s => dot3 (r (m s)) (1, 0, 0))); [|exact E0]. intros s. assert (Z : dot3 (r (m s)) (1, 0, 0) = vx (r (m s))) by (unf; ring). exact Z. }
    assert (G1 : is_derive (fun s => vy (r (m s))) t b1).
    { apply (is_derive_ext (fun s => dot3 (r (m s)) (0, 1, 0))); [|exact E1]. intros s. assert (Z : dot3 (r (m s)) (0, 1, 0) = vy (r (m s))) by (unf; ring). exact Z. }
    assert (G2 : is_derive (fun s => vz (r (m s))) t c1).
    { apply (is_derive_ext (fun s => dot3 (r (m s)) (0, 0, 1))); [|exact E2]. intros s. assert (Z : dot3 (r (m s)) (0, 0, 1) = vz (r (m s))) by (unf; ring). exact Z. }
    pose proof (is_derive_mult _ _ t _ _ G0 F0 Rmult_comm) as H0. pose proof (is_derive_mult _ _ t _ _ G1 F1 Rmult_comm) as H1.
    pose proof (is_derive_mult _ _ t _ _ G2 F2 Rmult_comm) as H2.
    pose proof (is_derive_plus _ _ t _ _ (is_derive_plus _ _ t _ _ H0 H1) H2) as H.
    assert (E3' : is_derive (fun s => dot3 (r (m s)) (f t)) t (a1 * vx (f t) + b1 * vy (f t) + c1 * vz (f t))).
    { unfold dot3. pose proof (is_derive_plus _ _ t _ _ (is_derive_plus _ _ t _ _ (is_derive_scal_l (K := R_AbsRing) (V := R_NormedModule) _ t _ (vx (f t)) G0)
        (is_derive_scal_l (K := R_AbsRing) (V := R_NormedModule) _ t _ (vy (f t)) G1)) (is_derive_scal_l (K := R_AbsRing) (V := R_NormedModule) _ t _ (vz (f t)) G2)) as H'. exact H'. }
    apply is_derive_unique in E3. apply is_derive_unique in E3'. rewrite E3 in E3'. rewrite E3'.
    match goal with |- is_derive _ _ ?v => match type of H with is_derive _ _ ?w => replace v with w; [exact H|] end end.
    unfold plus, mult. cbn. unf. ring. }
  unfold derive3. unfold mulv, add3, vx at 1 2, vy at 1 2, vz at 1 2. cbn [fst snd].
  split; [|split].
  - apply (X row0 _ _ _ _ A0 B0 C0 M0).
  - apply (X row1 _ _ _ _ A1 B1 C1 M1).
  - apply (X row2 _ _ _ _ A2 B2 C2 M2).
Qed.

(** Along every motion the end-effector velocity in the world is the time derivative of its position in the world: the base
    rotates with its angular velocity, its position changes with its velocity (both given in base coordinates), the joint
    positions with the joint velocities, and the Jacobian is that of the end-effector position. *)
Theorem C75_ee_velocity (ee : nat) (s : R -> rstate Q) (t : R) : valid (b_pose Q (s t)) ->
  rotates (fun r => b_pose Q (s r)) t (b_rot Q (s t)) ->
  derive3 (fun r => p_position (b_pose Q (s r))) t (mulv (rotation (b_pose Q (s t))) (b_lin Q (s t))) ->
  derive3 (fun r => eePosition ee (j_pos Q (s r))) t (eeJacobian ee (j_pos Q (s t)) (j_vel Q (s t))) ->
  derive3 (fun r => eePosW ee (b_pose Q (s r)) (j_pos Q (s r))) t (eeVelW ee (s t)).
Proof.
  intros V HR HP HJ.
  assert (X : derive3 (fun r => mulv (rotation (b_pose Q (s r))) (eePosition ee (j_pos Q (s r)))) t
    (add3 (mulv (rotation (b_pose Q (s t))) (cross3 (b_rot Q (s t)) (eePosition ee (j_pos Q (s t)))))
          (mulv (rotation (b_pose Q (s t))) (eeJacobian ee (j_pos Q (s t)) (j_vel Q (s t)))))).
  { apply (derive3_mul (fun r => rotation (b_pose Q (s r))) (fun r => eePosition ee (j_pos Q (s r)))).
    - intros x. eexists. apply HR.
    - exact HJ.
    - apply HR. }
  pose proof (derive3_add _ _ _ _ _ HP X) as Y.
  match type of Y with derive3 ?f _ ?d => assert (Ed : d = eeVelW ee (s t)) end.
  { unfold getEEVelocityInWorld, getEEVelocityInBase. rewrite b2i, !mulv_add.
    destruct (mulv (rotation (b_pose Q (s t))) (b_lin Q (s t))) as [[? ?] ?],
      (mulv (rotation (b_pose Q (s t))) (cross3 _ _)) as [[? ?] ?], (mulv (rotation (b_pose Q (s t))) (eeJacobian _ _ _)) as [[? ?] ?].
    unf. eq3; ring. }
  rewrite Ed in Y. destruct Y as (Y0 & Y1 & Y2).
  split; [|split]; (eapply is_derive_ext; [|eassumption]); intros r; cbn beta; unfold getEEPositionInWorld; now rewrite b2i.
Qed.

(** ** Forces *)

(** The generated force transform of a link is dual to the motion transform: the power of a wrench does not depend on the
    frame. *)
Definition dual (motionTransform : nat -> Q -> wrench -> wrench) : Prop :=
  forall l q w tw, power6 (forceTransform l q w) (motionTransform l q tw) = power6 w tw.
(** The mapped wrench does the work of the force at the end-effector: for every base twist its power is that of force and
    torque along the velocity of the end-effector point and the angular velocity in the world. *)
Theorem C75_force_power (motionTransform : nat -> Q -> wrench -> wrench) (k : kinematics) (w : wrench) (f : vec3) (p : pose) (q : Q) (ee : nat) (tw : wrench) :
  valid p -> dual motionTransform ->
  power6 (mapForceFromWorldToLink Q eePosition forceTransform k w p q ee) (motionTransform (k ee) q tw) =
    dot3 (snd w) (mulv (rotation p) (pointVelocity tw (eePosition ee q))) + dot3 (fst w) (mulv (rotation p) (fst tw)) /\
  power6 (mapForceFromWorldToLink3d Q eePosition forceTransform k f p q ee) (motionTransform (k ee) q tw) =
    dot3 f (mulv (rotation p) (pointVelocity tw (eePosition ee q))).
Proof.
  intros V D.
  assert (G : forall w, power6 (mapForceFromWorldToLink Q eePosition forceTransform k w p q ee) (motionTransform (k ee) q tw) =
    dot3 (snd w) (mulv (rotation p) (pointVelocity tw (eePosition ee q))) + dot3 (fst w) (mulv (rotation p) (fst tw))).
  { intros [tau g]. unfold mapForceFromWorldToLink, mapForceFromWorldToLinkAt, getEndEffector. rewrite D, !i2b. unfold power6, pointVelocity. cbn [fst snd].
    destruct (rotation p) as [[[[? ?] ?] [[? ?] ?]] [[? ?] ?]], tw as [[[? ?] ?] [[? ?] ?]], tau as [[? ?] ?], g as [[? ?] ?], (eePosition ee q) as [[? ?] ?].
    unf. ring. }
  split; [apply G|]. unfold mapForceFromWorldToLink3d. rewrite G. cbn [fst snd].
  destruct (mulv (rotation p) (fst tw)) as [[? ?] ?]. unf. ring.
Qed.
(** The same for a force given in the end-effector frame, with the pose of that frame in the base. *)
Theorem C75_force_ee_power (motionTransform : nat -> Q -> wrench -> wrench) (k : kinematics) (w : wrench) (T : pose) (q : Q) (ee : nat) (tw : wrench) :
  valid T -> dual motionTransform ->
  power6 (mapForceFromEEToLink Q forceTransform k w T q ee) (motionTransform (k ee) q tw) =
    dot3 (mulv (rotation T) (snd w)) (pointVelocity tw (p_position T)) + dot3 (mulv (rotation T) (fst w)) (fst tw).
Proof.
  intros V D. unfold mapForceFromEEToLink, getEndEffector. rewrite D, !b2i. unfold power6, pointVelocity. cbn [fst snd].
  destruct w as [tau g]. cbn [fst snd]. destruct (mulv (rotation T) g) as [[? ?] ?], (mulv (rotation T) tau) as [[? ?] ?], tw as [[[? ?] ?] [[? ?] ?]], (p_position T) as [[? ?] ?].
  unf. ring.
Qed.
(** Both maps agree if the end-effector frame has the orientation of the world, seen from the base, that is, the inverse of the
    base rotation. *)
Theorem C75_world_frame (k : kinematics) (w : wrench) (p T : pose) (q : Q) (ee : nat) : valid p -> valid T ->
  rotation T = transp (rotation p) -> p_position T = eePosition ee q ->
  mapForceFromEEToLink Q forceTransform k w T q ee = mapForceFromWorldToLink Q eePosition forceTransform k w p q ee.
Proof.
  intros V VT E EP. unfold mapForceFromEEToLink, mapForceFromWorldToLink, mapForceFromWorldToLinkAt. now rewrite !b2i, !i2b, E, EP.
Qed.
(** REFUTED: setEndEffector has no effect. *)
Theorem C75_set_end_effector_refuted (k : kinematics) (id ee : nat) : k id <> ee -> getEndEffector (setEndEffector k id ee) id <> ee.
Proof. auto. Qed.
End Kin.
End C75.

(** REFUTED: the documented recipe for forces in world coordinates ("use the base orientation"): with the orientation of the
    base as orientation of the end-effector, the force is rotated the wrong way.  Base turned by 90 degrees about z, force along
    x: the mapped force points along y instead of -y. *)
Theorem C75_base_orientation_refuted : let p := mkPose QUAT (sqrt (1 / 2), 0, 0, sqrt (1 / 2)) zero3 zero3 in
  let w : wrench := (zero3, (1, 0, 0)) in
  valid p /\ mapForceFromWorldToLink unit (fun _ _ => zero3) (fun _ _ w => w) (fun _ => 0%nat) w p tt 0 = (zero3, (0, -1, 0)) /\
  mapForceFromEEToLink unit (fun _ _ w => w) (fun _ => 0%nat) w p tt 0 = (zero3, (0, 1, 0)).
Proof.
  assert (S : sqrt (1 / 2) * sqrt (1 / 2) = 1 / 2) by (apply sqrt_sqrt; lra).
  intros p w. split; [|split].
  - intros _. unfold p. cbn. lra.
  - unfold mapForceFromWorldToLink, mapForceFromWorldToLinkAt, rotateInertiaToBase, p, w. cbn [p_storage p_quat fst snd]. unf.
    apply f_equal2; eq3; lra.
  - unfold mapForceFromEEToLink, rotateBaseToInertia, p, w. cbn [p_storage p_quat p_position fst snd]. unf.
    apply f_equal2; eq3; lra.
Qed.

(** The derivative of the quaternion used by the floating base systems (kindr's RotationQuaternionDiff from the local angular
    velocity, RBDAcceleration.h 60-64): half the product of the quaternion and the angular velocity.  It keeps the length, and
    the body rotates with that angular velocity: the hypothesis of C75_ee_velocity. *)
Definition quatRate (q : quat) (omega : vec3) : quat :=
  let '(w, x, y, z) := qmul q (0, vx omega, vy omega, vz omega) in (w / 2, x / 2, y / 2, z / 2).
Theorem C75_quaternion_rate (w x y z : R -> R) (X : R -> vec3) (omega : vec3) (t : R) :
  let q := fun s => (w s, x s, y s, z s) in let '(dw, dx, dy, dz) := quatRate (q t) omega in unit_quat (q t) ->
  is_derive w t dw -> is_derive x t dx -> is_derive y t dy -> is_derive z t dz ->
  is_derive (fun s => w s * w s + x s * x s + y s * y s + z s * z s) t 0 /\
  rotates (fun s => mkPose QUAT (q s) zero3 (X s)) t omega.
Proof.
  intros q. destruct omega as [[a b] c]. cbv [quatRate qmul vx vy vz fst snd q]. intros U Dw Dx Dy Dz.
  assert (M : forall f g df dg, is_derive f t df -> is_derive g t dg -> is_derive (fun s => f s * g s) t (df * g t + f t * dg)).
  { intros f g df dg F G. apply (is_derive_mult f g t df dg F G Rmult_comm). }
  assert (P : forall f g df dg, is_derive f t df -> is_derive g t dg -> is_derive (fun s : R => f s + g s) t (df + dg)).
  { intros f g df dg F G. apply (is_derive_plus f g t df dg F G). }
  assert (N : forall f g df dg, is_derive f t df -> is_derive g t dg -> is_derive (fun s : R => f s - g s) t (df - dg)).
  { intros f g df dg F G. apply (is_derive_minus f g t df dg F G). }
  assert (K : forall k : R, is_derive (fun _ : R => k) t 0) by (intros k; apply @is_derive_const).
  assert (C : forall (f : R -> R) (d d' : R), is_derive f t d -> d = d' -> is_derive f t d') by (intros f d d' D <-; exact D).
  assert (RE : forall a b : R, a = b -> a = b) by auto.
  Ltac dstep P N M K D1 D2 D3 D4 := lazymatch goal with
    | |- is_derive (fun s => @?f s + @?g s) _ _ => refine (P f g _ _ _ _)
    | |- is_derive (fun s => @?f s - @?g s) _ _ => refine (N f g _ _ _ _)
    | |- is_derive (fun s => @?f s * @?g s) _ _ => refine (M f g _ _ _ _)
    | |- is_derive _ _ _ => first [exact D1|exact D2|exact D3|exact D4|exact (K _)]
    end; cbv beta.
  split.
  - eapply C; [repeat dstep P N M K Dw Dx Dy Dz|]. apply RE. field.
  - intros [[u0 u1] u2]. unfold derive3, rotation. cbn [p_storage p_quat]. cbv [unit_quat] in U. unf.
    assert (E : w t * w t = 1 - x t * x t - y t * y t - z t * z t) by lra.
    split; [|split]; (eapply C; [repeat dstep P N M K Dw Dx Dy Dz|]); apply RE.
    + field_simplify. ring [E].
    + field_simplify. ring [E].
    + field_simplify. ring [E].
Qed.

(** The hypothesis on kindr's conversion can be met: a conversion that keeps the rotation of every unit quaternion. *)
Definition angle (c s : R) : R := if Rle_dec 0 s then acos c else - acos c.
Lemma angle_cs c s : c * c + s * s = 1 -> cos (angle c s) = c /\ sin (angle c s) = s.
Proof.
  intros H. assert (B : -1 <= c <= 1) by nra. unfold angle. destruct (Rle_dec 0 s) as [L|L].
  - rewrite cos_acos by auto. split; [reflexivity|]. rewrite sin_acos by auto. replace (1 - c²) with (s * s) by (unfold Rsqr; lra).
    apply sqrt_square. exact L.
  - rewrite cos_neg, sin_neg, cos_acos by auto. split; [reflexivity|]. rewrite sin_acos by auto.
    replace (1 - c²) with ((- s) * (- s)) by (unfold Rsqr; lra). rewrite sqrt_square by lra. ring.
Qed.
Definition exConversion (q : quat) : vec3 :=
  let m := qmat q in
  let a := vz (row0 m) in
  if Rlt_dec (a * a) 1 then
    let c := sqrt (1 - a * a) in (angle (vz (row2 m) / c) (- vz (row1 m) / c), asin a, angle (vx (row0 m) / c) (- vy (row0 m) / c))
  else (angle (vy (row1 m)) (vy (row2 m)), asin a, 0).
Lemma sq1 a : a * a = 1 -> a = 1 \/ a = -1.
Proof. intros H. assert ((a - 1) * (a + 1) = 0) by lra. apply Rmult_integral in H0. destruct H0; [left|right]; lra. Qed.
Lemma exConversion_keeps : keeps_rotation exConversion.
Proof.
  intros q U. destruct (qmat_proper q U) as (P1 & P2 & P3 & P4). unfold exConversion.
  set (m := qmat q) in *. destruct m as [[[[a00 a01] a02] [[a10 a11] a12]] [[a20 a21] a22]] eqn:Em. clear Em U.
  assert (C0 := P4 (1, 0, 0) (0, 1, 0)). assert (C1 := P4 (0, 1, 0) (0, 0, 1)). assert (C2 := P4 (0, 0, 1) (1, 0, 0)).
  assert (R0 := P2 (1, 0, 0)). assert (R1 := P2 (0, 1, 0)). assert (R2 := P2 (0, 0, 1)).
  assert (L0 := P1 (1, 0, 0)). assert (L1 := P1 (0, 1, 0)). assert (L2 := P1 (0, 0, 1)).
  clear P1 P2 P3 P4. cbv [row0 row1 row2 vx vy vz fst snd] in *. unf.
  injection C0 as Ca Cb Cc. injection C1 as Cd Ce Cf. injection C2 as Cg Ch Ci. injection R0 as Ra Rb Rc. injection R1 as Rd Re Rf.
  injection R2 as Rg Rh Ri. injection L0 as La Lb Lc. injection L1 as Ld Le Lf. injection L2 as Lg Lh Li.
  assert (n0 : a00 * a00 + a01 * a01 + a02 * a02 = 1) by lra. assert (n2 : a02 * a02 + a12 * a12 + a22 * a22 = 1) by lra.
  assert (n1 : a01 * a01 + a11 * a11 + a21 * a21 = 1) by lra.
  assert (X10 : a10 = a21 * a02 - a22 * a01) by lra. assert (X11 : a11 = a22 * a00 - a20 * a02) by lra.
  assert (X20 : a20 = a01 * a12 - a02 * a11) by lra. assert (X21 : a21 = a02 * a10 - a00 * a12) by lra.
  clear - n0 n1 n2 X10 X11 X20 X21.
  assert (B : -1 <= a02 <= 1) by (clear - n0; nra).
  destruct (Rlt_dec (a02 * a02) 1) as [H|H].
  - set (c := sqrt (1 - a02 * a02)). assert (Hc : 0 < c) by (apply sqrt_lt_R0; lra).
    assert (Hcc : c * c = 1 - a02 * a02) by (apply sqrt_sqrt; lra).
    destruct (angle_cs (a22 / c) (- a12 / c)) as (X1 & X2).
    { apply Rmult_eq_reg_r with (c * c); [|clear - Hc; nra]. field_simplify; [|lra]. lra. }
    destruct (angle_cs (a00 / c) (- a01 / c)) as (Z1 & Z2).
    { apply Rmult_eq_reg_r with (c * c); [|clear - Hc; nra]. field_simplify; [|lra]. lra. }
    assert (Y1 : cos (asin a02) = c) by (rewrite cos_asin by auto; reflexivity). assert (Y2 : sin (asin a02) = a02) by (now apply sin_asin).
    unfold rX, rY, rZ. unf. rewrite X1, X2, Y1, Y2, Z1, Z2.
    assert (E10 : c * c * a10 = - a02 * a00 * a12 - a01 * a22) by (rewrite Hcc; rewrite X21 in X10; lra).
    assert (E11 : c * c * a11 = a00 * a22 - a02 * a01 * a12) by (rewrite Hcc; rewrite X20 in X11; lra).
    assert (E20 : c * c * a20 = a01 * a12 - a02 * a00 * a22) by (rewrite Hcc; rewrite X11 in X20; lra).
    assert (E21 : c * c * a21 = - a00 * a12 - a02 * a01 * a22) by (rewrite Hcc; rewrite X10 in X21; lra).
    eq9; try (field; lra);
      (apply Rmult_eq_reg_l with (c * c); [rewrite ?E10, ?E11, ?E20, ?E21; field; lra|clear - Hc; nra]).
  - assert (E : a02 * a02 = 1) by (clear - n0 H; nra). assert (a00 = 0 /\ a01 = 0 /\ a12 = 0 /\ a22 = 0) as (-> & -> & -> & ->) by (clear - n0 n2 E; repeat split; nra).
    destruct (angle_cs a11 a21) as (X1 & X2); [lra|].
    assert (Y1 : cos (asin a02) = 0).
    { rewrite cos_asin by auto. replace (1 - a02²) with 0 by (unfold Rsqr; lra). apply sqrt_0. }
    assert (Y2 : sin (asin a02) = a02) by (now apply sin_asin).
    unfold rX, rY, rZ. unf. rewrite X1, X2, Y1, Y2, sin_0, cos_0.
    eq9; lra.
Qed.
Example C75_example : keeps_rotation exConversion /\
  toFrame (mkPose QUAT (0, 0, 0, 1) zero3 (1, 2, 3)) (1, 0, 0) = (0, 2, 3) /\
  rotates (fun _ => mkPose QUAT (0, 0, 0, 1) zero3 (1, 2, 3)) 0 zero3.
Proof.
  split; [exact exConversion_keeps|]. split.
  - unfold toFrame, rotation. cbn [p_storage p_position p_quat]. unf. eq3; lra.
  - intros [[a b] c]. unfold derive3, rotation. cbn [p_storage p_quat]. unf.
    split; [|split]; (match goal with |- is_derive _ _ ?v => replace v with 0 by ring end; apply @is_derive_const).
Qed.

Print Assumptions C75_rotations.
Print Assumptions C75_reference_frame.
Print Assumptions C75_ee_pose.
Print Assumptions C75_ee_velocity.
Print Assumptions C75_force_power.
Print Assumptions C75_force_ee_power.
Print Assumptions C75_world_frame.
Print Assumptions C75_set_end_effector_refuted.
Print Assumptions C75_base_orientation_refuted.
Print Assumptions C75_quaternion_rate.
