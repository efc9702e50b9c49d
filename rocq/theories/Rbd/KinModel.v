(** Model of the frame transformations of /repo/ct_rbd/include/ct/rbd/state/RigidBodyPose.h and of
    /repo/ct_rbd/include/ct/rbd/robot/Kinematics.h.  Scalars are exact reals.  Quaternions and rotations of the external
    libraries Eigen and kindr are written out; kindr's conversion from quaternions to Euler angles and the generated robot
    code (RobCoGen) are parameters. *)
From Coq Require Import Reals List.
From Verif Require Import Base.Outcome Rbd.ContactModel.
Import ListNotations.
Local Open Scope R_scope.

(** ** Eigen and kindr *)

Definition add3 (a b : vec3) : vec3 := (vx a + vx b, vy a + vy b, vz a + vz b).
Definition sub3 (a b : vec3) : vec3 := (vx a - vx b, vy a - vy b, vz a - vz b).
Definition dot3 (a b : vec3) : R := vx a * vx b + vy a * vy b + vz a * vz b.
Definition cross3 (a b : vec3) : vec3 := (vy a * vz b - vz a * vy b, vz a * vx b - vx a * vz b, vx a * vy b - vy a * vx b).
(** A 3x3 matrix is given by its rows. *)
Definition m3 := (vec3 * vec3 * vec3)%type.
Definition row0 (m : m3) : vec3 := fst (fst m).
Definition row1 (m : m3) : vec3 := snd (fst m).
Definition row2 (m : m3) : vec3 := snd m.
Definition mulv (m : m3) (v : vec3) : vec3 := (dot3 (row0 m) v, dot3 (row1 m) v, dot3 (row2 m) v).
Definition transp (m : m3) : m3 :=
  ((vx (row0 m), vx (row1 m), vx (row2 m)), (vy (row0 m), vy (row1 m), vy (row2 m)), (vz (row0 m), vz (row1 m), vz (row2 m))).
Definition mulm (a b : m3) : m3 := let t := transp b in (mulv t (row0 a), mulv t (row1 a), mulv t (row2 a)).
(** Quaternions (w, x, y, z): product, conjugate, and the rotation matrix as computed by Eigen's toRotationMatrix. *)
Definition quat := (R * R * R * R)%type.
Definition qmul (a b : quat) : quat :=
  let '(aw, ax, ay, az) := a in let '(bw, bx, by_, bz) := b in
  (aw * bw - ax * bx - ay * by_ - az * bz, aw * bx + ax * bw + ay * bz - az * by_,
   aw * by_ + ay * bw + az * bx - ax * bz, aw * bz + az * bw + ax * by_ - ay * bx).
Definition qconj (q : quat) : quat := let '(w, x, y, z) := q in (w, - x, - y, - z).
Definition qmat (q : quat) : m3 :=
  let '(w, x, y, z) := q in
  ((1 - 2 * (y * y + z * z), 2 * (x * y - w * z), 2 * (x * z + w * y)),
   (2 * (x * y + w * z), 1 - 2 * (x * x + z * z), 2 * (y * z - w * x)),
   (2 * (x * z - w * y), 2 * (y * z + w * x), 1 - 2 * (x * x + y * y))).
(** Eigen::AngleAxis about the coordinate axes as quaternions. *)
Definition aaX (a : R) : quat := (cos (a / 2), sin (a / 2), 0, 0).
Definition aaY (a : R) : quat := (cos (a / 2), 0, sin (a / 2), 0).
Definition aaZ (a : R) : quat := (cos (a / 2), 0, 0, sin (a / 2)).
(** kindr's conversion of Euler angles x, y, z to a quaternion and to a rotation matrix. *)
Definition eulerToQuat (e : vec3) : quat := qmul (qmul (aaX (vx e)) (aaY (vy e))) (aaZ (vz e)).
Definition rX (a : R) : m3 := ((1, 0, 0), (0, cos a, - sin a), (0, sin a, cos a)).
Definition rY (a : R) : m3 := ((cos a, 0, sin a), (0, 1, 0), (- sin a, 0, cos a)).
Definition rZ (a : R) : m3 := ((cos a, - sin a, 0), (sin a, cos a, 0), (0, 0, 1)).
Definition eulerToMat (e : vec3) : m3 := mulm (mulm (rX (vx e)) (rY (vy e))) (rZ (vz e)).

Section Pose.
(** kindr's conversion of a quaternion to Euler angles. *)
Variable quatToEuler : quat -> vec3.

(** ** RigidBodyPose.h *)

Inductive storage := QUAT | EULER.
(** 415-420 *)
Record pose := mkPose { p_storage : storage; p_quat : quat; p_euler : vec3; p_position : vec3 }.
(** 57-68, with the default storage and setFromEulerAnglesXyz (171-181). *)
Definition poseFromEuler (e x : vec3) : pose := mkPose EULER (1, 0, 0, 0) e x.
(** 70-81, with the default storage and setFromRotationQuaternion (201-211). *)
Definition poseFromQuat (q : quat) (x : vec3) : pose := mkPose EULER (1, 0, 0, 0) (quatToEuler q) x.
(** 119-129 *)
Definition getEulerAnglesXyz (p : pose) : vec3 :=
  match p_storage p with EULER => p_euler p | QUAT => quatToEuler (p_quat p) end.
(** 134-144 *)
Definition getRotationQuaternion (p : pose) : quat :=
  match p_storage p with EULER => eulerToQuat (p_euler p) | QUAT => p_quat p end.
(** 150-166 *)
Definition getRotationMatrix (p : pose) : m3 :=
  match p_storage p with
  | EULER => qmat (qmul (qmul (aaX (vx (p_euler p))) (aaY (vy (p_euler p)))) (aaZ (vz (p_euler p))))
  | QUAT => qmat (p_quat p)
  end.
(** 284-307; kindr's rotate applies the rotation matrix of the quaternion. *)
Definition rotateBaseToInertia (p : pose) (v : vec3) : vec3 :=
  match p_storage p with EULER => mulv (getRotationMatrix p) v | QUAT => mulv (qmat (p_quat p)) v end.
(** 313-317 *)
Definition rotateBaseToInertiaMat (p : pose) (m : m3) : m3 := mulm (getRotationMatrix p) m.
(** 323-333 *)
Definition rotateBaseToInertiaQuaternion (p : pose) (q : quat) : quat :=
  match p_storage p with EULER => qmul (eulerToQuat (p_euler p)) q | QUAT => qmul (p_quat p) q end.
(** 339-353; kindr's inverseRotate applies the transposed matrix. *)
Definition rotateInertiaToBase (p : pose) (v : vec3) : vec3 :=
  match p_storage p with
  | EULER => mulv (transp (eulerToMat (p_euler p))) v
  | QUAT => mulv (transp (qmat (p_quat p))) v
  end.
(** 256-278.  Products of kindr rotations of different kinds have the kind of the left factor; inverseRotate of Euler angles
    applies the transposed matrix. *)
Definition inReferenceFrame (p ref : pose) : pose :=
  match p_storage ref, p_storage p with
  | EULER, EULER => poseFromEuler (quatToEuler (qmul (qconj (eulerToQuat (getEulerAnglesXyz ref))) (eulerToQuat (p_euler p))))
                      (mulv (transp (eulerToMat (getEulerAnglesXyz ref))) (sub3 (p_position p) (p_position ref)))
  | EULER, QUAT => poseFromEuler (quatToEuler (qmul (qconj (eulerToQuat (getEulerAnglesXyz ref))) (p_quat p)))
                     (mulv (transp (eulerToMat (getEulerAnglesXyz ref))) (sub3 (p_position p) (p_position ref)))
  | QUAT, EULER => poseFromQuat (qmul (qconj (getRotationQuaternion ref)) (eulerToQuat (p_euler p)))
                     (mulv (transp (qmat (getRotationQuaternion ref))) (sub3 (p_position p) (p_position ref)))
  | QUAT, QUAT => poseFromQuat (qmul (qconj (getRotationQuaternion ref)) (p_quat p))
                    (mulv (transp (qmat (getRotationQuaternion ref))) (sub3 (p_position p) (p_position ref)))
  end.
(** 368-375 *)
Definition computeGravityB (p : pose) (gravityW : vec3) : vec3 := rotateInertiaToBase p gravityW.

(** ** Kinematics.h *)

(** The generated code: end-effector position, pose and rotation in the base, the linear part (bottom rows) of the
    end-effector Jacobian times joint velocities, and the force transform from the base to a link. *)
Variables (Q : Type) (eePosition : nat -> Q -> vec3) (eePose : nat -> Q -> pose) (eeRot : nat -> Q -> m3).
Variable eeJacobian : nat -> Q -> Q -> vec3.
(** Spatial forces: torque, then force (common/SpatialForceVector.h). *)
Definition wrench := (vec3 * vec3)%type.
Variable forceTransform : nat -> Q -> wrench -> wrench.

(** state/RBDState.h: base pose, rotational and translational velocity in the base frame, joints. *)
Record rstate := mkState { b_pose : pose; b_rot : vec3; b_lin : vec3; j_pos : Q; j_vel : Q }.
(** 112-127 *)
Definition getEEVelocityInBase (ee : nat) (s : rstate) : vec3 :=
  add3 (add3 (eeJacobian ee (j_pos s) (j_vel s)) (b_lin s)) (cross3 (b_rot s) (eePosition ee (j_pos s))).
(** 129-133 *)
Definition getEEVelocityInWorld (ee : nat) (s : rstate) : vec3 := rotateBaseToInertia (b_pose s) (getEEVelocityInBase ee s).
(** 180-192 *)
Definition getEEPositionInWorld (ee : nat) (p : pose) (q : Q) : vec3 :=
  add3 (p_position p) (rotateBaseToInertia p (eePosition ee q)).
(** 195-210 *)
Definition getEEPoseInWorld (ee : nat) (p : pose) (q : Q) : pose :=
  let B_x_EE := eePose ee q in
  poseFromQuat (rotateBaseToInertiaQuaternion p (getRotationQuaternion B_x_EE))
    (add3 (p_position p) (rotateBaseToInertia p (p_position B_x_EE))).
(** 213-222 *)
Definition getEERotInWorld (ee : nat) (p : pose) (q : Q) : m3 := rotateBaseToInertiaMat p (eeRot ee q).

(** 27-45, 363: the end-effectors; an end-effector is its link (kinematics/EndEffector.h). *)
Definition kinematics := nat -> nat.
(** 83, 89 *)
Definition getEndEffector (k : kinematics) (id : nat) : nat := k id.
Definition setEndEffector (k : kinematics) (id ee : nat) : kinematics := k.
(** 296-314 *)
Definition mapForceFromWorldToLinkAt (k : kinematics) (W_force : wrench) (p : pose) (q : Q) (B_x_EE : vec3) (ee : nat) : wrench :=
  let f := rotateInertiaToBase p (snd W_force) in
  let tau := add3 (cross3 B_x_EE f) (rotateInertiaToBase p (fst W_force)) in
  forceTransform (getEndEffector k ee) q (tau, f).
(** 275-284 *)
Definition mapForceFromWorldToLink (k : kinematics) (W_force : wrench) (p : pose) (q : Q) (ee : nat) : wrench :=
  mapForceFromWorldToLinkAt k W_force p q (eePosition ee q) ee.
(** 255-264 *)
Definition mapForceFromWorldToLink3d (k : kinematics) (W_force : vec3) (p : pose) (q : Q) (ee : nat) : wrench :=
  mapForceFromWorldToLink k (zero3, W_force) p q ee.
(** 335-358 *)
Definition mapForceFromEEToLink (k : kinematics) (EE_force : wrench) (T_B_EE : pose) (q : Q) (ee : nat) : wrench :=
  let f := rotateBaseToInertia T_B_EE (snd EE_force) in
  let tau := add3 (cross3 (p_position T_B_EE) f) (rotateBaseToInertia T_B_EE (fst EE_force)) in
  forceTransform (getEndEffector k ee) q (tau, f).
End Pose.
