(** Model of the robot state classes in /repo/ct_rbd/include/ct/rbd/state: JointState.h, RigidBodyPose.h (storage of the
    orientation), RBDState.h, FixBaseRobotState.h, FloatingBaseRobotState.h, and of the state layout of
    /repo/ct_rbd/include/ct/rbd/systems/FixBaseFDSystemSymplectic.h.  Vectors are lists; scalars are exact reals. *)
From Coq Require Import Reals List ZArith Lia SpecFloat Bool.
From Verif Require Import Base.Outcome Base.Scalar.
Import ListNotations.
Local Open Scope R_scope.

(** ** JointState.h *)

(** std::floor *)
Definition floorR (x : R) : Z := (up x - 1)%Z.
(** Conversion of a floating point value to int, and std::abs of the result: undefined outside the range of int
    (std::abs(INT_MIN) is undefined as well). *)
Definition toInt (z : Z) : outcome Z :=
  if ((- 2147483648 <? z) && (z <? 2147483648))%Z then Ok z else UB.

(** JointState.h 101-110: the body of the loop for one joint.  M_PI is the real number pi. *)
Definition uniqueOne (q lower tolerance : R) : outcome R :=
  do k_lower <- toInt (floorR ((q - (lower - tolerance)) / (2 * PI))) ;;
  do k_upper <- toInt (floorR ((q - (lower + tolerance)) / (2 * PI))) ;;
  if (Z.abs k_lower <=? Z.abs k_upper)%Z then
    if (k_lower =? 0)%Z then Ok q else Ok (q - IZR k_lower * 2 * PI)
  else if (k_upper =? 0)%Z then Ok q else Ok (q - IZR k_upper * 2 * PI).
(** The loop over the joints (98-111); a limit vector that is too short is read out of bounds (the assertion of 97 is
    not active in release builds). *)
Fixpoint uniqueAll (qs lower : list R) (tolerance : R) : outcome (list R) :=
  match qs, lower with
  | [], _ => Ok []
  | _ :: _, [] => UB
  | q :: qs', l :: ls =>
      do q' <- uniqueOne q l tolerance ;; do r <- uniqueAll qs' ls tolerance ;; Ok (q' :: r)
  end.
(** 31, 76, 131: positions are the first NJOINTS entries, velocities the last. *)
Definition getPositions (n : nat) (st : list R) : list R := firstn n st.
Definition getVelocities (n : nat) (st : list R) : list R := skipn n st.
(** 95-112 *)
Definition toUniquePosition (n : nat) (st lower : list R) (tolerance : R) : outcome (list R) :=
  do qs <- uniqueAll (getPositions n st) lower tolerance ;; Ok (qs ++ getVelocities n st).
(** 116-128 *)
Fixpoint checkPos (qs lower upper : list R) (tolerance : R) : outcome bool :=
  match qs, lower, upper with
  | [], _, _ => Ok true
  | q :: qs', l :: ls, u :: us =>
      if Rgt_dec (Rabs (q - l)) tolerance then
        if Rlt_dec q l then Ok false else
        if Rgt_dec (Rabs (q - u)) tolerance then
          if Rgt_dec q u then Ok false else checkPos qs' ls us tolerance
        else checkPos qs' ls us tolerance
      else
        if Rgt_dec (Rabs (q - u)) tolerance then
          if Rgt_dec q u then Ok false else checkPos qs' ls us tolerance
        else checkPos qs' ls us tolerance
  | _ :: _, _, _ => UB
  end.
Definition checkPositionLimits (n : nat) (st lower upper : list R) (tolerance : R) : outcome bool :=
  checkPos (getPositions n st) lower upper tolerance.
(** 150-157 *)
Fixpoint checkVel (vs limit : list R) : outcome bool :=
  match vs, limit with
  | [], _ => Ok true
  | v :: vs', l :: ls => if Rgt_dec (Rabs v) l then Ok false else checkVel vs' ls
  | _ :: _, [] => UB
  end.
Definition checkVelocityLimits (n : nat) (st limit : list R) : outcome bool := checkVel (getVelocities n st) limit.

(** *** The same loop body in double precision. *)
(** std::floor of a finite double, as an integer. *)
Definition SFfloor (x : spec_float) : outcome Z :=
  match x with
  | S754_zero _ => Ok 0%Z
  | S754_finite s m e =>
      let z := if s then Z.neg m else Z.pos m in
      Ok (if (0 <=? e)%Z then (z * 2 ^ e)%Z else (z / 2 ^ (- e))%Z)
  | _ => UB
  end.
Definition M_PI : spec_float := SFnum 7074237752028440 (-51).
Definition SFint (z : Z) : spec_float := SFnum z 0.
Definition uniqueOneF (q lower tolerance : spec_float) : outcome spec_float :=
  let two_pi := SFmul prec64 emax64 (SFint 2) M_PI in
  do fl <- SFfloor (SFdiv prec64 emax64 (SFsub prec64 emax64 q (SFsub prec64 emax64 lower tolerance)) two_pi) ;;
  do fu <- SFfloor (SFdiv prec64 emax64 (SFsub prec64 emax64 q (SFadd prec64 emax64 lower tolerance)) two_pi) ;;
  do k_lower <- toInt fl ;; do k_upper <- toInt fu ;;
  if (Z.abs k_lower <=? Z.abs k_upper)%Z then
    if (k_lower =? 0)%Z then Ok q else Ok (SFsub prec64 emax64 q (SFmul prec64 emax64 (SFint (k_lower * 2)) M_PI))
  else if (k_upper =? 0)%Z then Ok q else Ok (SFsub prec64 emax64 q (SFmul prec64 emax64 (SFint (k_upper * 2)) M_PI)).

(** ** RigidBodyPose.h: storage of the orientation *)
Inductive storage := QUAT | EULER.
Record pose := mkPose { p_storage : storage; p_quat : list R; p_euler : list R; p_position : list R }.

(** An Eigen segment: size [k] starting at [i]. *)
Definition segment (i k : nat) (v : list R) : list R := firstn k (skipn i v).
Definition tailn (k : nat) (v : list R) : list R := skipn (length v - k) v.

Section Kindr.
(** kindr's conversions between quaternions (w x y z) and Euler angles (external library). *)
Variables (quatOfEuler eulerOfQuat uniqueEuler : list R -> list R).

(** 119-144 *)
Definition getEulerAnglesXyz (p : pose) : list R :=
  match p_storage p with EULER => p_euler p | QUAT => eulerOfQuat (p_quat p) end.
Definition getRotationQuaternion (p : pose) : list R :=
  match p_storage p with EULER => quatOfEuler (p_euler p) | QUAT => p_quat p end.
(** 171-211 *)
Definition setFromEulerAnglesXyz (e : list R) (p : pose) : pose :=
  match p_storage p with
  | EULER => mkPose EULER (p_quat p) e (p_position p)
  | QUAT => mkPose QUAT (quatOfEuler e) (p_euler p) (p_position p)
  end.
Definition setFromRotationQuaternion (q : list R) (p : pose) : pose :=
  match p_storage p with
  | EULER => mkPose EULER (p_quat p) (eulerOfQuat q) (p_position p)
  | QUAT => mkPose QUAT q (p_euler p) (p_position p)
  end.
Definition setPosition (x : list R) (p : pose) : pose := mkPose (p_storage p) (p_quat p) (p_euler p) x.
(** 51-80; the position of the default constructor is kindr's zero. *)
Definition newPose (s : storage) : pose := mkPose s [1; 0; 0; 0] [0; 0; 0] [0; 0; 0].
Definition poseFromEuler (e x : list R) (s : storage) : pose :=
  setFromEulerAnglesXyz e (mkPose s [1; 0; 0; 0] [0; 0; 0] x).
Definition poseFromQuat (q x : list R) (s : storage) : pose :=
  setFromRotationQuaternion q (mkPose s [1; 0; 0; 0] [0; 0; 0] x).
(** 83-88: the constructor from an Eigen quaternion does not forward its storage argument. *)
Definition poseFromEigenQuat (q x : list R) (s : storage) : pose := poseFromQuat q x EULER.
(** 390-395 *)
Definition setIdentity (p : pose) : pose := mkPose (p_storage p) [1; 0; 0; 0] [0; 0; 0] [0; 0; 0].

(** ** RBDState.h *)
Record rbd := mkRbd { r_pose : pose; r_rotvel : list R; r_linvel : list R; r_joints : list R }.

(** 42-46 *)
Definition newRbd (n : nat) (s : storage) : rbd := mkRbd (setIdentity (newPose s)) [0; 0; 0] [0; 0; 0] (repeat 0 (2 * n)).
(** 115-126 *)
Definition toStateVectorQuaternion (n : nat) (x : rbd) : list R :=
  getRotationQuaternion (r_pose x) ++ p_position (r_pose x) ++ getPositions n (r_joints x) ++
  r_rotvel x ++ r_linvel x ++ getVelocities n (r_joints x).
(** 128-150 *)
Definition toCoordinatePositionUnique (n : nat) (x : rbd) : list R :=
  uniqueEuler (getEulerAnglesXyz (r_pose x)) ++ p_position (r_pose x) ++ getPositions n (r_joints x).
Definition toCoordinatePosition (n : nat) (x : rbd) : list R :=
  getEulerAnglesXyz (r_pose x) ++ p_position (r_pose x) ++ getPositions n (r_joints x).
Definition toCoordinateVelocity (n : nat) (x : rbd) : list R :=
  r_rotvel x ++ r_linvel x ++ getVelocities n (r_joints x).
(** 152-168 *)
Definition toStateVectorEulerXyzUnique (n : nat) (x : rbd) : list R := toCoordinatePositionUnique n x ++ toCoordinateVelocity n x.
Definition toStateVectorEulerXyz (n : nat) (x : rbd) : list R := toCoordinatePosition n x ++ toCoordinateVelocity n x.
(** 170-178 *)
Definition fromStateVectorQuaternion (n : nat) (s : list R) (x : rbd) : rbd :=
  mkRbd (setPosition (segment 4 3 s) (setFromRotationQuaternion (firstn 4 s) (r_pose x)))
    (segment (7 + n) 3 s) (segment (10 + n) 3 s) (segment 7 n s ++ tailn n s).
(** 180-188 *)
Definition fromStateVectorEulerXyz (n : nat) (s : list R) (x : rbd) : rbd :=
  mkRbd (setPosition (segment 3 3 s) (setFromEulerAnglesXyz (firstn 3 s) (r_pose x)))
    (segment (6 + n) 3 s) (segment (9 + n) 3 s) (segment 6 n s ++ tailn n s).

(** ** FloatingBaseRobotState.h, with an actuator state of dimension [k] > 0 (80-87, 112-119, 128-153).
    The variant of fromStateVectorEulerXyz for k = 0 (154-159) names a type instead of calling the base class and does
    not compile when it is used. *)
Record floating := mkFloating { f_rbd : rbd; f_act : list R }.
Definition fToStateVectorQuaternion (n : nat) (x : floating) : list R := toStateVectorQuaternion n (f_rbd x) ++ f_act x.
Definition fToStateVectorEulerXyz (n : nat) (x : floating) : list R := toStateVectorEulerXyz n (f_rbd x) ++ f_act x.
Definition fFromStateVectorQuaternion (n k : nat) (s : list R) (x : floating) : floating :=
  mkFloating (fromStateVectorQuaternion n (firstn (2 * (n + 6) + 1) s) (f_rbd x)) (tailn k s).
Definition fFromStateVectorEulerXyz (n k : nat) (s : list R) (x : floating) : floating :=
  mkFloating (fromStateVectorEulerXyz n (firstn (2 * (n + 6)) s) (f_rbd x)) (tailn k s).

(** ** FixBaseRobotState.h *)
Record fixbase := mkFix { b_joints : list R; b_act : list R }.
(** 42, 51, 57-63, 77-91, 112-144.  For an actuator dimension of 0 the actuator state is the empty vector. *)
Definition bJointStateFromVector (n : nat) (s : list R) : list R := firstn n s ++ segment n n s.
Definition bActuatorStateFromVector (k : nat) (s : list R) : list R := tailn k s.
Definition bToFullState (jointState x_act : list R) : list R := jointState ++ x_act.
Definition bFromStateVector (n k : nat) (s : list R) (x : fixbase) : fixbase :=
  mkFix (firstn n s ++ segment n n s) (tailn k s).
Definition bToStateVector (n : nat) (x : fixbase) : list R := getPositions n (b_joints x) ++ getVelocities n (b_joints x) ++ b_act x.
(** 66-74, 147-154 *)
Definition bRbdStateFromVector (n : nat) (s : list R) (basePose : pose) : rbd :=
  mkRbd basePose [0; 0; 0] [0; 0; 0] (bJointStateFromVector n s).
Definition bToRBDState (x : fixbase) (basePose : pose) : rbd := mkRbd basePose [0; 0; 0] [0; 0; 0] (b_joints x).

(** ** FixBaseFDSystemSymplectic.h 246-294: the state is (q, actuator positions, qd, actuator velocities); [k] is the
    actuator dimension. *)
Definition sJointStateFromVector (n k : nat) (s : list R) : list R :=
  firstn n s ++ segment (Nat.div2 (2 * n + k)) n s.
Definition sRbdStateFromVector := sJointStateFromVector.
Definition sActuatorStateFromVector (n k : nat) (s : list R) : list R :=
  segment n (Nat.div2 k) s ++ tailn (Nat.div2 k) s.
(** toFullState writes four blocks into an uninitialised vector of size 2n + k; it is represented by the concatenation
    of the blocks, which is the vector whenever k is even. *)
Definition sToFullState (n k : nat) (x_rbd x_act : list R) : list R :=
  firstn n x_rbd ++ firstn (Nat.div2 k) x_act ++ tailn n x_rbd ++ tailn (Nat.div2 k) x_act.
End Kindr.
