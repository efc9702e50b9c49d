(** Model of the robot systems in /repo/ct_rbd/include/ct/rbd/systems: FixBaseSystemBase.h, FixBaseFDSystem.h,
    FixBaseFDSystemSymplectic.h, FloatingBaseFDSystem.h, FixBaseAccSystem.h, FixBaseVelSystem.h and of
    SymplecticSystem::computeControlledDynamics in ct_core.  Vectors are lists of reals; n is NJOINTS.  The generated robot
    code is a parameter: forward dynamics, the map of an end-effector force to its link, and the conversion of a base
    state. *)
From Coq Require Import Reals List Lia.
From Verif Require Import Base.Outcome.
Import ListNotations.
Local Open Scope R_scope.

(** Eigen blocks: head/topRows, tail/bottomRows, segment, and writing a segment of a vector. *)
Definition head (k : nat) (x : list R) : list R := firstn k x.
Definition tail (k : nat) (x : list R) : list R := skipn (length x - k) x.
Definition segm (i k : nat) (x : list R) : list R := firstn k (skipn i x).
Definition put (x : list R) (i : nat) (v : list R) : list R := firstn i x ++ v ++ skipn (i + length v) x.

(** robot/kinematics/RBDDataMap.h 72-75: unchecked write of element l. *)
Definition mapSet {W : Type} (m : list W) (l : nat) (w : W) : outcome (list W) :=
  if (l <? length m)%nat then Ok (firstn l m ++ w :: skipn (S l) m) else UB.

(** Actuator dynamics (robot/actuator/ActuatorDynamics.h 42-61): joint positions, joint velocities, actuator state, time and
    control to the derivative, and the output for joint positions, velocities and actuator state. *)
Record actuator := mkAct {
  a_dynamics : list R -> list R -> list R -> R -> list R -> list R;
  a_output : list R -> list R -> list R -> list R }.
(** robot/actuator/ActuatorDynamicsSymplectic.h 40-65: computePdot, computeVdot and the output.  The velocity (position)
    argument comes after the actuator state. *)
Record actuatorS := mkActS {
  s_pdot : list R -> list R -> list R -> list R -> list R -> list R;
  s_vdot : list R -> list R -> list R -> list R -> list R -> list R;
  s_output : list R -> list R -> list R -> list R }.

Section Systems.
(** The type of spatial forces, its zero and the type of base poses. *)
Variables (W Pose : Type) (wzero : W).
Variables (n nlinks nee : nat) (linkOf : nat -> nat).
(** Kinematics::mapForceFromWorldToLink3d: force, base pose, joint positions, end-effector. *)
Variable mapForce : list R -> Pose -> list R -> nat -> W.
(** Dynamics::FixBaseForwardDynamics: joint positions, velocities, torques, link forces. *)
Variable FD : list R -> list R -> list R -> list W -> list R.

(** The loop over the end-effectors of FixBaseFDSystem.h 110-118, FixBaseFDSystemSymplectic.h 183-190 and
    FloatingBaseFDSystem.h 121-128. *)
Fixpoint mapForces (is : list nat) (force : nat -> list R) (pose : Pose) (q : list R) (lf : list W) : outcome (list W) :=
  match is with
  | [] => Ok lf
  | i :: r => do lf' <- mapSet lf (linkOf i) (mapForce (force i) pose q i) ;; mapForces r force pose q lf'
  end.
(** FixBaseFDSystem.h 105-119: link forces, from the end-effector forces in the control if they are inputs. *)
Definition linkForces (ee : bool) (control : list R) (pose : Pose) (q : list R) : outcome (list W) :=
  let lf := repeat wzero nlinks in
  if ee then mapForces (seq 0 nee) (fun i => segm (n + i * 3) 3 control) pose q lf else Ok lf.

(** FixBaseSystemBase.h 77-80 and FixBaseFDSystem.h 191: base pose and actuator pointer; the template parameters
    ACT_STATE_DIM and EE_ARE_CONTROL_INPUTS. *)
Record fixBase := mkFix { f_pose : Pose; f_act : option actuator; f_m : nat; f_ee : bool }.
(** FixBaseFDSystem.h 88-127 with 129-160.  With actuators, the control is replaced by the actuators' output (148): this
    compiles only if end-effector forces are not inputs; a null pointer is undefined.  derivative is what the vector held
    before. *)
Definition fixDynamics (s : fixBase) (state : list R) (t : R) (controlIn derivative : list R) : outcome (list R) :=
  let q := firstn n state in
  let qd := segm n n state in
  let act := tail (f_m s) state in
  let derivative := put derivative 0 qd in
  do dc <- match f_m s with
           | O => Ok (derivative, controlIn)
           | S _ => match f_act s with
                    | None => UB
                    | Some a => Ok (put derivative (length derivative - f_m s) (a_dynamics a q qd act t (head n controlIn)),
                                    a_output a q qd act)
                    end
           end ;;
  let (derivative, control) := (dc : list R * list R) in
  do lf <- linkForces (f_ee s) control (f_pose s) q ;;
  Ok (put derivative n (FD q qd (head n control) lf)).
(** FixBaseFDSystem.h 76-82: the copy constructor; clone (163-166) uses it.  The copied pointer is null if the original is;
    a cloned actuator behaves like the original. *)
Definition fixCopy (s : fixBase) : fixBase := mkFix (f_pose s) (f_act s) (f_m s) (f_ee s).

(** FixBaseFDSystemSymplectic.h 298-304 *)
Record fixSym := mkFixS { y_pose : Pose; y_act : option actuatorS; y_m : nat; y_ee : bool }.
(** 52: STATE_DIM / 2 *)
Definition symHalf (s : fixSym) : nat := Nat.div2 (n + n + y_m s).
(** 246-252, jointStateFromVector *)
Definition symQ (x : list R) : list R := head n x.
Definition symQd (s : fixSym) (x : list R) : list R := segm (symHalf s) n x.
(** 113-160, computePdot *)
Definition symPdot (s : fixSym) (x v controlIn pDot : list R) : outcome (list R) :=
  let pDot := put pDot 0 (head n v) in
  match y_m s with
  | O => Ok pDot
  | S _ => match y_act s with
           | None => UB
           | Some a =>
             let h := Nat.div2 (y_m s) in
             let actPos := segm n h x in
             let actVel := tail h v in
             Ok (put pDot (length pDot - h) (s_pdot a (symQ x) (symQd s x) (actPos ++ actVel) actVel (head n controlIn)))
           end
  end.
(** 164-236, computeVdot *)
Definition symVdot (s : fixSym) (x p controlIn vDot : list R) : outcome (list R) :=
  let q := symQ x in
  let qd := symQd s x in
  do dc <- match y_m s with
           | O => Ok (vDot, controlIn)
           | S _ => match y_act s with
                    | None => UB
                    | Some a =>
                      let h := Nat.div2 (y_m s) in
                      let actPos := segm n h p in
                      let actVel := tail h x in
                      Ok (put vDot (length vDot - h) (s_vdot a q qd (actPos ++ actVel) actPos (head n controlIn)),
                          s_output a q qd (actPos ++ actVel))
                    end
           end ;;
  let (vDot, control) := (dc : list R * list R) in
  do lf <- linkForces (y_ee s) control (y_pose s) q ;;
  Ok (put vDot 0 (FD q qd (head n control) lf)).
(** ct_core systems/continuous_time/SymplecticSystem.h 68-80, with uninitialised pDot0 and vDot0. *)
Definition symDynamics (s : fixSym) (pDot0 vDot0 state control : list R) : outcome (list R) :=
  do p <- symPdot s state (tail (symHalf s) state) control pDot0 ;;
  do v <- symVdot s state (head (symHalf s) state) control vDot0 ;;
  Ok (p ++ v).

(** ** FloatingBaseFDSystem.h *)

(** The rigid body state as far as the system uses it: base pose, base twist (angular, then linear velocity), joints. *)
Record rstate := mkR { r_pose : Pose; r_twist : list R; r_q : list R; r_qd : list R }.
(** Dynamics::FloatingBaseForwardDynamics: base acceleration (angular, then linear) and joint accelerations. *)
Variable FDfloat : rstate -> list R -> list W -> list R * list R.
(** EEContactModel::computeContactForces, see Rbd/ContactModel.v. *)
Definition contactModel := rstate -> list (list R).
(** RBDState::fromStateVector... and the derivative of the pose vector in RBDAcceleration::toStateUpdateVector...: p is the
    length of the pose (7 with quaternions, 6 with Euler angles). *)
Variables (p : nat) (poseOf : list R -> Pose) (poseRate : Pose -> list R -> list R).

(** 131-152: the layout is pose, joint positions, base twist, joint velocities. *)
Definition floatState (x : list R) : rstate :=
  mkR (poseOf (firstn p x)) (segm (p + n) 6 x) (segm p n x) (tail n x).
(** 154-168 with state/RBDAcceleration.h 55-85 *)
Definition floatDerivative (acc : list R * list R) (s : rstate) : list R :=
  poseRate (r_pose s) (r_twist s) ++ r_qd s ++ fst acc ++ snd acc.
(** 63-77, computePdot; the acceleration is zero (RBDAcceleration.h 40). *)
Definition floatPdot (x v : list R) : list R :=
  let xLocal := put x (length x - (6 + n)) v in
  head (p + n) (floatDerivative (repeat 0 6, repeat 0 n) (floatState xLocal)).
Fixpoint addForces (is : list nat) (eeF : list (list R)) (control : list R) : list (list R) :=
  match is, eeF with
  | i :: r, f :: fs => map (fun k => nth k f 0 + nth (n + i * 3 + k) control 0) (seq 0 3) :: addForces r fs control
  | _, _ => eeF
  end.
(** 79-108, computeVdot *)
Definition floatVdot (ee : bool) (contact : option contactModel) (x pos control : list R) : outcome (list R) :=
  let xLocal := put x 0 pos in
  let s := floatState xLocal in
  let f0 := match contact with Some c => c s | None => repeat (repeat 0 3) nee end in
  let f := if ee then addForces (seq 0 nee) f0 control else f0 in
  do lf <- mapForces (seq 0 nee) (fun i => nth i f []) (r_pose s) (r_q s) (repeat wzero nlinks) ;;
  Ok (tail (6 + n) (floatDerivative (FDfloat s (head n control) lf) s)).
(** SymplecticSystem.h 68-80 *)
Definition floatDynamics (ee : bool) (contact : option contactModel) (state control : list R) : outcome (list R) :=
  do v <- floatVdot ee contact state (head (p + n) state) control ;;
  Ok (floatPdot state (tail (6 + n) state) ++ v).
(** 49-52, copy constructor (used by clone, 55-58): the contact model is cloned through its pointer. *)
Definition floatCopy (contact : option contactModel) : outcome (option contactModel) :=
  match contact with Some c => Ok (Some c) | None => UB end.
End Systems.

(** FixBaseAccSystem.h 39-48 and FixBaseVelSystem.h 39-45. *)
Definition accDynamics (n : nat) (state controlIn derivative : list R) : list R :=
  put (put derivative 0 (tail n state)) (length derivative - n) (head n controlIn).
Definition velDynamics (n : nat) (controlIn derivative : list R) : list R := put derivative 0 (head n controlIn).
