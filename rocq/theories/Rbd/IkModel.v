(** Model of the inverse kinematics interface: ct_rbd/include/ct/rbd/robot/kinematics/InverseKinematicsBase.h, its analytic
    implementations ct_models/include/ct/models/HyA/{HyAInverseKinematics,HyAJointLimits}.h and
    ct_models/include/ct/models/Irb4600/Irb4600InverseKinematics.h, and its optimising implementation
    ct_rbd/include/ct/rbd/robot/kinematics/ik_nlp/IKNLPSolverIpopt.h.  The generated ikfast solvers, IPOPT, the generated
    forward kinematics and the random generator are parameters.  Scalars are exact reals; joint positions are lists.
    An object passed by reference is returned beside the outcome. *)
From Coq Require Import Reals List Bool Arith.
From Verif Require Import Base.Outcome Rbd.StateModel Rbd.ContactModel Rbd.KinModel.
Import ListNotations.
Local Open Scope R_scope.

Definition joints := list R.

(** ** InverseKinematicsBase.h *)

(** Eigen's norm of the difference of two vectors of the same size. *)
Fixpoint diff2 (a b : joints) : R :=
  match a, b with x :: a', y :: b' => (x - y) * (x - y) + diff2 a' b' | _, _ => 0 end.
Definition normDiff (a b : joints) : R := sqrt (diff2 a b).
(** 92-99: the loop over the remaining solutions. *)
Fixpoint closestLoop (sols : list joints) (query ikSolution : joints) (minNorm : R) : joints :=
  match sols with
  | [] => ikSolution
  | s :: r => if Rlt_dec (normDiff s query) minNorm then closestLoop r query s (normDiff s query)
              else closestLoop r query ikSolution minNorm
  end.
(** 75-101; [call] is what the virtual computeInverseKinematics (83) returns, with the solutions. Reading solutions[0]
    of an empty vector is undefined. *)
Definition computeInverseKinematicsCloseTo (call : outcome bool * list joints) (ikSolution query : joints) : outcome bool * joints :=
  match call with
  | (Ok false, _) => (Ok false, ikSolution)
  | (Ok true, s :: r) => (Ok true, closestLoop r query s (normDiff s query))
  | (Ok true, []) => (UB, ikSolution)
  | (Throw, _) => (Throw, ikSolution)
  | (UB, _) => (UB, ikSolution)
  end.
(** RigidBodyPose.h 52-57 and 390-395: a default constructed pose after setIdentity. *)
Definition identityPose : pose := mkPose EULER (1, 0, 0, 0) (0, 0, 0) (0, 0, 0).
(** 110-120: the version in base coordinates calls the one in world coordinates; [call] is the overload with two poses. *)
Definition closeToInBase (call : pose -> pose -> outcome bool * list joints) (eeBasePose : pose) (ikSolution query : joints) : outcome bool * joints :=
  computeInverseKinematicsCloseTo (call eeBasePose identityPose) ikSolution query.

(** ** HyAJointLimits.h 12-28 *)
Definition hyaLower : joints := [- (31416 / 10000); - (7679 / 10000); - (16406 / 10000); 0; - (20944 / 10000); - (5236 / 10000)].
Definition hyaUpper : joints := [5236 / 10000; 8552 / 10000; 698 / 10000; 22689 / 10000; 15708 / 10000; 15708 / 10000].

Section Analytic.
Variable quatToEuler : quat -> vec3.
(** The generated ikfast solver: its number of free parameters, and all its solutions (ComputeIk, then GetSolution on each)
    for a position, a rotation and the free joints. *)
Variables (numFree : nat) (ikfast : vec3 -> m3 -> list nat -> list joints).

(** ** HyAInverseKinematics.h *)

(** 61-69.  [vel] are the velocities of the local [sol], which nothing reads. *)
Fixpoint hyaFilter (vel : joints) (solutions res : list joints) : outcome unit * list joints :=
  match solutions with
  | [] => (Ok tt, res)
  | s :: r =>
      match toUniquePosition 6 (s ++ vel) hyaLower 0 with
      | Ok st =>
          match checkPositionLimits 6 st hyaLower hyaUpper 0 with
          | Ok true => hyaFilter vel r (res ++ [getPositions 6 st])
          | Ok false => hyaFilter vel r res
          | Throw => (Throw, res)
          | UB => (UB, res)
          end
      | Throw => (Throw, res)
      | UB => (UB, res)
      end
  end.
(** 37-75 *)
Definition hyaIk (vel : joints) (res : list joints) (eeBasePose : pose) (freeJoints : list nat) : outcome bool * list joints :=
  if negb (numFree =? length freeJoints)%nat then (Throw, []) else
  match ikfast (p_position eeBasePose) (getRotationMatrix eeBasePose) freeJoints with
  | [] => (Ok false, [])
  | solutions =>
      match hyaFilter vel solutions [] with
      | (Ok tt, []) => (Ok false, [])
      | (Ok tt, r) => (Ok true, r)
      | (Throw, r) => (Throw, r)
      | (UB, r) => (UB, r)
      end
  end.
(** 77-83 *)
Definition hyaIkWorld (vel : joints) (res : list joints) (eeWorldPose baseWorldPose : pose) (freeJoints : list nat) : outcome bool * list joints :=
  hyaIk vel res (inReferenceFrame quatToEuler eeWorldPose baseWorldPose) freeJoints.

(** ** Irb4600InverseKinematics.h *)

(** 58-64 *)
Fixpoint irbCopy (solutions res : list joints) : list joints :=
  match solutions with [] => res | s :: r => irbCopy r (res ++ [s]) end.
(** 35-70: no joint limits. *)
Definition irbIk (res : list joints) (eeBasePose : pose) (freeJoints : list nat) : outcome bool * list joints :=
  if negb (numFree =? length freeJoints)%nat then (Throw, []) else
  match ikfast (p_position eeBasePose) (getRotationMatrix eeBasePose) freeJoints with
  | [] => (Ok false, [])
  | solutions => match irbCopy solutions [] with [] => (Ok false, []) | r => (Ok true, r) end
  end.
End Analytic.

(** ** RigidBodyPose.h 110-114, with kindr's isNear of quaternions as a parameter and Eigen's isApprox *)
Definition norm2 (v : vec3) : R := vx v * vx v + vy v * vy v + vz v * vz v.
Definition isApprox (a b : vec3) (tol : R) : bool :=
  if Rle_dec (norm2 (sub3 a b)) (tol * tol * Rmin (norm2 a) (norm2 b)) then true else false.
Definition isNear (quatNear : quat -> quat -> R -> bool) (p rhs : pose) (tol : R) : bool :=
  quatNear (getRotationQuaternion p) (getRotationQuaternion rhs) tol && isApprox (p_position p) (p_position rhs) tol.

(** ** IKNLPSolverIpopt.h *)

Section Nlp.
(** State of the nonlinear program, of IPOPT and of the random generator; what solve does and returns, the solution read
    afterwards, the initial guess and the target written before, the random numbers, and the forward kinematics. *)
Variables (ST : Type) (solve : ST -> bool * ST) (getSolution : ST -> joints) (setInitialGuess : joints -> ST -> ST)
  (setTargetPose : pose -> ST -> ST) (gen : ST -> joints * ST).
Variables (forward : joints -> pose) (quatNear : quat -> quat -> R -> bool).
(** InverseKinematicsBase.h 16-22 *)
Record settings := mkIkSettings { maxNumTrials : nat; randomizeInitialGuess : bool; validationTol : R }.

(** 97-98: coefficient-wise. *)
Fixpoint interpolate (lower upper r : joints) : joints :=
  match lower, upper, r with l :: ls, u :: us, x :: xs => (l + (u - l) * x) :: interpolate ls us xs | _, _, _ => [] end.
(** The history of an object: what is set as initial guess, and each solve with its result. *)
Inductive event := Guess (q : joints) | Solved (success : bool).
(** 88-119: the loop; [fuel] trials are left, [count] is zero in the first. *)
Fixpoint trials (se : settings) (lower upper : joints) (target : pose) (fuel count : nat) (st : ST) : bool * list joints * ST * list event :=
  match fuel with
  | O => (false, [], st, [])
  | S fuel' =>
      let '(st1, ev1) :=
        if randomizeInitialGuess se && negb (count =? 0)%nat then
          let '(r, st') := gen st in
          let guess := interpolate lower upper r in (setInitialGuess guess st', [Guess guess])
        else (st, []) in
      let '(success, st2) := solve st1 in
      let sol := getSolution st2 in
      if isNear quatNear (forward sol) target (validationTol se) then (true, [sol], st2, ev1 ++ [Solved success])
      else let '(found, res, st3, ev) := trials se lower upper target fuel' (S count) st2 in
           (found, res, st3, ev1 ++ Solved success :: ev)
  end.
(** 72-122 *)
Definition nlpIk (se : settings) (lower upper : joints) (res : list joints) (target : pose) (st : ST) : bool * list joints * ST * list event :=
  trials se lower upper target (maxNumTrials se) 0 (setTargetPose target st).
End Nlp.
