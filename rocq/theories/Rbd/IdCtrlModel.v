(** Model of /repo/ct_rbd/include/ct/rbd/robot/control/IDControllerFB.h and InfiniteHorizonLQRwithInverseDynamics.h.  Scalars are
    elements of a field; vectors and matrices are exact. *)
From mathcomp Require Import all_ssreflect all_algebra.
From Verif Require Import Base.Outcome.
Set Implicit Arguments. Unset Strict Implicit. Unset Printing Implicit Defensive.
Import GRing.Theory.
Local Open Scope ring_scope.

Section IDFB.
Variable F : fieldType.
(** kindr: the unique XYZ Euler angles of a rotation (35-36, 42). *)
Variable eulerUnique : 'M[F]_3 -> 'cV[F]_3.
(** The part of the state the controller uses: the rotation matrix of the base pose (base to inertia), its position and the
    base velocities, rotational before translational, in the base frame. *)
Record base := mkBase { b_R : 'M[F]_3; b_pos : 'cV[F]_3; b_vel : 'cV[F]_(3 + 3) }.
Definition cwise m (a b : 'cV[F]_m) : 'cV[F]_m := \col_i (a i ord0 * b i ord0).
(** 84-89 *)
Record idfb := mkIdfb { desState : base; Kp_ : 'cV[F]_(3 + 3); Kd_ : 'cV[F]_(3 + 3) }.
(** 28-30 *)
Definition setDesiredState (c : idfb) (d : base) : idfb := mkIdfb d (Kp_ c) (Kd_ c).
Definition setPoseGains (c : idfb) (Kp : 'cV[F]_(3 + 3)) : idfb := mkIdfb (desState c) Kp (Kd_ c).
Definition setTwistGains (c : idfb) (Kd : 'cV[F]_(3 + 3)) : idfb := mkIdfb (desState c) (Kp_ c) Kd.
(** 31-60: the base acceleration; the joint accelerations are zero (55).  The inverse of a rotation matrix is its transpose
    (kindr's inverted() and RigidBodyPose::rotateInertiaToBase, see C75). *)
Definition computeDesiredAcceleration (c : idfb) (n : nat) (curr : base) : 'cV[F]_(3 + 3) * 'cV[F]_n :=
  let Bcurr_eul_Bdes := eulerUnique ((b_R curr)^T *m b_R (desState c)) in
  let aRot := cwise (usubmx (Kp_ c)) Bcurr_eul_Bdes in
  let W_positionError := b_pos (desState c) - b_pos curr in
  let W_weightedPosError := cwise (dsubmx (Kp_ c)) W_positionError in
  let aDes := col_mx aRot ((b_R curr)^T *m W_weightedPosError) in
  (aDes + cwise (Kd_ c) (b_vel (desState c) - b_vel curr), 0).
(** 62-80; the dynamics object (C71) is a parameter. *)
Definition computeTorque (state contact control : Type) (n : nat) (ID IDNoGravity : contact -> state -> 'cV[F]_(3 + 3) * 'cV[F]_n -> control)
  (baseOf : state -> base) (c : idfb) (x : state) (eeInContact : contact) (gravityCompensation : bool) : control :=
  let aDes := computeDesiredAcceleration c n (baseOf x) in
  if gravityCompensation then ID eeInContact x aDes else IDNoGravity eeInContact x aDes.
End IDFB.

Section LQRID.
Variables (F : fieldType) (n : nat).
Notation state := 'cV[F]_(n + n).
Notation control := 'cV[F]_n.
Notation gain := 'M[F]_(n, n + n).
(** FixBaseFDSystem::dynamics().FixBaseID with zero external forces (114-121), the derivatives of the linear system and
    LQR::compute, which receives the caller's matrix K and leaves its result (or whatever it holds after a failure) in it. *)
Record fdSystem := mkFd { FixBaseID : state -> control -> control }.
Record linSystem := mkLin { getDerivativeState : state -> control -> 'M[F]_(n + n); getDerivativeControl : state -> control -> 'M[F]_(n + n, n) }.
Variable lqrCompute : 'M[F]_(n + n) -> 'M[F]_n -> 'M[F]_(n + n) -> 'M[F]_(n + n, n) -> gain -> bool * gain.
(** 124-131: the pointers may be null.  A default constructed controller (28) has uninitialised vectors. *)
Record lqrid := mkLqrid { fdSystem_ : option fdSystem; linearSystem_ : option linSystem;
                          stateSetpoint_ : state; id_torques_ : control; K_ : gain }.
(** 28; the junk arguments stand for uninitialised memory. *)
Definition newDefault (junkx : state) (junku : control) (junkK : gain) : lqrid := mkLqrid None None junkx junku junkK.
(** 29-38 *)
Definition newLqrid (s : option fdSystem) (l : option linSystem) : lqrid := mkLqrid s l 0 0 0.
(** 40-55: copying dereferences both pointers; clones of the systems behave like the originals. *)
Definition copy (c : lqrid) : outcome lqrid :=
  match fdSystem_ c, linearSystem_ c with
  | Some s, Some l => Ok (mkLqrid (Some s) (Some l) (stateSetpoint_ c) (id_torques_ c) (K_ c))
  | _, _ => UB
  end.
(** 58-63 *)
Definition computeControl (c : lqrid) (x : state) : control := id_torques_ c - K_ c *m (x - stateSetpoint_ c).
(** 67-85: returns the flag, the gain given back to the caller and the controller. *)
Definition designInfiniteHorizonLQR (c : lqrid) (stateSetpoint : state) (Q : 'M[F]_(n + n)) (R : 'M[F]_n) (K : gain) : outcome (bool * gain * lqrid) :=
  match fdSystem_ c with
  | None => UB
  | Some fd =>
      let id := FixBaseID fd stateSetpoint 0 in
      match linearSystem_ c with
      | None => UB
      | Some lin =>
          let r := lqrCompute Q R (getDerivativeState lin stateSetpoint id) (getDerivativeControl lin stateSetpoint id) K in
          Ok (r.1, r.2, mkLqrid (Some fd) (Some lin) stateSetpoint id r.2)
      end
  end.
(** 91-98 *)
Definition designNoGain (c : lqrid) (stateSetpoint : state) (Q : 'M[F]_(n + n)) (R : 'M[F]_n) : outcome (bool * lqrid) :=
  do r <- designInfiniteHorizonLQR c stateSetpoint Q R 0 ;; Ok (r.1.1, r.2).
(** 103-108 *)
Definition setNonlinearSystem (c : lqrid) (s : option fdSystem) : lqrid := mkLqrid s (linearSystem_ c) (stateSetpoint_ c) (id_torques_ c) (K_ c).
Definition setLinearSystem (c : lqrid) (l : option linSystem) : lqrid := mkLqrid (fdSystem_ c) l (stateSetpoint_ c) (id_torques_ c) (K_ c).
End LQRID.
