(** Model of /repo/ct_rbd/include/ct/rbd/robot/control/JointPositionPIDController-impl.h and WholeBodyController-impl.h, over an
    arbitrary scalar type.  Fixed-size vectors are lists of the declared length. *)
From Coq Require Import List ZArith Reals.
From Verif Require Import Base.Outcome Base.Scalar Core.PIDModel Rbd.StateModel.
Import ListNotations.

Section Ctrl.
Context {Sc : Type} (ops : scalar_ops Sc).
(** PIDController.h 40-46: the default parameters (zero gains, dt = 0.01, limits at the largest number). *)
Variable defaults : @pid_params Sc.
(** NJOINTS *)
Variable n : nat.
(** Entry of a fixed-size vector. *)
Definition entry (v : list Sc) (i : nat) : Sc := nth i v (s_zero ops).

(** 22-35: the assertion on the number of parameters is not checked in release builds. *)
Fixpoint newLoop (pos vel : list Sc) (parameters : list (@pid_params Sc)) (l : list nat) (acc : list (@pid Sc)) : outcome (list (@pid Sc)) :=
  match l with
  | [] => Ok acc
  | i :: l' => do p <- vec_get parameters i ;;
               newLoop pos vel parameters l' (acc ++ [pid_new ops p (mk_setpoint (entry pos i) (entry vel i))])
  end.
Definition newController (pos vel : list Sc) (parameters : list (@pid_params Sc)) : outcome (list (@pid Sc)) :=
  newLoop pos vel parameters (seq 0 n) [].
(** 37-48 *)
Definition newControllerSame (pos vel : list Sc) (p : @pid_params Sc) : list (@pid Sc) :=
  fold_left (fun acc i => acc ++ [pid_new ops p (mk_setpoint (entry pos i) (entry vel i))]) (seq 0 n) [].

(** Calling a function of joint i's controller and storing the controller. *)
Definition withJoint (cs : list (@pid Sc)) (i : nat) (o : pid_op) : outcome (list (@pid Sc) * option Sc) :=
  do c <- vec_get cs i ;; let '(c', u) := pid_step ops c o in do cs' <- vec_set cs i c' ;; Ok (cs', u).
(** The loops over all joints; [f] is the call for joint i, results are collected in order (the entries of the control). *)
Fixpoint forJoints (f : nat -> @pid_op Sc) (l : list nat) (cs : list (@pid Sc)) : outcome (list (@pid Sc) * list (option Sc)) :=
  match l with
  | [] => Ok (cs, [])
  | i :: l' => do r <- withJoint cs i (f i) ;; let '(cs', u) := r in
               do r' <- forJoints f l' cs' ;; let '(cs'', us) := r' in Ok (cs'', u :: us)
  end.
(** Public calls: 50-61, 63-70, 72-78, 80-92, 94-101. *)
Inductive jop :=
| JCompute (state : list Sc)
| JSetDesired (desiredPosition : list Sc)
| JSetDesired1 (desiredPosition : Sc) (jointId : Z)
| JSetAllPIDGains (kp ki kd : Sc)
| JReset.
(** JointState: positions before velocities. *)
Definition call (o : jop) (i : nat) : @pid_op Sc :=
  match o with
  | JCompute state => PComputeD (entry state i) (entry state (n + i))
  | JSetDesired d => PSetDesired (entry d i)
  | JSetDesired1 d _ => PSetDesired d
  | JSetAllPIDGains kp ki kd =>
      PChangeParameters (mk_pid_params kp ki kd (Imax defaults) (dt defaults) (uMin defaults) (uMax defaults))
  | JReset => PReset
  end.
(** The new controllers and, for computeControl, the control. *)
Definition jstep (cs : list (@pid Sc)) (o : jop) : outcome (list (@pid Sc) * option (list (option Sc))) :=
  match o with
  | JSetDesired1 d j =>
      if (j <? 0)%Z then UB else do r <- withJoint cs (Z.to_nat j) (call o 0) ;; Ok (fst r, None)
  | JCompute _ => do r <- forJoints (call o) (seq 0 n) cs ;; Ok (fst r, Some (snd r))
  | _ => do r <- forJoints (call o) (seq 0 n) cs ;; Ok (fst r, None)
  end.
Fixpoint jrun (cs : list (@pid Sc)) (l : list jop) : outcome (list (@pid Sc) * list (list (option Sc))) :=
  match l with
  | [] => Ok (cs, [])
  | o :: l' => do r <- jstep cs o ;; let '(cs', u) := r in
               do r' <- jrun cs' l' ;; let '(cs'', us) := r' in
               Ok (cs'', match u with Some v => v :: us | None => us end)
  end.
(** 11-15 and WholeBodyController-impl.h 21-25: clone() throws. *)
Definition clone (cs : list (@pid Sc)) : outcome (list (@pid Sc)) := Throw.
End Ctrl.

(** WholeBodyController-impl.h 27-37; the local state is default constructed (Euler storage) before it is filled. *)
Definition Rops : scalar_ops R :=
  {| s_zero := 0%R; s_add := Rplus; s_sub := Rminus; s_mul := Rmult; s_div := Rdiv; s_opp := Ropp;
     s_ltb := fun a b => if Rlt_dec a b then true else false |}.
Definition wholeBodyControl (quatOfEuler : list R -> list R) (defaults : @pid_params R) (n : nat) (st : storage) (cs : list (@pid R)) (state : list R) :=
  let x := fromStateVectorEulerXyz quatOfEuler n state (newRbd n st) in
  jstep Rops defaults n cs (JCompute (r_joints x)).
