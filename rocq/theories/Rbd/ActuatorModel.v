(** Model of the actuator dynamics in /repo/ct_rbd/include/ct/rbd/robot/actuator (exact real arithmetic).  A vector is a
    function from indices to reals; n is NJOINTS. *)
From Coq Require Import Reals List Lia.
From Verif Require Import Base.Outcome Base.RVec Core.SecondOrderModel.
Import ListNotations.
Local Open Scope R_scope.

(** ** SEADynamicsFirstOrder-impl.h *)

(** SEADynamicsFirstOrder.h 56-57: spring constant and gear ratio. *)
Record sea := mkSea { k_ : R; r_ : R }.
(** SEADynamicsFirstOrder-impl.h 29-37, computeActuatorDynamics: the derivative of the gear positions; the joint state, the
    actuator state and the time are not used. *)
Definition seaDynamics (s : sea) (control : rvec) : rvec := fun i => control i / r_ s.
(** 40-46, computeControlOutput *)
Definition seaOutput (s : sea) (q act : rvec) : rvec := fun i => (act i - q i) * k_ s.
(** 49-55, computeStateFromOutput *)
Definition seaStateFromOutput (s : sea) (q control : rvec) : rvec := fun i => q i + control i / k_ s.

(** ** SecondOrderActuatorDynamics-impl.h *)

(** 12-15: the same oscillator for every joint, g_dc = w_n * w_n. *)
Definition soSame (n : nat) (w z : R) : list sos := repeat (sos_frequency w z (w * w)) n.
(** 18-21: the same oscillator for every joint, given g_dc. *)
Definition soSameGain (n : nat) (w z g : R) : list sos := repeat (sos_frequency w z g) n.
(** 24-34: one frequency and damping ratio per joint, g_dc = w_n * w_n. *)
Definition soVec (n : nat) (w z : list R) : outcome (list sos) :=
  if (Nat.eqb (length w) n && Nat.eqb (length z) n)%bool then
    Ok (map (fun i => sos_frequency (nth i w 0) (nth i z 0) (nth i w 0 * nth i w 0)) (seq 0 n))
  else Throw.
(** 37-47: one frequency, damping ratio and gain per joint. *)
Definition soVecGain (n : nat) (w z g : list R) : outcome (list sos) :=
  if (Nat.eqb (length w) n && Nat.eqb (length z) n && Nat.eqb (length g) n)%bool then
    Ok (map (fun i => sos_frequency (nth i w 0) (nth i z 0) (nth i g 0)) (seq 0 n))
  else Throw.

(** 61-83, computeActuatorDynamics: the loop over the joints, writing into the derivative vector.  Every constructor makes n
    oscillators, so that oscillators_[i] exists; its default stands for nothing. *)
Definition soStep (n : nat) (osc : list sos) (state control derivative : rvec) (i : nat) : rvec :=
  let d := sos_dynamics (nth i osc (sos_frequency 0 0 0)) (state i) (state (i + n)%nat) (control i) in
  rset (rset derivative i (state (i + n)%nat)) (i + n)%nat (snd d).
Definition soDynamics (n : nat) (osc : list sos) (state control derivative : rvec) : rvec :=
  fold_left (soStep n osc state control) (seq 0 n) derivative.
(** 86-92, computeControlOutput: the top rows of the state. *)
Definition soOutput (n : nat) (act : rvec) : rvec := act.
(** 95-103, computeStateFromOutput *)
Definition soStateFromOutput (n : nat) (control : rvec) : rvec := fun i => if (i <? n)%nat then control i else 0.
