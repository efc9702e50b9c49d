(** Model of /repo/ct_rbd/include/ct/rbd/physics/EEContactModel.h.  Scalars are exact reals; vectors of three entries are
    triples. *)
From Coq Require Import Reals List.
From Verif Require Import Base.Outcome.
Import ListNotations.
Local Open Scope R_scope.

Definition vec3 := (R * R * R)%type.
Definition vx (v : vec3) : R := fst (fst v).
Definition vy (v : vec3) : R := snd (fst v).
Definition vz (v : vec3) : R := snd v.
Definition scale3 (c : R) (v : vec3) : vec3 := (c * vx v, c * vy v, c * vz v).
Definition zero3 : vec3 := (0, 0, 0).

(** 83-89; the value of the enumeration may be any integer, smoothing() returns a reference. *)
Inductive smoothing := NONE | SIGMOID | TANH | ABS | UNDEFINED.
(** 285-295 *)
Record contact := mkContact {
  c_smoothing : smoothing; c_k : R; c_d : R; c_alpha : R; c_alpha_n : R; c_zOffset : R; c_active : list bool }.
(** 101-118; [nee] is NUM_EE. *)
Definition newContact (nee : nat) (k d alpha alpha_n zOffset : R) (s : smoothing) : contact :=
  mkContact s k d alpha alpha_n zOffset (repeat true nee).
(** 141 *)
Definition setActiveEE (active : list bool) (c : contact) : contact :=
  mkContact (c_smoothing c) (c_k c) (c_d c) (c_alpha c) (c_alpha_n c) (c_zOffset c) active.

(** 265-268 *)
Definition computeDamperForce (c : contact) (v : vec3) : vec3 := scale3 (- c_d c) v.
(** 238-258 *)
Definition smoothEEForce (c : contact) (z : R) (f : vec3) : outcome vec3 :=
  match c_smoothing c with
  | NONE => Ok f
  | SIGMOID => Ok (scale3 (1 / (1 + exp (z * c_alpha c))) f)
  | TANH => Ok (scale3 (1 / 2 * tanh (- (1 / 2) * z * c_alpha c) + 1 / 2) f)
  | ABS => Ok (scale3 (1 / 2 * - z * c_alpha c / (1 + Rabs (- z * c_alpha c)) + 1 / 2) f)
  | UNDEFINED => Throw
  end.
(** 270-280 *)
Definition computeNormalSpring (c : contact) (p_N : R) (f : vec3) : vec3 :=
  if Rgt_dec (c_alpha_n c) 0 then (vx f, vy f, vz f + c_k c * exp (- c_alpha_n c * p_N))
  else if Rle_dec p_N 0 then (vx f, vy f, vz f - c_k c * p_N) else f.
(** 220-231 *)
Definition computeEEForce (c : contact) (z : R) (v : vec3) : outcome vec3 :=
  do f <- smoothEEForce c z (computeDamperForce c v) ;; Ok (computeNormalSpring c (z - c_zOffset c) f).
(** 185-191 *)
Definition eeInContact (c : contact) (z : R) : bool :=
  match c_smoothing c with NONE => if Rgt_dec z 0 then false else true | _ => true end.
(** 147-170 and 201-214: [pos i] and [vel i] are the kinematics' position and velocity of end-effector i in the world.  None is
    an element of the returned array that was not written. *)
Definition eeForce (c : contact) (pos vel : nat -> vec3) (i : nat) (active : bool) : outcome (option vec3) :=
  if active then
    let z := vz (pos i) in
    if eeInContact c z then omap Some (computeEEForce c z (vel i)) else Ok (Some zero3)
  else Ok None.
Fixpoint forcesFrom (c : contact) (pos vel : nat -> vec3) (i : nat) (active : list bool) : outcome (list (option vec3)) :=
  match active with
  | [] => Ok []
  | a :: r => do f <- eeForce c pos vel i a ;; do fs <- forcesFrom c pos vel (S i) r ;; Ok (f :: fs)
  end.
Definition computeContactForces (c : contact) (pos vel : nat -> vec3) : outcome (list (option vec3)) :=
  forcesFrom c pos vel 0 (c_active c).
