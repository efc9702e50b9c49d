(** Model of /repo/ct_rbd/include/ct/rbd/robot/jacobian/FrameJacobian.h and
    /repo/ct_rbd/include/ct/rbd/robot/jacobian/ConstraintJacobian.h.  Scalars are exact reals.  A matrix with three rows is the
    list of its columns, a matrix with six rows the list of the pairs of its upper and lower half columns.  The generated
    robot code (end-effector position and geometric Jacobian in the base frame) is a parameter. *)
From Coq Require Import Reals List.
From Verif Require Import Base.Outcome Rbd.ContactModel Rbd.KinModel.
Import ListNotations.
Local Open Scope R_scope.

(** Eigen: columns of a 3x3 matrix, product of a matrix with a vector, negation, identity, zero. *)
Definition cols3 (m : m3) : list vec3 := let t := transp m in [row0 t; row1 t; row2 t].
Fixpoint mulJ (J : list vec3) (v : list R) : vec3 :=
  match J, v with c :: J', x :: v' => add3 (scale3 x c) (mulJ J' v') | _, _ => zero3 end.
Definition neg3 (v : vec3) : vec3 := (- vx v, - vy v, - vz v).
Definition negm (m : m3) : m3 := (neg3 (row0 m), neg3 (row1 m), neg3 (row2 m)).
Definition subm (a b : m3) : m3 := (sub3 (row0 a) (row0 b), sub3 (row1 a) (row1 b), sub3 (row2 a) (row2 b)).
Definition idm : m3 := ((1, 0, 0), (0, 1, 0), (0, 0, 1)).
Definition zerom : m3 := (zero3, zero3, zero3).
Fixpoint zipWith {A B C} (f : A -> B -> C) (l : list A) (k : list B) : list C :=
  match l, k with a :: l', b :: k' => f a b :: zipWith f l' k' | _, _ => [] end.

(** ** FrameJacobian.h *)

(** 174-183; the size check always passes for the fixed-size arguments used here. *)
Definition CrossProductMatrix (v : vec3) : m3 := ((0, - vz v, vy v), (vz v, 0, - vx v), (- vy v, vx v, 0)).
(** 61-67 *)
Definition FromBaseJacToInertiaJacOrientation (i_R_b : m3) (b_r_point : vec3) (b_J_point : list vec3) : list vec3 :=
  cols3 i_R_b ++ cols3 zerom ++ map (mulv i_R_b) b_J_point.
(** 77-83 *)
Definition FromBaseJacToInertiaJacTranslation (i_R_b : m3) (b_r_point : vec3) (b_J_point : list vec3) : list vec3 :=
  cols3 (mulm (negm i_R_b) (CrossProductMatrix b_r_point)) ++ cols3 i_R_b ++ map (mulv i_R_b) b_J_point.
(** 38-51; the rows of the translation below those of the orientation. *)
Definition FromBaseJacobianToInertiaJacobian (i_R_b : m3) (b_r_point : vec3) (b_J_point : list (vec3 * vec3)) : list (vec3 * vec3) :=
  combine (FromBaseJacToInertiaJacOrientation i_R_b b_r_point (map fst b_J_point))
          (FromBaseJacToInertiaJacTranslation i_R_b b_r_point (map snd b_J_point)).
(** The generalized velocities: angular velocity, linear velocity, joint velocities (head<3>, tail<NUM_JOINTS>). *)
Record gvel := mkGvel { g_rot : vec3; g_lin : vec3; g_joints : list R }.
Definition gvec (g : gvel) : list R :=
  [vx (g_rot g); vy (g_rot g); vz (g_rot g); vx (g_lin g); vy (g_lin g); vz (g_lin g)] ++ g_joints g.
(** 128-140 *)
Definition FromBaseJacobianDevToInertiaJacobianDevOrientation (generalizedVelocities : gvel) (i_R_b : m3) (b_r_point : vec3)
    (b_J_point b_dJdt_point : list vec3) : list vec3 :=
  let i_dRdt_b := mulm i_R_b (CrossProductMatrix (g_rot generalizedVelocities)) in
  cols3 i_dRdt_b ++ cols3 zerom ++ zipWith (fun c d => add3 (mulv i_dRdt_b c) (mulv i_R_b d)) b_J_point b_dJdt_point.
(** 153-168 *)
Definition FromBaseJacobianDevToInertiaJacobianDevTranslation (generalizedVelocities : gvel) (i_R_b : m3) (b_r_point : vec3)
    (b_J_point b_dJdt_point : list vec3) : list vec3 :=
  let b_v_point := mulJ b_J_point (g_joints generalizedVelocities) in
  let i_dRdt_b := mulm i_R_b (CrossProductMatrix (g_rot generalizedVelocities)) in
  cols3 (subm (mulm (negm i_dRdt_b) (CrossProductMatrix b_r_point)) (mulm i_R_b (CrossProductMatrix b_v_point))) ++
  cols3 i_dRdt_b ++ zipWith (fun c d => add3 (mulv i_dRdt_b c) (mulv i_R_b d)) b_J_point b_dJdt_point.
(** 97-115 *)
Definition FromBaseJacobianDevToInertiaJacobianDev (generalizedVelocities : gvel) (i_R_b : m3) (b_r_point : vec3)
    (b_J_point b_dJdt_point : list (vec3 * vec3)) : list (vec3 * vec3) :=
  combine
    (FromBaseJacobianDevToInertiaJacobianDevOrientation generalizedVelocities i_R_b b_r_point (map fst b_J_point) (map fst b_dJdt_point))
    (FromBaseJacobianDevToInertiaJacobianDevTranslation generalizedVelocities i_R_b b_r_point (map snd b_J_point) (map snd b_dJdt_point)).

(** ** ConstraintJacobian.h *)

Section Constraint.
(** NJOINTS, and the number OUTPUTS / 3 of three-row blocks; the generated robot code: position of an end-effector and its
    geometric Jacobian (rotational and translational halves of the columns) in the base frame. *)
Variables (NJOINTS blocks : nat).
Variable getEEPositionInBase : nat -> list R -> vec3.
Variable getJacobianBaseEEbyId : nat -> list R -> list (vec3 * vec3).

(** 43-45 *)
Record contacts := mkContacts { ee_indices : list nat; eeInContact : list bool }.

(** The loop over the end-effectors of 89-132 and 138-153: [f] gives the three rows written for one of them. *)
Fixpoint forEE (c : contacts) (f : nat -> list vec3) (l : list nat) (J : list (list vec3)) : outcome (list (list vec3)) :=
  match l with
  | [] => Ok J
  | ee :: l' =>
      do b <- vec_get (eeInContact c) ee ;;
      if b : bool then do J' <- vec_set J ee (f ee) ;; forEE c f l' J' else forEE c f l' J
  end.
Definition zeroJ : list (list vec3) := repeat (repeat zero3 (6 + NJOINTS)) blocks.
(** 135-154 *)
Definition getJacobianOrigin (c : contacts) (q : list R) : outcome (list (list vec3)) :=
  forEE c (fun ee => FromBaseJacToInertiaJacTranslation idm (getEEPositionInBase ee q) (map snd (getJacobianBaseEEbyId ee q)))
    (ee_indices c) zeroJ.
(** 99-117: the columns of the joints. *)
Definition dJidqj (rot trans : list vec3) (i j : nat) : vec3 :=
  if Nat.leb j i then cross3 (nth j rot zero3) (nth i trans zero3) else cross3 (nth i rot zero3) (nth j trans zero3).
Definition dJdt_joints (rot trans : list vec3) (qd : list R) : list vec3 :=
  map (fun i => fold_left (fun acc j => add3 acc (scale3 (nth j qd 0) (dJidqj rot trans i j))) (seq 0 NJOINTS) zero3) (seq 0 NJOINTS).
(** 119-126: the columns of the base. *)
Definition dJdt_base (v : vec3) : list vec3 :=
  cols3 ((0, vz v, - vy v), (- vz v, 0, vx v), (vy v, - vx v, 0)) ++ cols3 zerom.
(** 73-133 *)
Definition getJacobianOriginDerivative (c : contacts) (q qd : list R) : outcome (list (list vec3)) :=
  forEE c (fun ee => let J := getJacobianBaseEEbyId ee q in
                     dJdt_base (mulJ (map snd J) qd) ++ dJdt_joints (map fst J) (map snd J) qd)
    (ee_indices c) zeroJ.
End Constraint.
