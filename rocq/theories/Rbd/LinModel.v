(** Model of /repo/ct_rbd/include/ct/rbd/systems/linear/RbdLinearizer.h (instantiated with floating base systems whose
    base orientation is given by Euler angles).  Scalars are exact reals, vectors and matrices are functions on indices. *)
From Coq Require Import Reals List Bool Arith.
From Verif Require Import Base.RVec Core.NumDiffModel.
Local Open Scope R_scope.

(** 3x3 matrix product, and product with a vector. *)
Definition mul3 (A B : rmat) : rmat := fun i j => rsum 3 (fun k => A i k * B k j).
Definition mat3 (a b c d e f g h k : R) : rmat := fun i j =>
  match i, j with
  | 0%nat, 0%nat => a | 0%nat, 1%nat => b | 0%nat, 2%nat => c
  | 1%nat, 0%nat => d | 1%nat, 1%nat => e | 1%nat, 2%nat => f
  | 2%nat, 0%nat => g | 2%nat, 1%nat => h | 2%nat, 2%nat => k
  | _, _ => 0
  end.
(** Elementary rotations and kindr's RotationMatrix(EulerAnglesXyz) (kindr is an external library: the rotation is the
    product of the three elementary rotations about x, y and z). *)
Definition rotX (a : R) : rmat := mat3 1 0 0 0 (cos a) (- sin a) 0 (sin a) (cos a).
Definition rotY (a : R) : rmat := mat3 (cos a) 0 (sin a) 0 1 0 (- sin a) 0 (cos a).
Definition rotZ (a : R) : rmat := mat3 (cos a) (- sin a) 0 (sin a) (cos a) 0 0 0 1.
Definition R_WB (theta : rvec) : rmat := mul3 (mul3 (rotX (theta 0%nat)) (rotY (theta 1%nat))) (rotZ (theta 2%nat)).

(** 178-223 *)
Definition JacobianOfRotationMultiplyVector (theta vector : rvec) : rmat :=
  let theta_1 := theta 0%nat in let theta_2 := theta 1%nat in let theta_3 := theta 2%nat in
  let vector_1 := vector 0%nat in let vector_2 := vector 1%nat in let vector_3 := vector 2%nat in
  let t2 := cos theta_1 in let t3 := sin theta_3 in let t4 := cos theta_3 in let t5 := sin theta_1 in
  let t6 := sin theta_2 in let t7 := cos theta_2 in
  let t8 := t4 * t5 in let t9 := t2 * t3 * t6 in let t10 := t8 + t9 in let t11 := t2 * t4 in
  let t12 := t11 - t3 * t5 * t6 in let t13 := t6 * vector_1 in let t14 := t2 * t7 * vector_3 in
  let t15 := t13 + t14 - t5 * t7 * vector_2 in let t16 := t2 * t3 in let t17 := t4 * t5 * t6 in
  let t18 := t16 + t17 in let t19 := t3 * t5 in let t20 := t19 - t2 * t4 * t6 in
  mat3 (t18 * vector_3 - t20 * vector_2) (- t4 * t15) (t10 * vector_3 + t12 * vector_2 - t3 * t7 * vector_1)
       (- t10 * vector_2 + t12 * vector_3) (t3 * t15) (- t18 * vector_2 - t20 * vector_3 - t4 * t7 * vector_1)
       (- t7 * (t2 * vector_2 + t5 * vector_3)) (t7 * vector_1 - t2 * t6 * vector_3 + t5 * t6 * vector_2) 0.

(** 236-283: the entries y[0..17] of the generated code; x is the vector xAD (Euler angles, angular velocity).  The value
    of v[8] changes during the computation: v8 before, v8' after its second assignment. *)
Definition angularY (x : rvec) : nat -> R :=
  let x1 := x 1%nat in let x2 := x 2%nat in let x3 := x 3%nat in let x4 := x 4%nat in
  let y9 := sin x2 in let y10 := cos x2 in let v0 := cos x1 in let v1 := 1 / v0 in
  let y3 := v1 * y10 in let v2 := sin x1 in
  let y1 := 0 - (0 - (0 - x4 * y9 + x3 * y10) * 1 / v0 * v1) * v2 in
  let v3 := sin x2 in let v4 := 0 - v1 in let y4 := v4 * y9 in let v5 := y10 in
  let y2 := 0 - x3 * v1 * v3 + x4 * v4 * v5 in
  let y8 := 0 - x4 * v3 + x3 * v5 in
  let v6 := v1 * y9 in let v7 := v4 * y10 in let v8 := v2 in
  let y15 := v7 * v8 in let y16 := v6 * v8 in
  let v9 := x4 * v8 in let v8' := x3 * v8 in
  let y13 := (x4 * v6 + x3 * v7) * v0 - (0 - (v9 * y9 - v8' * y10) * 1 / v0 * v1) * v2 in
  let y14 := 0 - v8' * v4 * v3 + v9 * v1 * v5 in
  fun i => List.nth i (0 :: y1 :: y2 :: y3 :: y4 :: 0 :: 0 :: 0 :: y8 :: y9 :: y10 :: 0 :: 0 :: y13 :: y14 :: y15 :: y16 :: 1 :: nil) 0.
(** xAD << eulerAnglesXyz, angularVelocity *)
Definition xAD (theta omega : rvec) : rvec := fun i => if (i <? 3)%nat then theta i else omega (i - 3)%nat.
(** Eigen stores the 6x3 matrix by columns. *)
Definition jacobianOfAngularVelocityMapping (theta omega : rvec) : rmat := fun r c => angularY (xAD theta omega) (6 * c + r)%nat.
Definition jacAngVel (theta omega : rvec) : rmat := fun i j => jacobianOfAngularVelocityMapping theta omega j i.

(** x.segment(i, .) *)
Definition segm (x : rvec) (i : nat) : rvec := fun k => x (i + k)%nat.

(** 88-129 for FLOATING_BASE; [n] is STATE_DIM.  The base class computes the numerical Jacobian. *)
Definition getDerivativeState (eps : R) (second ds : bool) (n : nat) (dyn : rvec -> R -> rvec -> rvec) (x u : rvec) (t : R) : rmat :=
  let half := Nat.div2 n in
  let theta := segm x 0 in
  let base := system_derivative_state Rplus Rminus eps second n ds dyn x u t in
  let J := jacAngVel theta (segm x half) in
  let v := segm x (half + 3)%nat in
  let A := JacobianOfRotationMultiplyVector theta (fun i => rsum 3 (fun k => R_WB theta i k * v k)) in
  fun i j =>
    if (i <? 3)%nat && (j <? 3)%nat then J i j
    else if (3 <=? i)%nat && (i <? 6)%nat && (j <? 3)%nat then rsum 3 (fun k => - R_WB theta (i - 3)%nat k * A k j)
    else if (i <? 3)%nat && (half <=? j)%nat && (j <? half + 3)%nat then J i (3 + (j - half))%nat
    else if (3 <=? i)%nat && (i <? 6)%nat && (half + 3 <=? j)%nat && (j <? half + 6)%nat then R_WB theta (i - 3)%nat (j - (half + 3))%nat
    else base i j.

(** 131-168: [Minv] is the result of the Cholesky solve with the identity, [S] the selection matrix (CONTROL_DIM x
    STATE_DIM/2); the upper rows are those set by the constructor. *)
Definition getDerivativeControl (n : nat) (Minv S : rmat) : rmat := fun i j =>
  let half := Nat.div2 n in
  if (i <? half)%nat then 0 else rsum half (fun k => Minv (i - half)%nat k * S j k).


(** robot/control/SelectionMatrix-impl.h 17-56: the constructor for [c] controls and [n] generalised coordinates (with fewer
    than 6 coordinates the floating base constructor throws). *)
Definition selection (floatingBase : bool) (c n : nat) : rmat := fun j k =>
  let off := if floatingBase then 6%nat else (n - c)%nat in
  if (off <=? k)%nat && (k - off =? j)%nat then 1 else 0.
