(** * Model of the quadrotor

    Models  ct_models/src/Quadrotor/quadrotor_ode.cpp, A_quadrotor.cpp, B_quadrotor.cpp and
    C_quadrotor.cpp, the constants of
    ct_models/include/ct/models/Quadrotor/quadrotor_definitions/quadModelParameters.hpp, and
    ct_models/include/ct/models/Quadrotor/Quadrotor.hpp, QuadrotorLinear.hpp.

    Numbers are reals; the rounding of doubles is not modelled.  Vectors and matrices are
    functions of the indices, zero outside the entries the code assigns (setZero). *)
From Coq Require Import Reals.
Local Open Scope R_scope.

Definition vec := nat -> R.
Definition mat := nat -> nat -> R.

(** quadModelParameters.hpp 17-19: mass and moments of inertia; the functions below are
    written for any values of them. *)
Record params := mkParams { mQ : R; Thxxyy : R; Thzz : R }.
Definition quad : params := mkParams (546 / 1000) (232 / 100000) (3 / 10000).

(** quadrotor_definitions: grav_const (21), not used by the dynamics, which has its own
    number (75). *)
Definition grav_const : R := 981 / 100.

(** Eigen's norm of the twelve states. *)
Definition norm12 (x : vec) : R :=
  sqrt (x 0%nat * x 0%nat + x 1%nat * x 1%nat + x 2%nat * x 2%nat + x 3%nat * x 3%nat
        + x 4%nat * x 4%nat + x 5%nat * x 5%nat + x 6%nat * x 6%nat + x 7%nat * x 7%nat
        + x 8%nat * x 8%nat + x 9%nat * x 9%nat + x 10%nat * x 10%nat + x 11%nat * x 11%nat).

(** quadrotor_ode.cpp 29-83 *)
Definition ode_free (P : params) (x u : vec) : vec :=
  let mQ := mQ P in let Thxxyy := Thxxyy P in let Thzz := Thzz P in
  let qph := x 3%nat in let qth := x 4%nat in let qps := x 5%nat in
  let dqxQ := x 6%nat in let dqyQ := x 7%nat in let dqzQ := x 8%nat in
  let dqph := x 9%nat in let dqth := x 10%nat in let dqps := x 11%nat in
  let Fz := u 0%nat in let Mx := u 1%nat in let My := u 2%nat in let Mz := u 3%nat in
  let t2 := 1 / mQ in
  let t3 := cos qth in
  let t4 := sin qth in
  let t5 := 1 / Thxxyy in
  let t6 := cos qps in
  let t7 := sin qps in
  let t8 := dqph * dqph in
  let t9 := qth * 2 in
  let t10 := sin t9 in
  let t11 := 1 / t3 in
  let t12 := Thzz * Thzz in
  let t13 := t3 * t3 in
  fun i => match i with
  | 0%nat => dqxQ
  | 1%nat => dqyQ
  | 2%nat => dqzQ
  | 3%nat => dqph
  | 4%nat => dqth
  | 5%nat => dqps
  | 6%nat => Fz * t2 * t4
  | 7%nat => - Fz * t2 * t3 * sin qph
  | 8%nat => t2 * (mQ * 981 - Fz * t3 * cos qph * 100) * (- (1) / 100)
  | 9%nat => - t5 * t11 * (- Mx * t6 + My * t7 + Thzz * dqps * dqth
                       - Thxxyy * dqph * dqth * t4 * 2 + Thzz * dqph * dqth * t4)
  | 10%nat => t5 * (Mx * t7 + My * t6 - Thxxyy * t8 * t10 * (1 / 2) + Thzz * t8 * t10 * (1 / 2)
                + Thzz * dqph * dqps * t3)
  | 11%nat => (t5 * t11 * (Mz * Thxxyy * t3 + dqph * dqth * t12 - dqph * dqth * t12 * t13
                       + dqps * dqth * t4 * t12 - Thxxyy * Thzz * dqph * dqth * 2
                       - Mx * Thzz * t4 * t6 + My * Thzz * t4 * t7
                       + Thxxyy * Thzz * dqph * dqth * t13)) / Thzz
  | _ => 0
  end.

(** quadrotor_ode.cpp 86-90: the derivative is set to zero for states of norm above 1e20.
    Quadrotor::computeControlledDynamics (Quadrotor.hpp 30-36) returns it. *)
Definition norm_limit : R := 100000000000000000000.
Definition quadrotor_ode (P : params) (x u : vec) : vec :=
  if Rlt_dec norm_limit (norm12 x) then fun _ => 0 else ode_free P x u.

(** A_quadrotor.cpp 14-89 (QuadrotorLinear::getDerivativeState) *)
Definition A_quadrotor (P : params) (x u : vec) : mat :=
  let mQ := mQ P in let Thxxyy := Thxxyy P in let Thzz := Thzz P in
  let qph := x 3%nat in let qth := x 4%nat in let qps := x 5%nat in
  let dqph := x 9%nat in let dqth := x 10%nat in let dqps := x 11%nat in
  let Fz := u 0%nat in let Mx := u 1%nat in let My := u 2%nat in
  let t2 := 1 / mQ in
  let t3 := cos qth in
  let t4 := sin qph in
  let t5 := cos qph in
  let t6 := sin qth in
  let t7 := 1 / Thxxyy in
  let t8 := cos qps in
  let t9 := sin qps in
  let t10 := 1 / t3 in
  let t11 := Thxxyy * 2 in
  let t12 := Thzz - t11 in
  let t13 := qth * 2 in
  let t14 := cos t13 in
  let t15 := My * t9 in
  let t16 := sin t13 in
  let t17 := 1 / (t3 * t3) in
  let t18 := qth * 3 in
  let t19 := sin t18 in
  let t20 := My * t8 in
  let t21 := Mx * t9 in
  let t22 := t20 + t21 in
  let t23 := t3 * t3 in
  let t24 := t6 * t6 in
  let t25 := Thzz * dqps * t6 in
  fun i j => match i, j with
  | 0%nat, 6%nat => 1
  | 1%nat, 7%nat => 1
  | 2%nat, 8%nat => 1
  | 3%nat, 9%nat => 1
  | 4%nat, 10%nat => 1
  | 5%nat, 11%nat => 1
  | 6%nat, 4%nat => Fz * t2 * t3
  | 7%nat, 3%nat => - Fz * t2 * t3 * t5
  | 7%nat, 4%nat => Fz * t2 * t4 * t6
  | 8%nat, 3%nat => - Fz * t2 * t3 * t4
  | 8%nat, 4%nat => - Fz * t2 * t5 * t6
  | 9%nat, 4%nat => - t6 * t7 * t17 * (t15 - Mx * t8 + Thzz * dqps * dqth
                               - Thxxyy * dqph * dqth * t6 * 2 + Thzz * dqph * dqth * t6)
            - dqph * dqth * t7 * t12
  | 9%nat, 5%nat => - t7 * t10 * t22
  | 9%nat, 9%nat => - dqth * t6 * t7 * t10 * t12
  | 9%nat, 10%nat => - t7 * t10 * (Thzz * dqps - Thxxyy * dqph * t6 * 2 + Thzz * dqph * t6)
  | 9%nat, 11%nat => - Thzz * dqth * t7 * t10
  | 10%nat, 4%nat => - dqph * t7 * (t25 + Thxxyy * dqph * t14 - Thzz * dqph * t14)
  | 10%nat, 5%nat => - t7 * (t15 - Mx * t8)
  | 10%nat, 9%nat => t7 * (- Thxxyy * dqph * t16 + Thzz * dqps * t3 + Thzz * dqph * t16)
  | 10%nat, 11%nat => Thzz * dqph * t3 * t7
  | 11%nat, 4%nat => t7 * t17 * (Mx * t8 * - (4) + My * t9 * 4 + Thzz * dqps * dqth * 4
                         - Thxxyy * dqph * dqth * t6 * 9 - Thxxyy * dqph * dqth * t19
                         + Thzz * dqph * dqth * t6 * 5 + Thzz * dqph * dqth * t19) * (1 / 4)
  | 11%nat, 5%nat => t6 * t7 * t10 * t22
  | 11%nat, 9%nat => dqth * t7 * t10 * (Thzz - t11 + Thxxyy * t23 - Thzz * t23)
  | 11%nat, 10%nat => t7 * t10 * (t25 - Thxxyy * dqph - Thxxyy * dqph * t24 + Thzz * dqph * t24)
  | 11%nat, 11%nat => Thzz * dqth * t6 * t7 * t10
  | _, _ => 0
  end.

(** B_quadrotor.cpp 15-46 (QuadrotorLinear::getDerivativeControl) *)
Definition B_quadrotor (P : params) (x u : vec) : mat :=
  let mQ := mQ P in let Thxxyy := Thxxyy P in let Thzz := Thzz P in
  let qph := x 3%nat in let qth := x 4%nat in let qps := x 5%nat in
  let t2 := 1 / mQ in
  let t3 := cos qth in
  let t4 := 1 / Thxxyy in
  let t5 := 1 / t3 in
  let t6 := sin qps in
  let t7 := cos qps in
  let t8 := sin qth in
  fun i j => match i, j with
  | 6%nat, 0%nat => t2 * t8
  | 7%nat, 0%nat => - t2 * t3 * sin qph
  | 8%nat, 0%nat => t2 * t3 * cos qph
  | 9%nat, 1%nat => t4 * t5 * t7
  | 9%nat, 2%nat => - t4 * t5 * t6
  | 10%nat, 1%nat => t4 * t6
  | 10%nat, 2%nat => t4 * t7
  | 11%nat, 1%nat => - t4 * t5 * t7 * t8
  | 11%nat, 2%nat => t4 * t5 * t6 * t8
  | 11%nat, 3%nat => 1 / Thzz
  | _, _ => 0
  end.

(** C_quadrotor.cpp 13-53 *)
Definition C_quadrotor (P : params) (x u : vec) : mat :=
  let mQ := mQ P in let Thxxyy := Thxxyy P in let Thzz := Thzz P in
  let qph := x 3%nat in let qth := x 4%nat in let qps := x 5%nat in
  let t2 := 1 / mQ in
  let t3 := cos qth in
  let t4 := 1 / Thxxyy in
  let t5 := 1 / t3 in
  let t6 := sin qps in
  let t7 := cos qps in
  let t8 := sin qth in
  fun i j => match i, j with
  | 6%nat, 0%nat => t2 * t8 * (1 / 20)
  | 7%nat, 0%nat => t2 * t3 * sin qph * (- (1) / 20)
  | 8%nat, 0%nat => t2 * t3 * cos qph * (1 / 20)
  | 9%nat, 1%nat => t4 * t5 * t7 * (1 / 20)
  | 9%nat, 2%nat => t4 * t5 * t6 * (- (1) / 20)
  | 10%nat, 1%nat => t4 * t6 * (1 / 20)
  | 10%nat, 2%nat => t4 * t7 * (1 / 20)
  | 11%nat, 1%nat => t4 * t5 * t7 * t8 * (- (1) / 20)
  | 11%nat, 2%nat => t4 * t5 * t6 * t8 * (1 / 20)
  | 11%nat, 3%nat => (1 / 20) / Thzz
  | _, _ => 0
  end.
