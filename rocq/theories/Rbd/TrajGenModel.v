(** Model of /repo/ct_rbd/include/ct/rbd/common/SingleDOFTrajectoryGenerator.h and
    SimpleArmTrajectoryGenerator.h.  Scalars are exact reals. *)
From Coq Require Import Reals List ZArith.
From Verif Require Import Base.Outcome.
Import ListNotations.
Local Open Scope R_scope.

(** SingleDOFTrajectoryGenerator.h 33-37, 140-143 *)
Inductive mode := ACCELERATE_AND_DECELERATE | ACCELERATE_HOLD_DECELERATE.
Record gen := mkGen {
  operation_mode : mode;
  g_x0 : R; g_x_t0n : R; g_x_mid : R; g_x_t1 : R; g_xT : R;
  g_v_max : R; g_a_max : R; g_t0 : R; g_t0n : R; g_t1 : R; g_T : R }.

(** 40-54 *)
Definition newGen : gen := mkGen ACCELERATE_AND_DECELERATE 0 0 0 0 0 0 0 0 0 0 0.

(** 74-116.  Returns the generator and T_.  Members that the chosen mode does not set keep their
    values. *)
Definition setup (x0 xT abs_v_max abs_a_max : R) (g : gen) : gen * R :=
  let v := if Rlt_dec xT x0 then - abs_v_max else abs_v_max in
  let a := if Rlt_dec xT x0 then - abs_a_max else abs_a_max in
  let t0n := v / a in
  let delta_x := 1 / 2 * a * t0n * t0n in
  if Rge_dec (2 * Rabs delta_x) (Rabs (xT - x0)) then
    let delta_x_mid := 1 / 2 * (xT - x0) in
    let x_mid := 1 / 2 * (xT + x0) in
    let t0 := sqrt (delta_x_mid * 2 / a) in
    let T := 2 * t0 in
    (mkGen ACCELERATE_AND_DECELERATE x0 (g_x_t0n g) x_mid (g_x_t1 g) xT (a * t0) a t0 t0n (g_t1 g) T, T)
  else
    let x_t0n := x0 + 1 / 2 * a * t0n * t0n in
    let x_t1 := xT - delta_x in
    let t1 := t0n + (x_t1 - x_t0n) / v in
    let T := t1 + t0n in
    (mkGen ACCELERATE_HOLD_DECELERATE x0 x_t0n (g_x_mid g) x_t1 xT v a (g_t0 g) t0n t1 T, T).

(** 145-170; the last branch is only reached by NaN. *)
Definition queryPlanAccADec (g : gen) (time : R) : R * R :=
  if Rle_dec time (g_t0 g) then
    (g_x0 g + 1 / 2 * g_a_max g * time * time, g_a_max g * time)
  else if Rle_dec time (2 * g_t0 g) then
    (g_x_mid g + g_v_max g * (time - g_t0 g) - 1 / 2 * g_a_max g * (time - g_t0 g) * (time - g_t0 g),
     g_v_max g - g_a_max g * (time - g_t0 g))
  else (g_xT g, 0).
(** 172-201 *)
Definition queryPlanAccHDec (g : gen) (time : R) : R * R :=
  if Rle_dec time (g_t0n g) then
    (1 / 2 * g_a_max g * time * time + g_x0 g, g_a_max g * time)
  else if Rle_dec time (g_t1 g) then
    (g_x_t0n g + g_v_max g * (time - g_t0n g), g_v_max g)
  else if Rle_dec time (g_T g) then
    (g_x_t1 g + g_v_max g * (time - g_t1 g) - 1 / 2 * g_a_max g * ((time - g_t1 g) * (time - g_t1 g)),
     g_v_max g - (time - g_t1 g) * g_a_max g)
  else (g_xT g, 0).
(** 125-136 *)
Definition queryTrajectory (g : gen) (time : R) : outcome (R * R) :=
  if Rlt_dec time 0 then Throw
  else match operation_mode g with
       | ACCELERATE_AND_DECELERATE => Ok (queryPlanAccADec g time)
       | ACCELERATE_HOLD_DECELERATE => Ok (queryPlanAccHDec g time)
       end.

(** ** SimpleArmTrajectoryGenerator.h *)

(** A joint: start, end, maximal velocity and acceleration; its generator. *)
Record joint := mkJoint { j_start : R; j_end : R; j_v : R; j_a : R }.

(** std::round for arguments >= 0. *)
Definition roundR (x : R) : Z := (up (x + 1 / 2) - 1)%Z.

(** 56-60: every generator is set up; the generators and planned_joint_times. *)
Fixpoint setupAll (js : list joint) (gs : list gen) : outcome (list gen * list R) :=
  match js, gs with
  | [], _ => Ok ([], [])
  | j :: js', g :: gs' =>
      let (g', T) := setup (j_start j) (j_end j) (j_v j) (j_a j) g in
      do r <- setupAll js' gs' ;; Ok (g' :: fst r, T :: snd r)
  | _ :: _, [] => UB
  end.
(** *std::max_element(begin, end), 62: dereferences end() if there are no joints. *)
Definition maxElement (l : list R) : outcome R :=
  match l with [] => UB | x :: r => Ok (fold_left Rmax r x) end.
(** 80-85: positions, then velocities. *)
Fixpoint queryAll (gs : list gen) (time : R) : outcome (list R * list R) :=
  match gs with
  | [] => Ok ([], [])
  | g :: gs' =>
      do p <- queryTrajectory g time ;;
      do r <- queryAll gs' time ;; Ok (fst p :: fst r, snd p :: snd r)
  end.
(** 75-88: (time, state). *)
Fixpoint sampleFrom (gs : list gen) (dt : R) (k n : nat) : outcome (list (R * list R)) :=
  match k with
  | O => Ok []
  | S k' =>
      let time := INR n * dt in
      do s <- queryAll gs time ;;
      do r <- sampleFrom gs dt k' (S n) ;; Ok ((time, fst s ++ snd s) :: r)
  end.
(** 45-92.  [gs] are the generators of the object. *)
Definition generateTrajectory (js : list joint) (gs : list gen) (sampling_time : R)
  : outcome (list gen * list (R * list R)) :=
  do p <- setupAll js gs ;;
  do time_horizon <- maxElement (snd p) ;;
  let num_traj_points := (Z.to_nat (roundR (time_horizon / sampling_time)) + 1)%nat in
  do t <- sampleFrom (fst p) sampling_time num_traj_points 0 ;; Ok (fst p, t).
