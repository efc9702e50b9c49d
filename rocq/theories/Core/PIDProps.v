(** Property C05: PID controller limits. *)
From Coq Require Import List ZArith QArith Qabs SpecFloat Lqa Lia.
From Verif Require Import Base.Scalar Core.PIDModel Core.PIDProofs.
Import ListNotations.
Open Scope Q_scope.

(** C05. In every history of calls (including set-point, parameter changes and resets) from any
    controller, each returned control lies within the limits in force, and so does the integral
    contribution. *)
Theorem C05_pid_output_and_integral_bounded :
  forall (c : @pid Q) hist,
    Forall (fun e =>
              let p := params (fst e) in
              (uMin p <= uMax p -> uMin p <= snd e <= uMax p) /\
              (0 <= Imax p -> - Imax p <= I_ (fst e) <= Imax p))
           (pid_run Qops c hist).
Proof. exact (fun c hist => pid_bounded hist c). Qed.
Print Assumptions C05_pid_output_and_integral_bounded.

(** C05. Every call returns the PID value moved to the closest admissible control, with the
    integral moved to the closest point of [-Imax, Imax] ([clamped] in PIDProofs.v). *)
Theorem C05_pid_saturated_law :
  forall (c : @pid Q) x,
  let p := params c in let sp := setpoint c in let e := stateDesired sp - x in
  exists c' u, pid_step Qops c (PCompute x) = (c', Some u) /\
    params c' = p /\ setpoint c' = sp /\ statePrevious c' = x /\
    clamped (- Imax p) (Imax p) (I_ c + k_i p * e * dt p) (I_ c') /\
    clamped (uMin p) (uMax p)
      (k_p p * e + I_ c' + k_d p * (stateDerivativeDesired sp - (x - statePrevious c) / dt p)) u.
Proof. exact pid_step_law. Qed.
Print Assumptions C05_pid_saturated_law.

Theorem C05_pid_saturated_law_with_derivative :
  forall (c : @pid Q) x d,
  let p := params c in let sp := setpoint c in let e := stateDesired sp - x in
  exists c' u, pid_step Qops c (PComputeD x d) = (c', Some u) /\
    params c' = p /\ setpoint c' = sp /\ statePrevious c' = x /\
    clamped (- Imax p) (Imax p) (I_ c + k_i p * e * dt p) (I_ c') /\
    clamped (uMin p) (uMax p) (k_p p * e + I_ c' + k_d p * (stateDerivativeDesired sp - d)) u.
Proof. exact pid_step_law_d. Qed.
Print Assumptions C05_pid_saturated_law_with_derivative.

Example C05_example :
  let p := mk_pid_params 2 1 1 (1#2) (1#10) (-1) 1 in
  let c := pid_new Qops p (mk_setpoint 5 0) in
  uMin p <= uMax p /\ 0 <= Imax p /\
  map (fun e => Qred (snd e)) (pid_run Qops c [PCompute 0; PSetDesired 0; PCompute 0; PReset; PComputeD (1#4) 0])
    = [1; 1#2; -21#40].
Proof. vm_compute. repeat split; discriminate. Qed.

(** C05. [reset] restores the behaviour of a new controller with the same parameters. *)
Theorem C05_pid_reset_restores_initial_behaviour :
  forall (S : Type) (ops : scalar_ops S) (c : pid) h1 h2,
    let c1 := pid_exec ops c h1 in
    pid_run ops (fst (pid_step ops c1 PReset)) h2 =
    pid_run ops (pid_new ops (params c1) (setpoint c1)) h2.
Proof. exact @pid_reset_fresh. Qed.
Print Assumptions C05_pid_reset_restores_initial_behaviour.

(** C05. As long as neither limit is reached the output is the PID law with the accumulated
    error integral. *)
Theorem C05_pid_closed_form_without_saturation :
  forall p sp xs x,
    let c0 := pid_new Qops p sp in
    let e y := stateDesired sp - y in
    let U := k_p p * e x + k_i p * dt p * qsum (map e (xs ++ [x]))
             + k_d p * (stateDerivativeDesired sp - (x - last xs 0) / dt p) in
    (forall m, (m <= length (xs ++ [x]))%nat ->
       Qabs (k_i p * dt p * qsum (map e (firstn m (xs ++ [x])))) <= Imax p) ->
    uMin p <= U <= uMax p ->
    snd (pid_step Qops (pid_exec Qops c0 (map PCompute xs)) (PCompute x)) <> None /\
    forall u, snd (pid_step Qops (pid_exec Qops c0 (map PCompute xs)) (PCompute x)) = Some u ->
              u == U.
Proof. exact pid_closed_form. Qed.
Print Assumptions C05_pid_closed_form_without_saturation.

Example C05_closed_form_example :
  let p := mk_pid_params 2 1 1 10 (1#10) (-100) 100 in
  let e y := 1 - y in
  let xs := [0; 1#2] in let x := 3#4 in
  (forall m, (m <= length (xs ++ [x]))%nat ->
       Qabs (k_i p * dt p * qsum (map e (firstn m (xs ++ [x])))) <= Imax p).
Proof.
  intros p e xs x m Hm. simpl in Hm.
  destruct m as [|[|[|[|m]]]]; try (exfalso; lia); vm_compute; discriminate.
Qed.

(** C05, floating point: with dt = 0 (and limits -1 < 1) the returned control is NaN. *)
Theorem C05_pid_bound_with_zero_dt_refuted :
  exists p sp x u,
    let c := pid_new Fops p sp in
    snd (pid_step Fops c (PCompute x)) = Some u /\
    SFltb (uMin p) (uMax p) = true /\ SFltb (S754_zero false) (Imax p) = true /\
    u = S754_nan.
Proof. exact pid_nan_witness. Qed.
Print Assumptions C05_pid_bound_with_zero_dt_refuted.
