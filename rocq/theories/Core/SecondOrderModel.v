(** Model of ct::core::SecondOrderSystem (exact real arithmetic). *)
From Coq Require Import Reals Bool.
Local Open Scope R_scope.

(** systems/continuous_time/SecondOrderSystem.h, members (212-215). *)
Record sos := mkSos { w_n : R; w_n_square : R; zeta : R; g_dc : R }.

(** SecondOrderSystem.h 82-92: constructor from frequency, damping ratio and gain. *)
Definition sos_frequency (w z g : R) : sos := mkSos w (w * w) z g.

(** SecondOrderSystem.h 112-119: constructor from stiffness, mass, damper constant and gain. *)
Definition sos_mechanical (k m d g : R) : sos :=
  let w := sqrt (k / m) in mkSos w (w * w) (d / (2 * m * k)) g.

(** SecondOrderSystem.h 131-137, setDynamics. *)
Definition set_dynamics (s : sos) (w z g : R) : sos := mkSos w (w * w) z g.

(** SecondOrderSystem.h 146-153, computeControlledDynamics: (position, velocity) and control to
    (velocity, acceleration). *)
Definition sos_dynamics (s : sos) (p v u : R) : R * R :=
  (v, g_dc s * w_n_square s * u - 2 * zeta s * w_n s * v - w_n_square s * p).

(** SecondOrderSystem.h 159-183, checkParameters. *)
Definition check_parameters (s : sos) : bool :=
  if Rlt_dec (zeta s) 0 then false
  else if Rlt_dec (w_n s) 0 then false
  else if Rlt_dec (g_dc s) 0 then false
  else if Req_EM_T (g_dc s) 0 then false
  else true.
