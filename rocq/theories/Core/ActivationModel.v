(** Model of ct_core: common/activations/*.  Time windows over Q, the exponential activations
    over the real numbers. *)
From Coq Require Import ZArith QArith Reals.
From Verif Require Import Base.Outcome Core.InterpModel.

Open Scope Q_scope.
(** SingleActivation.hpp 28, 30 *)
Definition single_isActive (t_on t_off t : Q) : bool := Qle_bool t_on t && Qltb t t_off.
Definition single_compute (t_on t_off t : Q) : Q := 1.

(** LinearActivation.hpp 35, 37 *)
Definition linear_isActive (t_on t_off t : Q) : bool := Qle_bool t_on t && Qltb t t_off.
Definition linear_compute (t_on slope startVal t : Q) : Q := startVal + slope * (t - t_on).

(** C fmod for a non-zero divisor: x - y*trunc(x/y); None (NaN) for y = 0. *)
Definition Qtrunc (q : Q) : Z := Z.quot (Qnum q) (QDen q).
Definition Qfmod (x y : Q) : option Q :=
  if Qeq_bool y 0 then None else Some (x - y * inject_Z (Qtrunc (x / y))).

(** PeriodicActivation.hpp members 91-97; [p_t_end = None] is an uninitialised member. *)
Record periodic := mk_periodic {
  p_fraction : Q; p_period : Q; p_act_offset : Q; p_offset : Q; p_t_end : option Q }.

(** l.18-27: the constructor does not initialise t_end_ *)
Definition periodic_new (fraction period act_offset offset : Q) : periodic :=
  mk_periodic fraction period act_offset offset None.

(** l.38-57, the values read from the file are the arguments *)
Definition periodic_load (fraction period act_offset offset t_end : Q) : outcome periodic :=
  if Qltb period (act_offset + fraction * period) then Throw
  else Ok (mk_periodic fraction period act_offset offset (Some t_end)).

(** l.61-73 (SCALAR = double) *)
Definition periodic_isActive (p : periodic) (t : Q) : outcome bool :=
  if Qle_bool (p_offset p) t then
    match p_t_end p with
    | None => UB
    | Some t_end =>
        if Qltb t t_end then
          match Qfmod (t - p_offset p) (p_period p) with
          | None => Ok false
          | Some r => Ok (Qle_bool (p_act_offset p) r &&
                          Qltb r (p_act_offset p + p_fraction p * p_period p))
          end
        else Ok false
    end
  else Ok false.
(** l.81 *)
Definition periodic_compute (p : periodic) (t : Q) : Q := 1.

Open Scope R_scope.
(** RBFGaussActivation.h members 53-57 *)
Record rbf := mk_rbf { rbf_mu : R; rbf_sigma : R; rbf_sigma2inv : R; rbf_factor : R }.
(** l.19-23 *)
Definition rbf_new (mu sigma : R) : rbf :=
  mk_rbf mu sigma (1 / (2 * sigma * sigma)) (1 / sqrt (2 * PI * sigma * sigma)).
(** l.30-39, values read from the file are the arguments *)
Definition rbf_load (mu sigma : R) : rbf :=
  mk_rbf mu sigma (-1 / (2 * sigma * sigma)) (1 / sqrt (2 * PI * sigma * sigma)).
(** l.42-45 *)
Definition rbf_compute (a : rbf) (t : R) : R :=
  rbf_factor a * exp ((t - rbf_mu a) * (t - rbf_mu a) * rbf_sigma2inv a).

(** BarrierActivation.hpp members 150-160 *)
Record barrier := mk_barrier { ub_active : bool; lb_active : bool; b_ub : R; b_lb : R; b_alpha : R }.
(** l.33, l.42-45, l.96-102, l.109-115 *)
Definition barrier_default : barrier := mk_barrier false false 0 0 0.
Definition barrier_new (ub lb alpha : R) : barrier := mk_barrier true true ub lb alpha.
Definition barrier_setLowerBoundOnly (b : barrier) (lb alpha : R) : barrier :=
  mk_barrier false true (b_ub b) lb alpha.
Definition barrier_setUpperBoundOnly (b : barrier) (ub alpha : R) : barrier :=
  mk_barrier true false ub (b_lb b) alpha.
(** l.49-88: [ub], [lb] are the file entries, None when missing.  Throws are not modelled
    (the theorems about loading only say what a successful load does). *)
Definition barrier_load (b : barrier) (ub lb : option R) (alpha : R) : barrier :=
  mk_barrier (match ub with Some _ => ub_active b | None => false end)
             (match lb with Some _ => lb_active b | None => false end)
             (match ub with Some v => v | None => b_ub b end)
             (match lb with Some v => v | None => b_lb b end)
             alpha.
Definition b2R (b : bool) : R := if b then 1 else 0.
(** l.118-122 *)
Definition barrier_compute (b : barrier) (x : R) : R :=
  b2R (ub_active b) * exp (b_alpha b * (x - b_ub b)) +
  b2R (lb_active b) * exp (b_alpha b * (b_lb b - x)).
(** l.124-128 *)
Definition barrier_d1 (b : barrier) (x : R) : R :=
  b2R (ub_active b) * b_alpha b * exp (b_alpha b * (x - b_ub b)) -
  b2R (lb_active b) * b_alpha b * exp (b_alpha b * (b_lb b - x)).
(** l.130-134 *)
Definition barrier_d2 (b : barrier) (x : R) : R :=
  b2R (ub_active b) * b_alpha b * b_alpha b * exp (b_alpha b * (x - b_ub b)) +
  b2R (lb_active b) * b_alpha b * b_alpha b * exp (b_alpha b * (b_lb b - x)).
