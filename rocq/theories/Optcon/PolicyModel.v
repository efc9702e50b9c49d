(** Model of ct_optcon: mpc/policyhandler/default/StateFeedbackPolicyHandler-impl.h on the
    trajectories of Core/InterpModel.v.  A feedback matrix sample is a flat list of rationals. *)
From Coq Require Import List ZArith QArith.
From Verif Require Import Base.Outcome Base.Rounding Core.InterpModel.
Import ListNotations.
Open Scope Q_scope.

(** ct_core StateFeedbackController: the three trajectories. *)
Record policy := mk_policy { pol_fb : traj; pol_ff : traj; pol_x : traj }.

(** l.66-71 extension loop *)
Fixpoint policy_extend (n : nat) (dt : Q) (p : policy) : outcome policy :=
  match n with
  | O => Ok p
  | S m =>
      do b <- vec_back (tr_data (pol_fb p)) ;;
      do fb <- traj_push b dt false (pol_fb p) ;;
      do u <- vec_back (tr_data (pol_ff p)) ;;
      do ff <- traj_push u dt false (pol_ff p) ;;
      do x <- vec_back (tr_data (pol_x p)) ;;
      do xr <- traj_push x dt false (pol_x p) ;;
      policy_extend m dt (mk_policy fb ff xr)
  end.

(** l.76-81 shortening loop *)
Fixpoint policy_shorten (n : nat) (p : policy) : outcome policy :=
  match n with
  | O => Ok p
  | S m =>
      do fb <- traj_pop (pol_fb p) ;;
      do ff <- traj_pop (pol_ff p) ;;
      do xr <- traj_pop (pol_x p) ;;
      policy_shorten m (mk_policy fb ff xr)
  end.

(** l.22-89 designWarmStartingPolicy *)
Definition designWarmStartingPolicy (dt delay newT : Q) (p : policy) : outcome policy :=
  do n <- traj_size (pol_ff p) ;;
  let currentSize := Z.of_nat n in
  let Kn_new := Z.max 1 (lround (newT / dt)) in
  let '(ff0, oi) := traj_index delay (pol_ff p) in
  do i <- oi ;;
  let num_di := Z.min i (currentSize - 1) in
  let p := mk_policy (pol_fb p) ff0 (pol_x p) in
  do pc <- (if (0 <? num_di)%Z then
              do ff <- traj_erase_front (Z.to_nat num_di) (inject_Z num_di * dt) (pol_ff p) ;;
              do fb <- traj_erase_front (Z.to_nat num_di) (inject_Z num_di * dt) (pol_fb p) ;;
              do xr <- traj_erase_front (Z.to_nat num_di) (inject_Z num_di * dt) (pol_x p) ;;
              Ok (mk_policy fb ff xr, (currentSize - num_di)%Z)
            else Ok (p, currentSize)) ;;
  let '(p, currentSize) := pc in
  do p <- (if (currentSize <? Kn_new)%Z then policy_extend (Z.to_nat (Kn_new - currentSize)) dt p
           else if (Kn_new <? currentSize)%Z then policy_shorten (Z.to_nat (currentSize - Kn_new)) p
           else Ok p) ;;
  do m <- traj_size (pol_ff p) ;;
  if (m =? 0)%nat then Throw else Ok p.

(** l.92-117 truncateSolutionFront; result (policy, effectivelyTruncated).  size_t min of the
    index and currentSize-1. *)
Definition truncateSolutionFront (dt delay : Q) (p : policy) : outcome (policy * Q) :=
  do n <- traj_size (pol_ff p) ;;
  let '(ff0, oi) := traj_index delay (pol_ff p) in
  do i <- oi ;;
  let num_di := Z.min i (Z.of_nat n - 1) in
  let eff := inject_Z num_di * dt in
  let p := mk_policy (pol_fb p) ff0 (pol_x p) in
  if ((0 <? num_di) && (num_di <? Z.of_nat n))%Z then
    do fb <- traj_erase_front (Z.to_nat num_di) eff (pol_fb p) ;;
    do ff <- traj_erase_front (Z.to_nat num_di) eff (pol_ff p) ;;
    do xr <- traj_erase_front (Z.to_nat num_di) eff (pol_x p) ;;
    Ok (mk_policy fb ff xr, eff)
  else Ok (p, eff).
