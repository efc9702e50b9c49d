(** Property C24 (warm starting and truncating a policy).  Vocabulary: PolicySpec.v. *)
From Coq Require Import List ZArith QArith.
From Verif Require Import Base.Outcome Base.Rounding Core.InterpModel Optcon.PolicyModel Optcon.PolicySpec
  Optcon.PolicyProofs.
Import ListNotations.
Open Scope Q_scope.

(** C24. Warm starting: exactly max(1, round(T/dt)) controls and gains, one more state, uniform time
    stamps from zero, samples moved to the front by the whole steps in the delay and the last one
    repeated. *)
Theorem C24_warm_start :
  forall dt delay newT N p, 0 < dt -> (1 <= N)%nat -> policy_on_grid dt N p ->
    exists p' s, designWarmStartingPolicy dt delay newT p = Ok p' /\
      whole_steps dt N delay s /\
      let K := Nat.max 1 (Z.to_nat (lround (newT / dt))) in
      policy_on_grid dt K p' /\
      tr_data (pol_fb p') = moved s K (tr_data (pol_fb p)) /\
      tr_data (pol_ff p') = moved s K (tr_data (pol_ff p)) /\
      tr_data (pol_x p') = moved s (S K) (tr_data (pol_x p)).
Proof. exact warmstart_correct. Qed.
Print Assumptions C24_warm_start.

(** C24. Truncation: the reported time is the removed number of steps times dt, not above the delay. *)
Theorem C24_truncate :
  forall dt delay N p, 0 < dt -> (1 <= N)%nat -> policy_on_grid dt N p ->
    exists p' s eff, truncateSolutionFront dt delay p = Ok (p', eff) /\
      whole_steps dt N delay s /\ eff == inject_Z (Z.of_nat s) * dt /\ (0 <= delay -> eff <= delay) /\
      policy_on_grid dt (N - s) p' /\
      tr_data (pol_fb p') = skipn s (tr_data (pol_fb p)) /\
      tr_data (pol_ff p') = skipn s (tr_data (pol_ff p)) /\
      tr_data (pol_x p') = skipn s (tr_data (pol_x p)).
Proof. exact truncate_correct. Qed.
Print Assumptions C24_truncate.

(** The number of whole steps is determined by the delay. *)
Theorem C24_whole_steps_unique :
  forall dt N delay a b, 0 < dt -> whole_steps dt N delay a -> whole_steps dt N delay b -> a = b.
Proof. exact on_grid_wholesteps_unique. Qed.
Print Assumptions C24_whole_steps_unique.

Definition ex_policy : policy :=
  mk_policy (mk_traj [0; 1#2; 1] [[1]; [2]; [3]] ZOH 0)
            (mk_traj [0; 1#2; 1] [[10]; [20]; [30]] ZOH 2)
            (mk_traj [0; 1#2; 1; 3#2] [[5]; [6]; [7]; [8]] LIN 0).
Example C24_example :
  policy_on_grid (1#2) 3 ex_policy /\
  omap (fun p => (tr_data (pol_ff p), tr_data (pol_x p), map Qred (tr_time (pol_x p))))
       (designWarmStartingPolicy (1#2) (7#10) 2 ex_policy) =
    Ok ([[20]; [30]; [30]; [30]], [[6]; [7]; [8]; [8]; [8]], [0; 1#2; 1; 3#2; 2]) /\
  omap (fun r => (tr_data (pol_ff (fst r)), Qred (snd r))) (truncateSolutionFront (1#2) (12#10) ex_policy) =
    Ok ([[30]], 1).
Proof.
  split; [|split; vm_compute; reflexivity].
  repeat split; try (vm_compute; congruence); repeat constructor.
Qed.
