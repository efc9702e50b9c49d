(** Property C04: phase and mode lookup.  [total l] (PhaseProofs.v) is the sum of the durations of
    the phases in [l]; [2^63] is the size limit of the index type. *)
From Coq Require Import List ZArith QArith Lqa Lia.
From Verif Require Import Base.Outcome Core.InterpModel Core.PhaseModel Core.PhaseProofs.
Import ListNotations.
Open Scope Q_scope.

(** Building never fails. *)
Theorem C04_build_never_fails :
  forall P t0 (l : list (P * Q)), exists s, addPhases (ps_new t0) l = Ok s.
Proof. exact (fun P t0 l => ex_intro _ _ (build_ok t0 l)). Qed.
Print Assumptions C04_build_never_fails.

(** A time inside [start of p, end of p) gives p. *)
Theorem C04_phase_contains_time :
  forall P t0 (l1 : list (P * Q)) p d l2 t s,
    let l := l1 ++ (p, d) :: l2 in
    Forall (fun e => 0 < snd e) l ->
    (Z.of_nat (length l) < 2 ^ 63)%Z ->
    addPhases (ps_new t0) l = Ok s ->
    t0 + total l1 <= t -> t < t0 + total l1 + d ->
    getPhaseFromTime s t = Ok p.
Proof. exact @phase_inside. Qed.
Print Assumptions C04_phase_contains_time.

(** Every time in [start, end) of the sequence is in the interval of some phase, so the theorem
    above determines the lookup everywhere inside. *)
Theorem C04_intervals_cover :
  forall P (l : list (P * Q)) t t0,
    Forall (fun e => 0 < snd e) l -> t0 <= t -> t < t0 + total l ->
    exists l1 p d l2, l = l1 ++ (p, d) :: l2 /\ t0 + total l1 <= t /\ t < t0 + total l1 + d.
Proof. exact @interval_exists. Qed.
Print Assumptions C04_intervals_cover.

Theorem C04_before_start_first_phase :
  forall P t0 p d (l : list (P * Q)) t s,
    addPhases (ps_new t0) ((p, d) :: l) = Ok s -> t < t0 -> getPhaseFromTime s t = Ok p.
Proof. exact @phase_before. Qed.
Print Assumptions C04_before_start_first_phase.

Theorem C04_after_end_last_phase :
  forall P t0 (l : list (P * Q)) p d t s,
    Forall (fun e => 0 < snd e) (l ++ [(p, d)]) ->
    (Z.of_nat (length (l ++ [(p, d)])) < 2 ^ 63)%Z ->
    addPhases (ps_new t0) (l ++ [(p, d)]) = Ok s ->
    t0 + total (l ++ [(p, d)]) <= t -> getPhaseFromTime s t = Ok p.
Proof. exact @phase_after. Qed.
Print Assumptions C04_after_end_last_phase.

(** Start and end time queries and the total duration. *)
Theorem C04_phase_start_end_times :
  forall P t0 (l1 : list (P * Q)) p d l2 s,
    let l := l1 ++ (p, d) :: l2 in
    (Z.of_nat (length l) < 2 ^ 63)%Z ->
    addPhases (ps_new t0) l = Ok s ->
    exists a b, getStartTimeFromIdx s (Z.of_nat (length l1)) = Ok a /\
                getEndTimeFromIdx s (Z.of_nat (length l1)) = Ok b /\
                a == t0 + total l1 /\ b == a + d.
Proof. exact @phase_times. Qed.
Print Assumptions C04_phase_start_end_times.

Theorem C04_total_duration :
  forall P t0 (l : list (P * Q)) s,
    addPhases (ps_new t0) l = Ok s -> exists T, getTotalDuration s = Ok T /\ T == total l.
Proof. exact @total_duration. Qed.
Print Assumptions C04_total_duration.

(** The next switch from a phase that is not the last one. *)
Theorem C04_next_switch :
  forall P t0 (l1 : list (P * Q)) p d p' d' l2 t s,
    let l := l1 ++ (p, d) :: (p', d') :: l2 in
    Forall (fun e => 0 < snd e) l ->
    (Z.of_nat (length l) < 2 ^ 63)%Z ->
    addPhases (ps_new t0) l = Ok s ->
    t0 + total l1 <= t -> t < t0 + total l1 + d ->
    exists ts, getSwitchEventFromTime s t = Ok (p, p', ts) /\ ts == t0 + total l1 + d.
Proof. exact @switch_inside. Qed.
Print Assumptions C04_next_switch.

Definition ex_phases : list (nat * Q) := [(7%nat, 1#2); (3%nat, 2); (7%nat, 1#4)].
Example C04_example :
  Forall (fun e => 0 < snd e) ex_phases /\ (Z.of_nat (length ex_phases) < 2 ^ 63)%Z /\
  exists s, addPhases (ps_new 1) ex_phases = Ok s /\
    map (getPhaseFromTime s) [0; 1; 3#2; 7#2; 4; 100] =
    [Ok 7; Ok 7; Ok 3; Ok 7; Ok 7; Ok 7]%nat.
Proof.
  split; [repeat constructor|]. split; [vm_compute; reflexivity|]. exists (mk_seq [7; 3; 7]%nat [1; 1 + (1#2); 1 + (1#2) + 2; 1 + (1#2) + 2 + (1#4)]).
  split; vm_compute; reflexivity.
Qed.

(** The next-switch query inside the last phase, and any phase query on a sequence without
    phases, read outside the schedule (undefined behaviour). *)
Theorem C04_switch_query_in_last_phase_refuted :
  exists (l : list (nat * Q)) s t,
    Forall (fun e => 0 < snd e) l /\ addPhases (ps_new 0) l = Ok s /\ 0 <= t /\ t < total l /\
    getSwitchEventFromTime s t = UB.
Proof.
  exists [(1%nat, 1)], (mk_seq [1%nat] [0; 1]), (1#2).
  split; [repeat constructor|]. split; [vm_compute; reflexivity|].
  split; [vm_compute; discriminate|]. split; vm_compute; reflexivity.
Qed.
Print Assumptions C04_switch_query_in_last_phase_refuted.

Theorem C04_empty_sequence_query_refuted :
  forall P t0 t, getPhaseFromTime (@ps_new P t0) t = UB.
Proof. exact phase_empty. Qed.
Print Assumptions C04_empty_sequence_query_refuted.

(** C04. The counts of a sequence; the number of switches of an empty sequence is the largest unsigned number. *)
Theorem C04_counts : forall P t0 (l : list (P * Q)) s, addPhases (ps_new t0) l = Ok s -> (Z.of_nat (length l) < 2 ^ 64)%Z ->
  getNumPhases s = Z.of_nat (length l) /\
  (l <> [] -> getNumSwitches s = (Z.of_nat (length l) - 1)%Z) /\ (l = [] -> getNumSwitches s = (2 ^ 64 - 1)%Z).
Proof.
  intros P t0 l s E HL.
  assert (N : getNumPhases s = Z.of_nat (length l)).
  { assert (G : forall l (s s' : @phase_seq P), addPhases s l = Ok s' -> length (phase_schedule s') = (length (phase_schedule s) + length l)%nat).
    { clear. induction l as [|[p d] l IH]; intros s s' E; cbn [addPhases] in E; [injection E as <-; cbn; lia|].
      unfold addPhase in E. destruct (vec_back (time_schedule s)) as [tb| |]; cbn [obind] in E; try discriminate.
      apply IH in E. cbn [phase_schedule] in E. rewrite app_length in E. cbn [length] in *. lia. }
    unfold getNumPhases. rewrite (G _ _ _ E). cbn [ps_new phase_schedule length Nat.add]. reflexivity. }
  split; [exact N|]. unfold getNumSwitches, size_sub. rewrite N. split; intros HN.
  - apply Z.mod_small. destruct l; [congruence|]. cbn [length] in *. lia.
  - subst l. vm_compute. reflexivity.
Qed.
Example counts_case : exists s, addPhases (ps_new 1) ex_phases = Ok s /\ getNumSwitches s = 2%Z.
Proof.
  destruct (C04_build_never_fails nat 1 ex_phases) as [s E]. exists s. split; [exact E|].
  destruct (C04_counts nat 1 ex_phases s E) as (_ & H & _); [reflexivity|]. apply H. discriminate.
Qed.
Print Assumptions C04_counts.
