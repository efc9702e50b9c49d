(** C35 and C38: rollout of shots. *)
From Coq Require Import List Arith Bool ZArith Reals Lra Lia.
From Verif.Optcon Require Import MpModel MpSpec MpProofs MpOrder MpLive MpProps RolloutModel RolloutSpec RolloutProofs.
Import ListNotations.

Section Props.
Variables V U : Type.
Variable v0 : V.
Variable u0 : U.
Variable dyn : nat -> V -> U -> V.
Variable closed : bool.
Variable fb : nat -> V -> U -> U.
Variable sub : V -> V -> V.
Variable zero : V.
Variable nanV : V -> bool.
Variable nanU : U -> bool.
Variable K : nat.
Variable single : bool.
Variable Kshot : nat.
Notation perShot := (shot_length K single Kshot).
Lemma shot_length_ok : shot_length K single Kshot = RolloutModel.perShot K single Kshot.
Proof. reflexivity. Qed.
Notation state := (state V U v0). Notation control := (control V U u0).
Notation integrated := (integrated V U v0). Notation defect_at := (defect_at V U v0).
Notation rollout_all := (rolloutShotsSingleThreaded v0 u0 dyn closed fb sub zero nanV nanU K single Kshot).

(** ** C35.  A rollout of all shots that ends without NaN: every stage integrates the dynamics from the state of
    that stage; inside a shot the next state is the integrated one, the first state of a shot is the one given;
    the terminal state is the last integrated one; with closed-loop shooting the control is corrected with the new
    state; the defect is the gap at the end of a shot and zero elsewhere. *)
Theorem C35_rollout r r' : 0 < K -> 0 < Kshot -> (forall v, sub v v = zero) -> dimensioned V U K r ->
  rollout_all 0 (K - 1) r = (r', true) ->
  (forall i, i < K -> integrated r' i = dyn i (state r' i) (control r' i)) /\
  (forall i, i < K -> control r' i = if closed then fb i (state r' i) (control r i) else control r i) /\
  (forall i, i < K -> i mod perShot = 0 -> state r' i = state r i) /\
  (forall i, i < K -> S i mod perShot <> 0 -> state r' (S i) = integrated r' i) /\
  state r' K = integrated r' (K - 1) /\
  (forall i, i < K -> defect_at r' i = if (S i mod perShot =? 0) && (S i <? K) then sub (integrated r' i) (state r' (S i)) else zero) /\
  defect_at r' K = zero /\ dimensioned V U K r'.
Proof.
  rewrite shot_length_ok. intros HK Hs Hsub Hdim Hroll.
  assert (HI : all_inv V U v0 u0 dyn closed fb sub zero K single Kshot K r r').
  { apply (all_shots V U v0 u0 dyn closed fb sub zero nanV nanU K single Kshot Hsub (S (K - 1)) 0 r
      (MkTraj (r_x r) (r_u r) (r_xs r) (map (fun _ => zero) (r_d r))) r'); auto; try lia.
    - apply Nat.mod_0_l. unfold RolloutModel.perShot; destruct single; lia.
    - cbn. now apply all_inv_start. }
  destruct HI as (HS & HA & HB & HC & HD & _ & _ & HG). unfold starts_shot in *.
  split; [|split; [|split; [|split; [|split; [|split; [|split]]]]]].
  - intros i Hi. now apply HA.
  - intros i Hi. now apply HA.
  - intros i Hi Hm. specialize (HB i Hi). rewrite Hm, Nat.eqb_refl in HB. exact HB.
  - intros i Hi Hm. destruct (Nat.eq_dec (S i) K) as [E|E].
    + specialize (HC eq_refl). rewrite <- E in HC. cbn in HC. rewrite Nat.sub_0_r in HC. exact HC.
    + specialize (HB (S i) ltac:(lia)). destruct (Nat.eqb_spec (S i mod RolloutModel.perShot K single Kshot) 0); [contradiction|].
      cbn in HB. rewrite Nat.sub_0_r in HB. exact HB.
  - now apply HC.
  - exact HD.
  - apply HG. lia.
  - exact HS.
Qed.

(** ** C35.  The norm of the defects vanishes iff the trajectory obeys the dynamics everywhere. *)
Theorem C35_defect_norm (norm : V -> R) r r' : 0 < K -> 0 < Kshot -> (forall v, sub v v = zero) ->
  (forall a b, sub a b = zero -> a = b) -> (forall v, (0 <= norm v)%R) -> (forall v, norm v = 0%R <-> v = zero) ->
  dimensioned V U K r -> rollout_all 0 (K - 1) r = (r', true) ->
  (defects_norm norm (r_d r') = 0%R <-> consistent V U v0 u0 dyn K r').
Proof.
  intros HK Hs Hsub Hsub' Hn0 Hn Hdim Hroll.
  destruct (C35_rollout r r' HK Hs Hsub Hdim Hroll) as (P1 & P2 & P3 & P4 & P5 & P6 & P7 & _ & _ & _ & Hlen).
  assert (HZ : forall l, (0 <= defects_norm norm l)%R /\ (defects_norm norm l = 0%R <-> forall v, In v l -> v = zero)).
  { induction l as [|a l [IH1 IH2]]; cbn; [split; [lra|split; [intros _ v []|auto]]|].
    unfold defects_norm in *. cbn. specialize (Hn0 a). split; [lra|]. split.
    - intros H v [<-|Hv]; [apply Hn; lra|]. apply IH2; auto. lra.
    - intros H. assert (norm a = 0%R) by (apply Hn, H; now left). assert (fold_right Rplus 0 (map norm l) = 0)%R by (apply IH2; auto). lra. }
  rewrite (proj2 (HZ (r_d r'))). split.
  - intros H i Hi. rewrite <- P1 by auto.
    destruct (Nat.eq_dec (S i) K) as [E|E]; [rewrite E, P5; f_equal; lia|].
    destruct (Nat.eq_dec (S i mod perShot) 0) as [Hm|Hm]; [|now apply P4].
    specialize (P6 i Hi). rewrite Hm, Nat.eqb_refl in P6. destruct (Nat.ltb_spec (S i) K); [|lia]. cbn [andb] in P6.
    symmetry. apply Hsub'. rewrite <- P6. apply H. apply nth_In. lia.
  - intros H v Hv. apply (In_nth _ _ v0) in Hv. destruct Hv as (i & Hi & <-). rewrite Hlen in Hi.
    destruct (Nat.eq_dec i K) as [->|Hne]; [exact P7|].
    change (nth i (r_d r') v0) with (defect_at r' i). rewrite P6 by lia.
    destruct (_ && _); [|reflexivity]. rewrite (H i) by lia. rewrite P1 by lia. apply Hsub.
Qed.

(** ** C38.  Multi-threaded rollout.  From a reachable moment between calls at which no worker carries earlier work,
    for every number of threads and every interleaving in which rolloutShots(first, last) returns, the states,
    controls, integrated states and defects are those of the single-threaded loop.  All callers pass a first index
    that begins a shot. *)
Notation micro := (rollout_micro v0 u0 dyn closed fb sub nanV nanU K single Kshot).
Notation direct := (rollout_direct v0 u0 dyn closed fb sub nanV nanU K single Kshot).
Notation rolloutST := (rolloutShots v0 u0 dyn closed fb sub nanV nanU K single Kshot).

Theorem C38_parallel_rollout_partial n t ts sch (s0 s : st (mstate V U)) :
  0 < Kshot -> 0 < K -> tk_kind t = Shots -> tk_min t < tk_max t < K -> tk_min t mod perShot = 0 ->
  tk_max t < length (snd (s_data s0)) ->
  reachable micro direct n s0 -> s_main s0 = MIdle (t :: ts) -> Forall at_rest (s_workers s0) ->
  run micro direct sch s0 = Some s -> s_main s = MIdle ts ->
  fst (s_data s) = rolloutST (tk_min t) (tk_max t) (fst (s_data s0)).
Proof.
  rewrite shot_length_ok. intros Hs HK Hkd [Hmm HmK] Hmod Hfl HR Hm Hrest Hrun Hend.
  assert (Hp : 0 < RolloutModel.perShot K single Kshot) by (unfold RolloutModel.perShot; destruct single; lia).
  rewrite (C37_sequential_result_partial (mstate V U) micro direct n t ts sch s0 s (seq (tk_min t) (S (tk_max t) - tk_min t)) HR Hm Hrest Hmm Hrun Hend);
    [|rewrite Hkd; now apply shots_commute|reflexivity].
  rewrite Hkd. destruct (s_data s0) as [r0 fl0]. cbn [snd] in Hfl. etransitivity.
  - apply seq_run. intros k Hk. apply in_seq in Hk. lia.
  - symmetry. apply rolloutShots_starts; auto. lia.
Qed.

(** The first call after the threads were launched needs no hypothesis on stragglers. *)
Theorem C38_first_rollout n taken completed kmax kmin pid r fl t ts sch s :
  0 < Kshot -> 0 < K -> tk_kind t = Shots -> tk_min t < tk_max t < K -> tk_min t mod perShot = 0 -> tk_max t < length fl ->
  run micro direct sch (launch n taken completed kmax kmin pid (r, fl) (t :: ts)) = Some s -> s_main s = MIdle ts ->
  fst (s_data s) = rolloutST (tk_min t) (tk_max t) r.
Proof.
  intros Hs HK Hkd Hr Hmod Hfl Hrun Hend.
  apply (C38_parallel_rollout_partial n t ts sch (launch n taken completed kmax kmin pid (r, fl) (t :: ts)) s); auto.
  - exists taken, completed, kmax, kmin, pid, (r, fl), (t :: ts), []. reflexivity.
  - cbn. apply Forall_forall. intros w Hw. apply repeat_spec in Hw. subst w. exact I.
Qed.

(** A call for one index is done by the caller and agrees with the single-threaded loop for every index. *)
Theorem C38_single_index t ts (s : st (mstate V U)) : 0 < Kshot -> 0 < K -> tk_kind t = Shots -> tk_min t = tk_max t ->
  tk_min t < length (snd (s_data s)) -> s_main s = MIdle (t :: ts) ->
  exists s', main_next direct s = Some s' /\ s_main s' = MIdle ts /\
    fst (s_data s') = rolloutST (tk_min t) (tk_max t) (fst (s_data s)).
Proof.
  intros Hs HK Hkd He Hfl Hm.
  assert (Hp : 0 < RolloutModel.perShot K single Kshot) by (unfold RolloutModel.perShot; destruct single; lia).
  destruct (C37_single_stage (mstate V U) micro direct t ts s He Hm) as (s' & H1 & H2 & H3 & _).
  exists s'. split; [exact H1|]. split; [exact H2|]. rewrite H3, Hkd. cbn [rollout_direct].
  destruct (s_data s) as [r0 fl0]. cbn [snd] in Hfl. rewrite shot_run by exact Hfl. cbn [fst].
  unfold rolloutShots. rewrite <- He. cbn [RolloutModel.starts]. rewrite Nat.leb_refl.
  replace (starts K single Kshot (tk_min t) (tk_min t + RolloutModel.perShot K single Kshot) (tk_min t)) with (@nil nat).
  - reflexivity.
  - destruct (tk_min t) as [|m]; [reflexivity|]. cbn [RolloutModel.starts].
    destruct (Nat.leb_spec (S m + RolloutModel.perShot K single Kshot) (S m)); [lia|reflexivity].
Qed.
End Props.
Print Assumptions C35_rollout.
Print Assumptions C35_defect_norm.
Print Assumptions C38_parallel_rollout_partial.
Print Assumptions C38_first_rollout.
Print Assumptions C38_single_index.

(** ** Examples: x' = x + u, four stages, shots of two stages. *)
Open Scope Z_scope.
Definition ex_dyn (i : nat) (x u : Z) : Z := x + u.
Definition ex_r : traj Z Z := MkTraj [1; 0; 5; 0; 0] [1; 2; 3; 4] [0; 0; 0; 0; 0] [9; 9; 9; 9; 9].
Example C35_example :
  rolloutShotsSingleThreaded 0 0 ex_dyn false (fun _ _ u => u) Z.sub 0 (fun _ => false) (fun _ => false) 4 false 2 0 3 ex_r
  = (MkTraj [1; 2; 5; 8; 12] [1; 2; 3; 4] [2; 4; 8; 12; 0] [0; -1; 0; 0; 0], true).
Proof. reflexivity. Qed.
Example C35_example_hyp : dimensioned Z Z 4 ex_r /\ (forall v, v - v = 0) /\ (forall a b, a - b = 0 -> a = b).
Proof. repeat split; intros; lia. Qed.
(** Two threads roll out the same four stages, in turn. *)
Definition ex_schedule : list ev :=
  times 7 Main ++ times 3 (Wk 1) ++ times 3 (Wk 0) ++ concat (repeat [Wk 0%nat; Wk 1%nat] 28) ++ times 4 (Wk 0) ++ times 2 Main.
Example C38_example : exists s,
  run (rollout_micro 0 0 ex_dyn false (fun _ _ u => u) Z.sub (fun _ => false) (fun _ => false) 4 false 2)
      (rollout_direct 0 0 ex_dyn false (fun _ _ u => u) Z.sub (fun _ => false) (fun _ => false) 4 false 2)
      ex_schedule (launch 2 0 0 0 0 0 (ex_r, repeat false 5) [MkTask Shots 0 3 1]) = Some s /\
  s_main s = MIdle [] /\ r_x (fst (s_data s)) = [1; 2; 5; 8; 12].
Proof. eexists. split; [vm_compute; reflexivity|]. auto. Qed.
