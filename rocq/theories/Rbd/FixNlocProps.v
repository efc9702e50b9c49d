(** Properties of the initial guesses for fixed base robots. *)
From Coq Require Import List Arith ZArith QArith Reals Lia Lra Bool.
From Verif Require Import Optcon.SolveModel Rbd.FixNlocModel.
Import ListNotations.
Local Open Scope R_scope.

(** * Specification *)
(** The point that divides the way from [a] to [b] in the ratio [t] to [1 - t], for every component *)
Definition between (t : R) (a b p : list R) : Prop :=
  length p = length a /\ forall k, (k < length a)%nat -> nth k p 0 = (1 - t) * nth k a 0 + t * nth k b 0.

(** * Lemmas *)
Lemma nth_error_firstn {A} (l : list A) : forall k i, (i < k)%nat -> nth_error (firstn k l) i = nth_error l i.
Proof. induction l as [|a l IH]; intros [|k] [|i] H; try lia; try reflexivity. cbn. apply IH. lia. Qed.
Lemma nth_error_repeat_lt {A} (a : A) : forall k i, (i < k)%nat -> nth_error (repeat a k) i = Some a.
Proof. induction k as [|k IH]; intros [|i] H; try lia; [reflexivity|]. cbn. apply IH. lia. Qed.
Lemma resize_firstn {A} (a : A) k l : (k <= length l)%nat -> resize a k l = firstn k l.
Proof. intros H. unfold resize. replace (k - length l)%nat with 0%nat by lia. cbn. apply app_nil_r. Qed.
Lemma truncated {A} (a : A) k l : (k <= length l)%nat -> (if (k <? length l)%nat then resize a k l else l) = firstn k l.
Proof. intros H. destruct (Nat.ltb_spec k (length l)) as [L|L]; [apply resize_firstn; lia|]. symmetry. apply firstn_all2. lia. Qed.
Lemma interpolated_length a b i N : length b = length a -> length (interpolated a b i N) = length a.
Proof. intros H. unfold interpolated, map2. rewrite map_length, combine_length. lia. Qed.
Lemma interpolated_between a b i N : (0 < N)%nat -> length b = length a -> between (INR i / INR N) a b (interpolated a b i N).
Proof.
  intros HN H. split; [apply interpolated_length; exact H|]. intros k Hk. assert (N0 : INR N <> 0) by (apply not_0_INR; lia).
  unfold interpolated, map2. set (f := fun e => _). rewrite (nth_indep _ 0 (f (0, 0))) by (rewrite map_length, combine_length; lia).
  rewrite map_nth, combine_nth by (symmetry; exact H). unfold f. cbn [fst snd]. field. exact N0.
Qed.
Lemma list_nth_eq (a b : list R) : length a = length b -> (forall k, (k < length a)%nat -> nth k a 0 = nth k b 0) -> a = b.
Proof.
  revert b. induction a as [|u a IH]; intros [|v b] L H; try discriminate; [reflexivity|]. f_equal.
  - apply (H 0%nat). cbn. lia.
  - apply IH; [cbn in L; lia|]. intros k Hk. apply (H (S k)). cbn. lia.
Qed.

Section Nloc.
Variables (idTorques : list R -> list R) (stateFromOutput : list R -> list R -> list R) (actuated : bool) (zeroU : list R).
Variables (FB : Type) (x0' u0' : list R) (l0' : FB).
Notation solver := (backend (list R) (list R) FB).
Notation steady := (initializeSteadyPose idTorques actuated zeroU FB x0' u0' l0').
Notation direct := (initializeDirectInterpolation idTorques stateFromOutput actuated zeroU FB x0' u0' l0').

Lemma horizon_stages tf K (s : solver) : computeK (k_dt s) tf = Some K -> exists s1, changeTimeHorizon x0' u0' l0' tf s = Some s1 /\ k_K s1 = K /\ k_dt s1 = k_dt s.
Proof.
  intros HK. assert (HT : negb (Qle_bool 0 tf) = false). { unfold computeK in HK. destruct (negb (Qle_bool 0 tf)); [discriminate|reflexivity]. }
  assert (K1 : (1 <= K)%Z). { unfold computeK in HK. rewrite HT in HK. injection HK as <-. lia. }
  unfold changeTimeHorizon. rewrite HT, HK. unfold changeNumStages. destruct (Z.eqb_spec K (k_K s)) as [E|E]; [exists s; auto|].
  destruct (Z.ltb_spec K 1); [lia|]. eexists. split; [reflexivity|]. split; reflexivity.
Qed.
Lemma computeK_pos dt tf K : computeK dt tf = Some K -> (1 <= K)%Z.
Proof. unfold computeK. destruct (negb _); intros H; [discriminate|]. injection H as <-. lia. Qed.
Lemma guess_taken (g : guess (list R) (list R) FB) (s : solver) : let K := Z.to_nat (k_K s) in
  (K + 1 <= length (g_x g))%nat -> (K <= length (g_u g))%nat -> (K <= length (g_L g))%nat ->
  setInitialGuess x0' u0' l0' g s = Some (MkB (k_K s) (k_dt s) (firstn (K + 1) (g_x g)) (g_x g) (firstn K (g_u g)) (firstn K (g_L g)) (K + 1) true).
Proof.
  intros K H1 H2 H3. unfold setInitialGuess. fold K. destruct (Nat.ltb_spec (length (g_x g)) (K + 1)); [lia|]. destruct (Nat.ltb_spec (length (g_u g)) K); [lia|].
  destruct (Nat.ltb_spec (length (g_L g)) K); [lia|]. rewrite !truncated by lia. rewrite firstn_length, Nat.min_l by lia. reflexivity.
Qed.
Lemma guess_short (g : guess (list R) (list R) FB) (s : solver) : (length (g_x g) < Z.to_nat (k_K s) + 1)%nat -> setInitialGuess x0' u0' l0' g s = None.
Proof. intros H. unfold setInitialGuess. destruct (Nat.ltb_spec (length (g_x g)) (Z.to_nat (k_K s) + 1)); [reflexivity|lia]. Qed.

(** * The steady pose *)
(** A guess at least as long as the horizon is accepted.  The solver then has the stages of the horizon, the given state at every
    time and the same control at every stage: the inverse dynamics torque of the pose, or zero if there are actuator dynamics. *)
Theorem C105_steady x0 tf N K fb (s : solver) : computeK (k_dt s) tf = Some K -> (K <= N)%Z ->
  exists s' u, steady x0 tf N fb s = Some (s', u) /\ u = (if actuated then zeroU else idTorques (joints x0)) /\
  k_K s' = K /\ k_init s' = true /\ length (k_x s') = S (Z.to_nat K) /\ length (k_u s') = Z.to_nat K /\ length (k_L s') = Z.to_nat K /\
  (forall i, (i <= Z.to_nat K)%nat -> nth_error (k_x s') i = Some (joints x0 ++ actuators x0)) /\
  (forall i, (i < Z.to_nat K)%nat -> nth_error (k_u s') i = Some u /\ nth_error (k_L s') i = Some fb).
Proof.
  intros HK L. pose proof (computeK_pos _ _ _ HK) as K1. destruct (horizon_stages tf K s HK) as (s1 & E1 & E2 & E3).
  unfold initializeSteadyPose. destruct (Z.ltb_spec N 0); [lia|]. rewrite E1. rewrite guess_taken; cbn [g_x g_u g_L]; rewrite ?repeat_length, ?E2; try lia.
  rewrite ?E2. set (k := Z.to_nat K). assert (Hk : (k <= Z.to_nat N)%nat) by (unfold k; lia). set (m := Z.to_nat N) in *. set (u := if actuated then zeroU else idTorques (joints x0)).
  eexists _, _. split; [reflexivity|]. unfold changeInitialState. cbn [k_K k_dt k_x k_xprev k_u k_L k_init]. split; [reflexivity|]. split; [reflexivity|]. split; [reflexivity|].
  rewrite !firstn_length, !repeat_length.
  replace (match firstn (k + 1) (repeat (toStateVector x0) (m + 1)) with [] => [toStateVector x0] | _ :: r => toStateVector x0 :: r end) with (firstn (k + 1) (repeat (toStateVector x0) (m + 1))).
  2:{ rewrite !Nat.add_1_r. reflexivity. }
  rewrite firstn_length, repeat_length. split; [lia|]. split; [lia|]. split; [lia|]. split.
  - intros i Hi. rewrite nth_error_firstn by lia. rewrite nth_error_repeat_lt by lia. reflexivity.
  - intros i Hi. rewrite !nth_error_firstn by lia. rewrite !nth_error_repeat_lt by lia. split; reflexivity.
Qed.
Print Assumptions C105_steady.
(** Without actuator dynamics the steady guess is a motion of the robot: where the forward dynamics undo the inverse dynamics at
    rest and the pose is at rest, the derivative of every state of the guess under its control is zero. *)
Theorem C105_equilibrium (fd : list R -> list R -> list R) q n x0 tf N K fb (s : solver) : actuated = false -> actuators x0 = [] ->
  length q = n -> joints x0 = q ++ repeat 0 n -> fd (joints x0) (idTorques (joints x0)) = repeat 0 n ->
  computeK (k_dt s) tf = Some K -> (K <= N)%Z ->
  exists s' u, steady x0 tf N fb s = Some (s', u) /\
  forall i, (i < Z.to_nat K)%nat -> exists xi ui, nth_error (k_x s') i = Some xi /\ nth_error (k_u s') i = Some ui /\
    skipn n xi ++ fd xi ui = repeat 0 (n + n) /\ nth_error (k_x s') (S i) = Some xi.
Proof.
  intros A A0 Hq Hj Hfd HK L. destruct (C105_steady x0 tf N K fb s HK L) as (s' & u & E & Eu & _ & _ & _ & _ & _ & Hx & Hu).
  exists s', u. split; [exact E|]. intros i Hi. exists (joints x0), u. rewrite !Hx by lia. rewrite A0, app_nil_r. split; [reflexivity|].
  split; [apply Hu; exact Hi|]. split; [|reflexivity]. rewrite Eu, A, Hfd, Hj. rewrite skipn_app, skipn_all2 by lia. rewrite Hq, Nat.sub_diag. cbn.
  rewrite repeat_app. reflexivity.
Qed.
Print Assumptions C105_equilibrium.

(** * Direct interpolation *)
Definition jointsAt (x0 xf : robot) (N i : nat) : list R := interpolated (joints x0) (joints xf) i N.
(** The torque in use in round [i]: the last round has none of its own. *)
Definition torqueAt (junk : list R) (x0 xf : robot) (N i : nat) : list R :=
  if (i <? N)%nat then idTorques (jointsAt x0 xf N i) else match N with O => junk | S m => idTorques (jointsAt x0 xf N m) end.
Definition stateAt (junk : list R) (x0 xf : robot) (N i : nat) : list R :=
  jointsAt x0 xf N i ++ (if (0 <? i)%nat && actuated then stateFromOutput (jointsAt x0 xf N i) (torqueAt junk x0 xf N i) else actuators x0).
Definition controlAt (x0 xf : robot) (N i : nat) : list R := if actuated then zeroU else idTorques (jointsAt x0 xf N i).
Lemma rounds junk x0 xf N : forall k, (k <= N)%nat ->
  fold_left (round idTorques stateFromOutput actuated zeroU x0 xf N) (seq 0 k) (junk, [], []) =
  (match k with O => junk | S m => torqueAt junk x0 xf N m end, map (controlAt x0 xf N) (seq 0 k), map (stateAt junk x0 xf N) (seq 0 k)).
Proof.
  induction k as [|k IH]; intros H; [reflexivity|]. rewrite seq_S, fold_left_app, IH by lia. cbn [fold_left Nat.add]. unfold round.
  destruct (Nat.ltb_spec k N) as [L|L]; [|lia]. rewrite !map_app. cbn [map]. fold (jointsAt x0 xf N k).
  assert (T : torqueAt junk x0 xf N k = idTorques (jointsAt x0 xf N k)) by (unfold torqueAt; destruct (Nat.ltb_spec k N); [reflexivity|lia]).
  assert (E : stateAt junk x0 xf N k = jointsAt x0 xf N k ++ (if (0 <? k)%nat && actuated then stateFromOutput (jointsAt x0 xf N k) (idTorques (jointsAt x0 xf N k)) else actuators x0))
    by (unfold stateAt; rewrite T; reflexivity).
  rewrite E, T. reflexivity.
Qed.
Lemma all_rounds junk x0 xf N :
  fold_left (round idTorques stateFromOutput actuated zeroU x0 xf N) (seq 0 (N + 1)) (junk, [], []) =
  (torqueAt junk x0 xf N N, map (controlAt x0 xf N) (seq 0 N), map (stateAt junk x0 xf N) (seq 0 (N + 1))).
Proof.
  rewrite Nat.add_1_r, seq_S, fold_left_app, rounds by lia. cbn [fold_left Nat.add]. unfold round. rewrite Nat.ltb_irrefl. rewrite map_app. cbn [map]. fold (jointsAt x0 xf N N).
  assert (T : torqueAt junk x0 xf N N = match N with O => junk | S m => torqueAt junk x0 xf N m end).
  { unfold torqueAt at 1. rewrite Nat.ltb_irrefl. destruct N as [|m]; [reflexivity|]. unfold torqueAt. destruct (Nat.ltb_spec m (S m)); [reflexivity|lia]. }
  assert (E : stateAt junk x0 xf N N = jointsAt x0 xf N N ++ (if (0 <? N)%nat && actuated then stateFromOutput (jointsAt x0 xf N N) (match N with O => junk | S m => torqueAt junk x0 xf N m end) else actuators x0))
    by (unfold stateAt; rewrite <- T; reflexivity).
  rewrite E, T. reflexivity.
Qed.
Lemma direct_result junk x0 xf tf N K fb (s : solver) : computeK (k_dt s) tf = Some K -> (K <= N)%Z -> let m := Z.to_nat N in let k := Z.to_nat K in
  direct junk x0 xf tf N fb s = Some (MkB K (k_dt s) (firstn (k + 1) (map (stateAt junk x0 xf m) (seq 0 (m + 1)))) (map (stateAt junk x0 xf m) (seq 0 (m + 1)))
    (firstn k (map (controlAt x0 xf m) (seq 0 m))) (firstn k (repeat fb m)) (k + 1) true, map (controlAt x0 xf m) (seq 0 m), map (stateAt junk x0 xf m) (seq 0 (m + 1))).
Proof.
  intros HK L m k. pose proof (computeK_pos _ _ _ HK) as K1. assert (Hk : (k <= m)%nat) by (unfold k, m; lia).
  destruct (horizon_stages tf K (changeInitialState (toStateVector x0) s) HK) as (s1 & E1 & E2 & E3).
  unfold initializeDirectInterpolation. destruct (Z.ltb_spec N 0); [lia|]. fold m. rewrite all_rounds. rewrite E1.
  rewrite guess_taken; cbn [g_x g_u g_L]; rewrite ?map_length, ?seq_length, ?repeat_length, ?E2; fold k; try lia. rewrite E3. reflexivity.
Qed.
(** The joints of every state lie on the straight line from the first to the last pose, the controls without actuator dynamics are
    the inverse dynamics torques of those joints, and the actuator states between the ends give these torques. *)
Theorem C105_interpolation junk x0 xf tf N K fb (s : solver) : computeK (k_dt s) tf = Some K -> (K <= N)%Z -> length (joints xf) = length (joints x0) ->
  exists s' us xs, direct junk x0 xf tf N fb s = Some (s', us, xs) /\ k_K s' = K /\ k_init s' = true /\
  length (k_x s') = S (Z.to_nat K) /\ length (k_u s') = Z.to_nat K /\ length (k_L s') = Z.to_nat K /\
  (forall i, (i <= Z.to_nat K)%nat -> exists p a, nth_error (k_x s') i = Some (p ++ a) /\ between (INR i / INR (Z.to_nat N)) (joints x0) (joints xf) p /\
     (i = 0%nat \/ actuated = false -> a = actuators x0) /\
     ((0 < i < Z.to_nat N)%nat -> actuated = true -> a = stateFromOutput p (idTorques p)) /\
     ((i < Z.to_nat K)%nat -> nth_error (k_u s') i = Some (if actuated then zeroU else idTorques p) /\ nth_error (k_L s') i = Some fb)) /\
  length us = Z.to_nat N /\ length xs = S (Z.to_nat N) /\ (forall i, (i <= Z.to_nat K)%nat -> nth_error xs i = nth_error (k_x s') i) /\
  (forall i, (i < Z.to_nat K)%nat -> nth_error us i = nth_error (k_u s') i).
Proof.
  intros HK L HL. pose proof (computeK_pos _ _ _ HK) as K1. rewrite (direct_result junk x0 xf tf N K fb s HK L). set (m := Z.to_nat N). set (k := Z.to_nat K). assert (Hk : (0 < k <= m)%nat) by (unfold k, m; lia).
  eexists _, _, _. split; [reflexivity|]. cbn [k_K k_init k_x k_u k_L]. split; [reflexivity|]. split; [reflexivity|].
  rewrite !firstn_length, !map_length, !seq_length, repeat_length. split; [lia|]. split; [lia|]. split; [lia|].
  assert (Sx : forall i, (i <= k)%nat -> nth_error (map (stateAt junk x0 xf m) (seq 0 (m + 1))) i = Some (stateAt junk x0 xf m i)).
  { intros i Hi. apply map_nth_error. rewrite (nth_error_nth' _ 0%nat) by (rewrite seq_length; lia). rewrite seq_nth by lia. reflexivity. }
  assert (Su : forall i, (i < k)%nat -> nth_error (map (controlAt x0 xf m) (seq 0 m)) i = Some (controlAt x0 xf m i)).
  { intros i Hi. apply map_nth_error. rewrite (nth_error_nth' _ 0%nat) by (rewrite seq_length; lia). rewrite seq_nth by lia. reflexivity. }
  split; [|split; [lia|split; [lia|split]]].
  - intros i Hi. rewrite nth_error_firstn, Sx by lia. eexists _, _. split; [reflexivity|]. split; [apply interpolated_between; [lia|exact HL]|]. split; [|split].
    + intros [->|A]; [reflexivity|]. rewrite A, andb_false_r. reflexivity.
    + intros [I1 I2] A. rewrite A. destruct (Nat.ltb_spec 0 i); [|lia]. cbn [andb]. unfold torqueAt. destruct (Nat.ltb_spec i m); [reflexivity|lia].
    + intros I. rewrite !nth_error_firstn by lia. rewrite Su, nth_error_repeat_lt by lia. split; reflexivity.
  - intros i Hi. rewrite nth_error_firstn by lia. reflexivity.
  - intros i Hi. rewrite nth_error_firstn by lia. reflexivity.
Qed.
Print Assumptions C105_interpolation.
(** With as many points as stages the guess starts in the first state and ends with the joints of the last. *)
Theorem C105_ends junk x0 xf tf K fb (s : solver) : computeK (k_dt s) tf = Some K -> length (joints xf) = length (joints x0) ->
  exists s' us xs a, direct junk x0 xf tf K fb s = Some (s', us, xs) /\ nth_error (k_x s') 0 = Some (joints x0 ++ actuators x0) /\
  nth_error (k_x s') (Z.to_nat K) = Some (joints xf ++ a).
Proof.
  intros HK HL. pose proof (computeK_pos _ _ _ HK) as K1. destruct (C105_interpolation junk x0 xf tf K K fb s HK ltac:(lia) HL) as (s' & us & xs & E & _ & _ & _ & _ & _ & H & _).
  assert (KN : INR (Z.to_nat K) <> 0) by (apply not_0_INR; lia).
  destruct (H 0%nat ltac:(lia)) as (p & a & H1 & (B1 & B2) & H3 & _). destruct (H (Z.to_nat K) ltac:(lia)) as (p' & a' & H1' & (B1' & B2') & _).
  assert (p = joints x0) as ->. { apply list_nth_eq; [exact B1|]. intros k Hk. rewrite B2 by lia. cbn [INR]. field. exact KN. }
  assert (p' = joints xf) as ->. { apply list_nth_eq; [lia|]. intros k Hk. rewrite B2' by lia. field. exact KN. }
  rewrite H3 in H1 by (left; reflexivity). exists s', us, xs, a'. split; [exact E|]. split; assumption.
Qed.
Print Assumptions C105_ends.
(** Guesses shorter than the horizon, of negative length or for a negative horizon are rejected. *)
Theorem C105_short junk x0 xf tf N fb (s : solver) : computeK (k_dt s) tf = None \/ (exists K, computeK (k_dt s) tf = Some K /\ (N < K)%Z) ->
  direct junk x0 xf tf N fb s = None /\ steady x0 tf N fb s = None.
Proof.
  intros H. unfold initializeDirectInterpolation, initializeSteadyPose. destruct (Z.ltb_spec N 0); [split; reflexivity|]. rewrite all_rounds.
  destruct H as [H|(K & HK & L)].
  - assert (T : Qle_bool 0 tf = false). { unfold computeK in H. destruct (Qle_bool 0 tf); [discriminate|reflexivity]. } unfold changeTimeHorizon. rewrite T. split; reflexivity.
  - pose proof (computeK_pos _ _ _ HK) as K1. destruct (horizon_stages tf K s HK) as (s1 & E1 & E2 & _). destruct (horizon_stages tf K (changeInitialState (toStateVector x0) s) HK) as (s2 & F1 & F2 & _).
    rewrite E1, F1. rewrite !guess_short; [split; reflexivity| |]; cbn [g_x]; rewrite ?repeat_length, ?map_length, ?seq_length; lia.
Qed.
Print Assumptions C105_short.
End Nloc.

(** * Refutations *)
Definition emptySolver : backend (list R) (list R) unit := MkB 0 (1#1) [] [] [] [] 0 false.
(** With actuator dynamics the last actuator state is made from the torque of the state before the last: for a robot whose torque is
    its position, two stages from 0 to 1 end with the actuator output 1/2. *)
Theorem C105_last_actuator_refuted : exists s' us xs,
  initializeDirectInterpolation (fun j => [nth 0 j 0]) (fun _ u => u) true [0] unit [] [] tt [] (mkRobot [0; 0] [0]) (mkRobot [1; 0] [1]) (2#1) 2 tt emptySolver = Some (s', us, xs) /\
  exists q v a, nth_error (k_x s') 2 = Some [q; v; a] /\ q = 1 /\ v = 0 /\ a = 1 / 2.
Proof.
  rewrite (direct_result _ _ _ _ _ _ _ _ [] (mkRobot [0; 0] [0]) (mkRobot [1; 0] [1]) (2#1) 2 2 tt emptySolver); [|reflexivity|lia].
  eexists _, _, _. split; [reflexivity|]. eexists _, _, _. split; [reflexivity|]. unfold jointsAt, interpolated, map2. cbn [combine map nth fst snd joints]. change (INR (Z.to_nat 2)) with (1 + 1). cbn [INR]. repeat split; field.
Qed.
Print Assumptions C105_last_actuator_refuted.
(** With more points than stages the guess is cut off: it stops short of the last pose. *)
Theorem C105_cut_refuted : exists s' us xs,
  initializeDirectInterpolation (fun j => [nth 0 j 0]) (fun _ u => u) false [0] unit [] [] tt [] (mkRobot [0; 0] []) (mkRobot [1; 0] []) (1#1) 2 tt emptySolver = Some (s', us, xs) /\
  length (k_x s') = 2%nat /\ exists q v, nth_error (k_x s') 1 = Some [q; v] /\ q = 1 / 2.
Proof.
  rewrite (direct_result _ _ _ _ _ _ _ _ [] (mkRobot [0; 0] []) (mkRobot [1; 0] []) (1#1) 2 1 tt emptySolver); [|reflexivity|lia].
  eexists _, _, _. split; [reflexivity|]. split; [reflexivity|]. eexists _, _. split; [reflexivity|]. unfold jointsAt, interpolated, map2. cbn [combine map nth fst snd joints]. change (INR (Z.to_nat 2)) with (1 + 1). cbn [INR]. field.
Qed.
Print Assumptions C105_cut_refuted.
(** The hypotheses hold for a horizon of two steps; a mass that needs no torque at rest meets those of the equilibrium. *)
Example horizon_case : computeK (k_dt emptySolver) (2#1) = Some 2%Z /\ (2 <= 3)%Z /\ length (joints (mkRobot [1; 0] [])) = length (joints (mkRobot [0; 0] [])) /\
  computeK (k_dt emptySolver) (- 1 # 1) = None.
Proof. repeat split; try reflexivity; lia. Qed.
Example equilibrium_case : let fd := fun (j u : list R) => [nth 0 u 0 - 3 * nth 0 j 0] in let id := fun j : list R => [3 * nth 0 j 0] in
  joints (mkRobot [2; 0] []) = [2] ++ repeat 0 1 /\ fd (joints (mkRobot [2; 0] [])) (id (joints (mkRobot [2; 0] []))) = repeat 0 1.
Proof. cbn. split; [reflexivity|]. f_equal. lra. Qed.
