(** C26: the shooting grid.  C27: the decision vector of direct multiple shooting.
    The vocabulary is in DmsSpec.v. *)
From Coq Require Import Reals List Bool Arith ZArith SpecFloat Lia Lra.
From Verif Require Import Base.Outcome Base.Scalar Optcon.DmsModel Optcon.DmsSpec
  Optcon.DmsProofs.
Import ListNotations.
Local Open Scope R_scope.

(** ** C26 *)

(** Calls on a grid, and what they mean: the number of shots, the horizon last asked for, and
    the durations of the shots. *)
Inductive gcall := GShots (N : nat) | GHorizon (T : R) | GSegments (h : list R).
Definition gstep (c : gcall) (g : grid R) : outcome (grid R) :=
  match c with
  | GShots N => rChangeShotCount N g
  | GHorizon T => rChangeTimeHorizon T g
  | GSegments h => rUpdateTimeGrid h g
  end.
Fixpoint grun (cs : list gcall) (g : grid R) : outcome (grid R) :=
  match cs with
  | [] => Ok g
  | c :: r => do g' <- gstep c g ;; grun r g'
  end.
Definition equal_shots (N : nat) (T : R) : list R := repeat (T / INR N) N.
Definition meaning_step (s : nat * R * list R) (c : gcall) : nat * R * list R :=
  let '(N, T, _) := s in
  match c with
  | GShots N' => (N', T, equal_shots N' T)
  | GHorizon T' => (N, T', equal_shots N T')
  | GSegments h => (N, T, h)
  end.
Definition meaning (N : nat) (T : R) (cs : list gcall) : nat * R * list R :=
  fold_left meaning_step cs (N, T, equal_shots N T).
(** Admissible calls: at least one shot, positive horizon, as many positive segments as shots. *)
Fixpoint admissible (N : nat) (cs : list gcall) : Prop :=
  match cs with
  | [] => True
  | GShots N' :: r => (1 <= N')%nat /\ admissible N' r
  | GHorizon T :: r => 0 < T /\ admissible N r
  | GSegments h :: r => length h = N /\ Forall (fun d => 0 < d) h /\ admissible N r
  end.

(** The grid describes the given durations. *)
Definition describes (g : grid R) (N : nat) (T : R) (durations : list R) : Prop :=
  length durations = N /\ g_N g = N /\ getTimeHorizon g = T /\
  getShotStartTime g 0 = Ok 0 /\
  (forall i, (i < N)%nat -> exists s e,
     getShotStartTime g i = Ok s /\ getShotEndTime g i = Ok e /\
     getShotStartTime g (S i) = Ok e /\ s < e /\
     rShotDuration g i = Ok (e - s) /\ nth i durations 0 = e - s) /\
  getOptimizedTimeHorizon g = Ok (fold_right Rplus 0 durations) /\
  partitions N (fold_right Rplus 0 durations) (g_t g).

Lemma describes_times g N T d : g_N g = N -> g_T g = T -> length d = N ->
  Forall (fun x => 0 < x) d -> g_t g = 0 :: sums 0 d -> describes g N T d.
Proof.
  intros HN HT Hd Hp Ht.
  assert (Hl : length (g_t g) = S N) by (rewrite Ht; simpl; now rewrite sums_length, Hd).
  assert (Hinc : forall i, (i < N)%nat ->
    nth (S i) (g_t g) 0 = nth i (g_t g) 0 + nth i d 0 /\ 0 < nth i d 0).
  { intros i Hi. split.
    - rewrite Ht. cbn [nth]. rewrite sums_nth by lia. reflexivity.
    - rewrite Forall_forall in Hp. apply Hp. apply nth_In. lia. }
  assert (Hlast : nth N (g_t g) 0 = fold_right Rplus 0 d).
  { rewrite Ht, <- Hd, sums_last. lra. }
  split; [exact Hd|]. split; [exact HN|]. split; [exact HT|]. split; [|split; [|split]].
  - unfold getShotStartTime. rewrite Ht. reflexivity.
  - intros i Hi. destruct (Hinc i Hi) as [H1 H2].
    exists (nth i (g_t g) 0), (nth (S i) (g_t g) 0).
    unfold getShotStartTime, getShotEndTime, rShotDuration, getShotDuration.
    rewrite Nat.add_1_r, !(vec_get_nth _ _ 0) by lia. cbn [obind].
    repeat split; try lra. 
  - unfold getOptimizedTimeHorizon, vec_back. rewrite Ht at 1. rewrite Hl.
    rewrite (vec_get_nth _ _ 0) by lia. now rewrite Nat.sub_succ, Nat.sub_0_r, Hlast.
  - split; [exact Hl|]. split; [now rewrite Ht|]. split; [exact Hlast|].
    intros i Hi. destruct (Hinc i Hi). lra.
Qed.

Lemma gridTimes_sums N T : (1 <= N)%nat ->
  gridTimes Rops INR N T = 0 :: sums 0 (equal_shots N T).
Proof.
  intros HN. assert (HI : 0 < INR N) by (apply lt_0_INR; lia).
  assert (G : forall k i, sums (INR i * (T / INR N)) (repeat (T / INR N) k) =
    map (fun j => INR j * (T / INR N)) (seq (S i) k)).
  { induction k as [|k IH]; intros i; [reflexivity|]. cbn [repeat sums seq map].
    replace (INR i * (T / INR N) + T / INR N) with (INR (S i) * (T / INR N))
      by (rewrite S_INR; ring). now rewrite IH. }
  unfold gridTimes, equal_shots. rewrite Nat.add_1_r.
  change (seq 0 (S N)) with (0%nat :: seq 1 N). rewrite map_cons.
  apply f_equal2.
  - simpl. lra.
  - specialize (G N 0%nat). simpl INR in G at 1. rewrite Rmult_0_l in G. rewrite G. reflexivity.
Qed.

Lemma equal_shots_pos N T : (1 <= N)%nat -> 0 < T -> Forall (fun d => 0 < d) (equal_shots N T).
Proof.
  intros HN HT. apply Forall_forall. intros d Hd. apply repeat_spec in Hd. subst d.
  apply Rdiv_lt_0_compat; auto. apply lt_0_INR. lia.
Qed.

Lemma uniform_describes N T t : (1 <= N)%nat -> 0 < T -> length t = (N + 1)%nat ->
  exists g, makeUniformGrid R Rops INR (mkGrid N T t) = Ok g /\
            describes g N T (equal_shots N T) /\ g_T g = T /\ length (g_t g) = (N + 1)%nat.
Proof.
  intros HN HT Hl. rewrite makeUniformGrid_spec by exact Hl. eexists. split; [reflexivity|].
  split; [|split; [reflexivity|apply gridTimes_length]].
  apply describes_times; auto; try reflexivity.
  - apply repeat_length.
  - now apply equal_shots_pos.
  - cbn [g_t]. now apply gridTimes_sums.
Qed.

(** After the constructor and any sequence of admissible calls, the grid consists of exactly the
    shots the calls ask for: it starts at 0, each shot ends where the next starts, durations are
    positive and sum to the end of the grid, and the horizon reported is the one last asked
    for. *)
Theorem C26_history N T cs : (1 <= N)%nat -> 0 < T -> admissible N cs ->
  exists g0 g, rNewGrid N T = Ok g0 /\ grun cs g0 = Ok g /\
    let '(N', T', durations) := meaning N T cs in describes g N' T' durations.
Proof.
  intros HN HT Ha. unfold rNewGrid, newGrid.
  destruct (uniform_describes N T (repeat (s_zero Rops) (N + 1)) HN HT (repeat_length _ _))
    as (g0 & E0 & D0 & HT0 & L0).
  exists g0. rewrite E0. unfold meaning.
  assert (G : forall cs N T d g, (1 <= N)%nat -> 0 < T -> admissible N cs ->
    describes g N T d -> g_T g = T -> length (g_t g) = (N + 1)%nat ->
    exists g', grun cs g = Ok g' /\
      let '(N', T', durations) := fold_left meaning_step cs (N, T, d) in
      describes g' N' T' durations).
  { clear. induction cs as [|c cs IH]; intros N T d g HN HT Ha Hd HgT Hl.
    - exists g. split; [reflexivity|exact Hd].
    - assert (HgN : g_N g = N) by apply Hd.
      destruct c as [N'|T'|h]; cbn [grun gstep admissible fold_left meaning_step] in *.
      + destruct Ha as [HN' Ha].
        destruct (uniform_describes N' T (repeat (s_zero Rops) (N' + 1)) HN' HT
                    (repeat_length _ _)) as (g1 & E1 & D1 & T1 & L1).
        unfold rChangeShotCount, changeShotCount. rewrite HgT, E1. cbn [obind].
        apply (IH N' T _ g1); auto.
      + destruct Ha as [HT' Ha].
        destruct (uniform_describes N T' (g_t g) HN HT' Hl) as (g1 & E1 & D1 & T1 & L1).
        unfold rChangeTimeHorizon, gridChangeTimeHorizon. rewrite HgN, E1. cbn [obind].
        apply (IH N T' _ g1); auto.
      + destruct Ha as (Hh & Hp & Ha).
        destruct g as [gN gT gt]; cbn [g_N g_T g_t] in *. subst gN gT.
        rewrite updateTimeGrid_spec by lia. cbn [obind].
        apply (IH N T h); auto.
        * apply describes_times; auto.
        * simpl. rewrite sums_length. lia. }
  destruct (G cs N T _ g0 HN HT Ha D0 HT0 L0) as (g & Eg & Dg).
  exists g. split; [reflexivity|]. split; [exact Eg|exact Dg].
Qed.

(** In particular a fresh grid, or one whose horizon or number of shots was changed last, is the
    uniform partition of [0, T]. *)
Theorem C26_uniform N T : (1 <= N)%nat -> 0 < T ->
  exists g, rNewGrid N T = Ok g /\ partitions N T (g_t g) /\ uniform N T (g_t g).
Proof.
  intros HN HT. eexists. split.
  - unfold rNewGrid, newGrid. apply makeUniformGrid_spec. apply repeat_length.
  - cbn [g_t]. now apply gridTimes_partition.
Qed.
Theorem C26_rescale N T T' cs : (1 <= N)%nat -> 0 < T -> 0 < T' -> admissible N cs ->
  exists g0 g, rNewGrid N T = Ok g0 /\ grun (cs ++ [GHorizon T']) g0 = Ok g /\
    let '(N', _, _) := meaning N T cs in
    partitions N' T' (g_t g) /\ uniform N' T' (g_t g).
Proof.
  intros HN HT HT' Ha.
  destruct (C26_history N T cs HN HT Ha) as (g0 & g1 & E0 & E1 & D).
  exists g0. destruct (meaning N T cs) as [[N' T1] d] eqn:Em.
  assert (HgN : g_N g1 = N') by apply D.
  assert (Hl : length (g_t g1) = S N') by apply D.
  assert (HN' : (1 <= N')%nat).
  { unfold meaning in Em. clear - Em HN Ha.
    assert (G : forall cs N s, (1 <= N)%nat -> admissible N cs -> fst (fst s) = N ->
      (1 <= fst (fst (fold_left meaning_step cs s)))%nat).
    { clear. induction cs as [|c cs IH]; intros N [[n0 t0] d0] HN Ha E; simpl in *.
      - lia.
      - destruct c; cbn [admissible] in Ha.
        + apply (IH N0); intuition.
        + apply (IH N); intuition.
        + apply (IH N); intuition. }
    specialize (G cs N (N, T, equal_shots N T) HN Ha eq_refl). now rewrite Em in G. }
  assert (Erun : forall a b g g', grun a g = Ok g' -> grun (a ++ b) g = grun b g').
  { clear. induction a as [|c a IH]; intros b g g' E; simpl in *.
    - now injection E as ->.
    - destruct (gstep c g); try discriminate. cbn [obind] in *. now apply IH. }
  rewrite (Erun _ _ _ _ E1). cbn [grun gstep].
  unfold rChangeTimeHorizon, gridChangeTimeHorizon. rewrite HgN.
  rewrite makeUniformGrid_spec by lia. cbn [obind]. eexists. split; [exact E0|].
  split; [reflexivity|]. cbn [g_t]. now apply gridTimes_partition.
Qed.

(** Accesses past the last shot are out of range; so are more segments than shots. *)
Theorem C26_out_of_range N T d g : describes g N T d ->
  getShotEndTime g N = UB /\ rShotDuration g N = UB.
Proof.
  intros (_ & _ & _ & _ & _ & _ & [Hl _]).
  unfold getShotEndTime, rShotDuration, getShotDuration.
  rewrite vec_get_ub by lia. split; reflexivity.
Qed.

(** In binary64 the last time need not be the horizon: 49 shots over 1 s end before 1 s. *)
Theorem C26_end_in_double_refuted :
  exists g t, newGrid spec_float Fops (fun k => SFnum (Z.of_nat k) 0) 49 (SFnum 1 0) = Ok g /\
    getOptimizedTimeHorizon g = Ok t /\ SFltb t (SFnum 1 0) = true.
Proof.
  exists (mkGrid 49 (SFnum 1 0)
            (gridTimes Fops (fun k => SFnum (Z.of_nat k) 0) 49 (SFnum 1 0))).
  exists (S754_finite false 9007199254740991 (-53)).
  split; [unfold newGrid; apply makeUniformGrid_spec; reflexivity|].
  split; vm_compute; reflexivity.
Qed.

(** A concrete history. *)
Example C26_example :
  admissible 2 [GHorizon 3; GShots 3; GSegments [1; 2; 4]] /\
  meaning 2 1 [GHorizon 3; GShots 3; GSegments [1; 2; 4]] = (3%nat, 3, [1; 2; 4]).
Proof.
  split; [|reflexivity]. simpl. repeat split; try lia; try lra. repeat constructor; lra.
Qed.

(** ** C27 *)
Local Open Scope nat_scope.

(** The object the problem constructs: (N+1)*(n+m) variables, all zero; any guess. *)
Lemma new_holds n m N g : nodes_ok n m N g ->
  holds n m N (repeat (repeat 0%R n, repeat 0%R m) (N + 1)) g
    (newOptVec n m ((N + 1) * (n + m)) N (flatten g)).
Proof.
  intros Hg. unfold newOptVec. destruct (buildMaps n m 0 (N + 1) 0) as [s c] eqn:E.
  unfold holds; simpl. rewrite E.
  assert (Hz : flatten (repeat (repeat 0%R n, repeat 0%R m) (N + 1)) =
               repeat 0%R ((N + 1) * (n + m))).
  { generalize (N + 1) as k. induction k as [|k IH]; [reflexivity|].
    cbn [repeat]. rewrite flatten_cons, IH. cbn [fst snd].
    rewrite app_assoc, <- !repeat_app. reflexivity. }
  split; [now rewrite Hz|]. do 5 (split; [reflexivity|]). split; [|exact Hg].
  split; [rewrite repeat_length; lia|]. intros p Hp. apply repeat_spec in Hp. subst p.
  simpl. now rewrite !repeat_length.
Qed.

(** Index ranges: node i has its state at [i(n+m), i(n+m)+n) and its control right after; the
    ranges of the N+1 nodes are disjoint and together are exactly [0, (N+1)(n+m)); asking for
    any other node is undefined. *)
Theorem C27_ranges n m N junk :
  let o := newOptVec n m ((N + 1) * (n + m)) N junk in
  let in_state i k := exists s, getStateIndex o i = Ok s /\ s <= k < s + n in
  let in_control i k := exists s, getControlIndex o i = Ok s /\ s <= k < s + m in
  (forall k, k < (N + 1) * (n + m) <-> exists i, i <= N /\ (in_state i k \/ in_control i k)) /\
  (forall k i j, in_state i k -> in_state j k -> i = j) /\
  (forall k i j, in_control i k -> in_control j k -> i = j) /\
  (forall k i j, in_state i k -> in_control j k -> False) /\
  (forall i, N < i -> getStateIndex o i = UB /\ getControlIndex o i = UB).
Proof.
  intros o in_state in_control.
  assert (Hs : forall i, getStateIndex o i = if i <=? N then Ok (i * (n + m)) else UB).
  { intros i. subst o. unfold newOptVec, getStateIndex.
    destruct (buildMaps_find n m (N + 1) 0 0 i) as [H _].
    destruct (buildMaps n m 0 (N + 1) 0) as [s c]. cbn [o_state fst snd] in *. rewrite H.
    simpl. rewrite Nat.sub_0_r. replace (i <? N + 1) with (i <=? N); auto.
    apply eq_true_iff_eq. rewrite Nat.leb_le, Nat.ltb_lt. lia. }
  assert (Hc : forall i, getControlIndex o i = if i <=? N then Ok (i * (n + m) + n) else UB).
  { intros i. subst o. unfold newOptVec, getControlIndex.
    destruct (buildMaps_find n m (N + 1) 0 0 i) as [_ H].
    destruct (buildMaps n m 0 (N + 1) 0) as [s c]. cbn [o_control fst snd] in *. rewrite H.
    simpl. rewrite Nat.sub_0_r. replace (i <? N + 1) with (i <=? N); auto.
    apply eq_true_iff_eq. rewrite Nat.leb_le, Nat.ltb_lt. lia. }
  assert (Is : forall i k, in_state i k <-> i <= N /\ i * (n + m) <= k < i * (n + m) + n).
  { intros i k. subst in_state. cbv beta. rewrite Hs. destruct (Nat.leb_spec i N).
    - split; [intros (s & E & H1); apply Ok_inj in E; subst; auto|eauto].
      intros [_ H1]. eauto.
    - split; [intros (s & E & _); discriminate|lia]. }
  assert (Ic : forall i k, in_control i k <->
                 i <= N /\ i * (n + m) + n <= k < i * (n + m) + n + m).
  { intros i k. subst in_control. cbv beta. rewrite Hc. destruct (Nat.leb_spec i N).
    - split; [intros (s & E & H1); apply Ok_inj in E; subst; auto|eauto].
      intros [_ H1]. eauto.
    - split; [intros (s & E & _); discriminate|lia]. }
  assert (U : forall i j a b, a < n + m -> b < n + m ->
    i * (n + m) + a = j * (n + m) + b -> i = j /\ a = b).
  { intros i j a b Ha Hb E. destruct (Nat.lt_total i j) as [L|[->|L]].
    - exfalso. assert (S i * (n + m) <= j * (n + m)) by (apply Nat.mul_le_mono_r; lia).
      simpl in H. lia.
    - lia.
    - exfalso. assert (S j * (n + m) <= i * (n + m)) by (apply Nat.mul_le_mono_r; lia).
      simpl in H. lia. }
  split; [|split; [|split; [|split]]].
  - intros k. split.
    + intros Hk. assert (Hp : n + m <> 0) by (intros E; rewrite E in Hk; lia).
      pose proof (Nat.div_mod k (n + m) Hp) as Ed.
      pose proof (Nat.mod_upper_bound k (n + m) Hp) as Em.
      rewrite Nat.mul_comm in Ed.
      assert (Hi : k / (n + m) <= N).
      { assert (k / (n + m) < N + 1) by (apply Nat.div_lt_upper_bound; lia). lia. }
      exists (k / (n + m)). split; [exact Hi|]. rewrite Is, Ic.
      set (q := k / (n + m)) in *. set (r := k mod (n + m)) in *.
      destruct (Nat.lt_ge_cases r n); [left|right]; split; auto; lia.
    + intros (i & Hi & [H|H]); [apply Is in H|apply Ic in H]; destruct H as [_ H].
      * assert (S i * (n + m) <= (N + 1) * (n + m)) by (apply Nat.mul_le_mono_r; lia).
        simpl in H0. lia.
      * assert (S i * (n + m) <= (N + 1) * (n + m)) by (apply Nat.mul_le_mono_r; lia).
        simpl in H0. lia.
  - intros k i j H1 H2. apply Is in H1. apply Is in H2.
    destruct (U i j (k - i * (n + m)) (k - j * (n + m))); lia.
  - intros k i j H1 H2. apply Ic in H1. apply Ic in H2.
    destruct (U i j (k - i * (n + m)) (k - j * (n + m))); lia.
  - intros k i j H1 H2. apply Is in H1. apply Ic in H2.
    destruct (U i j (k - i * (n + m)) (k - j * (n + m))); lia.
  - intros i Hi. rewrite Hs, Hc. replace (i <=? N) with false; auto.
    symmetry. apply Nat.leb_gt. lia.
Qed.

(** Calls on the decision vector and their meaning on the nodes.  The meaning of the end-point
    guess is what the code does; see C27_interpolation_refuted. *)
Inductive ocall :=
| OSet (l : list node)
| OInitial (x0 : list R)
| ODesired (xF : list R)
| OGuess (xs us : list (list R)).
Definition ostep (c : ocall) (o : optvec) : outcome optvec :=
  match c with
  | OSet l => Ok (setOptimizationVars (flatten l) o)
  | OInitial x0 => ovChangeInitialState x0 o
  | ODesired xF => ovChangeDesiredState xF o
  | OGuess xs us => setInitGuess xs us o
  end.
Fixpoint orun (cs : list ocall) (o : optvec) : outcome optvec :=
  match cs with
  | [] => Ok o
  | c :: r => do o' <- ostep c o ;; orun r o'
  end.
(** Specification: a list of nodes and a list of guessed nodes. *)
Definition set_state (i : nat) (x : list R) (l : list node) : list node :=
  replace i (x, snd (nth i l ([], []))) l.
Definition ospec (N : nat) (s : list node * list node) (c : ocall) : list node * list node :=
  let '(l, g) := s in
  match c with
  | OSet l' => (l', g)
  | OInitial x0 => (set_state 0 x0 l, g)
  | ODesired xF => (set_state N xF l, g)
  | OGuess xs us => (l, combine xs us)
  end.
Definition ocall_ok (n m N : nat) (c : ocall) : Prop :=
  match c with
  | OSet l => nodes_ok n m N l
  | OInitial x | ODesired x => length x = n
  | OGuess xs us => length xs = N + 1 /\ length us = N + 1 /\
      (forall x, In x xs -> length x = n) /\ (forall u, In u us -> length u = m)
  end.

Lemma ostep_holds n m N l g o c : holds n m N l g o -> ocall_ok n m N c ->
  exists o', ostep c o = Ok o' /\
    holds n m N (fst (ospec N (l, g) c)) (snd (ospec N (l, g) c)) o'.
Proof.
  intros H Hc. destruct c as [l'|x0|xF|xs us]; cbn [ostep ospec fst snd ocall_ok] in *.
  - eexists. split; [reflexivity|]. eapply holds_set; eauto.
  - unfold ovChangeInitialState.
    destruct (do k <- getStateIndex o 0 ;; do x <- setSegment k x0 (o_x o) ;; Ok (withX x o))
      as [o'| |] eqn:E.
    + exists o'. split; [reflexivity|]. eapply (holds_write n m N l g o 0 x0); eauto. lia.
    + exfalso. rewrite (holds_state_index _ _ _ _ _ _ 0 H) in E. cbn [Nat.leb obind] in E.
      pose proof H as (H1 & _ & _ & _ & _ & _ & [Hl Hd] & _).
      change (setSegment 0 x0 (o_x o)) with (setSegment (0 * (n + m)) x0 (o_x o)) in E.
      rewrite H1, (set_node_state n m) in E by (auto; lia). discriminate.
    + exfalso. rewrite (holds_state_index _ _ _ _ _ _ 0 H) in E. cbn [Nat.leb obind] in E.
      pose proof H as (H1 & _ & _ & _ & _ & _ & [Hl Hd] & _).
      change (setSegment 0 x0 (o_x o)) with (setSegment (0 * (n + m)) x0 (o_x o)) in E.
      rewrite H1, (set_node_state n m) in E by (auto; lia). discriminate.
  - unfold ovChangeDesiredState.
    assert (HN : o_N o = N) by apply H. rewrite HN.
    change (mapFind N (o_state o)) with (getStateIndex o N).
    destruct (do k <- getStateIndex o N ;; do x <- setSegment k xF (o_x o) ;; Ok (withX x o))
      as [o'| |] eqn:E.
    + exists o'. split; [reflexivity|]. eapply (holds_write n m N l g o N xF); eauto.
    + exfalso. rewrite (holds_state_index _ _ _ _ _ _ N H), Nat.leb_refl in E.
      cbn [obind] in E.
      pose proof H as (H1 & _ & _ & _ & _ & _ & [Hl Hd] & _).
      rewrite H1, (set_node_state n m) in E by (auto; lia). discriminate.
    + exfalso. rewrite (holds_state_index _ _ _ _ _ _ N H), Nat.leb_refl in E.
      cbn [obind] in E.
      pose proof H as (H1 & _ & _ & _ & _ & _ & [Hl Hd] & _).
      rewrite H1, (set_node_state n m) in E by (auto; lia). discriminate.
  - destruct Hc as (Lx & Lu & Dx & Du). unfold setInitGuess.
    pose proof H as (H1 & H2 & H3 & H4 & H5 & H6 & H7 & [Hl Hd]).
    rewrite H4, Lx, Lu, Nat.eqb_refl. cbn [negb]. rewrite H2.
    rewrite (guessArrayLoop_spec n m N o xs us l g H Lx Lu Dx Du (N + 1) 0 g)
      by (auto; lia).
    cbn [obind firstn skipn app]. eexists. split; [reflexivity|].
    unfold holds, withInit; simpl.
    assert (Hg : nodes_ok n m N (combine xs us)).
    { split; [pose proof (combine_length xs us) as E; rewrite Lx, Lu, Nat.min_id, Nat.add_1_r in E; exact E|].
      intros [x u] Hp. split; cbn [fst snd].
      - apply Dx. eapply in_combine_l; eauto.
      - apply Du. eapply in_combine_r; eauto. }
    exact (conj H1 (conj eq_refl (conj H3 (conj H4 (conj H5 (conj H6 (conj H7 Hg))))))).
Qed.

(** After any sequence of calls with arguments of the right sizes, all getters return what the
    specification says: the states and controls of the nodes, and the guess node after node.  In
    particular writing the first or last state leaves every other state and all controls alone,
    and a guess given as arrays is returned unchanged. *)
Theorem C27_history n m N g0 cs : nodes_ok n m N g0 -> Forall (ocall_ok n m N) cs ->
  exists o, orun cs (newOptVec n m ((N + 1) * (n + m)) N (flatten g0)) = Ok o /\
    let '(l, g) :=
      fold_left (ospec N) cs (repeat (repeat 0%R n, repeat 0%R m) (N + 1), g0) in
    getOptimizedStates n o = Ok (map fst l) /\ getOptimizedInputs m o = Ok (map snd l) /\
    o_x o = flatten l /\ getInitialGuess o = flatten g /\
    (forall i, i <= N -> getOptimizedState n o i = Ok (fst (nth i l ([], []))) /\
                         getOptimizedControl m o i = Ok (snd (nth i l ([], [])))).
Proof.
  intros Hg Hcs. pose proof (new_holds n m N g0 Hg) as H. revert H Hcs.
  generalize (newOptVec n m ((N + 1) * (n + m)) N (flatten g0)) as o.
  generalize (repeat (repeat 0%R n, repeat 0%R m) (N + 1)) as l. clear Hg. revert g0.
  induction cs as [|c cs IH]; intros g l o H Hcs.
  - exists o. split; [reflexivity|]. cbn [fold_left].
    split; [eapply holds_states; eauto|]. split; [eapply holds_inputs; eauto|].
    split; [apply H|]. split; [apply H|]. intros i Hi. split.
    + eapply holds_get_state; eauto.
    + eapply holds_get_control; eauto.
  - inversion Hcs as [|? ? Hc Hcs']; subst.
    destruct (ostep_holds n m N l g o c H Hc) as (o' & E & H').
    cbn [orun]. rewrite E. cbn [obind]. cbn [fold_left].
    destruct c; exact (IH _ _ o' H' Hcs').
Qed.

(** Every vector of the right length is such a list of nodes, so that OSet covers every call of
    setOptimizationVars. *)
Theorem C27_all_vectors n m N w : length w = (N + 1) * (n + m) ->
  exists l, w = flatten l /\ nodes_ok n m N l.
Proof.
  intros Hw. destruct (flatten_surj n m (N + 1) w Hw) as (l & E & Hl & Hd).
  exists l. split; [now rewrite E|]. split; [lia|exact Hd].
Qed.

(** Guesses of the wrong length are rejected. *)
Theorem C27_guess_sizes n m N l g o xs us : holds n m N l g o ->
  length xs <> N + 1 \/ length us <> N + 1 -> setInitGuess xs us o = Throw.
Proof.
  intros H Hl. unfold setInitGuess. assert (HP : o_numPairs o = N + 1) by apply H. rewrite HP.
  destruct (Nat.eqb_spec (length xs) (N + 1)); [|reflexivity].
  destruct (Nat.eqb_spec (length us) (N + 1)); [lia|reflexivity].
Qed.

(** The guess from end points.  What the code does: every node but the last gets x0, the last one
    gets xf; all controls are u0.  For one shot this is the linear interpolation.
    Partial: for more shots it is not (C27_interpolation_refuted). *)
Theorem C27_endpoints_partial n m N g0 x0 xf u0 : 1 <= N -> nodes_ok n m N g0 ->
  length x0 = n -> length xf = n -> length u0 = m ->
  exists o, setInitGuessEnds x0 xf u0 (newOptVec n m ((N + 1) * (n + m)) N (flatten g0)) = Ok o /\
    getInitialGuess o = flatten (repeat (x0, u0) N ++ [(xf, u0)]).
Proof.
  intros HN Hg Lx Lf Lu. pose proof (new_holds n m N g0 Hg) as H.
  unfold setInitGuessEnds.
  pose proof H as (H1 & H2 & H3 & H4 & H5 & H6 & H7 & [Hl Hd]).
  rewrite H2, H4. pose proof (guessLoop_spec n m N _ x0 xf u0 _ _ H HN Lx Lf Lu (N + 1) 0 g0
    ltac:(lia) Hd ltac:(lia)) as E.
  rewrite E. cbn [obind firstn app]. eexists. split; [reflexivity|].
  unfold getInitialGuess, withInit; cbn [o_init]. f_equal.
  rewrite Nat.add_1_r, seq_S, map_app. cbn [map plus].
  assert (I0 : interpolateState x0 xf 0 = x0).
  { unfold interpolateState. clear - Lx Lf. revert n xf Lx Lf.
    induction x0 as [|a x0 IH]; intros n [|b xf] Lx Lf; simpl in *; try congruence; auto.
    f_equal; [ring|]. destruct n; [discriminate|]. apply (IH n); lia. }
  assert (I1 : interpolateState x0 xf 1 = xf).
  { unfold interpolateState. clear - Lx Lf. revert n xf Lx Lf.
    induction x0 as [|a x0 IH]; intros n [|b xf] Lx Lf; simpl in *; try congruence; auto.
    f_equal; [ring|]. destruct n; [discriminate|]. apply (IH n); lia. }
  rewrite Nat.div_same by lia. rewrite I1. f_equal.
  assert (G : forall k i, i + k <= N ->
    map (fun j => (interpolateState x0 xf (j / N), u0)) (seq i k) = repeat (x0, u0) k).
  { induction k as [|k IH]; intros i Hi; [reflexivity|]. cbn [seq map repeat].
    rewrite Nat.div_small by lia. rewrite I0. f_equal. apply IH. lia. }
  apply G. lia.
Qed.

(** Two shots from 0 to 1: the middle node is guessed at 0, not at 1/2. *)
Theorem C27_interpolation_refuted :
  exists o, setInitGuessEnds [0%R] [1%R] [0%R]
      (newOptVec 1 1 6 2 (repeat 0%R 6)) = Ok o /\
    segment 2 1 (getInitialGuess o) = Ok [0%R].
Proof.
  destruct (C27_endpoints_partial 1 1 2 [([0%R], [0%R]); ([0%R], [0%R]); ([0%R], [0%R])]
    [0%R] [1%R] [0%R]) as (o & E & G); try lia; try reflexivity.
  - split; [reflexivity|]. intros p [<-|[<-|[<-|[]]]]; split; reflexivity.
  - exists o. split; [exact E|]. rewrite G. reflexivity.
Qed.

(** Finding: a guess does not show up in the state and control getters, and changing the initial
    state does not show up in the guess the solver starts from. *)
Theorem C27_guess_separate n m N g0 xs us x0 : nodes_ok n m N g0 ->
  ocall_ok n m N (OGuess xs us) -> length x0 = n ->
  exists o, orun [OGuess xs us; OInitial x0]
              (newOptVec n m ((N + 1) * (n + m)) N (flatten g0)) = Ok o /\
    getInitialGuess o = flatten (combine xs us) /\
    getOptimizedInputs m o = Ok (repeat (repeat 0%R m) (N + 1)).
Proof.
  intros Hg Hc Hx.
  destruct (C27_history n m N g0 [OGuess xs us; OInitial x0] Hg) as (o & E & H).
  { repeat constructor; auto; apply Hc. }
  exists o. split; [exact E|]. cbn [fold_left ospec] in H.
  destruct H as (_ & H2 & _ & H4 & _). split; [exact H4|]. rewrite H2. f_equal.
  unfold set_state. destruct N; simpl; rewrite ?map_repeat; f_equal.
  - clear. induction (N + 1); simpl; congruence.
Qed.

Example C27_example :
  exists o, orun [OSet [([1%R; 2%R], [3%R]); ([4%R; 5%R], [6%R])]; OInitial [7%R; 8%R]]
              (newOptVec 2 1 6 1 (repeat 0%R 6)) = Ok o /\
    getOptimizedStates 2 o = Ok [[7%R; 8%R]; [4%R; 5%R]] /\
    getOptimizedInputs 1 o = Ok [[3%R]; [6%R]].
Proof. eexists. split; [reflexivity|]. split; reflexivity. Qed.

Print Assumptions C26_history.
Print Assumptions C26_uniform.
Print Assumptions C26_rescale.
Print Assumptions C26_out_of_range.
Print Assumptions C26_end_in_double_refuted.
Print Assumptions C27_ranges.
Print Assumptions C27_history.
Print Assumptions C27_all_vectors.
Print Assumptions C27_guess_sizes.
Print Assumptions C27_endpoints_partial.
Print Assumptions C27_interpolation_refuted.
Print Assumptions C27_guess_separate.
