(** C41: the main loop; C42: number of stages, horizon and initial guesses. *)
From Coq Require Import List ZArith QArith Qabs Qround Bool Arith Lia Lqa.
From Verif.Optcon Require Import LsModel LsSpec LsProofs LsProps SolveModel SolveSpec.
Import ListNotations.

Lemma loop_spec St run fuel : forall found n (s : St) f m s', loop run fuel found n s = (f, m, s') ->
  exists k, (k <= fuel)%nat /\ m = (n + k)%nat /\ s' = iterate St run k s /\
    (forall j, (S j < k)%nat -> better St run j s = true) /\
    (k = 0%nat -> f = found /\ (fuel = 0%nat \/ found = false)) /\
    (forall j, k = S j -> found = true /\ f = better St run j s /\ (f = false \/ k = fuel)).
Proof.
  assert (Hit : forall k s, iterate St run k (snd (run s)) = iterate St run (S k) s).
  { intros k s. induction k as [|k IH]; [reflexivity|]. cbn [iterate] in *. now rewrite IH. }
  induction fuel as [|fuel IH]; intros found n s f m s' H; cbn [loop] in H.
  - injection H as <- <- <-. exists 0%nat. repeat split; auto; try lia.
  - destruct found.
    + destruct (run s) as [f1 s1] eqn:E. apply IH in H. destruct H as (k & H1 & H2 & H3 & H4 & H5 & H6).
      assert (Es : s1 = snd (run s)) by now rewrite E.
      exists (S k). split; [lia|]. split; [lia|]. split; [rewrite H3, Es; apply Hit|].
      split; [|split; [discriminate|]].
      * intros [|j] Hj.
        -- unfold better. cbn. rewrite E. cbn. destruct k as [|k]; [lia|]. now destruct (H6 k eq_refl).
        -- unfold better. rewrite <- Hit, <- Es. apply H4. lia.
      * intros j Ej. injection Ej as <-. split; [reflexivity|]. destruct k as [|k].
        -- destruct (H5 eq_refl) as [-> H]. unfold better. cbn. rewrite E. cbn. split; auto. destruct H; [right; lia|left; auto].
        -- destruct (H6 k eq_refl) as (_ & H7 & H8). unfold better. rewrite <- Hit, <- Es. split; [exact H7|]. destruct H8; [auto|right; lia].
    + injection H as <- <- <-. exists 0%nat. repeat split; auto; try lia.
Qed.

(** ** C41.  solve() runs at most max_iterations iterations; it goes on exactly as long as the iterations report a
    better solution, and stops at the first that does not. *)
Theorem C41_iterations St (run : St -> bool * St) max_iterations s r n s' :
  solve run max_iterations s = (r, n, s') ->
  (Z.of_nat n <= Z.max 0 max_iterations)%Z /\ s' = iterate St run n s /\
  (forall j, (S j < n)%nat -> better St run j s = true) /\
  (Z.of_nat n = Z.max 0 max_iterations \/ exists j, n = S j /\ better St run j s = false).
Proof.
  unfold solve. destruct (loop run (Z.to_nat max_iterations) true 0 s) as [[f m] s1] eqn:E. intros H. injection H as _ <- <-.
  apply loop_spec in E. destruct E as (k & H1 & -> & -> & H4 & H5 & H6). cbn [Nat.add].
  split; [lia|]. split; [reflexivity|]. split; [exact H4|].
  destruct k as [|k].
  - destruct (H5 eq_refl) as [-> [H|H]]; [left; lia|discriminate].
  - destruct (H6 k eq_refl) as (_ & -> & [H|H]); [right; eauto|left; lia].
Qed.
Print Assumptions C41_iterations.

(** ** C41.  With a line search, for every sequence of LQ solutions: the trajectory solve() leaves is that of one of the
    iterations, and its merit is not above the merit of any iteration before it.  The defect norm reported by a trial
    is that of its defects. *)
Section Mono.
Variables T Df : Type.
Variable zero_defects : Df.
Variable dnorm : Df -> num.
Variable c : ls_settings.
Variable lq : ls_state T Df -> num * num * (Q -> trial T Df).
Hypothesis honest : forall b a, o_def (snd (lq b) a) = dnorm (o_defects (snd (lq b) a)).
Notation it := (iteration zero_defects dnorm c lq).
Notation state := (ls_state T Df).

Lemma one_iteration (b : state) : steps_ok c ->
  (exists l m, merit_now T Df dnorm c b l /\ merit_now T Df dnorm c (snd (it b)) m /\ m <= l /\ (ls_kind c = SIMPLE -> m < l)) \/
  (fst (it b) = false /\ b_traj (snd (it b)) = b_traj b).
Proof.
  intros Hs. unfold iteration. specialize (honest b). destruct (lq b) as [[d1 d2] eval]. cbn [snd] in honest.
  destruct (lineSearch zero_defects c d1 d2 dnorm eval b) as [f b'] eqn:E. cbn [fst snd].
  apply C36_line_search in E; [|exact Hs]. cbn zeta in E.
  destruct E as [(i & l & m & _ & (T1 & T2 & T3 & T4 & T5 & T6 & T7) & Hl & Hm & H1 & H2)|(-> & H & _)]; [left|right; auto].
  exists l, m. split; [exact Hl|]. split; [|auto]. unfold merit_now, has_merit in *.
  destruct Hm as (vi & vf & vd & vb & vg & E1 & E2 & E3 & E4 & E5 & E6). exists vi, vf, vd, vb, vg.
  cbn [o_int o_fin o_def o_box o_gen]. rewrite T2, T3, T4, T6, T7, <- honest. auto 10.
Qed.

Theorem C41_lowest_merit max_iterations b r n b' : steps_ok c ->
  solve it max_iterations b = (r, n, b') ->
  exists k, (k <= n <= S k)%nat /\ b_traj b' = b_traj (iterate state it k b) /\
    forall j, (j < k)%nat -> exists l m, merit_now T Df dnorm c (iterate state it j b) l /\ merit_now T Df dnorm c (iterate state it k b) m /\
      m <= l /\ (ls_kind c = SIMPLE -> m < l).
Proof.
  intros Hs H. apply C41_iterations in H. destruct H as (_ & -> & Hbet & _).
  assert (Hchain : forall k, (forall j, (j < k)%nat -> exists l m, merit_now T Df dnorm c (iterate state it j b) l /\
      merit_now T Df dnorm c (iterate state it (S j) b) m /\ m <= l /\ (ls_kind c = SIMPLE -> m < l)) ->
    forall j, (j < k)%nat -> exists l m, merit_now T Df dnorm c (iterate state it j b) l /\
      merit_now T Df dnorm c (iterate state it k b) m /\ m <= l /\ (ls_kind c = SIMPLE -> m < l)).
  { induction k as [|k IH]; intros Hk j Hj; [lia|]. destruct (Nat.eq_dec j k) as [->|Hne]; [apply Hk; lia|].
    destruct (IH ltac:(intros; apply Hk; lia) j ltac:(lia)) as (l & m & A1 & A2 & A3 & A4).
    destruct (Hk k ltac:(lia)) as (l' & m' & B1 & B2 & B3 & B4).
    pose proof (has_merit_unique T Df c _ _ _ A2 B1). exists l, m'. split; [exact A1|]. split; [exact B2|].
    split; [lra|]. intros Hx. specialize (A4 Hx). lra. }
  destruct n as [|n].
  - exists 0%nat. split; [lia|]. split; [reflexivity|]. intros; lia.
  - assert (Hprev : forall j, (j < n)%nat -> exists l m, merit_now T Df dnorm c (iterate state it j b) l /\
      merit_now T Df dnorm c (iterate state it (S j) b) m /\ m <= l /\ (ls_kind c = SIMPLE -> m < l)).
    { intros j Hj. destruct (one_iteration (iterate state it j b) Hs) as [HH|[HH _]]; [exact HH|].
      specialize (Hbet j ltac:(lia)). unfold better in Hbet. congruence. }
    destruct (one_iteration (iterate state it n b) Hs) as [HH|[_ HH]].
    + exists (S n). split; [lia|]. split; [reflexivity|]. apply Hchain. intros j Hj.
      destruct (Nat.eq_dec j n) as [->|]; [exact HH|]. apply Hprev. lia.
    + exists n. split; [lia|]. split; [exact HH|]. apply Hchain. exact Hprev.
Qed.
End Mono.
Print Assumptions C41_lowest_merit.

(** Finding: the flag solve() returns is always true, whatever the iterations do. *)
Theorem C41_result_refuted :
  (forall St (run : St -> bool * St) max_iterations s, fst (fst (solve run max_iterations s)) = true) /\
  exists (run : nat -> bool * nat) s, solve run 10 s = (true, 1%nat, s).
Proof.
  split.
  - intros St run mi s. unfold solve. destruct (loop run (Z.to_nat mi) true 0 s) as [[f m] s1] eqn:E. cbn [fst].
    apply loop_spec in E. destruct E as (k & _ & -> & _ & _ & H5 & _). cbn [Nat.add]. destruct k as [|[|k]]; cbn.
    + destruct (H5 eq_refl) as [-> _]. reflexivity.
    + destruct f; reflexivity.
    + reflexivity.
  - exists (fun s => (false, s)), 7%nat. reflexivity.
Qed.
Print Assumptions C41_result_refuted.

(** Finding: without line search (type NONE) the cost may rise and the rise is reported as an improvement. *)
Theorem C41_full_step_refuted : exists c (full : ls_state nat nat -> trial nat nat) b l m,
  nadd (b_int b) (b_fin b) = Some l /\ fst (fullStep c full b) = true /\
  nadd (b_int (snd (fullStep c full b))) (b_fin (snd (fullStep c full b))) = Some m /\ l < m.
Proof.
  exists simple, (fun _ => MkTrial 1%nat 0%nat (Some 5) (Some 1) (Some 0) (Some 0) (Some 0)),
    (MkLsState 0%nat 0%nat (Some 1) (Some 1) (Some 0) (Some 0) (Some 0) (Some 2)), (1 + 1), (5 + 1).
  repeat split.
Qed.
Print Assumptions C41_full_step_refuted.

(** Finding: after a search that found nothing the stored defects are zero although the trajectory, whose defects are
    not, is kept; another call of solve() or runIteration() goes on with the wrong defects.  Trajectory [5] has
    defect 5. *)
Theorem C41_defects_forgotten_refuted : exists c (lq : ls_state nat nat -> num * num * (Q -> trial nat nat)) b,
  steps_ok c /\ (forall b a, o_defects (snd (lq b) a) = o_traj (snd (lq b) a)) /\ b_defects b = b_traj b /\
  let b' := snd (solve (iteration 0%nat (fun d => Some (inject_Z (Z.of_nat d))) c lq) 10 b) in
  b_traj b' = 5%nat /\ b_defects b' = 0%nat.
Proof.
  exists simple, (fun _ => (None, None, fun _ => MkTrial 9%nat 9%nat (Some 1) (Some 1) (Some 9) (Some 0) (Some 0))),
    (MkLsState 5%nat 5%nat (Some 1) (Some 1) (Some 5) (Some 0) (Some 0) (Some 7)).
  split; [repeat split; reflexivity|]. split; [reflexivity|]. split; [reflexivity|]. vm_compute. auto.
Qed.
Print Assumptions C41_defects_forgotten_refuted.

(** Example: three improving iterations, then none. *)
Definition ex_lq (b : ls_state nat nat) : num * num * (Q -> trial nat nat) :=
  (None, None, fun a => MkTrial (S (b_traj b)) 0%nat (Some (if (b_traj b <? 3)%nat then 10 - inject_Z (Z.of_nat (b_traj b)) else 10)) (Some 0) (Some 0) (Some 0) (Some 0)).
Example C41_example :
  (forall b a, o_def (snd (ex_lq b) a) = (fun d => Some (inject_Z (Z.of_nat d))) (o_defects (snd (ex_lq b) a))) /\
  let '(r, n, b) := solve (iteration 0%nat (fun d => Some (inject_Z (Z.of_nat d))) simple ex_lq) 10
    (MkLsState 0%nat 0%nat (Some 20) (Some 0) (Some 0) (Some 0) (Some 0) None) in n = 4%nat /\ b_traj b = 3%nat.
Proof. split; [reflexivity|]. vm_compute. auto. Qed.

(** ** C42.  Number of stages for a horizon. *)
Theorem C42_stages dt horizon : 0 < dt ->
  (horizon < 0 -> computeK dt horizon = None) /\
  (0 <= horizon -> exists n, computeK dt horizon = Some n /\ (1 <= n)%Z /\
     ((1#2) * dt <= horizon -> Qabs (inject_Z n * dt - horizon) <= (1#2) * dt)).
Proof.
  intros Hdt. split.
  - intros H. unfold computeK. destruct (Qle_bool 0 horizon) eqn:E; [|reflexivity]. apply Qle_bool_iff in E. exfalso; lra.
  - intros H. unfold computeK. apply Qle_bool_iff in H as Hb. rewrite Hb. cbn [negb].
    assert (Hq : 0 <= horizon / dt) by (apply Qle_shift_div_l; lra).
    unfold lround. apply Qle_bool_iff in Hq as Hqb. rewrite Hqb.
    eexists. split; [reflexivity|]. split; [lia|]. intros Hh.
    set (q := horizon / dt) in *. assert (Eq : horizon == q * dt) by (unfold q; field; intros E0; lra).
    assert (Hq1 : 1#2 <= q) by (unfold q; apply Qle_shift_div_l; lra).
    set (k := Qfloor (q + (1#2))). pose proof (Qfloor_le (q + (1#2))) as F1. pose proof (Qlt_floor (q + (1#2))) as F2. fold k in F1, F2.
    assert (Hk : (1 <= k)%Z).
    { assert (HH : (Qfloor 1 <= k)%Z) by (apply Qfloor_resp_le; lra). exact HH. }
    rewrite Z.max_r by lia. rewrite inject_Z_plus in F2. change (inject_Z 1) with 1 in F2.
    assert (Ek : inject_Z k * dt - horizon == (inject_Z k - q) * dt) by (rewrite Eq; ring). rewrite Ek.
    rewrite Qabs_Qmult, (Qabs_pos dt) by lra. apply Qmult_le_compat_r; [|lra]. apply Qabs_Qle_condition. split; lra.
Qed.
Print Assumptions C42_stages.

Section Histories.
Variables X U L : Type.
Variables (x0 : X) (u0 : U) (l0 : L).
Notation backend := (backend X U L).

Definition apply_call (c : call X U L) (b : backend) : option backend :=
  match c with
  | Guess g => setInitialGuess x0 u0 l0 g b
  | Horizon tf => changeTimeHorizon x0 u0 l0 tf b
  | Stages n => changeNumStages x0 u0 l0 n b
  | InitialState x => Some (changeInitialState x b)
  | Configure dt => Some (configure dt b)
  end.
(** A call that throws leaves the solver as it was; the user may go on. *)
Fixpoint history (cs : list (call X U L)) (b : backend) : backend :=
  match cs with [] => b | c :: cs => history cs (match apply_call c b with Some b' => b' | None => b end) end.
(** The constructor, lines 30-70: no stages yet, then the horizon of the problem. *)
Definition construct (dt tf : Q) : option backend := changeTimeHorizon x0 u0 l0 tf (MkB 0 dt [] [] [] [] 0 false).

Definition dimensions_ok (b : backend) : Prop :=
  (1 <= k_K b)%Z /\ Z.of_nat (length (k_x b)) = (k_K b + 1)%Z /\ Z.of_nat (length (k_u b)) = k_K b /\
  Z.of_nat (length (k_L b)) = k_K b /\ Z.of_nat (k_t b) = (k_K b + 1)%Z.

Lemma length_resize {A} (a : A) n l : length (resize a n l) = n.
Proof. unfold resize. rewrite app_length, repeat_length, firstn_length. lia. Qed.
Lemma stages_ok n b b' : (k_K b = 0%Z \/ dimensions_ok b) -> (1 <= n)%Z -> changeNumStages x0 u0 l0 n b = Some b' -> dimensions_ok b' /\ k_K b' = n /\ k_dt b' = k_dt b.
Proof.
  unfold changeNumStages. intros Hb Hn. destruct (Z.eqb_spec n (k_K b)) as [E|E].
  - intros H. injection H as <-. destruct Hb as [Hb|Hb]; [lia|]. auto.
  - destruct (Z.ltb_spec n 1); [lia|]. intros H1. injection H1 as <-. unfold dimensions_ok. cbn. rewrite !length_resize. repeat split; lia.
Qed.
Lemma computeK_pos dt tf n : computeK dt tf = Some n -> (1 <= n)%Z.
Proof. unfold computeK. destruct (negb _); [discriminate|]. intros H. injection H as <-. lia. Qed.
Lemma horizon_ok tf b b' : (k_K b = 0%Z \/ dimensions_ok b) -> changeTimeHorizon x0 u0 l0 tf b = Some b' ->
  dimensions_ok b' /\ computeK (k_dt b) tf = Some (k_K b') /\ k_dt b' = k_dt b.
Proof.
  unfold changeTimeHorizon. intros Hb H. destruct (negb _); [discriminate|]. destruct (computeK (k_dt b) tf) as [n|] eqn:E; [|discriminate].
  destruct (stages_ok n b b' Hb (computeK_pos _ _ _ E) H) as (H1 & <- & H2). auto.
Qed.
Lemma guess_ok g b b' : dimensions_ok b -> setInitialGuess x0 u0 l0 g b = Some b' ->
  (forall i, (i <= Z.to_nat (k_K b))%nat -> nth_error (k_x b') i = nth_error (g_x g) i) /\
  (forall i, (i < Z.to_nat (k_K b))%nat -> nth_error (k_u b') i = nth_error (g_u g) i /\ nth_error (k_L b') i = nth_error (g_L g) i) /\
  k_K b' = k_K b /\ k_dt b' = k_dt b /\ dimensions_ok b'.
Proof.
  assert (Hn : forall A (a : A) n l i, (i < n)%nat -> (n < length l)%nat -> nth_error (resize a n l) i = nth_error l i).
  { intros A a n l i Hi Hl. unfold resize. rewrite nth_error_app1 by (rewrite firstn_length; lia).
    clear Hl. revert n Hi. revert i. induction l as [|y l IH]; intros [|i] [|n] Hi; cbn; try reflexivity; try lia. apply IH. lia. }
  intros (HK & D2 & D3 & D4 & D5). unfold setInitialGuess. set (K := Z.to_nat (k_K b)). assert (EK : Z.of_nat K = k_K b) by (unfold K; lia). clearbody K.
  destruct (Nat.ltb_spec (length (g_x g)) (K + 1)); [discriminate|].
  destruct (Nat.ltb_spec (length (g_u g)) K); [discriminate|].
  destruct (Nat.ltb_spec (length (g_L g)) K); [discriminate|]. intros HH. injection HH as <-. unfold dimensions_ok. cbn [k_x k_u k_L k_K k_dt k_t k_init k_xprev].
  repeat split; try assumption; try intros;
    repeat match goal with |- context [Nat.ltb ?a ?b] => destruct (Nat.ltb_spec a b) end; rewrite ?length_resize; try reflexivity; try (apply Hn; lia); lia.
Qed.

(** ** C42.  After construction and any history of calls, throwing ones included, the arrays fit the number of
    stages and there is at least one stage. *)
Theorem C42_dimensions_history dt tf b cs : construct dt tf = Some b -> dimensions_ok (history cs b).
Proof.
  intros H. apply horizon_ok in H; [|now left]. destruct H as [H _]. revert b H.
  induction cs as [|c cs IH]; intros b H; cbn [history]; [exact H|]. apply IH.
  destruct (apply_call c b) as [b'|] eqn:E; [|exact H]. destruct c as [g|t|n|x|d]; cbn in E.
  - now apply guess_ok in E.
  - apply horizon_ok in E; [tauto|now right].
  - destruct (Z.lt_ge_cases n 1) as [Hn|Hn].
    + unfold changeNumStages in E. destruct (Z.eqb_spec n (k_K b)); [destruct H; lia|]. destruct (Z.ltb_spec n 1); [discriminate|lia].
    + apply stages_ok in E; [tauto|now right|exact Hn].
  - injection E as <-. destruct H as (H1 & H2 & H3 & H4 & H5). unfold dimensions_ok, changeInitialState. cbn.
    destruct (k_x b); cbn in *; repeat split; auto; lia.
  - injection E as <-. exact H.
Qed.

(** ** C42.  Initial guesses that are too short are rejected; an accepted guess is taken over, cut to the number of
    stages. *)
Theorem C42_initial_guess g b : dimensions_ok b ->
  let K := Z.to_nat (k_K b) in
  ((length (g_x g) < K + 1)%nat \/ (length (g_u g) < K)%nat \/ (length (g_L g) < K)%nat -> setInitialGuess x0 u0 l0 g b = None) /\
  ((K + 1 <= length (g_x g))%nat -> (K <= length (g_u g))%nat -> (K <= length (g_L g))%nat ->
   exists b', setInitialGuess x0 u0 l0 g b = Some b' /\ k_K b' = k_K b /\ dimensions_ok b' /\
    (forall i, (i <= K)%nat -> nth_error (k_x b') i = nth_error (g_x g) i) /\
    (forall i, (i < K)%nat -> nth_error (k_u b') i = nth_error (g_u g) i /\ nth_error (k_L b') i = nth_error (g_L g) i)).
Proof.
  intros Hd K. split.
  - intros H. unfold setInitialGuess. fold K. destruct (Nat.ltb_spec (length (g_x g)) (K + 1)); [reflexivity|].
    destruct (Nat.ltb_spec (length (g_u g)) K); [reflexivity|]. destruct (Nat.ltb_spec (length (g_L g)) K); [reflexivity|]. lia.
  - intros H1 H2 H3. destruct (setInitialGuess x0 u0 l0 g b) as [b'|] eqn:E.
    + exists b'. apply guess_ok in E; [|exact Hd]. tauto.
    + exfalso. unfold setInitialGuess in E. fold K in E.
      destruct (Nat.ltb_spec (length (g_x g)) (K + 1)); [lia|]. destruct (Nat.ltb_spec (length (g_u g)) K); [lia|].
      destruct (Nat.ltb_spec (length (g_L g)) K); [lia|discriminate].
Qed.

(** ** C42.  The horizon reported after changeTimeHorizon(tf) is within half a step of tf (at least one step). *)
Theorem C42_reported_horizon tf b b' : 0 < k_dt b -> dimensions_ok b -> changeTimeHorizon x0 u0 l0 tf b = Some b' ->
  0 <= tf /\ ((1#2) * k_dt b <= tf -> Qabs (getTimeHorizon b' - tf) <= (1#2) * k_dt b) /\ (tf < (1#2) * k_dt b -> getTimeHorizon b' == k_dt b).
Proof.
  intros Hdt Hd H. assert (Htf : 0 <= tf).
  { unfold changeTimeHorizon in H. destruct (Qle_bool 0 tf) eqn:E; [|discriminate]. now apply Qle_bool_iff. }
  split; [exact Htf|]. apply horizon_ok in H; [|now right]. destruct H as (_ & HK & Hdt').
  unfold getTimeHorizon. rewrite Hdt'. split.
  - destruct (C42_stages (k_dt b) tf Hdt) as [_ HS]. destruct (HS Htf) as (n & E & _ & HH). rewrite E in HK. injection HK as ->. exact HH.
  - intros Hs. unfold computeK in HK. destruct (negb _); [discriminate|]. injection HK as HK. rewrite <- HK.
    unfold lround. assert (Hq : 0 <= tf / k_dt b) by (apply Qle_shift_div_l; lra). apply Qle_bool_iff in Hq as Hqb. rewrite Hqb.
    assert (Hf : Qfloor (tf / k_dt b + (1#2)) = 0%Z).
    { assert (tf / k_dt b < 1#2) by (apply Qlt_shift_div_r; lra).
      pose proof (Qfloor_le (tf / k_dt b + (1#2))) as F1. pose proof (Qlt_floor (tf / k_dt b + (1#2))) as F2.
      assert (G1 : inject_Z (Qfloor (tf / k_dt b + (1 # 2))) < inject_Z 1) by (change (inject_Z 1) with 1; lra).
      assert (G2 : inject_Z 0 < inject_Z (Qfloor (tf / k_dt b + (1 # 2)) + 1)) by (change (inject_Z 0) with 0; lra).
      rewrite <- Zlt_Qlt in G1. rewrite <- Zlt_Qlt in G2. lia. }
    rewrite Hf. cbn. ring.
Qed.
End Histories.
Print Assumptions C42_dimensions_history.
Print Assumptions C42_initial_guess.
Print Assumptions C42_reported_horizon.

(** Finding: configure() with another dt keeps the number of stages, so the horizon silently changes. *)
Theorem C42_configure_refuted : exists (b : backend unit unit unit) dt,
  dimensions_ok unit unit unit b /\ construct unit unit unit tt tt tt (1#10) 1 = Some b /\ getTimeHorizon b == 1 /\ getTimeHorizon (configure dt b) == 2.
Proof.
  exists (match construct unit unit unit tt tt tt (1#10) 1 with Some b => b | None => MkB 0 0 [] [] [] [] 0 false end), (2#10).
  split; [|split; [|split]]; try reflexivity. vm_compute. repeat split; discriminate.
Qed.
Print Assumptions C42_configure_refuted.

(** Example: a horizon of 1.04 s in steps of 0.1 s has ten stages; a guess with eleven stages is cut. *)
Example C42_example : computeK (1#10) (104#100) = Some 10%Z /\ exists b, construct nat nat nat 0%nat 0%nat 0%nat (1#10) (104#100) = Some b /\
  exists b', setInitialGuess 0%nat 0%nat 0%nat (MkG (seq 0 12) (seq 0 11) (seq 0 10)) b = Some b' /\ k_x b' = seq 0 11 /\ k_u b' = seq 0 10.
Proof. split; [reflexivity|]. eexists. split; [vm_compute; reflexivity|]. eexists. split; [vm_compute; reflexivity|]. split; reflexivity. Qed.
