(** C89: what the direct multiple shooting solver solves. *)
From Coq Require Import Reals List Bool Arith ZArith Lia Lra.
From Verif Require Import Base.Outcome Base.Scalar Base.RVec Optcon.DmsModel Optcon.DmsSpec Optcon.DmsProofs Optcon.DmsProps
  Optcon.DmsSplineModel Optcon.DmsSplineProps Optcon.DmsSolverModel.
Import ListNotations.
Local Open Scope R_scope.

Section C89.
Context {X Dyn Lin Cost Con : Type}.
Variable linearizer : Dyn -> Lin.
Notation problem := (problem X Dyn Lin Cost Con).
Notation nlpProblem := (nlpProblem X Dyn Lin Cost Con).
Notation solver := (solver X Dyn Lin Cost Con).

(** ** Specification *)
(** Settings the solver can work with: at least one shot, positive horizon and step, a number of steps that fits size_t,
    enumerators with their names, no grid optimisation, no adaptive integrator, and not the simple cost evaluation of
    piecewise linear controls (C50). *)
Definition workable (st : dmsSettings) : Prop :=
  (1 <= ds_N st)%nat /\ 0 < ds_T st /\ 0 < ds_dt st /\
  ds_T st / INR (ds_N st) / ds_dt st + 1 / 2 < IZR 18446744073709551616 /\
  ds_optimizeGrid st = false /\ ds_integration st <> RK5 /\
  (exists sp ce, ds_spline st = Some sp /\ ds_cost st = Some ce /\ (ce = SIMPLE -> sp = ZERO_ORDER_HOLD)).

Definition present (o : option Con) : list Con := match o with Some c => [c] | None => [] end.

(** Shot k of the problem: the objects given, a start time and a number of steps. *)
Definition is_shot (st : dmsSettings) (d : Dyn) (l : Lin) (c : Cost) (start len : R) (sh : shot Dyn Lin Cost) : Prop :=
  sh_dyn sh = d /\ sh_lin sh = l /\ sh_cost sh = c /\
  (sh_rk4 sh = true <-> ds_integration st = RK4) /\ sh_start sh = start /\
  Rabs (INR (sh_steps sh) * ds_dt st - len) <= ds_dt st / 2.

(** ** Lemmas *)
Lemma steps_ok r : 0 < r -> r < IZR 18446744073709551616 -> to_size r = Ok (Z.to_nat (Int_part r)) /\ r - 1 < INR (Z.to_nat (Int_part r)) <= r.
Proof.
  intros H0 H1. unfold to_size. destruct (Rlt_dec (-1) r) as [_|C]; [|lra]. destruct (Rlt_dec r _) as [_|C]; [|lra].
  split; [reflexivity|]. destruct (base_Int_part r) as [B1 B2].
  assert (P : (0 <= Int_part r)%Z). { apply Z.lt_succ_r, lt_IZR. rewrite succ_IZR. lra. }
  rewrite INR_IZR_INZ, Z2Nat.id by exact P. lra.
Qed.

Lemma grid_time N T i : (i <= N)%nat -> vec_get (gridTimes Rops INR N T) i = Ok (INR i * (T / INR N)).
Proof.
  intros Hi. rewrite (vec_get_nth _ _ 0) by (rewrite gridTimes_length; lia). f_equal.
  unfold gridTimes. rewrite (nth_indep _ 0 (INR 0 * (T / INR N))) by (rewrite map_length, seq_length; lia).
  rewrite (map_nth (fun i => s_mul Rops (INR i) (s_div Rops T (INR N)))). rewrite seq_nth by lia. reflexivity.
Qed.

Definition the_shot (st : dmsSettings) (d : Dyn) (l : Lin) (c : Cost) (k : nat) : shot Dyn Lin Cost :=
  mkShot d l c (match ds_integration st with RK4 => true | _ => false end) (INR k * (ds_T st / INR (ds_N st)))
    (Z.to_nat (Int_part (ds_T st / INR (ds_N st) / ds_dt st + 1 / 2))).

Lemma vec_get_repeat {A} (a : A) n k : (k < n)%nat -> vec_get (repeat a n) k = Ok a.
Proof. intros H. rewrite (vec_get_nth _ _ a) by (rewrite repeat_length; lia). now rewrite nth_repeat. Qed.

Definition numbers (st : dmsSettings) : Prop :=
  (1 <= ds_N st)%nat /\ 0 < ds_T st /\ 0 < ds_dt st /\
  ds_T st / INR (ds_N st) / ds_dt st + 1 / 2 < IZR 18446744073709551616.

Lemma shot_built st d l c k : numbers st -> (k < ds_N st)%nat ->
  newShot st (mkGrid (ds_N st) (ds_T st) (gridTimes Rops INR (ds_N st) (ds_T st)))
             (repeat d (ds_N st)) (repeat l (ds_N st)) (repeat c (ds_N st)) k
  = match ds_integration st with RK5 => Throw | _ => Ok (the_shot st d l c k) end.
Proof.
  intros (HN & HT & Hdt & Hs) Hk.
  unfold newShot, getShotEndTime, getShotStartTime. cbn [g_t].
  rewrite !vec_get_repeat by lia. cbn [obind]. rewrite !grid_time by lia. cbn [obind].
  destruct (Req_EM_T (ds_dt st) 0) as [C|_]; [lra|].
  replace (INR (k + 1) * (ds_T st / INR (ds_N st)) - INR k * (ds_T st / INR (ds_N st))) with (ds_T st / INR (ds_N st))
    by (rewrite plus_INR; cbn [INR]; ring).
  assert (P : 0 < ds_T st / INR (ds_N st) / ds_dt st).
  { apply Rdiv_lt_0_compat; [apply Rdiv_lt_0_compat|]; auto. apply lt_0_INR. lia. }
  destruct (steps_ok (ds_T st / INR (ds_N st) / ds_dt st + 1 / 2)) as [-> _]; [lra|exact Hs|]. cbn [obind].
  unfold the_shot. destruct (ds_integration st); reflexivity.
Qed.

Lemma collect_throw {A} (f : nat -> outcome A) i n : f i = Throw -> collect f i (S n) = Throw.
Proof. intros E. cbn [collect]. rewrite E. reflexivity. Qed.

Lemma shots_built st d l c : numbers st ->
  collect (newShot st (mkGrid (ds_N st) (ds_T st) (gridTimes Rops INR (ds_N st) (ds_T st)))
             (repeat d (ds_N st)) (repeat l (ds_N st)) (repeat c (ds_N st))) 0 (ds_N st)
  = match ds_integration st with RK5 => Throw | _ => Ok (map (the_shot st d l c) (seq 0 (ds_N st))) end.
Proof.
  intros Hn. pose proof Hn as (HN & _).
  destruct (ds_integration st) eqn:Ei.
  1, 2: apply collect_ok; intros k Hk; rewrite shot_built by (auto; lia); rewrite Ei; reflexivity.
  set (f := newShot st _ _ _ _).
  assert (E0 : f 0%nat = Throw) by (unfold f; rewrite shot_built by (auto; lia); now rewrite Ei).
  clearbody f. destruct (ds_N st); [lia|]. now apply collect_throw.
Qed.

(** A call a user makes on the solver after its construction. *)
Inductive call : Type :=
| CHorizon (tf : R) | CState (x : X) | CCost (c : Cost) | CDyn (d : Dyn) | CLin (l : Lin)
| CInputBox (c : Con) | CStateBox (c : Con) | CGeneral (c : Con) | CSettings (st : dmsSettings) | CProblem (p : problem).
Definition run1 (c : call) (s : solver) : outcome solver :=
  match c with
  | CHorizon tf => changeTimeHorizon tf s
  | CState x => changeInitialState x s
  | CCost c => Ok (changeCostFunction c s)
  | CDyn d => Ok (changeNonlinearSystem d s)
  | CLin l => Ok (changeLinearSystem l s)
  | CInputBox c => Ok (changeInputBoxConstraints c s)
  | CStateBox c => Ok (changeStateBoxConstraints c s)
  | CGeneral c => Ok (changeGeneralConstraints c s)
  | CSettings st => configure st s
  | CProblem p => setProblem p s
  end.
Fixpoint run (cs : list call) (s : solver) : outcome solver :=
  match cs with [] => Ok s | c :: cs => do s <- run1 c s ;; run cs s end.


(** The horizon and the initial state last set. *)
Definition horizon_after (tf : R) (c : call) : R :=
  match c with CHorizon tf' => tf' | CProblem p => match pb_tf p with Some tf' => tf' | None => tf end | _ => tf end.
Definition state_after (x : X) (c : call) : X :=
  match c with CState x' => x' | CProblem p => pb_x0 p | _ => x end.

Lemma change_grid N T tf :
  rChangeTimeHorizon tf (mkGrid N T (gridTimes Rops INR N T)) = Ok (mkGrid N tf (gridTimes Rops INR N tf)).
Proof. apply makeUniformGrid_spec. apply gridTimes_length. Qed.

Lemma new_grid N T : rNewGrid N T = Ok (mkGrid N T (gridTimes Rops INR N T)).
Proof. apply makeUniformGrid_spec. apply repeat_length. Qed.

Lemma grid_uniform N T : (1 <= N)%nat -> uniform N T (gridTimes Rops INR N T).
Proof.
  intros HN i Hi. pose proof (grid_time N T i Hi) as E. rewrite (vec_get_nth _ _ 0) in E by (rewrite gridTimes_length; lia).
  apply Ok_inj in E. rewrite E. unfold Rdiv. ring.
Qed.

Definition uniform_grid (N : nat) (tf : R) (g : grid R) : Prop :=
  g_N g = N /\ g_T g = tf /\ length (g_t g) = S N /\ uniform N tf (g_t g).

(** The problem handed over, in full. *)
Definition given_lin (d : Dyn) (lin : option Lin) : Lin := match lin with Some l => l | None => linearizer d end.
Definition handed (st : dmsSettings) (tf : R) (x0 xg : X) (d : Dyn) (l : Lin) (c : Cost) (ib sb gen : option Con) : nlpProblem :=
  mkNlp (map (the_shot st d l c) (seq 0 (ds_N st))) c
    (match ds_cost st with Some SIMPLE => Some (repeat (ds_T st / INR (ds_N st)) (ds_N st) ++ [0]) | _ => None end)
    (mkGrid (ds_N st) tf (gridTimes Rops INR (ds_N st) tf)) x0 (present ib ++ present sb ++ present gen) (Some xg).

Lemma front_present o : front (present o) = present o.
Proof. destruct o; reflexivity. Qed.

Lemma dms_built st d l c (ib sb gen : option Con) (x0 : X) : workable st ->
  newDmsProblem st (repeat d (ds_N st)) (repeat l (ds_N st)) (repeat c (ds_N st)) (present ib) (present sb) (present gen) x0
  = Ok (mkNlp (np_shots (handed st (ds_T st) x0 x0 d l c ib sb gen)) c (np_phi (handed st (ds_T st) x0 x0 d l c ib sb gen))
          (mkGrid (ds_N st) (ds_T st) (gridTimes Rops INR (ds_N st) (ds_T st))) x0 (present ib ++ present sb ++ present gen) None).
Proof.
  intros W. pose proof W as (HN & HT & Hdt & Hs & Hg & Hi & sp & ce & Esp & Ece & Hz).
  unfold newDmsProblem. rewrite new_grid. cbn [obind]. rewrite Esp, Hg, Ece. rewrite shots_built by (repeat split; auto).
  replace (match ds_integration st with RK5 => Throw | _ => Ok (map (the_shot st d l c) (seq 0 (ds_N st))) end)
    with (Ok (map (the_shot st d l c) (seq 0 (ds_N st)))) by (destruct (ds_integration st); congruence).
  cbn [obind].
  rewrite vec_get_repeat by lia. cbn [obind]. rewrite !front_present.
  unfold handed. cbn [np_shots np_phi]. rewrite Ece. destruct ce; [|reflexivity].
  rewrite (Hz eq_refl).
  destruct (uniform_describes (ds_N st) (ds_T st) (repeat 0 (ds_N st + 1)) HN HT (repeat_length _ _)) as (g & E & D & _).
  rewrite makeUniformGrid_spec in E by apply repeat_length. apply Ok_inj in E. subst g.
  rewrite (zoh_weights _ _ _ _ D). reflexivity.
Qed.

Lemma prepared st tf (x0 : X) (d : Dyn) (c : Cost) (ib sb gen : option Con) (lin : option Lin) : 0 <= tf ->
  setProblem (newProblem linearizer tf x0 (Some d) (Some c) ib sb gen lin) (mkSolver st None None None None [] [] [] [] [] [])
  = Ok (mkSolver st None None (Some x0) (Some tf) (repeat d (ds_N st)) (repeat (given_lin d lin) (ds_N st)) (repeat c (ds_N st))
           (present ib) (present sb) (present gen)).
Proof.
  intros Ht. unfold setProblem.
  assert (V : verify (newProblem linearizer tf x0 (Some d) (Some c) ib sb gen lin) = Ok tf).
  { unfold verify, newProblem. cbn. destruct lin; cbn; destruct (Rlt_dec tf 0); (reflexivity || lra). }
  rewrite V. cbn [obind]. unfold newProblem. cbn. destruct ib, sb, gen, lin; reflexivity.
Qed.

Lemma built st tf (x0 : X) (d : Dyn) (c : Cost) (ib sb gen : option Con) (lin : option Lin) : workable st -> 0 <= tf ->
  newSolver (newProblem linearizer tf x0 (Some d) (Some c) ib sb gen lin) st
  = Ok (mkSolver st (Some (handed st tf x0 x0 d (given_lin d lin) c ib sb gen)) (ds_nlp st) (Some x0) (Some tf)
          (repeat d (ds_N st)) (repeat (given_lin d lin) (ds_N st)) (repeat c (ds_N st)) (present ib) (present sb) (present gen)).
Proof.
  intros W Ht. unfold newSolver. rewrite prepared by exact Ht.
  cbn [obind so_x0 so_sys so_lin so_cost so_ib so_sb so_gen so_settings so_tf].
  rewrite (dms_built st d (given_lin d lin) c ib sb gen x0 W). cbn [obind].
  unfold configure, changeTimeHorizon, overProblem. cbn [so_x0 so_tf so_problem np_grid]. rewrite change_grid. cbn.
  reflexivity.
Qed.

(** ** C89 *)
(** A solver built from a problem and workable settings hands over exactly that problem: one shot per interval, each with
    the given dynamics, linearisation and cost, the initial state, and the given constraints in order. *)
Theorem C89_constructed st tf (x0 : X) (d : Dyn) (c : Cost) (ib sb gen : option Con) (lin : option Lin) t : workable st -> ds_T st = tf -> ds_nlp st = Some t ->
  exists s np, newSolver (newProblem linearizer tf x0 (Some d) (Some c) ib sb gen lin) st = Ok s /\ solve s = Ok (t, np) /\
    length (np_shots np) = ds_N st /\
    (forall k, (k < ds_N st)%nat -> exists sh, nth_error (np_shots np) k = Some sh /\
       is_shot st d (match lin with Some l => l | None => linearizer d end) c (INR k * tf / INR (ds_N st)) (tf / INR (ds_N st)) sh /\
       getShotStartTime (np_grid np) k = Ok (sh_start sh)) /\
    np_evalCost np = c /\ uniform_grid (ds_N st) tf (np_grid np) /\
    np_x0 np = x0 /\ np_guess np = Some x0 /\ np_con np = present ib ++ present sb ++ present gen /\
    (ds_cost st = Some SIMPLE -> np_phi np = Some (repeat (tf / INR (ds_N st)) (ds_N st) ++ [0])).
Proof.
  intros W <- Et. pose proof W as (HN & HT & Hdt & Hs & Hg & Hi & _).
  eexists. eexists. rewrite built by (auto; lra). split; [reflexivity|].
  unfold solve. cbn [so_nlp so_problem]. rewrite Et. split; [reflexivity|].
  unfold handed. cbn [np_shots np_evalCost np_phi np_grid np_x0 np_con np_guess].
  split; [rewrite map_length, seq_length; reflexivity|].
  split; [|repeat split; auto].
  - intros k Hk. exists (the_shot st d (given_lin d lin) c k). split; [|split].
    + rewrite nth_error_map. rewrite (nth_error_nth' _ 0%nat) by (rewrite seq_length; lia). rewrite seq_nth by lia. reflexivity.
    + unfold is_shot, the_shot. cbn. repeat split; try (destruct (ds_integration st); congruence).
      * unfold Rdiv. ring.
      * assert (P : 0 < ds_T st / INR (ds_N st) / ds_dt st).
        { apply Rdiv_lt_0_compat; [apply Rdiv_lt_0_compat|]; auto. apply lt_0_INR. lia. }
        destruct (steps_ok (ds_T st / INR (ds_N st) / ds_dt st + 1 / 2)) as [_ B]; [lra|exact Hs|].
        set (n := INR (Z.to_nat _)) in *. set (L := ds_T st / INR (ds_N st)) in *.
        assert (E : L = L / ds_dt st * ds_dt st) by (field; lra).
        rewrite E at 1. rewrite <- Rmult_minus_distr_r.
        rewrite Rabs_mult, (Rabs_right (ds_dt st)) by lra.
        assert (Rabs (n - L / ds_dt st) <= 1 / 2) by (apply Rabs_le; lra). nra.
    + unfold getShotStartTime. cbn [g_t]. rewrite grid_time by lia. reflexivity.
  - cbn [g_t]. rewrite gridTimes_length. lia.
  - cbn [g_t]. now apply grid_uniform.
  - intros ->. reflexivity.
Qed.

(** Problems and settings the constructor refuses. *)
Theorem C89_refused_problem (p : problem) st :
  (pb_dyn p = None \/ pb_lin p = None \/ pb_cost p = None \/ (exists tf, pb_tf p = Some tf /\ tf < 0)) ->
  pb_tf p <> None -> newSolver p st = Throw.
Proof.
  intros H Ht. unfold newSolver, setProblem.
  assert (V : verify p = Throw).
  { unfold verify. destruct (pb_dyn p); [|reflexivity]. destruct (pb_lin p); [|reflexivity]. destruct (pb_cost p); [|reflexivity].
    destruct (pb_tf p) as [tf|]; [|congruence]. destruct H as [H|[H|[H|(tf' & E & H)]]]; try discriminate.
    injection E as ->. destruct (Rlt_dec tf' 0); [reflexivity|lra]. }
  now rewrite V.
Qed.

Theorem C89_refused_settings st tf (x0 : X) (d : Dyn) (c : Cost) (ib sb gen : option Con) (lin : option Lin) : 0 <= tf -> (1 <= ds_N st)%nat -> 0 < ds_T st -> 0 < ds_dt st ->
  ds_T st / INR (ds_N st) / ds_dt st + 1 / 2 < IZR 18446744073709551616 ->
  (ds_spline st = None \/ ds_optimizeGrid st = true \/ ds_integration st = RK5 \/ ds_cost st = None) ->
  newSolver (newProblem linearizer tf x0 (Some d) (Some c) ib sb gen lin) st = Throw.
Proof.
  intros Ht HN HT Hdt Hs H. unfold newSolver. rewrite prepared by exact Ht.
  cbn [obind so_x0 so_sys so_lin so_cost so_ib so_sb so_gen so_settings so_tf].
  unfold newDmsProblem. rewrite new_grid. cbn [obind].
  destruct (ds_spline st) as [sp|]; [|reflexivity]. destruct (ds_optimizeGrid st) eqn:Eo; [reflexivity|].
  rewrite shots_built by (repeat split; auto).
  destruct (ds_integration st); cbn [obind]; try reflexivity;
    (destruct (ds_cost st); [|reflexivity]); destruct H as [H|[H|[H|H]]]; discriminate.
Qed.

(** After any calls on the solver: what is handed over then.  Everything but the time grid and the initial guess is
    what it was at construction. *)
Theorem C89_history st tf (x0 : X) (d : Dyn) (c : Cost) (ib sb gen : option Con) (lin : option Lin) t cs s :
  workable st -> 0 <= tf -> ds_nlp st = Some t ->
  (do s <- newSolver (newProblem linearizer tf x0 (Some d) (Some c) ib sb gen lin) st ;; run cs s) = Ok s ->
  exists s0 np0 np, newSolver (newProblem linearizer tf x0 (Some d) (Some c) ib sb gen lin) st = Ok s0 /\
    solve s0 = Ok (t, np0) /\ solve s = Ok (t, np) /\
    np_shots np = np_shots np0 /\ np_evalCost np = np_evalCost np0 /\ np_phi np = np_phi np0 /\ np_con np = np_con np0 /\
    np_x0 np = x0 /\ uniform_grid (ds_N st) (fold_left horizon_after cs tf) (np_grid np) /\
    np_guess np = Some (fold_left state_after cs x0).
Proof.
  intros W Ht Et. rewrite built by auto. cbn [obind]. intros E.
  pose proof W as (HN & _).
  assert (G : forall cs tf xg s0, so_nlp s0 = Some t -> so_tf s0 = Some tf -> so_x0 s0 = Some xg ->
     so_problem s0 = Some (handed st tf x0 xg d (given_lin d lin) c ib sb gen) -> run cs s0 = Ok s ->
     so_nlp s = Some t /\ so_problem s = Some (handed st (fold_left horizon_after cs tf) x0 (fold_left state_after cs xg) d (given_lin d lin) c ib sb gen)).
  { clear tf Ht E cs. induction cs as [|cl cs IH]; intros tf xg s0 E1 E2 E3 E4 E; cbn [run] in E.
    - injection E as <-. cbn. auto.
    - assert (CH : forall tf' s0 s1, so_nlp s0 = Some t -> so_tf s0 = Some tf -> so_x0 s0 = Some xg ->
         so_problem s0 = Some (handed st tf x0 xg d (given_lin d lin) c ib sb gen) -> changeTimeHorizon tf' s0 = Ok s1 ->
         so_nlp s1 = Some t /\ so_tf s1 = Some tf' /\ so_x0 s1 = Some xg /\
         so_problem s1 = Some (handed st tf' x0 xg d (given_lin d lin) c ib sb gen)).
      { clear. intros tf' s0 s1 E1 E2 E3 E4 E. unfold changeTimeHorizon, overProblem in E. rewrite E4 in E. cbn in E.
        rewrite change_grid in E. cbn in E. injection E as <-. cbn. auto. }
      assert (CX : forall tf x' s0 s1, so_nlp s0 = Some t -> so_tf s0 = Some tf -> so_x0 s0 = Some xg ->
         so_problem s0 = Some (handed st tf x0 xg d (given_lin d lin) c ib sb gen) -> changeInitialState x' s0 = Ok s1 ->
         so_nlp s1 = Some t /\ so_tf s1 = Some tf /\ so_x0 s1 = Some x' /\
         so_problem s1 = Some (handed st tf x0 x' d (given_lin d lin) c ib sb gen)).
      { clear. intros tf x' s0 s1 E1 E2 E3 E4 E. unfold changeInitialState, overProblem in E. rewrite E4 in E. cbn in E.
        injection E as <-. cbn. auto. }
      destruct cl; cbn [run1] in E; cbn [fold_left horizon_after state_after].
      + destruct (changeTimeHorizon tf0 s0) as [s1| |] eqn:E5; try discriminate. cbn [obind] in E.
        destruct (CH _ _ _ E1 E2 E3 E4 E5) as (F1 & F2 & F3 & F4). now apply (IH tf0 xg s1).
      + destruct (changeInitialState x s0) as [s1| |] eqn:E5; try discriminate. cbn [obind] in E.
        destruct (CX _ _ _ _ E1 E2 E3 E4 E5) as (F1 & F2 & F3 & F4). now apply (IH tf x s1).
      + cbn [obind] in E. now apply (IH tf xg _) in E.
      + cbn [obind] in E. now apply (IH tf xg _) in E.
      + cbn [obind] in E. now apply (IH tf xg _) in E.
      + cbn [obind] in E. now apply (IH tf xg _) in E.
      + cbn [obind] in E. now apply (IH tf xg _) in E.
      + cbn [obind] in E. now apply (IH tf xg _) in E.
      + unfold configure in E. rewrite E2, E3 in E.
        destruct (changeTimeHorizon tf s0) as [s1| |] eqn:E5; try discriminate. cbn [obind] in E.
        destruct (CH _ _ _ E1 E2 E3 E4 E5) as (F1 & F2 & F3 & F4).
        destruct (changeInitialState xg s1) as [s2| |] eqn:E6; try discriminate. cbn [obind] in E.
        destruct (CX _ _ _ _ F1 F2 F3 F4 E6) as (G1 & G2 & G3 & G4). now apply (IH tf xg s2).
      + unfold setProblem in E. destruct (verify p) as [tf'| |] eqn:V; try discriminate. cbn [obind] in E.
        assert (Ep : pb_tf p = Some tf').
        { unfold verify in V. destruct (pb_dyn p), (pb_lin p), (pb_cost p), (pb_tf p) as [tf''|]; try discriminate.
          destruct (Rlt_dec tf'' 0); [discriminate|]. now injection V as ->. }
        rewrite Ep.
        destruct (changeTimeHorizon tf' s0) as [s1| |] eqn:E5; try discriminate. cbn [obind] in E.
        destruct (CH _ _ _ E1 E2 E3 E4 E5) as (F1 & F2 & F3 & F4).
        destruct (changeInitialState (pb_x0 p) s1) as [s2| |] eqn:E6; try discriminate. cbn [obind] in E.
        destruct (CX _ _ _ _ F1 F2 F3 F4 E6) as (G1 & G2 & G3 & G4).
        apply (IH tf' (pb_x0 p)) in E; auto;
          unfold onSome; destruct (pb_cost p), (pb_dyn p), (pb_lin p), (pb_inputBox _ _ _ _ _ p), (pb_stateBox _ _ _ _ _ p), (pb_general _ _ _ _ _ p);
          cbn; assumption. }
  eapply G in E; [|exact Et|reflexivity|reflexivity|reflexivity]. destruct E as [E1 E2].
  eexists. eexists. eexists. split; [reflexivity|]. unfold solve. cbn [so_nlp so_problem]. rewrite Et, E1, E2.
  split; [reflexivity|]. split; [reflexivity|]. unfold handed.
  cbn [np_shots np_evalCost np_phi np_grid np_x0 np_con np_guess]. repeat split; auto.
  - cbn [g_t]. rewrite gridTimes_length. lia.
  - cbn [g_t]. now apply grid_uniform.
Qed.

(** Finding: replacing the cost function, the dynamics, the linearisation, a constraint or the settings of a solver is
    accepted and does not change what is solved. *)
Theorem C89_replace_refuted (s : solver) (c : Cost) (d : Dyn) (l : Lin) (k : Con) :
  solve (changeCostFunction c s) = solve s /\ solve (changeNonlinearSystem d s) = solve s /\
  solve (changeLinearSystem l s) = solve s /\ solve (changeInputBoxConstraints k s) = solve s /\
  solve (changeStateBoxConstraints k s) = solve s /\ solve (changeGeneralConstraints k s) = solve s.
Proof. repeat split. Qed.

Theorem C89_configure_refuted st st' tf (x0 : X) (d : Dyn) (c : Cost) (ib sb gen : option Con) (lin : option Lin) t s :
  workable st -> 0 <= tf -> ds_nlp st = Some t ->
  newSolver (newProblem linearizer tf x0 (Some d) (Some c) ib sb gen lin) st = Ok s ->
  exists s', configure st' s = Ok s' /\ solve s' = solve s.
Proof.
  intros W Ht Et E. rewrite built in E by auto. injection E as <-.
  unfold configure, changeTimeHorizon, overProblem. cbn [so_x0 so_tf so_problem]. unfold handed. cbn [np_grid].
  rewrite change_grid. cbn. eexists. split; [reflexivity|]. reflexivity.
Qed.

(** Finding: after a change of the horizon the shots start where the shots of the old horizon did, while nodes, controls
    and constraints follow the new grid; likewise when the horizon of the problem is not the one in the settings. *)
Theorem C89_horizon_refuted st tf tf' (x0 : X) (d : Dyn) (c : Cost) (ib sb gen : option Con) (lin : option Lin) t :
  workable st -> (2 <= ds_N st)%nat -> 0 <= tf -> tf' <> ds_T st -> ds_nlp st = Some t ->
  exists s s' np, newSolver (newProblem linearizer tf x0 (Some d) (Some c) ib sb gen lin) st = Ok s /\
    changeTimeHorizon tf' s = Ok s' /\ solve s' = Ok (t, np) /\ g_T (np_grid np) = tf' /\
    exists sh b, nth_error (np_shots np) 1 = Some sh /\ getShotStartTime (np_grid np) 1 = Ok b /\ sh_start sh <> b /\
      sh_start sh = ds_T st / INR (ds_N st) /\ b = tf' / INR (ds_N st).
Proof.
  intros W HN Ht Hne Et. rewrite built by auto. eexists. eexists. eexists. split; [reflexivity|].
  split. { unfold changeTimeHorizon, overProblem. cbn [so_problem]. unfold handed. cbn [np_grid]. rewrite change_grid. reflexivity. }
  unfold solve. cbn [so_nlp so_problem]. rewrite Et. split; [reflexivity|]. cbn [np_grid]. split; [reflexivity|].
  exists (the_shot st d (given_lin d lin) c 1), (tf' / INR (ds_N st)). cbn [np_shots].
  split. { rewrite nth_error_map. rewrite (nth_error_nth' _ 0%nat) by (rewrite seq_length; lia). rewrite seq_nth by lia. reflexivity. }
  split. { unfold getShotStartTime. cbn [g_t]. rewrite grid_time by lia. f_equal. cbn [INR]. ring. }
  cbn [the_shot sh_start INR]. rewrite !Rmult_1_l.
  split; [|auto]. intros C. apply Hne.
  assert (P : 0 < INR (ds_N st)) by (apply lt_0_INR; lia).
  apply (f_equal (fun z => z * INR (ds_N st))) in C. unfold Rdiv in C. rewrite !Rmult_assoc, Rinv_l, !Rmult_1_r in C by lra. congruence.
Qed.

Theorem C89_two_horizons_refuted st tf (x0 : X) (d : Dyn) (c : Cost) (ib sb gen : option Con) (lin : option Lin) t :
  workable st -> (2 <= ds_N st)%nat -> 0 <= tf -> tf <> ds_T st -> ds_nlp st = Some t ->
  exists s np, newSolver (newProblem linearizer tf x0 (Some d) (Some c) ib sb gen lin) st = Ok s /\ solve s = Ok (t, np) /\
    exists sh b, nth_error (np_shots np) 1 = Some sh /\ getShotStartTime (np_grid np) 1 = Ok b /\ sh_start sh <> b.
Proof.
  intros W HN Ht Hne Et.
  destruct (C89_horizon_refuted st tf tf x0 d c ib sb gen lin t W HN Ht Hne Et) as (s & s' & np & E1 & E2 & E3 & _ & sh & b & F1 & F2 & F3 & _).
  exists s, np. split; [exact E1|]. split; [|now exists sh, b].
  rewrite built in E1 by auto. injection E1 as <-.
  unfold changeTimeHorizon, overProblem in E2. cbn [so_problem] in E2. unfold handed in E2. cbn [np_grid] in E2.
  rewrite change_grid in E2. cbn in E2. injection E2 as <-. rewrite <- E3. reflexivity.
Qed.

(** Finding: an unknown NLP solver type is accepted by the constructor; solving dereferences a null pointer. *)
Theorem C89_unknown_solver_refuted st tf (x0 : X) (d : Dyn) (c : Cost) (ib sb gen : option Con) (lin : option Lin) :
  workable st -> 0 <= tf -> ds_nlp st = None ->
  exists s, newSolver (newProblem linearizer tf x0 (Some d) (Some c) ib sb gen lin) st = Ok s /\ solve s = UB.
Proof. intros W Ht Et. rewrite built by auto. eexists. split; [reflexivity|]. unfold solve. cbn [so_nlp]. now rewrite Et. Qed.

(** Finding: the answer of parametersOk is ignored; settings without shots read past an empty vector. *)
Theorem C89_no_shots_refuted st tf (x0 : X) (d : Dyn) (c : Cost) (ib sb gen : option Con) (lin : option Lin) :
  0 <= tf -> ds_N st = 0%nat -> ds_spline st <> None -> ds_optimizeGrid st = false -> ds_cost st <> None ->
  newSolver (newProblem linearizer tf x0 (Some d) (Some c) ib sb gen lin) st = UB.
Proof.
  intros Ht HN Hsp Hg Hc. unfold newSolver. rewrite prepared by exact Ht.
  cbn [obind so_x0 so_sys so_lin so_cost so_ib so_sb so_gen so_settings so_tf].
  unfold newDmsProblem. rewrite new_grid. cbn [obind]. rewrite HN, Hg. cbn.
  destruct (ds_spline st); [|congruence]. destruct (ds_cost st); [reflexivity|congruence].
Qed.

(** Finding: the simple evaluation of the cost of piecewise linear controls is accepted and reads past the grid. *)
Theorem C89_simple_linear_refuted st tf (x0 : X) (d : Dyn) (c : Cost) (ib sb gen : option Con) (lin : option Lin) :
  0 <= tf -> numbers st -> ds_optimizeGrid st = false -> ds_integration st <> RK5 ->
  ds_spline st = Some PIECEWISE_LINEAR -> ds_cost st = Some SIMPLE ->
  newSolver (newProblem linearizer tf x0 (Some d) (Some c) ib sb gen lin) st = UB.
Proof.
  intros Ht Hn Hg Hi Hsp Hc. unfold newSolver. rewrite prepared by exact Ht.
  cbn [obind so_x0 so_sys so_lin so_cost so_ib so_sb so_gen so_settings so_tf].
  unfold newDmsProblem. rewrite new_grid. cbn [obind]. rewrite Hsp, Hg, Hc, shots_built by exact Hn.
  pose proof Hn as (HN & HT & _).
  destruct (uniform_describes (ds_N st) (ds_T st) (repeat 0 (ds_N st + 1)) HN HT (repeat_length _ _)) as (g & E & D & _).
  rewrite makeUniformGrid_spec in E by apply repeat_length. apply Ok_inj in E. subst g.
  destruct (ds_integration st); try congruence; cbn [obind]; rewrite vec_get_repeat by lia; cbn [obind];
    rewrite (C50_linear_refuted _ _ _ _ D HN); reflexivity.
Qed.

(** Finding: giving an existing problem new dynamics keeps the linearisation of the old ones. *)
Theorem C89_stale_linearisation_refuted tf (x0 : X) (d d' : Dyn) (c : Cost) (ib sb gen : option Con) : linearizer d <> linearizer d' ->
  pb_lin (setNonlinearSystem (Some d') (newProblem linearizer tf x0 (Some d) (Some c) ib sb gen None)) <> Some (linearizer d').
Proof. cbn. congruence. Qed.
End C89.

(** Non-vacuity: two shots over a horizon of 2, step 1/2, simple evaluation of piecewise constant controls. *)
Example settings0 : dmsSettings := mkDms 2 2 (1 / 2) (Some ZERO_ORDER_HOLD) (Some SIMPLE) false RK4 (Some IPOPT).
Example settings0_workable : workable settings0.
Proof.
  unfold workable, settings0; cbn. repeat split; try lra; try lia; try discriminate.
  exists ZERO_ORDER_HOLD, SIMPLE. auto.
Qed.
Example two_shots : exists s np, newSolver (newProblem (fun d : nat => (d + 100)%nat) 2 tt (Some 1%nat) (Some true) (Some 5%nat) None (Some 6%nat) None) settings0 = Ok s /\
  solve s = Ok (IPOPT, np) /\ length (np_shots np) = 2%nat /\ np_con np = [5%nat; 6%nat].
Proof.
  destruct (C89_constructed (fun d : nat => (d + 100)%nat) settings0 2 tt 1%nat true (Some 5%nat) None (Some 6%nat) None IPOPT settings0_workable eq_refl eq_refl)
    as (s & np & E1 & E2 & E3 & _ & _ & _ & _ & _ & E4 & _).
  exists s, np. auto.
Qed.

Print Assumptions C89_constructed.
Print Assumptions C89_refused_problem.
Print Assumptions C89_refused_settings.
Print Assumptions C89_history.
Print Assumptions C89_replace_refuted.
Print Assumptions C89_configure_refuted.
Print Assumptions C89_horizon_refuted.
Print Assumptions C89_two_horizons_refuted.
Print Assumptions C89_unknown_solver_refuted.
Print Assumptions C89_no_shots_refuted.
Print Assumptions C89_simple_linear_refuted.
Print Assumptions C89_stale_linearisation_refuted.
