(** Properties of the switched systems (C77). *)
From Coq Require Import List ZArith QArith Lia FinFun.
From Verif Require Import Base.Outcome Core.PhaseModel Core.PhaseProofs Core.SwitchedModel.
Import ListNotations.
Open Scope Q_scope.

(** * Specification *)

(** The mode scheduled at time [t] by the phases [l] = (mode, duration) from [t0] on: the phase whose interval [start, end) contains
    [t]; the first one before the start, the last one after the end. *)
Definition scheduled (t0 : Q) (l : list (nat * Q)) (t : Q) (p : nat) : Prop :=
  (exists l1 d l2, l = l1 ++ (p, d) :: l2 /\ t0 + total l1 <= t /\ t < t0 + total l1 + d) \/
  (t < t0 /\ exists d r, l = (p, d) :: r) \/
  (t0 + total l <= t /\ exists d r, l = r ++ [(p, d)]).
(** A usable schedule: every phase lasts, their number fits a machine word. *)
Definition well_timed (l : list (nat * Q)) : Prop := Forall (fun e => 0 < snd e) l /\ (Z.of_nat (length l) < 2 ^ 63)%Z.
(** The object a pointer refers to. *)
Definition points_to {T} (h : store T) (p : ptr) (v : T) : Prop := exists a, p = Some a /\ cell h a = Some v.
(** Calls / results of the first or the second object. *)
Definition only {A} (b : bool) (l : list (bool * A)) : list A := map snd (filter (fun e => Bool.eqb (fst e) b) l).

(** * Modes *)

Lemma scheduled_phase t0 l t p ms : well_timed l -> addPhases (ps_new t0) l = Ok ms -> scheduled t0 l t p ->
  getPhaseFromTime ms t = Ok p.
Proof.
  intros [H1 H2] Hb [(l1 & d & l2 & -> & Ha & Hz)|[(Ht & d & r & ->)|(Ht & d & r & ->)]].
  - exact (phase_inside t0 l1 p d l2 t ms H1 H2 Hb Ha Hz).
  - exact (phase_before t0 p d r t ms Hb Ht).
  - exact (phase_after t0 r p d t ms H1 H2 Hb Ht).
Qed.
Lemma scheduled_exists t0 l t : l <> [] -> Forall (fun e => 0 < snd e) l -> exists p, scheduled t0 l t p.
Proof.
  intros Hl Hp. destruct (Qlt_le_dec t t0) as [H|H].
  - destruct l as [|[p d] r]; [easy|]. exists p. right; left. split; [exact H|]. exists d, r. reflexivity.
  - destruct (Qlt_le_dec t (t0 + total l)) as [H2|H2].
    + destruct (interval_exists l t t0 Hp H H2) as (l1 & p & d & l2 & E & A & B). exists p. left. exists l1, d, l2. auto.
    + destruct (exists_last Hl) as (r & [p d] & E). exists p. right; right. split; [exact H2|]. exists d, r. exact E.
Qed.
Lemma scheduled_In t0 l t p : scheduled t0 l t p -> exists d, In (p, d) l.
Proof.
  intros [(l1 & d & l2 & -> & _)|[(_ & d & r & ->)|(_ & d & r & ->)]]; exists d.
  - apply in_elt. - left; reflexivity. - apply in_elt.
Qed.

Section Systems.
Variables (X U CST SST : Type) (zeroU : U).
Variable computeControl : CST -> X -> Q -> U * CST.
Variable dynamics : SST -> X -> Q -> U -> X * SST.
Notation heap := (heap CST SST).
Notation switched := (switched U).
Notation controlled := (computeControlledDynamics dynamics).
Notation dyn := (computeDynamics zeroU computeControl dynamics).
Notation step := (step zeroU computeControl dynamics).
Notation stepDiscrete := (stepDiscrete zeroU computeControl dynamics).

(** At every time the switched system has the dynamics of the subsystem scheduled for that time, with the same state, time and
    control; only the state of that subsystem changes. *)
Theorem C77_active_mode (t0 : Q) (l : list (nat * Q)) (ms : phase_seq) (s : switched) (h : heap) (p : nat) (q : ptr) (v : SST)
    (x : X) (t : Q) (u : U) :
  well_timed l -> addPhases (ps_new t0) l = Ok ms -> modeSequence s = ms -> scheduled t0 l t p ->
  nth_error (switchedSystems s) p = Some q -> points_to (systems h) q v ->
  exists h', controlled s h x t u = Ok (fst (dynamics v x t u), h') /\
    ctrls h' = ctrls h /\ points_to (systems h') q (snd (dynamics v x t u)) /\
    forall q' v', q' <> q -> points_to (systems h) q' v' -> points_to (systems h') q' v'.
Proof.
  intros Hw Hb Hm Hs Hq (a & -> & Hv). unfold computeControlledDynamics. rewrite Hm, (scheduled_phase _ _ _ _ _ Hw Hb Hs). cbn.
  unfold vec_get. rewrite Hq. cbn. rewrite Hv. cbn. destruct (dynamics v x t u) as [dx v']. cbn.
  eexists. split; [reflexivity|]. cbn. split; [reflexivity|]. split.
  - exists a. cbn. rewrite Nat.eqb_refl. auto.
  - intros q' w Hn (b & -> & Hw2). exists b. cbn. split; [reflexivity|]. destruct (Nat.eqb_spec b a) as [->|]; congruence.
Qed.

(** Every time has a scheduled mode, and only one, so the switched system is defined at every time - inside, before and after the
    schedule - as soon as each mode of the schedule is the number of a subsystem. *)
Theorem C77_defined_everywhere (t0 : Q) (l : list (nat * Q)) (ms : phase_seq) (s : switched) (h : heap) :
  l <> [] -> well_timed l -> addPhases (ps_new t0) l = Ok ms -> modeSequence s = ms ->
  (forall p d, In (p, d) l -> exists q v, nth_error (switchedSystems s) p = Some q /\ points_to (systems h) q v) ->
  (forall t, exists! p, scheduled t0 l t p) /\
  forall x t u, exists r, controlled s h x t u = Ok r.
Proof.
  intros Hl Hw Hb Hm Hv. split.
  - intro t. destruct (scheduled_exists t0 l t Hl (proj1 Hw)) as (p & Hp). exists p. split; [exact Hp|]. intros p' Hp'.
    apply (scheduled_phase _ _ _ _ _ Hw Hb) in Hp. apply (scheduled_phase _ _ _ _ _ Hw Hb) in Hp'. congruence.
  - intros x t u. destruct (scheduled_exists t0 l t Hl (proj1 Hw)) as (p & Hp). destruct (scheduled_In _ _ _ _ Hp) as (d & Hd).
    destruct (Hv p d Hd) as (q & v & Hq & Hr).
    destruct (C77_active_mode t0 l ms s h p q v x t u Hw Hb Hm Hp Hq Hr) as (h' & E & _). rewrite E. eauto.
Qed.

(** A mode without a subsystem is not detected. *)
Theorem C77_unknown_mode_refuted (t0 : Q) (l : list (nat * Q)) (ms : phase_seq) (s : switched) (h : heap) (p : nat) (x : X) (t : Q) (u : U) :
  well_timed l -> addPhases (ps_new t0) l = Ok ms -> modeSequence s = ms -> scheduled t0 l t p ->
  (length (switchedSystems s) <= p)%nat -> controlled s h x t u = UB.
Proof.
  intros Hw Hb Hm Hs Hp. unfold computeControlledDynamics. rewrite Hm, (scheduled_phase _ _ _ _ _ Hw Hb Hs). cbn.
  unfold vec_get. apply nth_error_None in Hp. now rewrite Hp.
Qed.

(** computeDynamics applies the control of the controller at the same state and time - zero without a controller - to the system, and
    getLastControlAction returns that control. *)
Theorem C77_controller (s : switched) (h : heap) (x : X) (t : Q) :
  match controller s with
  | None => forall r, controlled s h x t zeroU = Ok r ->
      exists s', dyn s h x t = Ok (fst r, s', snd r) /\ getLastControlAction s' = Ok zeroU /\ controller s' = None /\
        switchedSystems s' = switchedSystems s /\ modeSequence s' = modeSequence s
  | Some a => forall c r, cell (ctrls h) a = Some c ->
      let (u, c') := computeControl c x t in
      let h1 := mkHeap (write (ctrls h) (Some a) c') (systems h) in
      controlled s h1 x t u = Ok r ->
      exists s', dyn s h x t = Ok (fst r, s', snd r) /\ getLastControlAction s' = Ok u /\ controller s' = Some a /\
        switchedSystems s' = switchedSystems s /\ modeSequence s' = modeSequence s
  end.
Proof.
  unfold computeDynamics. destruct (controller s) as [a|] eqn:Ec.
  - intros c [dx h2] Hc. destruct (computeControl c x t) as [u c'] eqn:E. intro Hr. cbn. rewrite Hc. cbn. rewrite E. cbn. cbn in Hr. rewrite Hr. cbn.
    eexists. split; [reflexivity|]. cbn. auto.
  - intros [dx h2] Hr. cbn. rewrite Hr. cbn. eexists. split; [reflexivity|]. cbn. auto.
Qed.
Theorem C77_last_control_refuted (subs : list ptr) (ms : phase_seq) : getLastControlAction (newSwitched subs ms : switched) = UB.
Proof. reflexivity. Qed.

(** * Clones *)

(** Nothing lives at the free addresses; every pointer of the object refers to a live object. *)
Definition tidy {T} (h : store T) : Prop := forall a, (next h <= a)%nat -> cell h a = None.
Definition live {T} (h : store T) (p : ptr) : Prop := exists v, points_to h p v.
Definition usable (s : switched) (h : heap) : Prop :=
  tidy (ctrls h) /\ tidy (systems h) /\ Forall (live (systems h)) (switchedSystems s) /\
  (controller s = None \/ live (ctrls h) (controller s)).

Lemma tidy_lt {T} (h : store T) a v : tidy h -> cell h a = Some v -> (a < next h)%nat.
Proof. intros Ht Hv. destruct (Nat.lt_ge_cases a (next h)) as [?|G]; [assumption|]. rewrite Ht in Hv by exact G. discriminate. Qed.

Lemma cloneSubsystems_spec (l : list ptr) : forall (h : store SST), tidy h -> Forall (live h) l ->
  exists h2, cloneSubsystems l h = Ok (map Some (seq (next h) (length l)), h2) /\
    (forall a, (a < next h)%nat -> cell h2 a = cell h a) /\
    (forall i a, nth_error l i = Some (Some a) -> cell h2 (next h + i) = cell h a).
Proof.
  induction l as [|p r IH]; intros h Ht Hl.
  - exists h. cbn. split; [reflexivity|]. split; [auto|]. intros [|] ?; discriminate.
  - inversion Hl as [|? ? (v & a & -> & Hv) Hr]; subst. cbn. rewrite Hv. cbn. set (h1 := mkStore _ _).
    assert (T1 : tidy h1). { intros c Hc. cbn in Hc |- *. destruct (Nat.eqb_spec c (next h)); [lia|apply Ht; lia]. }
    assert (L1 : forall b w, cell h b = Some w -> cell h1 b = Some w).
    { intros b w Hb. cbn. destruct (Nat.eqb_spec b (next h)) as [->|]; [|exact Hb]. apply tidy_lt in Hb; [lia|exact Ht]. }
    assert (R1 : Forall (live h1) r). { eapply Forall_impl; [|exact Hr]. intros q (w & b & -> & Hb). exists w, b. split; [reflexivity|]. now apply L1. }
    destruct (IH h1 T1 R1) as (h2 & E & H1 & H2). rewrite E. cbn. exists h2. split; [reflexivity|]. cbn in H1, H2. split.
    + intros b Hb. rewrite H1 by lia. destruct (Nat.eqb_spec b (next h)); [lia|reflexivity].
    + intros [|i] b; cbn.
      * intro Hb. injection Hb as <-. rewrite Nat.add_0_r, H1 by lia. rewrite Nat.eqb_refl. now symmetry.
      * intro Hb. rewrite Nat.add_succ_r. rewrite (H2 i b Hb).
        destruct (Nat.eqb_spec b (next h)) as [->|]; [|reflexivity].
        apply nth_error_In in Hb. rewrite Forall_forall in Hr. destruct (Hr _ Hb) as (w & c & Hc & Hw). injection Hc as <-.
        apply tidy_lt in Hw; [lia|exact Ht].
Qed.

(** The object [b] in the heap [hb] behaves as [s] in [h]: same schedule and last control, and its subsystems and controller are in the
    same states. *)
Record matches (s : switched) (h : heap) (b : switched) (hb : heap) : Prop := mkMatches {
  m_modes : modeSequence b = modeSequence s;
  m_action : controlAction b = controlAction s;
  m_len : length (switchedSystems b) = length (switchedSystems s);
  m_subs : forall i p, nth_error (switchedSystems s) i = Some p -> exists a a', p = Some a /\
    nth_error (switchedSystems b) i = Some (Some a') /\ cell (systems hb) a' = cell (systems h) a;
  m_ctrl : match controller s with
           | None => controller b = None
           | Some a => exists a', controller b = Some a' /\ cell (ctrls hb) a' = cell (ctrls h) a
           end }.

Lemma matches_controlled (s : switched) h b hb x t u dx h' : NoDup (switchedSystems s) -> NoDup (switchedSystems b) ->
  matches s h b hb -> controlled s h x t u = Ok (dx, h') ->
  exists hb', controlled b hb x t u = Ok (dx, hb') /\ matches s h' b hb' /\ ctrls hb' = ctrls hb /\
    forall a, ~ In (Some a) (switchedSystems b) -> cell (systems hb') a = cell (systems hb) a.
Proof.
  intros N1 N2 [M1 M2 M3 M4 M5]. unfold computeControlledDynamics. rewrite M1.
  destruct (getPhaseFromTime (modeSequence s) t) as [mode| |]; cbn; try discriminate.
  unfold vec_get. destruct (nth_error (switchedSystems s) mode) as [p|] eqn:Ep; cbn; try discriminate.
  destruct (M4 mode p Ep) as (a & a' & -> & Eb & Ec). rewrite Eb. cbn. rewrite Ec.
  destruct (cell (systems h) a) as [v|] eqn:Ev; cbn; try discriminate. destruct (dynamics v x t u) as [dx0 v'].
  intro H. injection H as <- <-. eexists. split; [reflexivity|]. split; [|split; [reflexivity|]].
  - split; cbn; auto. intros i p Ei. destruct (M4 i p Ei) as (c & c' & -> & Fb & Fc). exists c, c'. split; [reflexivity|]. split; [exact Fb|].
    destruct (Nat.eqb_spec c a) as [->|Nc].
    + assert (i = mode). { rewrite NoDup_nth_error in N1. apply N1; [|congruence]. apply nth_error_Some. congruence. }
      subst i. replace c' with a' by congruence. now rewrite Nat.eqb_refl.
    + destruct (Nat.eqb_spec c' a') as [->|]; [|exact Fc].
      assert (i = mode). { rewrite NoDup_nth_error in N2. apply N2; [|congruence]. apply nth_error_Some. congruence. }
      subst i. congruence.
  - intros c Hc. cbn. destruct (Nat.eqb_spec c a') as [->|]; [|reflexivity]. exfalso. apply Hc. eapply nth_error_In; eauto.
Qed.

Lemma matches_step (s : switched) h b hb c dx s' h' : NoDup (switchedSystems s) -> NoDup (switchedSystems b) ->
  matches s h b hb -> step s h c = Ok (dx, s', h') ->
  exists b' hb', step b hb c = Ok (dx, b', hb') /\ matches s' h' b' hb' /\
    switchedSystems s' = switchedSystems s /\ switchedSystems b' = switchedSystems b /\
    controller s' = controller s /\ controller b' = controller b /\
    (forall a, ~ In (Some a) (switchedSystems b) -> cell (systems hb') a = cell (systems hb) a) /\
    (forall a, Some a <> controller b -> cell (ctrls hb') a = cell (ctrls hb) a).
Proof.
  intros N1 N2 M. destruct c as [x t u|x t]; cbn.
  - destruct (controlled s h x t u) as [[dx0 h0]| |] eqn:E; cbn; try discriminate. intro H. injection H as <- <- <-.
    destruct (matches_controlled _ _ _ _ _ _ _ _ _ N1 N2 M E) as (hb' & Eb & M' & C1 & C2). rewrite Eb. cbn.
    do 2 eexists. split; [reflexivity|]. repeat (split; auto). now rewrite C1.
  - unfold computeDynamics. pose proof (m_ctrl _ _ _ _ M) as Mc. destruct (controller s) as [a|] eqn:Ec.
    + destruct Mc as (a' & Eb & Ecell). rewrite Eb. cbn. rewrite Ecell.
      destruct (cell (ctrls h) a) as [v|] eqn:Ev; cbn; try discriminate. destruct (computeControl v x t) as [u v']. cbn.
      set (h1 := mkHeap _ _). set (hb1 := mkHeap _ (systems hb)).
      assert (M1 : matches s h1 b hb1).
      { destruct M as [A1 A2 A3 A4 A5]. split; cbn; auto. rewrite Ec. exists a'. split; [exact Eb|]. cbn. now rewrite !Nat.eqb_refl. }
      destruct (controlled s h1 x t u) as [[dx0 h0]| |] eqn:E; cbn; try discriminate. intro H. injection H as <- <- <-.
      destruct (matches_controlled _ _ _ _ _ _ _ _ _ N1 N2 M1 E) as (hb' & Eb' & M' & C1 & C2). rewrite Eb'. cbn.
      do 2 eexists. split; [reflexivity|]. split.
      { destruct M' as [A1 A2 A3 A4 A5]. split; cbn; auto. rewrite <- Eb. rewrite Ec in A5. exact A5. }
      cbn. repeat (split; auto). intros c Hc. rewrite C1. cbn. destruct (Nat.eqb_spec c a') as [->|]; [congruence|reflexivity].
    + rewrite Mc. cbn.
      destruct (controlled s h x t zeroU) as [[dx0 h0]| |] eqn:E; cbn; try discriminate. intro H. injection H as <- <- <-.
      destruct (matches_controlled _ _ _ _ _ _ _ _ _ N1 N2 M E) as (hb' & Eb' & M' & C1 & C2). rewrite Eb'. cbn.
      do 2 eexists. split; [reflexivity|]. split.
      { destruct M' as [A1 A2 A3 A4 A5]. split; cbn; auto. }
      cbn. repeat (split; auto). now rewrite C1.
Qed.

(** What [s] sees does not depend on the cells it has no pointer to. *)
Lemma matches_frame (s : switched) h b hb hb' : matches s h b hb ->
  (forall a, In (Some a) (switchedSystems b) -> cell (systems hb') a = cell (systems hb) a) ->
  (forall a, Some a = controller b -> cell (ctrls hb') a = cell (ctrls hb) a) -> matches s h b hb'.
Proof.
  intros [A1 A2 A3 A4 A5] F1 F2. split; auto.
  - intros i p Ei. destruct (A4 i p Ei) as (a & a' & -> & Eb & Ec). exists a, a'. repeat split; auto. rewrite F1; [exact Ec|]. eapply nth_error_In; eauto.
  - destruct (controller s); [|exact A5]. destruct A5 as (a' & Eb & Ec). exists a'. split; [exact Eb|]. rewrite F2; auto.
Qed.

Lemma two_runs (l : list (bool * call X U)) : forall (sa sb a b : switched) ha hb h ra rb,
  NoDup (switchedSystems sa) -> NoDup (switchedSystems sb) -> NoDup (switchedSystems a) -> NoDup (switchedSystems b) ->
  matches sa ha a h -> matches sb hb b h ->
  (forall c, In (Some c) (switchedSystems a) -> ~ In (Some c) (switchedSystems b)) ->
  (controller a = controller b -> controller a = None) ->
  runOne step sa ha (only true l) = Ok ra -> runOne step sb hb (only false l) = Ok rb ->
  exists rs, runTwo step a b h l = Ok rs /\ only true rs = ra /\ only false rs = rb.
Proof.
  induction l as [|[w c] l IH]; intros sa sb a b ha hb h ra rb Na Nb N1 N2 Ma Mb Hd Hc.
  - intros H1 H2. apply Ok_inj in H1. apply Ok_inj in H2. subst. exists []. auto.
  - destruct w; cbn -[SwitchedModel.step]; intros H1 H2.
    + change (map snd (filter (fun e : bool * call X U => Bool.eqb (fst e) true) l)) with (only true l) in H1.
      destruct (step sa ha c) as [[[dx sa'] ha']| |] eqn:Es; cbn -[SwitchedModel.step] in H1; try discriminate.
      destruct (matches_step _ _ _ _ _ _ _ _ Na N1 Ma Es) as (a' & h' & Ea & Ma' & S1 & S2 & K1 & K2 & F1 & F2).
      destruct (runOne step sa' ha' (only true l)) as [xs| |] eqn:Er; cbn in H1; try discriminate. injection H1 as <-.
      rewrite Ea. cbn -[SwitchedModel.step].
      assert (Mb' : matches sb hb b h').
      { apply (matches_frame _ _ _ _ _ Mb).
        - intros d Hd'. apply F1. intro G. exact (Hd _ G Hd').
        - intros d Hd'. apply F2. intro G. assert (Q0 : controller a = None) by (apply Hc; congruence). congruence. }
      destruct (IH sa' sb a' b ha' hb h' xs rb) as (rs & E1 & E2 & E3); try congruence; auto.
      * rewrite S2. exact Hd.
      * rewrite K2. exact Hc.
      * rewrite E1. cbn. eexists. split; [reflexivity|]. cbn. split; [now f_equal|exact E3].
    + change (map snd (filter (fun e : bool * call X U => Bool.eqb (fst e) false) l)) with (only false l) in H2.
      destruct (step sb hb c) as [[[dx sb'] hb']| |] eqn:Es; cbn -[SwitchedModel.step] in H2; try discriminate.
      destruct (matches_step _ _ _ _ _ _ _ _ Nb N2 Mb Es) as (b' & h' & Ea & Mb' & S1 & S2 & K1 & K2 & F1 & F2).
      destruct (runOne step sb' hb' (only false l)) as [xs| |] eqn:Er; cbn in H2; try discriminate. injection H2 as <-.
      rewrite Ea. cbn -[SwitchedModel.step].
      assert (Ma' : matches sa ha a h').
      { apply (matches_frame _ _ _ _ _ Ma).
        - intros d Hd'. apply F1. intro G. exact (Hd _ Hd' G).
        - intros d Hd'. apply F2. intro G. assert (Q0 : controller a = None) by (apply Hc; congruence). congruence. }
      destruct (IH sa sb' a b' ha hb' h' ra xs) as (rs & E1 & E2 & E3); try congruence; auto.
      * rewrite S2. exact Hd.
      * rewrite K2. exact Hc.
      * rewrite E1. cbn. eexists. split; [reflexivity|]. cbn. split; [exact E2|now f_equal].
Qed.

Lemma matches_refl (s : switched) h : usable s h -> matches s h s h.
Proof.
  intros (_ & _ & Hl & Hc). split; auto.
  - intros i p Ei. rewrite Forall_forall in Hl. destruct (Hl p (nth_error_In _ _ Ei)) as (v & a & -> & Ev). exists a, a. auto.
  - destruct (controller s); eauto.
Qed.
Lemma seq_NoDup_some n k : NoDup (map (@Some nat) (seq n k)).
Proof. apply Injective_map_NoDup; [congruence|apply seq_NoDup]. Qed.

(** A clone of a continuous switched system can be made, and it is an independent copy: however the calls on the two objects are
    interleaved, each of them gets the results the original would give to its own calls alone. *)
Theorem C77_clone_independent (s : switched) (h : heap) :
  usable s h -> NoDup (switchedSystems s) ->
  exists s' h', clone s h = Ok (s', h') /\
    forall (l : list (bool * call X U)) ra rb,
      runOne step s h (only true l) = Ok ra -> runOne step s h (only false l) = Ok rb ->
      exists rs, runTwo step s s' h' l = Ok rs /\ only true rs = ra /\ only false rs = rb.
Proof.
  intros Hu N. pose proof Hu as (Tc & Ts & Hl & Hc). unfold clone.
  destruct (cloneSubsystems_spec _ _ Ts Hl) as (hs & Es & P1 & P2).
  assert (Cc : exists c hc, (match controller s with
      | Some _ => do v <- read (ctrls h) (controller s);; (let (q, hc) := alloc (ctrls h) v in Ok (q, hc))
      | None => Ok (None, ctrls h) end) = Ok (c, hc) /\
    (forall a, (a < next (ctrls h))%nat -> cell hc a = cell (ctrls h) a) /\
    match controller s with
    | None => c = None
    | Some a => exists a', c = Some a' /\ cell hc a' = cell (ctrls h) a /\ (next (ctrls h) <= a')%nat
    end).
  { destruct (controller s) as [a|] eqn:Ec.
    - destruct Hc as [?|(v & b & Eb & Hv)]; [discriminate|]. injection Eb as <-. cbn. rewrite Hv. cbn. do 2 eexists. split; [reflexivity|]. cbn. split.
      + intros b Hb. destruct (Nat.eqb_spec b (next (ctrls h))); [lia|reflexivity].
      + eexists. split; [reflexivity|]. rewrite Nat.eqb_refl. auto.
    - do 2 eexists. split; [reflexivity|]. auto. }
  destruct Cc as (c & hc & E & Q1 & Q2). rewrite E. cbn. rewrite Es. cbn. do 2 eexists. split; [reflexivity|].
  intros l ra rb. apply two_runs; auto; cbn.
  - apply seq_NoDup_some.
  - apply (matches_frame _ _ _ _ _ (matches_refl _ _ Hu)); cbn.
    + intros a Ha. apply P1. rewrite Forall_forall in Hl. destruct (Hl _ Ha) as (v & b & Eb & Hv). injection Eb as <-. eapply tidy_lt; eauto.
    + intros a Ha. apply Q1. destruct Hc as [?|(v & b & Eb & Hv)]; [congruence|]. rewrite Eb in Ha. injection Ha as ->. eapply tidy_lt; eauto.
  - split; cbn; auto.
    + now rewrite map_length, seq_length.
    + intros i p Ei. rewrite Forall_forall in Hl. destruct (Hl p (nth_error_In _ _ Ei)) as (v & a & -> & Ev). exists a, (next (systems h) + i)%nat.
      split; [reflexivity|]. split; [|now apply P2]. erewrite map_nth_error; [reflexivity|].
      assert (Hi : (i < length (switchedSystems s))%nat) by (apply nth_error_Some; congruence).
      rewrite (nth_error_nth' _ 0%nat) by now rewrite seq_length. now rewrite seq_nth.
    + destruct (controller s); [|exact Q2]. destruct Q2 as (a' & ? & ? & _). eauto.
  - intros d Hd Hd'. rewrite Forall_forall in Hl. destruct (Hl _ Hd) as (v & b & Eb & Hv). injection Eb as <-. apply tidy_lt in Hv; [|exact Ts].
    apply in_map_iff in Hd'. destruct Hd' as (k & Ek & Hk). injection Ek as ->. apply in_seq in Hk. lia.
  - intro G. destruct Hc as [?|(v & b & Eb & Hv)]; [assumption|]. rewrite Eb in Q2, G. destruct Q2 as (a' & Ea & _ & Hn). rewrite Ea in G. injection G as <-.
    apply tidy_lt in Hv; [lia|exact Tc].
Qed.

(** * The discrete variant *)

Definition erase (s : switched) : switched := mkSwitched (switchedSystems s) (modeSequence s) (controller s) None.
Lemma step_erase (s s' : switched) h c : erase s = erase s' ->
  match step s h c with
  | Ok (dx, s1, h1) => stepDiscrete s' h c = Ok (dx, s', h1) /\ erase s1 = erase s
  | Throw => stepDiscrete s' h c = Throw
  | UB => stepDiscrete s' h c = UB
  end.
Proof.
  destruct s as [su ms ct ca], s' as [su' ms' ct' ca']. unfold erase; cbn. intro E. injection E as <- <- <-.
  destruct c as [x t u|x t]; cbn; unfold propagateDynamics, computeDynamics, computeControlledDynamics; cbn.
  - destruct (getPhaseFromTime ms t) as [m| |]; cbn; auto. destruct (vec_get su m) as [p| |]; cbn; auto.
    destruct (read (systems h) p) as [v| |]; cbn; auto. destruct (dynamics v x t u); cbn; auto.
  - destruct ct as [a|]; cbn.
    + destruct (cell (ctrls h) a) as [v|]; cbn; auto. destruct (computeControl v x t) as [u v']; cbn.
      destruct (getPhaseFromTime ms t) as [m| |]; cbn; auto. destruct (vec_get su m) as [p| |]; cbn; auto.
      destruct (read (systems h) p) as [w| |]; cbn; auto. destruct (dynamics w x t u); cbn; auto.
    + destruct (getPhaseFromTime ms t) as [m| |]; cbn; auto. destruct (vec_get su m) as [p| |]; cbn; auto.
      destruct (read (systems h) p) as [w| |]; cbn; auto. destruct (dynamics w x t zeroU); cbn; auto.
Qed.
Lemma runOne_erase l : forall (s s' : switched) h, erase s = erase s' -> runOne stepDiscrete s' h l = runOne step s h l.
Proof.
  induction l as [|c l IH]; intros s s' h E; [reflexivity|]. cbn -[SwitchedModel.step SwitchedModel.stepDiscrete].
  pose proof (step_erase s s' h c E) as H. destruct (step s h c) as [[[dx s1] h1]| |]; [destruct H as [H Hs]| |]; rewrite H; cbn -[SwitchedModel.step SwitchedModel.stepDiscrete]; auto.
  rewrite (IH s1 s' h1) by congruence. reflexivity.
Qed.
Lemma runTwo_erase l : forall (a a' b b' : switched) h, erase a = erase a' -> erase b = erase b' ->
  runTwo stepDiscrete a' b' h l = runTwo step a b h l.
Proof.
  induction l as [|[[|] c] l IH]; intros a a' b b' h Ea Eb; [reflexivity| |]; cbn -[SwitchedModel.step SwitchedModel.stepDiscrete].
  - pose proof (step_erase a a' h c Ea) as H. destruct (step a h c) as [[[dx s1] h1]| |]; [destruct H as [H Hs]| |]; rewrite H; cbn -[SwitchedModel.step SwitchedModel.stepDiscrete]; auto.
    rewrite (IH s1 a' b b' h1) by congruence. reflexivity.
  - pose proof (step_erase b b' h c Eb) as H. destruct (step b h c) as [[[dx s1] h1]| |]; [destruct H as [H Hs]| |]; rewrite H; cbn -[SwitchedModel.step SwitchedModel.stepDiscrete]; auto.
    rewrite (IH a a' s1 b' h1) by congruence. reflexivity.
Qed.

(** The clone of a discrete switched system is independent as well, provided there is no controller. *)
Theorem C77_discrete_clone_partial (s : switched) (h : heap) :
  usable s h -> NoDup (switchedSystems s) -> controller s = None ->
  exists s' h', cloneDiscrete s h = Ok (s', h') /\
    forall (l : list (bool * call X U)) ra rb,
      runOne stepDiscrete s h (only true l) = Ok ra -> runOne stepDiscrete s h (only false l) = Ok rb ->
      exists rs, runTwo stepDiscrete s s' h' l = Ok rs /\ only true rs = ra /\ only false rs = rb.
Proof.
  intros Hu N Hn. destruct (C77_clone_independent s h Hu N) as (s' & h' & E & H). exists s', h'. split.
  - revert E. unfold clone, cloneDiscrete. rewrite Hn. cbn. auto.
  - intros l ra rb. rewrite (runTwo_erase l s s s' s' h') by reflexivity. rewrite !(runOne_erase _ s s h) by reflexivity. apply H.
Qed.
End Systems.

(** * Counterexamples and examples *)

(** Controls and states are integers; the controller counts its calls and outputs the count, the subsystems count as well. *)
Definition countControl (c : Z) (x : Z) (t : Q) : Z * Z := ((c + 1)%Z, (c + 1)%Z).
Definition exampleDyn (v : Z) (x : Z) (t : Q) (u : Z) : Z * Z := ((x + u + v)%Z, (v + 100)%Z).
Definition st (l : list Z) : store Z := mkStore (length l) (fun a => nth_error l a).
Definition exampleHeap : heap Z Z := mkHeap (st [0%Z]) (st [1000%Z; 2000%Z]).
Definition exampleModes : @phase_seq nat := mk_seq [0; 1; 0]%nat [0; 1; 2; 3].
Definition exampleSys (subs : list ptr) : switched Z := mkSwitched subs exampleModes (Some 0%nat) (Some 0%Z).

Lemma st_tidy l : tidy (st l).
Proof. intros a H. cbn in *. now apply nth_error_None. Qed.

Example C77_example :
  addPhases (ps_new 0) [(0%nat, 1); (1%nat, 1); (0%nat, 1)] = Ok exampleModes /\
  well_timed [(0%nat, 1); (1%nat, 1); (0%nat, 1)] /\ scheduled 0 [(0%nat, 1); (1%nat, 1); (0%nat, 1)] (3 # 2) 1 /\
  usable Z Z Z (exampleSys [Some 0%nat; Some 1%nat]) exampleHeap /\
  runOne (step 0%Z countControl exampleDyn) (exampleSys [Some 0%nat; Some 1%nat]) exampleHeap
    [Controlled 1%Z (1 # 2) 5%Z; Controlled 1%Z (3 # 2) 5%Z; Dynamics 1%Z (5 # 2); Dynamics 1%Z 7] = Ok [1006; 2006; 1102; 1203]%Z.
Proof.
  split; [reflexivity|]. split; [split; [repeat constructor|cbn; lia]|]. split.
  - left. exists [(0%nat, 1)], 1, [(0%nat, 1)]. split; [reflexivity|]. split; vm_compute; [discriminate|reflexivity].
  - split; [|vm_compute; reflexivity]. split; [apply st_tidy|]. split; [apply st_tidy|]. split.
    + repeat constructor; eexists; eexists; split; try reflexivity; cbn; reflexivity.
    + right. eexists. eexists. split; [reflexivity|]. cbn. reflexivity.
Qed.

(** The clone of a discrete system shares its controller with the original: a call on one changes what the other computes. *)
Theorem C77_discrete_clone_refuted :
  exists (s s' : switched Z) (h h' : heap Z Z) (l : list (bool * call Z Z)) ra rb rs,
    usable Z Z Z s h /\ NoDup (switchedSystems s) /\ cloneDiscrete s h = Ok (s', h') /\
    runOne (stepDiscrete 0%Z countControl exampleDyn) s h (only true l) = Ok ra /\
    runOne (stepDiscrete 0%Z countControl exampleDyn) s h (only false l) = Ok rb /\
    runTwo (stepDiscrete 0%Z countControl exampleDyn) s s' h' l = Ok rs /\ only false rs <> rb.
Proof.
  set (s := exampleSys [Some 0%nat; Some 1%nat]).
  assert (E : exists s' h', cloneDiscrete s exampleHeap = Ok (s', h')) by (eexists; eexists; reflexivity).
  destruct E as (s' & h' & E). exists s, s', exampleHeap, h', [(true, Dynamics 1%Z 0); (false, Dynamics 1%Z 0)], [1002%Z], [1002%Z], [(true, 1002%Z); (false, 1003%Z)].
  split; [apply C77_example|]. split; [repeat constructor; cbn; intuition congruence|]. split; [exact E|].
  injection E as <- <-. split; [reflexivity|]. split; [reflexivity|]. split; [reflexivity|]. cbn. intro H. discriminate H.
Qed.

(** When one subsystem object serves two modes, the clone has two objects: their states are no longer shared. *)
Theorem C77_clone_aliased_refuted :
  exists (s s' : switched Z) (h h' : heap Z Z) (l : list (call Z Z)) ra rb,
    usable Z Z Z s h /\ clone s h = Ok (s', h') /\
    runOne (step 0%Z countControl exampleDyn) s h l = Ok ra /\
    runOne (step 0%Z countControl exampleDyn) s' h' l = Ok rb /\ ra <> rb.
Proof.
  set (s := exampleSys [Some 0%nat; Some 0%nat]).
  assert (E : exists s' h', clone s exampleHeap = Ok (s', h')) by (eexists; eexists; reflexivity).
  destruct E as (s' & h' & E). exists s, s', exampleHeap, h', [Controlled 1%Z 0 0%Z; Controlled 1%Z 1 0%Z], [1001; 1101]%Z, [1001; 1001]%Z.
  split.
  { split; [apply st_tidy|]. split; [apply st_tidy|]. split.
    + repeat constructor; eexists; eexists; split; try reflexivity; cbn; reflexivity.
    + right. eexists. eexists. split; [reflexivity|]. cbn. reflexivity. }
  split; [exact E|]. injection E as <- <-. split; [reflexivity|]. split; [reflexivity|]. intro H. discriminate H.
Qed.

Lemma ptr_dec (p q : ptr) : {p = q} + {p <> q}.
Proof. decide equality. apply Nat.eq_dec. Qed.

(** * Linear variants *)
Section Linear.
Variables (X U MA MB SST : Type).
Variables (mulA : MA -> X -> X) (mulB : MB -> U -> X) (add : X -> X -> X).
Variables (derivState : SST -> X -> U -> Q -> MA) (derivControl : SST -> X -> U -> Q -> MB).
Variable getAandB : SST -> X -> U -> X -> Q -> nat -> MA * MB.

(** The switched linear system returns the matrices of the scheduled subsystem and has its dynamics. *)
Theorem C77_linear (t0 : Q) (l : list (nat * Q)) (ms : phase_seq) (subs : list ptr) (h : store SST) (p : nat) (q : ptr) (v : SST) x t u :
  well_timed l -> addPhases (ps_new t0) l = Ok ms -> scheduled t0 l t p -> nth_error subs p = Some q -> points_to h q v ->
  getDerivativeState derivState subs ms h x u t = Ok (derivState v x u t) /\
  getDerivativeControl derivControl subs ms h x u t = Ok (derivControl v x u t) /\
  switchedLinearDynamics mulA mulB add derivState derivControl subs ms h x t u = Ok (linearOfSub mulA mulB add derivState derivControl v x t u).
Proof.
  intros Hw Hb Hs Hq (a & -> & Hv). unfold switchedLinearDynamics, linearDynamics, getDerivativeState, getDerivativeControl.
  rewrite (scheduled_phase _ _ _ _ _ Hw Hb Hs). cbn. unfold vec_get. rewrite Hq. cbn. rewrite Hv. cbn. auto.
Qed.

(** The discrete one returns the matrices of the scheduled subsystem, and when the subsystems are propagated by their matrices so is the
    switched system. *)
Theorem C77_discrete_linear (CST : Type) (t0 : Q) (l : list (nat * Q)) (ms : phase_seq) (s : switched U) (h : heap CST SST) (p : nat) (q : ptr)
    (v : SST) x n u xNext k :
  well_timed l -> addPhases (ps_new t0) l = Ok ms -> modeSequence s = ms -> scheduled t0 l n p ->
  nth_error (switchedSystems s) p = Some q -> points_to (systems h) q v ->
  switchedGetAandB getAandB (switchedSystems s) ms (systems h) x u xNext n k = Ok (getAandB v x u xNext n k) /\
  forall A B, switchedGetAandB getAandB (switchedSystems s) ms (systems h) x u x n 1 = Ok (A, B) ->
  exists h', computeControlledDynamics (discreteLinear mulA mulB add getAandB) s h x n u = Ok (add (mulA A x) (mulB B u), h') /\
    forall q' v', points_to (systems h) q' v' -> points_to (systems h') q' v'.
Proof.
  intros Hw Hb Hm Hs Hq Hp.
  assert (G : forall xn k, switchedGetAandB getAandB (switchedSystems s) ms (systems h) x u xn n k = Ok (getAandB v x u xn n k)).
  { intros xn k'. destruct Hp as (a & -> & Hv). unfold switchedGetAandB. rewrite (scheduled_phase _ _ _ _ _ Hw Hb Hs). cbn. unfold vec_get.
    rewrite Hq. cbn. now rewrite Hv. }
  split; [apply G|]. intros A B HA. rewrite G in HA. apply Ok_inj in HA.
  destruct (C77_active_mode X U CST SST (discreteLinear mulA mulB add getAandB) t0 l ms s h p q v x n u Hw Hb Hm Hs Hq Hp) as (h' & E & _ & F1 & F2).
  unfold discreteLinear in E, F1 at 1. rewrite HA in E. cbn in E. exists h'. split; [exact E|].
  intros q' v' Hv'. destruct (ptr_dec q' q) as [->|N]; [|now apply F2].
  assert (v' = v). { destruct Hv' as (a & E1 & H1), Hp as (b & E2 & H2). congruence. } subst v'.
  revert F1. unfold discreteLinear. destruct (getAandB v x u x n 1). auto.
Qed.
End Linear.

Print Assumptions C77_active_mode.
Print Assumptions C77_defined_everywhere.
Print Assumptions C77_unknown_mode_refuted.
Print Assumptions C77_controller.
Print Assumptions C77_last_control_refuted.
Print Assumptions C77_clone_independent.
Print Assumptions C77_discrete_clone_partial.
Print Assumptions C77_discrete_clone_refuted.
Print Assumptions C77_clone_aliased_refuted.
Print Assumptions C77_linear.
Print Assumptions C77_discrete_linear.
