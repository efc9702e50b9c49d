(** Properties of the switched constraint container (C78). *)
From Coq Require Import List ZArith QArith Lia.
From Verif Require Import Base.Outcome Core.PhaseModel Core.PhaseProofs Core.SwitchedModel Core.SwitchedProps Optcon.SwitchedConstraintModel.
Import ListNotations.
Open Scope Q_scope.

Lemma vec_at_nat {A} (l : list A) n v : nth_error l n = Some v -> vec_at l (Z.of_nat n) = Ok v.
Proof. intro H. unfold vec_at. destruct (Z.ltb_spec (Z.of_nat n) 0); [lia|]. now rewrite Nat2Z.id, H. Qed.
Lemma vec_at_inv {A} (l : list A) n v : vec_at l (Z.of_nat n) = Ok v -> nth_error l n = Some v.
Proof. unfold vec_at. destruct (Z.ltb_spec (Z.of_nat n) 0); [lia|]. rewrite Nat2Z.id. destruct (nth_error l n); congruence. Qed.

Section Props.
Variables (X U V B CST : Type) (I : interface X U V B CST) (emptyB : B).
Notation con := (switchedCon X U B).
Notation set1 := (setCurrentStateAndControl I).

(** * Specification *)

(** A container remembers the last state, control and time only. *)
Definition remembers_last : Prop := forall c x u t x' u' t', setCur I (setCur I c x u t) x' u' t' = setCur I c x' u' t'.

(** The container [s] switches between the containers [l] by the schedule [sch], which starts at [t0]: what the constructor yields. *)
Definition made_from (t0 : Q) (sch : list (nat * Q)) (l : list ptr) (s : con) : Prop :=
  exists ms, addPhases (ps_new t0) sch = Ok ms /\ newCon emptyB l ms = Ok s.

(** * Histories *)

Lemma set_shape (s s' : con) h h' x u t : set1 s h x u t = Ok (s', h') ->
  containers s' = containers s /\ modeSeq s' = modeSeq s /\ terminalPtr s' = terminalPtr s /\
  exists mode a c, getPhaseFromTime (modeSeq s) t = Ok mode /\ nth_error (containers s) mode = Some (Some a) /\ active s' = Some a /\
    cell h a = Some c /\ h' = write h (Some a) (setCur I c x u t) /\
    lbI s' = lowerI I (setCur I c x u t) /\ ubI s' = upperI I (setCur I c x u t) /\ lbT s' = lbT s /\ ubT s' = ubT s /\ initI s' = initI s /\ initT s' = initT s.
Proof.
  unfold setCurrentStateAndControl. destruct (getPhaseFromTime (modeSeq s) t) as [mode| |] eqn:Em; cbn; try discriminate.
  destruct (vec_at (containers s) (Z.of_nat mode)) as [[a|]| |] eqn:Ea; cbn; try discriminate.
  apply vec_at_inv in Ea. destruct (cell h a) as [c|] eqn:Ec; cbn; try discriminate. intro H. injection H as <- <-. cbn.
  do 3 (split; [reflexivity|]). exists mode, a, c. repeat split; auto.
Qed.
Lemma setAll_shape l : forall (s s' : con) h h', setAll I s h l = Ok (s', h') ->
  containers s' = containers s /\ modeSeq s' = modeSeq s /\ terminalPtr s' = terminalPtr s.
Proof.
  induction l as [|[[x u] t] l IH]; intros s s' h h'; cbn.
  - intro H. injection H as <- <-. auto.
  - destruct (set1 s h x u t) as [[s1 h1]| |] eqn:E; cbn; try discriminate. intro H. apply set_shape in E. apply IH in H.
    destruct E as (E1 & E2 & E3 & _), H as (H1 & H2 & H3). repeat split; congruence.
Qed.
(** A container is in its initial state or in the state after one call. *)
Lemma setAll_cell (Hr : remembers_last) l : forall (s s' : con) h h', setAll I s h l = Ok (s', h') ->
  forall q v, points_to h q v -> exists v', points_to h' q v' /\ forall x u t, setCur I v' x u t = setCur I v x u t.
Proof.
  induction l as [|[[x u] t] l IH]; intros s s' h h'; cbn.
  - intro H. injection H as <- <-. eauto.
  - destruct (set1 s h x u t) as [[s1 h1]| |] eqn:E; cbn; try discriminate. intros H q v (b & -> & Hv). apply set_shape in E.
    destruct E as (_ & _ & _ & mode & a & c & _ & _ & _ & Hc & -> & _).
    destruct (Nat.eqb_spec b a) as [->|N].
    + replace c with v in * by congruence.
      destruct (IH _ _ _ _ H (Some a) (setCur I v x u t)) as (v' & P1 & P2).
      { exists a. cbn. now rewrite Nat.eqb_refl. }
      exists v'. split; [exact P1|]. intros. rewrite P2. apply Hr.
    + apply (IH _ _ _ _ H). exists b. cbn. split; [reflexivity|]. apply Nat.eqb_neq in N. now rewrite N.
Qed.
Lemma setAll_app l1 l2 : forall (s : con) h, setAll I s h (l1 ++ l2) = (do (s', h') <- setAll I s h l1 ;; setAll I s' h' l2).
Proof.
  induction l1 as [|[[x u] t] l IH]; intros s h; cbn; [reflexivity|]. destruct (set1 s h x u t) as [[s1 h1]| |]; cbn; auto.
Qed.
Lemma made_shape t0 sch l (s : con) : made_from t0 sch l s -> containers s = l /\ addPhases (ps_new t0) sch = Ok (modeSeq s) /\
  exists f, getFinalPhase (modeSeq s) = Ok f /\ nth_error l f = Some (terminalPtr s).
Proof.
  intros (ms & Hb & H). revert H. unfold newCon. destruct (vec_front l) as [a| |]; cbn; try discriminate.
  destruct (getFinalPhase ms) as [f| |] eqn:Ef; cbn; try discriminate. destruct (vec_at l (Z.of_nat f)) as [e| |] eqn:Ee; cbn; try discriminate.
  intro H. injection H as <-. cbn. split; [reflexivity|]. split; [exact Hb|]. exists f. split; [exact Ef|]. now apply vec_at_inv.
Qed.

Lemma addPhases_back sch p d : forall (s0 ms : @phase_seq nat), addPhases s0 (sch ++ [(p, d)]) = Ok ms -> vec_back (phase_schedule ms) = Ok p.
Proof.
  induction sch as [|[p' d'] sch IH]; intros s0 ms; cbn.
  - unfold addPhase. destruct (vec_back (time_schedule s0)) as [b| |]; cbn; try discriminate. intro H. injection H as <-. cbn.
    unfold vec_back. destruct (phase_schedule s0 ++ [p]) eqn:E; [destruct (phase_schedule s0); discriminate|]. rewrite <- E.
    unfold vec_get. rewrite app_length. cbn. replace (length (phase_schedule s0) + 1 - 1)%nat with (length (phase_schedule s0)) by lia.
    rewrite nth_error_app2 by lia. now rewrite Nat.sub_diag.
  - destruct (addPhase s0 p' d') as [s1| |]; cbn; try discriminate. apply IH.
Qed.

(** After any history of calls of setCurrentStateAndControl, the intermediate values are those of the container scheduled for the current
    time, evaluated at the current state, control and time; the bounds are those of that container. *)
Theorem C78_intermediate (t0 : Q) (sch : list (nat * Q)) (l : list ptr) (s s' : con) (h h' : store CST) (hist : list (X * U * Q))
    (x : X) (u : U) (t : Q) (p : nat) (q : ptr) (c : CST) :
  remembers_last -> well_timed sch -> made_from t0 sch l s -> scheduled t0 sch t p -> nth_error l p = Some q -> points_to h q c ->
  setAll I s h (hist ++ [(x, u, t)]) = Ok (s', h') ->
  evaluateIntermediate I s' h' = Ok (intermediate I (setCur I c x u t)) /\
  lbI s' = lowerI I (setCur I c x u t) /\ ubI s' = upperI I (setCur I c x u t).
Proof.
  intros Hr Hw Hm Hs Hq Hp. rewrite setAll_app. destruct (setAll I s h hist) as [[s1 h1]| |] eqn:E1; cbn; try discriminate.
  destruct (set1 s1 h1 x u t) as [[s2 h2]| |] eqn:E2; cbn; try discriminate. intro H. injection H as <- <-.
  destruct (setAll_cell Hr _ _ _ _ _ E1 q c Hp) as (c1 & P1 & P2). apply setAll_shape in E1. destruct E1 as (A1 & A2 & A3).
  destruct (made_shape _ _ _ _ Hm) as (B1 & B2 & _). apply set_shape in E2.
  destruct E2 as (_ & _ & _ & mode & a & c2 & F1 & F2 & F3 & F4 & -> & F5 & F6 & _).
  rewrite A2, (scheduled_phase _ _ _ _ _ Hw B2 Hs) in F1. injection F1 as <-. rewrite A1, B1, Hq in F2. injection F2 as ->.
  destruct P1 as (b & Eb & Hb). injection Eb as <-. replace c2 with c1 in * by congruence. rewrite P2 in *.
  unfold evaluateIntermediate. rewrite F3. cbn. rewrite Nat.eqb_refl. cbn. auto.
Qed.

(** The calls succeed at every time when each scheduled mode has a container. *)
Theorem C78_defined (t0 : Q) (sch : list (nat * Q)) (l : list ptr) (h : store CST) :
  sch <> [] -> well_timed sch -> (forall p d, In (p, d) sch -> exists q c, nth_error l p = Some q /\ points_to h q c) -> l <> [] ->
  exists s, made_from t0 sch l s /\ forall hist, exists r, setAll I s h hist = Ok r.
Proof.
  intros Hs Hw Hv Hl. destruct (exists_last Hs) as (r & [p d] & E).
  destruct (addPhases (ps_new t0) sch) as [ms| |] eqn:Eb; [|rewrite build_ok in Eb; discriminate..].
  destruct (Hv p d) as (q & c & Hq & Hc). { rewrite E. apply in_elt. }
  assert (N : exists s : con, newCon emptyB l ms = Ok s /\ containers s = l /\ modeSeq s = ms).
  { unfold newCon, getFinalPhase. rewrite E in Eb. rewrite (addPhases_back _ _ _ _ _ Eb). destruct l as [|a l]; [easy|]. cbn [vec_front vec_get nth_error obind].
    rewrite (vec_at_nat _ _ _ Hq). cbn. eexists. split; [reflexivity|]. auto. }
  destruct N as (s & Es & Ec & Em). exists s. split; [exists ms; auto|]. intro hist.
  assert (G : forall hist (s1 : con) h1, containers s1 = l -> modeSeq s1 = ms -> (forall q c, points_to h q c -> exists c', points_to h1 q c') ->
    exists r, setAll I s1 h1 hist = Ok r).
  { clear hist. induction hist as [|[[x u] t] hist IH]; intros s1 h1 C1 C2 C3; cbn; [eauto|].
    destruct (scheduled_exists t0 sch t Hs (proj1 Hw)) as (p' & Hp'). destruct (scheduled_In _ _ _ _ Hp') as (d' & Hd').
    destruct (Hv p' d' Hd') as (q' & c' & Hq' & Hc'). destruct (C3 q' c' Hc') as (c1 & b & -> & Hb).
    unfold setCurrentStateAndControl at 1. rewrite C2, (scheduled_phase _ _ _ _ _ Hw Eb Hp'). cbn. rewrite C1, (vec_at_nat _ _ _ Hq'). cbn. rewrite Hb. cbn.
    apply IH; auto. intros q2 c2 Hq2. destruct (C3 q2 c2 Hq2) as (c3 & b2 & -> & Hb2). cbn.
    destruct (Nat.eqb_spec b2 b) as [->|Nb]; eexists; exists b2 || exists b; cbn; (split; [reflexivity|]).
    - now rewrite Nat.eqb_refl.
    - apply Nat.eqb_neq in Nb. rewrite Nb. exact Hb2. }
  apply G; eauto.
Qed.

(** The terminal values are those of the container of the last phase.  They are evaluated at the last state, control and time that was set
    at a time whose mode uses that container. *)
Theorem C78_terminal (t0 : Q) (sch0 : list (nat * Q)) (pf : nat) (df : Q) (l : list ptr) (s s' : con) (h h' : store CST)
    (hist tail : list (X * U * Q)) (x : X) (u : U) (t : Q) (p : nat) (q : ptr) (c : CST) :
  let sch := sch0 ++ [(pf, df)] in
  remembers_last -> well_timed sch -> made_from t0 sch l s -> nth_error l pf = Some q -> points_to h q c ->
  scheduled t0 sch t p -> nth_error l p = Some q ->
  (forall x' u' t' p', In (x', u', t') tail -> scheduled t0 sch t' p' -> nth_error l p' <> Some q) ->
  setAll I s h (hist ++ (x, u, t) :: tail) = Ok (s', h') ->
  evaluateTerminal I s' h' = Ok (terminal I (setCur I c x u t)).
Proof.
  intros sch Hr Hw Hm Hqf Hp Hs Hq Ht. change ((x, u, t) :: tail) with ([(x, u, t)] ++ tail). rewrite app_assoc, setAll_app.
  destruct (setAll I s h (hist ++ [(x, u, t)])) as [[s1 h1]| |] eqn:E1; cbn; try discriminate. intro E2.
  assert (P : points_to h1 q (setCur I c x u t)).
  { revert E1. rewrite setAll_app. destruct (setAll I s h hist) as [[s2 h2]| |] eqn:E3; cbn; try discriminate.
    destruct (set1 s2 h2 x u t) as [[s3 h3]| |] eqn:E4; cbn; try discriminate. intro H. injection H as <- <-.
    destruct (setAll_cell Hr _ _ _ _ _ E3 q c Hp) as (c1 & P1 & P2). apply setAll_shape in E3. destruct E3 as (A1 & A2 & A3).
    destruct (made_shape _ _ _ _ Hm) as (B1 & B2 & _). apply set_shape in E4.
    destruct E4 as (_ & _ & _ & mode & a & c2 & F1 & F2 & F3 & F4 & -> & _).
    rewrite A2, (scheduled_phase _ _ _ _ _ Hw B2 Hs) in F1. injection F1 as <-. rewrite A1, B1, Hq in F2. injection F2 as ->.
    destruct P1 as (b & Eb & Hb). injection Eb as <-. replace c2 with c1 in * by congruence. rewrite P2. exists a. cbn. now rewrite Nat.eqb_refl. }
  destruct (made_shape _ _ _ _ Hm) as (B1 & B2 & f & B3 & B4).
  unfold getFinalPhase in B3. unfold sch in B2. rewrite (addPhases_back _ _ _ _ _ B2) in B3. injection B3 as <-. rewrite Hqf in B4. injection B4 as B4.
  pose proof (setAll_shape _ _ _ _ _ E1) as (S1 & S2 & S3).
  assert (G : forall tl (s1 : con) h1, (forall x' u' t' p', In (x', u', t') tl -> scheduled t0 sch t' p' -> nth_error l p' <> Some q) ->
     containers s1 = l -> modeSeq s1 = modeSeq s -> points_to h1 q (setCur I c x u t) -> setAll I s1 h1 tl = Ok (s', h') ->
     points_to h' q (setCur I c x u t)).
  { clear - Hw B1 B2. induction tl as [|[[x' u'] t'] tl IH]; intros s1 h1 Ht C1 C2 C3; cbn.
    - intro H. injection H as <- <-. exact C3.
    - destruct (set1 s1 h1 x' u' t') as [[s2 h2]| |] eqn:E; cbn; try discriminate. apply set_shape in E.
      destruct E as (A1 & A2 & A3 & mode & a & c2 & F1 & F2 & F3 & F4 & -> & _).
      apply IH; try congruence.
      + intros x2 u2 t2 p2 Hi. apply (Ht x2 u2 t2 p2). now right.
      + destruct C3 as (b & -> & Hb). exists b. split; [reflexivity|]. cbn. destruct (Nat.eqb_spec b a) as [->|]; [|exact Hb]. exfalso.
        destruct (scheduled_exists t0 sch t') as (p2 & Hp2); [unfold sch; now destruct sch0|exact (proj1 Hw)|].
        pose proof (scheduled_phase _ _ _ _ _ Hw B2 Hp2) as G. rewrite C2, G in F1. injection F1 as <-. rewrite C1 in F2.
        exact (Ht x' u' t' p2 (or_introl eq_refl) Hp2 F2). }
  destruct (G tail s1 h1 Ht) as (b & Eb & Hb); try congruence.
  apply setAll_shape in E2. destruct E2 as (_ & _ & E2). unfold evaluateTerminal. rewrite E2, S3, <- B4, Eb. cbn. now rewrite Hb.
Qed.

(** In particular, from the start of the last phase on, they are evaluated at the current state. *)
Theorem C78_terminal_at_end (t0 : Q) (sch0 : list (nat * Q)) (pf : nat) (df : Q) (l : list ptr) (s s' : con) (h h' : store CST)
    (hist : list (X * U * Q)) (x : X) (u : U) (t : Q) (q : ptr) (c : CST) :
  let sch := sch0 ++ [(pf, df)] in
  remembers_last -> well_timed sch -> made_from t0 sch l s -> nth_error l pf = Some q -> points_to h q c ->
  t0 + total sch0 <= t -> setAll I s h (hist ++ [(x, u, t)]) = Ok (s', h') ->
  evaluateTerminal I s' h' = Ok (terminal I (setCur I c x u t)).
Proof.
  intros sch Hr Hw Hm Hqf Hp Ht H. apply (C78_terminal t0 sch0 pf df l s s' h h' hist [] x u t pf q c); auto.
  destruct (Qlt_le_dec t (t0 + total sch)) as [G|G].
  - left. exists sch0, df, []. split; [reflexivity|]. split; [exact Ht|].
    assert (E : total sch == total sch0 + df). { unfold sch. rewrite total_app. cbn. ring. }
    rewrite E in G. rewrite <- Qplus_assoc. exact G.
  - right; right. split; [exact G|]. exists df, sch0. reflexivity.
Qed.

(** * Initialisation *)

Lemma initI_frame l : forall (h h' : store CST) ok a, initializeIntermediate I l h = Ok (ok, h') -> ~ In (Some a) l -> cell h' a = cell h a.
Proof.
  induction l as [|p l IH]; intros h h' ok a; cbn.
  - intros H _. now injection H as _ <-.
  - destruct p as [b|]; cbn; try discriminate. destruct (cell h b) as [c|]; cbn; try discriminate. destruct (init I c) as [c' o]. intros H N.
    destruct o.
    + rewrite (IH _ _ _ _ H) by tauto. cbn. destruct (Nat.eqb_spec a b) as [->|]; [tauto|reflexivity].
    + injection H as _ <-. cbn. destruct (Nat.eqb_spec a b) as [->|]; [tauto|reflexivity].
Qed.
Lemma initI_spec l : forall (h : store CST) (cs : list CST), NoDup l -> Forall2 (points_to h) l cs ->
  exists h', initializeIntermediate I l h = Ok (forallb (fun c => snd (init I c)) cs, h') /\
    (forallb (fun c => snd (init I c)) cs = true -> forall i p c, nth_error l i = Some p -> nth_error cs i = Some c -> points_to h' p (fst (init I c))) /\
    forall p c, In p l -> points_to h p c -> exists c', points_to h' p c'.
Proof.
  induction l as [|p l IH]; intros h cs Hn H2; inversion H2 as [|? c ? cs' (a & -> & Hc) H2']; subst; cbn.
  - exists h. split; [reflexivity|]. split; [intros _ [|] ? ?; discriminate|easy].
  - rewrite Hc. cbn. destruct (init I c) as [c1 ok] eqn:Ei. cbn. inversion Hn as [|? ? Hna Hnl]; subst.
    destruct ok; cbn.
    + assert (P : Forall2 (points_to (write h (Some a) c1)) l cs').
      { clear - H2' Hna. induction H2' as [|p c l cs (b & -> & Hb) H IH]; constructor.
        - exists b. split; [reflexivity|]. cbn. destruct (Nat.eqb_spec b a) as [->|]; [exfalso; apply Hna; now left|exact Hb].
        - apply IH. intro G. apply Hna. now right. }
      destruct (IH _ _ Hnl P) as (h' & E & Q1 & Q2). cbn in E. rewrite E. exists h'. split; [reflexivity|].
      pose proof (initI_frame l _ _ _ a E Hna) as F. cbn in F. rewrite Nat.eqb_refl in F. split.
      * intros Hok [|i] p c0; cbn; [|now apply Q1]. intros Hp' Hc'. injection Hp' as <-. injection Hc' as <-. rewrite Ei. cbn. exists a. auto.
      * intros p c0 [<-|Hin] Hp; [exists c1, a; auto|]. destruct Hp as (b & -> & Hb). apply (Q2 (Some b) c0 Hin). exists b. split; [reflexivity|].
        cbn. destruct (Nat.eqb_spec b a) as [->|]; [contradiction|exact Hb].
    + eexists. split; [reflexivity|]. split; [discriminate|]. intros p c0 Hin (b & -> & Hb). unfold points_to. cbn.
      destruct (Nat.eqb_spec b a) as [->|N]; [exists c1, a|exists c0, b]; (split; [reflexivity|]); [now rewrite Nat.eqb_refl|]. apply Nat.eqb_neq in N. now rewrite N.
Qed.

(** initialize() initialises the containers of all modes; the object counts as initialised exactly when every one of them does, and its
    terminal bounds are then those of the container of the last phase. *)
Theorem C78_initialize (t0 : Q) (sch : list (nat * Q)) (l : list ptr) (s : con) (h : store CST) (cs : list CST) :
  made_from t0 sch l s -> NoDup l -> Forall2 (points_to h) l cs ->
  exists s' h', initialize I s h = Ok (s', h') /\
    isInitialized s' = forallb (fun c => snd (init I c)) cs /\
    (isInitialized s' = true -> forall i p c, nth_error l i = Some p -> nth_error cs i = Some c ->
       points_to h' p (fst (init I c)) /\
       (p = terminalPtr s -> lbT s' = lowerT I (fst (init I c)) /\ ubT s' = upperT I (fst (init I c)))) /\
    containers s' = containers s /\ modeSeq s' = modeSeq s.
Proof.
  intros Hm Hn H2. destruct (made_shape _ _ _ _ Hm) as (B1 & B2 & f & B3 & B4).
  destruct (initI_spec l h cs Hn H2) as (h' & E & Q1 & Q2). unfold initialize. rewrite B1, E. cbn -[read].
  assert (L : exists c, points_to h (terminalPtr s) c).
  { apply nth_error_In in B4. clear - H2 B4. induction H2 as [|p c l cs Hp H IH]; [easy|]. destruct B4 as [->|G]; [eauto|auto]. }
  destruct L as (c0 & L). destruct (Q2 _ c0 (nth_error_In _ _ B4) L) as (c1 & a & Ea & Hc1). rewrite Ea. cbn. rewrite Hc1. cbn.
  do 2 eexists. split; [reflexivity|]. unfold isInitialized. cbn. rewrite andb_true_r. split; [reflexivity|]. split; [|auto].
  intros Hok i p c Hp Hc. pose proof (Q1 Hok i p c Hp Hc) as P. split; [exact P|]. intros ->. destruct P as (b & Eb & Hb). inversion Eb; subst. replace c1 with (fst (init I c)) by congruence. auto.
Qed.

(** Its intermediate bounds stay empty until the first call of setCurrentStateAndControl. *)
Theorem C78_bounds_after_initialize_refuted (t0 : Q) (sch : list (nat * Q)) (l : list ptr) (s s' : con) (h h' : store CST) :
  made_from t0 sch l s -> initialize I s h = Ok (s', h') -> lbI s' = emptyB /\ ubI s' = emptyB.
Proof.
  intros (ms & _ & H). revert H. unfold newCon. destruct (vec_front l) as [a| |]; cbn; try discriminate.
  destruct (getFinalPhase ms) as [f| |]; cbn; try discriminate. destruct (vec_at l (Z.of_nat f)) as [e| |]; cbn; try discriminate.
  intro H. injection H as <-. unfold initialize. cbn -[read]. destruct (initializeIntermediate I l h) as [[ok h1]| |]; cbn -[read]; try discriminate.
  destruct (read h1 e); cbn; try discriminate. intro H. injection H as <- <-. auto.
Qed.

(** * Clones *)

(** [b] (in [hb]) uses other objects than [s] (in [h]) but in the same states. *)
Record sameCon (s : con) (h : store CST) (b : con) (hb : store CST) : Prop := mkSame {
  k_modes : modeSeq b = modeSeq s;
  k_cells : Forall2 (fun p p' => exists a a', p = Some a /\ p' = Some a' /\ cell hb a' = cell h a) (containers s) (containers b);
  k_term : exists f, nth_error (containers s) f = Some (terminalPtr s) /\ nth_error (containers b) f = Some (terminalPtr b);
  k_lbT : lbT b = lbT s; k_ubT : ubT b = ubT s; k_lbI : lbI b = lbI s; k_ubI : ubI b = ubI s; k_init : isInitialized b = isInitialized s }.
Definition sameActive (s : con) (b : con) : Prop :=
  exists m, nth_error (containers s) m = Some (active s) /\ nth_error (containers b) m = Some (active b).

Lemma Forall2_nth {A A'} (P : A -> A' -> Prop) l l' i a : Forall2 P l l' -> nth_error l i = Some a -> exists a', nth_error l' i = Some a' /\ P a a'.
Proof. intro H. revert i. induction H as [|x y l l' H1 H2 IH]; intros [|i] E; cbn in *; try discriminate; [injection E as <-; eauto|auto]. Qed.
Lemma Forall2_len {A A'} (P : A -> A' -> Prop) l l' : Forall2 P l l' -> length l = length l'.
Proof. induction 1; cbn; auto. Qed.
Lemma Forall2_of_nth {A A'} (P : A -> A' -> Prop) l : forall l', length l = length l' ->
  (forall i a a', nth_error l i = Some a -> nth_error l' i = Some a' -> P a a') -> Forall2 P l l'.
Proof.
  induction l as [|a l IH]; intros [|a' l'] E H; cbn in E; try lia; constructor; [exact (H 0%nat a a' eq_refl eq_refl)|].
  apply IH; [lia|]. intros i. exact (H (S i)).
Qed.
Lemma same_set (s s' b : con) h h' hb x u t : NoDup (containers s) -> NoDup (containers b) -> sameCon s h b hb ->
  set1 s h x u t = Ok (s', h') ->
  exists b' hb', set1 b hb x u t = Ok (b', hb') /\ sameCon s' h' b' hb' /\ sameActive s' b' /\
    containers s' = containers s /\ containers b' = containers b /\ forall a, ~ In (Some a) (containers b) -> cell hb' a = cell hb a.
Proof.
  intros N1 N2 [K1 K2 K3 K4 K5 K6 K7 K8] E. apply set_shape in E.
  destruct E as (A1 & A2 & A3 & mode & a & c & F1 & F2 & F3 & F4 & -> & F5 & F6 & F7 & F8 & F9 & F10).
  destruct (Forall2_nth _ _ _ _ _ K2 F2) as (p' & Hp' & a0 & a' & Ea & -> & Hc). injection Ea as <-.
  unfold setCurrentStateAndControl. rewrite K1, F1. cbn. rewrite (vec_at_nat (A:=ptr) _ _ _ Hp'). cbn. rewrite Hc, F4. cbn.
  do 2 eexists. split; [reflexivity|]. split; [|split; [|split; [exact A1|split; [reflexivity|]]]].
  - split; cbn; try congruence.
    + rewrite A1. apply Forall2_of_nth; [exact (Forall2_len _ _ _ K2)|]. intros i p q Hi Hj.
      destruct (Forall2_nth _ _ _ _ _ K2 Hi) as (q' & Hq' & d & d' & -> & -> & Hd). rewrite Hj in Hq'. injection Hq' as ->. exists d, d'. do 2 (split; [reflexivity|]).
      destruct (Nat.eqb_spec d a) as [->|Nd].
      * assert (i = mode). { rewrite NoDup_nth_error in N1. apply N1; [|exact (eq_trans Hi (eq_sym F2))]. apply nth_error_Some. intro G. exact (ltac:(discriminate (eq_trans (eq_sym Hi) G))). }
        subst i. assert (Q0 := eq_trans (eq_sym Hj) Hp'). injection Q0 as ->. now rewrite Nat.eqb_refl.
      * destruct (Nat.eqb_spec d' a') as [->|]; [|exact Hd].
        assert (i = mode). { rewrite NoDup_nth_error in N2. apply N2; [|exact (eq_trans Hj (eq_sym Hp'))]. apply nth_error_Some. intro G. exact (ltac:(discriminate (eq_trans (eq_sym Hj) G))). }
        subst i. assert (Q0 := eq_trans (eq_sym Hi) F2). injection Q0 as ->. contradiction.
    + rewrite A1, A3. exact K3.
    + unfold isInitialized in *. cbn. congruence.
  - exists mode. cbn. rewrite A1, F3. auto.
  - intros d Hd. cbn. destruct (Nat.eqb_spec d a') as [->|]; [|reflexivity]. exfalso. apply Hd. eapply nth_error_In; eauto.
Qed.
Lemma same_setAll l : forall (s s' b : con) h h' hb, NoDup (containers s) -> NoDup (containers b) -> sameCon s h b hb ->
  setAll I s h l = Ok (s', h') ->
  exists b' hb', setAll I b hb l = Ok (b', hb') /\ sameCon s' h' b' hb' /\ (l <> [] -> sameActive s' b') /\
    containers b' = containers b /\ forall a, ~ In (Some a) (containers b) -> cell hb' a = cell hb a.
Proof.
  induction l as [|[[x u] t] l IH]; intros s s' b h h' hb N1 N2 K; cbn -[setCurrentStateAndControl].
  - intro H. injection H as <- <-. exists b, hb. split; [reflexivity|]. split; [exact K|]. split; [congruence|auto].
  - destruct (set1 s h x u t) as [[s1 h1]| |] eqn:E; cbn -[setCurrentStateAndControl]; try discriminate. intro H.
    destruct (same_set _ _ _ _ _ _ _ _ _ N1 N2 K E) as (b1 & hb1 & E1 & K1 & A1 & C1 & C2 & F). rewrite E1. cbn -[setCurrentStateAndControl].
    destruct (IH s1 s' b1 h1 h' hb1) as (b' & hb' & E2 & K2 & A2 & C3 & F2); try congruence.
    exists b', hb'. split; [exact E2|]. split; [exact K2|]. split.
    + intros _. destruct l as [|y l]; [|apply A2; discriminate]. cbn in H, E2. injection H as <- <-. injection E2 as <- <-. exact A1.
    + split; [congruence|]. intros a Ha. rewrite F2 by congruence. now apply F.
Qed.

(** A clone starts with the same bounds and terminal values, and from its first call of setCurrentStateAndControl on it gives exactly the
    values the original would give, without changing the original. *)
Theorem C78_clone (t0 : Q) (sch : list (nat * Q)) (l : list ptr) (s s1 : con) (h h1 : store CST) (hist : list (X * U * Q)) :
  made_from t0 sch l s -> l <> [] -> NoDup l -> tidy h1 -> Forall (live h1) l -> setAll I s h hist = Ok (s1, h1) ->
  exists c hc, cloneCon s1 h1 = Ok (c, hc) /\
    lbI c = lbI s1 /\ ubI c = ubI s1 /\ lbT c = lbT s1 /\ ubT c = ubT s1 /\ evaluateTerminal I c hc = evaluateTerminal I s1 h1 /\
    (forall p, In p l -> read hc p = read h1 p) /\
    forall l' s2 h2, l' <> [] -> setAll I s1 h1 l' = Ok (s2, h2) ->
      exists c2 hc2, setAll I c hc l' = Ok (c2, hc2) /\
        evaluateIntermediate I c2 hc2 = evaluateIntermediate I s2 h2 /\ evaluateTerminal I c2 hc2 = evaluateTerminal I s2 h2 /\
        lbI c2 = lbI s2 /\ ubI c2 = ubI s2 /\ lbT c2 = lbT s2 /\ ubT c2 = ubT s2 /\ isInitialized c2 = isInitialized s2 /\
        forall p, In p l -> read hc2 p = read h1 p.
Proof.
  intros Hm Hl Hn Ht Hv Hs. destruct (made_shape _ _ _ _ Hm) as (B1 & B2 & f & B3 & B4).
  pose proof (setAll_shape _ _ _ _ _ Hs) as (S1 & S2 & S3).
  destruct (cloneSubsystems_spec CST l h1 Ht Hv) as (hc & Ec & P1 & P2).
  assert (Vl : forall a, In (Some a) l -> (a < next h1)%nat).
  { intros a Ha. rewrite Forall_forall in Hv. destruct (Hv _ Ha) as (v & b & Eb & Hb). injection Eb as <-. eapply tidy_lt; eauto. }
  assert (Nth : forall i, (i < length l)%nat -> nth_error (map Some (seq (next h1) (length l))) i = Some (Some (next h1 + i)%nat)).
  { intros i Hi. erewrite map_nth_error; [reflexivity|]. rewrite (nth_error_nth' _ 0%nat) by now rewrite seq_length. now rewrite seq_nth. }
  unfold cloneCon. rewrite S1, B1, Ec. cbn -[setAll vec_front vec_at].
  assert (Fr : @vec_front ptr (map Some (seq (next h1) (length l))) = Ok (Some (next h1))) by (destruct l; [easy|reflexivity]). rewrite Fr.
  cbn -[setAll vec_at]. rewrite S2, B3. cbn -[setAll vec_at].
  assert (Hf : (f < length l)%nat) by (apply nth_error_Some; congruence).
  rewrite (vec_at_nat (A:=ptr) _ _ _ (Nth f Hf)). cbn -[setAll vec_at]. do 2 eexists. split; [reflexivity|].
  set (c := mkSwitchedCon _ _ _ _ _ _ _ _ _ _ _ _ _ _).
  assert (R : forall p, In p l -> read hc p = read h1 p).
  { intros [a|] Hp; [|reflexivity]. cbn. now rewrite (P1 a (Vl a Hp)). }
  assert (K : sameCon s1 h1 c hc).
  { split; cbn; try reflexivity.
    - now rewrite S2.
    - rewrite S1, B1. apply Forall2_of_nth; [now rewrite map_length, seq_length|]. intros i p p' Hi Hj.
      assert (Li : (i < length l)%nat) by (apply nth_error_Some; intro G; discriminate (eq_trans (eq_sym Hi) G)).
      assert (Q0 := eq_trans (eq_sym (Nth i Li)) Hj). injection Q0 as <-.
      rewrite Forall_forall in Hv. destruct (Hv p (nth_error_In _ _ Hi)) as (v & a & -> & Ha). exists a, (next h1 + i)%nat. do 2 (split; [reflexivity|]).
      now apply P2.
    - exists f. rewrite S1, S3, B1. split; [exact B4|]. now apply Nth. }
  assert (T : forall (s2 c2 : con) h2 hc2, sameCon s2 h2 c2 hc2 -> evaluateTerminal I c2 hc2 = evaluateTerminal I s2 h2).
  { intros s2 c2 h2 hc2 [_ K2 (m & M1 & M2) _ _ _ _]. destruct (Forall2_nth _ _ _ _ _ K2 M1) as (p' & M3 & a & a' & Ea & -> & Hc).
    assert (Q0 := eq_trans (eq_sym M2) M3). injection Q0 as Q0. unfold evaluateTerminal. rewrite Ea, Q0. cbn. now rewrite Hc. }
  assert (T2 : forall (s2 c2 : con) h2 hc2, sameCon s2 h2 c2 hc2 -> sameActive s2 c2 -> evaluateIntermediate I c2 hc2 = evaluateIntermediate I s2 h2).
  { intros s2 c2 h2 hc2 [_ K2 _ _ _ _ _] (m & M1 & M2). destruct (Forall2_nth _ _ _ _ _ K2 M1) as (p' & M3 & a & a' & Ea & -> & Hc).
    assert (Q0 := eq_trans (eq_sym M2) M3). injection Q0 as Q0. unfold evaluateIntermediate. rewrite Ea, Q0. cbn. now rewrite Hc. }
  split; [reflexivity|]. split; [reflexivity|]. split; [reflexivity|]. split; [reflexivity|]. split; [now apply T|]. split; [exact R|].
  intros l' s2 h2 Hne H2. destruct (same_setAll l' s1 s2 c h1 h2 hc) as (c2 & hc2 & E2 & K2 & A2 & C2 & F2); auto.
  { now rewrite S1, B1. } { apply seq_NoDup_some. }
  exists c2, hc2. split; [exact E2|]. split; [apply T2; auto|]. split; [now apply T|].
  destruct K2 as [Q1 Q2 Q3 Q4 Q5 Q6 Q7 Q8]. do 5 (split; [assumption|]). intros p Hp. rewrite <- (R p Hp). destruct p as [a|]; [|reflexivity]. cbn. rewrite F2; [reflexivity|].
  cbn. intro G. apply in_map_iff in G. destruct G as (k & Ek & Hk). injection Ek as ->. apply in_seq in Hk. specialize (Vl a Hp). lia.
Qed.
End Props.

(** * Examples and counterexamples *)

(** A container is a number and the last state; everything it returns shows both. *)
Definition demo : interface Z Z (Z * Z) (option Z) (Z * Z) :=
  mkInterface (fun c x _ _ => (fst c, x)) (fun c => c) (fun c => c) (fun c => Some (fst c)) (fun c => Some (fst c)) (fun c => Some (fst c))
    (fun c => Some (fst c)) (fun c => (c, true)).
Definition demoHeap : store (Z * Z) := mkStore 2 (fun a => nth_error [(10, 0); (20, 0)]%Z a).
Definition demoSch : list (nat * Q) := [(0%nat, 1); (1%nat, 1)].
Definition demoSys : switchedCon Z Z (option Z) :=
  mkSwitchedCon Z Z (option Z) [Some 0%nat; Some 1%nat] (mk_seq [0; 1]%nat [0; 1; 2]) (Some 0%nat) (Some 1%nat) None None None None None false false.
Definition after (l : list (Z * Z * Q)) (f : switchedCon Z Z (option Z) -> store (Z * Z) -> outcome (Z * Z)) : outcome (Z * Z) :=
  do (s, h) <- setAll demo demoSys demoHeap l ;; f s h.

Example C78_example :
  made_from Z Z (option Z) None 0 demoSch [Some 0%nat; Some 1%nat] demoSys /\ remembers_last _ _ _ _ _ demo /\ well_timed demoSch /\
  tidy demoHeap /\ Forall (live demoHeap) [Some 0%nat; Some 1%nat] /\ NoDup [Some 0%nat; Some 1%nat] /\
  after [(3%Z, 0%Z, 1 # 2)] (evaluateIntermediate demo) = Ok (10, 3)%Z /\
  after [(3%Z, 0%Z, 1 # 2); (4%Z, 0%Z, 3 # 2)] (evaluateIntermediate demo) = Ok (20, 4)%Z /\
  after [(3%Z, 0%Z, 1 # 2); (4%Z, 0%Z, 3 # 2)] (evaluateTerminal demo) = Ok (20, 4)%Z.
Proof.
  split; [eexists; split; reflexivity|]. split; [intros c x u t x' u' t'; reflexivity|]. split; [split; [repeat constructor|cbn; lia]|].
  split; [intros [|[|a]] H; cbn in *; try lia; now destruct a|]. split; [repeat constructor; eexists; eexists; split; reflexivity|].
  split; [repeat constructor; cbn; intuition congruence|]. repeat split.
Qed.

(** Before the last phase the terminal values are not those of the current state: the terminal container never received it. *)
Theorem C78_terminal_stale_refuted :
  exists (l : list (Z * Z * Q)) (x u : Z) (t : Q) (c : Z * Z), points_to demoHeap (Some 1%nat) c /\
    after (l ++ [(x, u, t)]) (evaluateTerminal demo) <> Ok (terminal demo (setCur demo c x u t)).
Proof.
  exists [(4%Z, 0%Z, 3 # 2)], 3%Z, 0%Z, (1 # 2), (20, 0)%Z. split; [exists 1%nat; split; reflexivity|]. vm_compute. discriminate.
Qed.

(** A clone forgets which container was active: until the next call its intermediate values are those of the first mode, while its bounds
    are those of the mode of the original. *)
Theorem C78_clone_active_refuted :
  exists (l : list (Z * Z * Q)) s h c hc, setAll demo demoSys demoHeap l = Ok (s, h) /\ cloneCon s h = Ok (c, hc) /\
    evaluateIntermediate demo s h = Ok (20, 4)%Z /\ evaluateIntermediate demo c hc = Ok (10, 0)%Z /\ lbI c = Some 20%Z.
Proof.
  exists [(4%Z, 0%Z, 3 # 2)]. do 4 eexists. split; [reflexivity|]. split; [reflexivity|]. split; [reflexivity|]. split; reflexivity.
Qed.

Print Assumptions C78_intermediate.
Print Assumptions C78_defined.
Print Assumptions C78_terminal.
Print Assumptions C78_terminal_at_end.
Print Assumptions C78_initialize.
Print Assumptions C78_bounds_after_initialize_refuted.
Print Assumptions C78_clone.
Print Assumptions C78_terminal_stale_refuted.
Print Assumptions C78_clone_active_refuted.
