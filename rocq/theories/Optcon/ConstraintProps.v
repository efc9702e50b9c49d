(** C31: the sparse and the dense Jacobian of a constraint container describe the same matrix and
    its rows are those of the values and bounds.  C34: constraint violations.  C61: the Jacobians
    are derivatives of the values. *)
From Coq Require Import Reals Lra Lia List Bool Arith ZArith FunctionalExtensionality.
From Coquelicot Require Import Coquelicot.
From Verif Require Import Base.Outcome Base.RVec Optcon.DmsModel Optcon.DmsProofs
  Optcon.ConstraintModel Optcon.ConstraintSpec Optcon.ConstraintProofs
  Optcon.CostProofs.
Import ListNotations.
Local Open Scope R_scope.
Local Notation Forall := List.Forall.

Section Container.
Variables n m : nat.
Notation evaluate := (evaluate n m).
Notation size := (size n).
Notation lower := (lower n).
Notation upper := (upper n).
Notation jacobianState := (jacobianState n).
Notation jacobianInput := (jacobianInput n).
Notation nnzState := (nnzState n).
Notation nnzInput := (nnzInput m).
Notation built := (built n m).
Notation sparse_ok := (sparse_ok n m).
Notation newContainer := (newContainer).

(** What a caller can do with a container. *)
Inductive ccall :=
| AddIntermediate (c : constraint) | AddTerminal (c : constraint) | Initialize
| SetCurrent (x u : rvec) (t : R).
Definition cstep (k : ccall) (c : container) : outcome container :=
  match k with
  | AddIntermediate a => Ok (mkContainer (c_x c) (c_u c) (c_t c) (addTerm a (c_inter c)) (c_term c))
  | AddTerminal a => Ok (mkContainer (c_x c) (c_u c) (c_t c) (c_inter c) (addTerm a (c_term c)))
  | Initialize => initialize n m c
  | SetCurrent x u t => Ok (setCurrent x u t c)
  end.
Fixpoint crun (l : list ccall) (c : container) : outcome container :=
  match l with [] => Ok c | k :: r => do c' <- cstep k c ;; crun r c' end.

(** The constraints a history has added, in order. *)
Definition intermediateOf (l : list ccall) : list constraint :=
  flat_map (fun k => match k with AddIntermediate a => [a] | _ => [] end) l.
Definition terminalOf (l : list ccall) : list constraint :=
  flat_map (fun k => match k with AddTerminal a => [a] | _ => [] end) l.
Definition allOf (P : constraint -> Prop) (l : list ccall) : Prop :=
  Forall P (intermediateOf l) /\ Forall P (terminalOf l).

Definition stage_inv (s : stage) : Prop :=
  Forall built (s_terms s) /\
  (total size s = 0%nat -> s_eval s = [] /\ s_spS s = [] /\ s_spI s = [] /\ s_dS s = [] /\
     s_dI s = [] /\ s_lb s = [] /\ s_ub s = []) /\
  (s_init s = true ->
     length (s_eval s) = total size s /\ length (s_spS s) = total nnzState s /\
     length (s_spI s) = total nnzInput s /\ length (s_dS s) = total size s /\
     length (s_dI s) = total size s /\
     s_lb s = concat (map lower (s_terms s)) /\ s_ub s = concat (map upper (s_terms s))).

Lemma new_inv : stage_inv newStage.
Proof. split; [constructor|]. split; [auto 10|discriminate]. Qed.

Lemma add_inv a s : built a -> stage_inv s -> stage_inv (addTerm a s).
Proof.
  intros Ha (H1 & H2 & H3). split; [|split; [|discriminate]].
  - apply Forall_app. split; auto.
  - intros E. apply H2. unfold total, addTerm in *. cbn [s_terms] in E.
    rewrite map_app, list_sum_app in E. lia.
Qed.

Lemma total_zero (f : constraint -> nat) l : list_sum (map f l) = 0%nat -> forall c, In c l -> f c = 0%nat.
Proof.
  induction l as [|a l IH]; intros E c Hc; simpl in *; [tauto|].
  destruct Hc as [<-|Hc]; [lia|]. apply IH; auto; lia.
Qed.
Lemma total_zero' (f : constraint -> nat) l : (forall c, In c l -> f c = 0%nat) -> list_sum (map f l) = 0%nat.
Proof.
  induction l as [|a l IH]; intros E; simpl in *; auto. rewrite (E a), IH; auto.
Qed.
Lemma concat_zero {A} (f : constraint -> list A) l : (forall c, In c l -> length (f c) = 0%nat) ->
  concat (map f l) = [].
Proof.
  induction l as [|a l IH]; intros E; simpl; auto. rewrite IH by (intros; apply E; right; auto).
  specialize (E a (or_introl eq_refl)). destruct (f a); [auto|discriminate].
Qed.

Lemma init_inv s : stage_inv s -> exists s', initStage n m s = Ok s' /\ stage_inv s' /\
  s_terms s' = s_terms s /\ s_init s' = true.
Proof.
  intros (H1 & H2 & H3). pose proof (proj1 (Forall_forall _ _) H1) as Hb.
  unfold initStage. destruct (Nat.eqb_spec (total size s) 0) as [E|E].
  - eexists. split; [reflexivity|]. split; [|auto].
    destruct (H2 E) as (A1 & A2 & A3 & A4 & A5 & A6 & A7).
    assert (Z : forall c, In c (s_terms s) -> size c = 0%nat) by (apply total_zero; exact E).
    split; [exact H1|]. split; [auto|]. intros _.
    unfold total in *. cbn [s_terms s_eval s_spS s_spI s_dS s_dI s_lb s_ub].
    rewrite A1, A2, A3, A4, A5, A6, A7, E.
    rewrite (total_zero' nnzState), (total_zero' nnzInput), !concat_zero.
    + repeat split; reflexivity.
    + intros c Hc. destruct (built_lengths n m c rzero rzero 0 (Hb c Hc)) as (_ & _ & -> & _). auto.
    + intros c Hc. destruct (built_lengths n m c rzero rzero 0 (Hb c Hc)) as (_ & -> & _). auto.
    + intros c Hc. eapply built_size_zero; eauto.
    + intros c Hc. eapply built_size_zero; eauto.
  - rewrite (writeSegments_all _ lower), (writeSegments_all _ upper);
      try (rewrite repeat_length; reflexivity);
      try (intros c Hc; destruct (built_lengths n m c rzero rzero 0 (Hb c Hc)) as (_ & ? & ? & _); auto; fail).
    cbn [obind]. eexists. split; [reflexivity|]. split; [|auto].
    split; [exact H1|]. split; [intros E'; contradiction|]. intros _.
    unfold total. cbn [s_terms s_eval s_spS s_spI s_dS s_dI s_lb s_ub].
    rewrite !repeat_length. auto 10.
Qed.

Definition cinv (c : container) := stage_inv (c_inter c) /\ stage_inv (c_term c).

Lemma crun_inv l : forall c, allOf built l -> cinv c -> exists c', crun l c = Ok c' /\ cinv c' /\
  s_terms (c_inter c') = s_terms (c_inter c) ++ intermediateOf l /\
  s_terms (c_term c') = s_terms (c_term c) ++ terminalOf l.
Proof.
  induction l as [|k l IH]; intros c [A1 A2] [B1 B2]; cbn [crun].
  - exists c. split; [auto|]. split; [split; auto|]. simpl. now rewrite !app_nil_r.
  - cbn [intermediateOf terminalOf flat_map] in *.
    change (flat_map _ l) with (intermediateOf l) in A1 at 1.
    change (flat_map _ l) with (terminalOf l) in A2 at 1.
    change (flat_map (fun k => match k with AddIntermediate a => [a] | _ => [] end) l)
      with (intermediateOf l).
    change (flat_map (fun k => match k with AddTerminal a => [a] | _ => [] end) l)
      with (terminalOf l).
    apply Forall_app in A1 as [A1 A1']. apply Forall_app in A2 as [A2 A2'].
    destruct k as [a|a| |x u t]; cbn [cstep obind].
    + edestruct IH as (c' & E & I & T1 & T2); [split; eassumption| |
        exists c'; split; [exact E|split; [exact I|]]].
      * split; [apply add_inv; auto; inversion A1; auto|exact B2].
      * cbn [c_inter c_term addTerm s_terms] in *. rewrite T1, T2, <- app_assoc. auto.
    + edestruct IH as (c' & E & I & T1 & T2); [split; eassumption| |
        exists c'; split; [exact E|split; [exact I|]]].
      * split; [exact B1|apply add_inv; auto; inversion A2; auto].
      * cbn [c_inter c_term addTerm s_terms] in *. rewrite T1, T2, <- app_assoc. auto.
    + destruct (init_inv _ B1) as (s1 & E1 & I1 & T1 & F1).
      destruct (init_inv _ B2) as (s2 & E2 & I2 & T2 & F2).
      unfold initialize. rewrite E1. cbn [obind]. rewrite E2. cbn [obind].
      edestruct IH as (c' & E & I & U1 & U2); [split; eassumption| |
        exists c'; split; [exact E|split; [exact I|]]].
      * split; [exact I1|exact I2].
      * cbn [c_inter c_term] in *. rewrite U1, U2, T1, T2. auto.
    + edestruct IH as (c' & E & I & T1 & T2); [split; eassumption| |
        exists c'; split; [exact E|split; [exact I|]]].
      * split; [exact B1|exact B2].
      * cbn [c_inter c_term setCurrent] in *. auto.
Qed.

Lemma crun_app a : forall b c, crun (a ++ b) c = obind (crun a c) (crun b).
Proof.
  induction a as [|k a IH]; intros b c; cbn [app crun]; auto.
  destruct (cstep k c); cbn [obind]; auto.
Qed.

(** Points at which the container is evaluated after initialisation. *)
Definition visits (pts : list (rvec * rvec * R)) : list ccall :=
  map (fun p => SetCurrent (fst (fst p)) (snd (fst p)) (snd p)) pts.
Lemma visits_run pts : forall c, exists c', crun (visits pts) c = Ok c' /\
  c_inter c' = c_inter c /\ c_term c' = c_term c.
Proof.
  induction pts as [|p pts IH]; intros c; cbn [visits map crun cstep obind].
  - exists c; auto.
  - destruct (IH (setCurrent (fst (fst p)) (snd (fst p)) (snd p) c)) as (c' & E & F & G).
    exists c'. auto.
Qed.

(** Any history of additions, initialisations and visits; then initialise; then visit points, the
    last one being (x, u, t). *)
Definition history (cs : list ccall) (pts : list (rvec * rvec * R)) (x u : rvec) (t : R) :=
  cs ++ Initialize :: visits pts ++ [SetCurrent x u t].

Lemma history_run cs pts x u t : allOf built cs ->
  exists c, crun (history cs pts x u t) newContainer = Ok c /\ cinv c /\
    c_x c = x /\ c_u c = u /\ c_t c = t /\
    s_init (c_inter c) = true /\ s_init (c_term c) = true /\
    s_terms (c_inter c) = intermediateOf cs /\ s_terms (c_term c) = terminalOf cs.
Proof.
  intros Ha. destruct (crun_inv cs newContainer Ha) as (c1 & E1 & [I1 I2] & T1 & T2).
  { split; apply new_inv. }
  destruct (init_inv _ I1) as (s1 & F1 & J1 & U1 & G1).
  destruct (init_inv _ I2) as (s2 & F2 & J2 & U2 & G2).
  unfold history. rewrite crun_app, E1. cbn [obind crun cstep]. unfold initialize.
  rewrite F1. cbn [obind]. rewrite F2. cbn [obind].
  rewrite crun_app.
  destruct (visits_run pts (mkContainer (c_x c1) (c_u c1) (c_t c1) s1 s2)) as (c2 & E2 & V1 & V2).
  rewrite E2. cbn [obind crun cstep]. eexists. split; [reflexivity|].
  unfold cinv, setCurrent. cbn [c_inter c_term c_x c_u c_t] in *. rewrite V1, V2, U1, U2.
  split; [split; auto|]. repeat split; auto.
Qed.

(** ** C31 *)

Section Stage.
Variables (x u : rvec) (t : R) (s : stage).
Hypothesis Hi : stage_inv s.
Hypothesis Hf : s_init s = true.

Lemma stage_eval : stageEval n m x u t s = Ok (concat (map (fun c => evaluate c x u t) (s_terms s))).
Proof.
  destruct Hi as (H1 & _ & H3). destruct (H3 Hf) as (L & _). unfold stageEval. rewrite Hf. cbn [negb].
  apply writeSegments_all; auto. intros c Hc. apply built_lengths. eapply Forall_forall; eauto.
Qed.
Lemma stage_denseS : stageDenseState n x u t true s =
  Ok (concat (map (fun c => jacobianState c x u t) (s_terms s))).
Proof.
  destruct Hi as (H1 & _ & H3). destruct (H3 Hf) as (_ & _ & _ & L & _). unfold stageDenseState. cbn [negb].
  apply writeSegments_all; auto. intros c Hc. apply (built_lengths n m). eapply Forall_forall; eauto.
Qed.
Lemma stage_denseI : stageDenseInput n x u t s =
  Ok (concat (map (fun c => jacobianInput c x u t) (s_terms s))).
Proof.
  destruct Hi as (H1 & _ & H3). destruct (H3 Hf) as (_ & _ & _ & _ & L & _). unfold stageDenseInput.
  rewrite Hf. cbn [negb].
  apply writeSegments_all; auto. intros c Hc. apply (built_lengths n m). eapply Forall_forall; eauto.
Qed.

Hypothesis Hs : Forall sparse_ok (s_terms s).

Lemma stage_sparseS : exists rows cols vals,
  stagePatternState n s = Ok (rows, cols) /\ stageSparseState n x u t true s = Ok vals /\
  length vals = total nnzState s /\
  sparse_form (total size s) n
    (entry (concat (map (fun c => jacobianState c x u t) (s_terms s)))) rows cols vals.
Proof.
  destruct Hi as (H1 & _ & H3). destruct (H3 Hf) as (_ & L & _).
  pose proof (proj1 (Forall_forall _ _) H1) as Hb. pose proof (proj1 (Forall_forall _ _) Hs) as Hp.
  assert (Hlen : forall c, In c (s_terms s) -> nnzState c <> 0%nat ->
     length (sparseState n c x u t) = nnzState c).
  { intros c Hc _. apply (built_sparse_state n m); auto. }
  destruct (pattern_spec n n nnzState (patternState n) (fun c => sparseState n c x u t)
    (fun c => jacobianState c x u t) (s_terms s)) with (pre := @nil rvec) (rows := @nil nat)
    (cols := @nil nat) (vals := @nil R) as (rows & cols & E & F).
  - intros c Hc. apply (built_lengths n m); auto.
  - intros c Hc _. apply (built_sparse_state n m); auto.
  - intros c Hc E r j Hr Hj. eapply (built_state_zero n m); eauto.
  - apply sparse_empty. intros r c Hr; simpl in Hr; lia.
  - exists rows, cols, (concat (map (fun c => sparseState n c x u t)
      (filter (fun c => negb (nnzState c =? 0)%nat) (s_terms s)))).
    split; [unfold stagePatternState; rewrite Hf; exact E|].
    split; [apply writeNonEmpty_all; auto|]. split; [|exact F].
    rewrite (concat_length_sum _ nnzState), sum_filter; [reflexivity|].
    intros c Hc. apply filter_In in Hc as [Hc Hn]. apply Hlen; auto.
    intros Z. rewrite Z in Hn. discriminate.
Qed.

Lemma stage_sparseI : exists rows cols vals,
  stagePatternInput n m s = Ok (rows, cols) /\ stageSparseInput n m x u t s = Ok vals /\
  length vals = total nnzInput s /\
  sparse_form (total size s) m
    (entry (concat (map (fun c => jacobianInput c x u t) (s_terms s)))) rows cols vals.
Proof.
  destruct Hi as (H1 & _ & H3). destruct (H3 Hf) as (_ & _ & L & _).
  pose proof (proj1 (Forall_forall _ _) H1) as Hb. pose proof (proj1 (Forall_forall _ _) Hs) as Hp.
  assert (Hlen : forall c, In c (s_terms s) -> nnzInput c <> 0%nat ->
     length (sparseInput n m c x u t) = nnzInput c).
  { intros c Hc Hn. apply built_sparse_input; auto. }
  destruct (pattern_spec n m nnzInput (patternInput n m) (fun c => sparseInput n m c x u t)
    (fun c => jacobianInput c x u t) (s_terms s)) with (pre := @nil rvec) (rows := @nil nat)
    (cols := @nil nat) (vals := @nil R) as (rows & cols & E & F).
  - intros c Hc. apply (built_lengths n m); auto.
  - intros c Hc Hn. apply built_sparse_input; auto.
  - intros c Hc E r j Hr Hj. eapply built_input_zero; eauto.
  - apply sparse_empty. intros r c Hr; simpl in Hr; lia.
  - exists rows, cols, (concat (map (fun c => sparseInput n m c x u t)
      (filter (fun c => negb (nnzInput c =? 0)%nat) (s_terms s)))).
    split; [unfold stagePatternInput; rewrite Hf; exact E|].
    split; [unfold stageSparseInput; rewrite Hf; apply writeNonEmpty_all; auto|]. split; [|exact F].
    rewrite (concat_length_sum _ nnzInput), sum_filter; [reflexivity|].
    intros c Hc. apply filter_In in Hc as [Hc Hn]. apply Hlen; auto.
    intros Z. rewrite Z in Hn. discriminate.
Qed.
End Stage.

(** Values, bounds and dense Jacobians of a container are those of its constraints one below the
    other, in the order in which they were added, at the last point visited: the rows agree. *)
Theorem C31_rows cs pts x u t : allOf built cs ->
  exists c, crun (history cs pts x u t) newContainer = Ok c /\
    evaluateIntermediate n m c = Ok (concat (map (fun k => evaluate k x u t) (intermediateOf cs))) /\
    s_lb (c_inter c) = concat (map lower (intermediateOf cs)) /\
    s_ub (c_inter c) = concat (map upper (intermediateOf cs)) /\
    jacobianStateIntermediate n c =
      Ok (concat (map (fun k => jacobianState k x u t) (intermediateOf cs))) /\
    jacobianInputIntermediate n c =
      Ok (concat (map (fun k => jacobianInput k x u t) (intermediateOf cs))) /\
    evaluateTerminal n m c = Ok (concat (map (fun k => evaluate k x u t) (terminalOf cs))) /\
    s_lb (c_term c) = concat (map lower (terminalOf cs)) /\
    s_ub (c_term c) = concat (map upper (terminalOf cs)) /\
    jacobianStateTerminal n c =
      Ok (concat (map (fun k => jacobianState k x u t) (terminalOf cs))) /\
    jacobianInputTerminal n c =
      Ok (concat (map (fun k => jacobianInput k x u t) (terminalOf cs))) /\
    (forall k, In k (intermediateOf cs) \/ In k (terminalOf cs) ->
       length (evaluate k x u t) = size k /\ length (lower k) = size k /\
       length (upper k) = size k /\ length (jacobianState k x u t) = size k /\
       length (jacobianInput k x u t) = size k).
Proof.
  intros Ha. destruct (history_run cs pts x u t Ha)
    as (c & E & [I1 I2] & Ex & Eu & Et & F1 & F2 & T1 & T2).
  exists c. split; [exact E|].
  unfold evaluateIntermediate, evaluateTerminal, jacobianStateIntermediate, jacobianStateTerminal,
    jacobianInputIntermediate, jacobianInputTerminal.
  rewrite Ex, Eu, Et, F1, !stage_eval, !stage_denseS, !stage_denseI, T1, T2 by auto.
  destruct I1 as (_ & _ & I1). destruct I2 as (_ & _ & I2).
  destruct (I1 F1) as (_ & _ & _ & _ & _ & -> & ->). destruct (I2 F2) as (_ & _ & _ & _ & _ & -> & ->).
  rewrite T1, T2. repeat (split; [reflexivity|]).
  destruct Ha as [A1 A2]. intros k [Hk|Hk]; apply built_lengths.
  - exact (proj1 (Forall_forall _ _) A1 k Hk).
  - exact (proj1 (Forall_forall _ _) A2 k Hk).
Qed.

(** The k-th sparse Jacobian value is the entry of the dense Jacobian at the k-th row and column
    index, every other entry of the dense Jacobian is zero, and the number of triplets is the
    reported one. *)
Theorem C31_sparse_partial cs pts x u t : allOf built cs -> allOf sparse_ok cs ->
  exists c, crun (history cs pts x u t) newContainer = Ok c /\
    (exists D rows cols vals, jacobianStateIntermediate n c = Ok D /\
       stagePatternState n (c_inter c) = Ok (rows, cols) /\
       jacobianStateSparseIntermediate n c = Ok vals /\
       length vals = total nnzState (c_inter c) /\
       length D = list_sum (map size (intermediateOf cs)) /\
       sparse_form (length D) n (fun r j => nth r D rzero j) rows cols vals) /\
    (exists D rows cols vals, jacobianInputIntermediate n c = Ok D /\
       stagePatternInput n m (c_inter c) = Ok (rows, cols) /\
       jacobianInputSparseIntermediate n m c = Ok vals /\
       length vals = total nnzInput (c_inter c) /\
       length D = list_sum (map size (intermediateOf cs)) /\
       sparse_form (length D) m (fun r j => nth r D rzero j) rows cols vals) /\
    (exists D rows cols vals, jacobianStateTerminal n c = Ok D /\
       stagePatternState n (c_term c) = Ok (rows, cols) /\
       jacobianStateSparseTerminal n c = Ok vals /\
       length vals = total nnzState (c_term c) /\
       length D = list_sum (map size (terminalOf cs)) /\
       sparse_form (length D) n (fun r j => nth r D rzero j) rows cols vals) /\
    (exists D rows cols vals, jacobianInputTerminal n c = Ok D /\
       stagePatternInput n m (c_term c) = Ok (rows, cols) /\
       jacobianInputSparseTerminal n m c = Ok vals /\
       length vals = total nnzInput (c_term c) /\
       length D = list_sum (map size (terminalOf cs)) /\
       sparse_form (length D) m (fun r j => nth r D rzero j) rows cols vals).
Proof.
  intros Ha [P1 P2]. destruct (history_run cs pts x u t Ha)
    as (c & E & [I1 I2] & Ex & Eu & Et & F1 & F2 & T1 & T2).
  exists c. split; [exact E|].
  unfold jacobianStateIntermediate, jacobianStateTerminal, jacobianInputIntermediate,
    jacobianInputTerminal, jacobianStateSparseIntermediate, jacobianStateSparseTerminal,
    jacobianInputSparseIntermediate, jacobianInputSparseTerminal.
  rewrite Ex, Eu, Et, F1.
  assert (Hl : forall l (f : constraint -> list rvec), (forall k, In k l -> length (f k) = size k) ->
     length (concat (map f l)) = list_sum (map size l)) by (intros; eapply @concat_length_sum; eauto).
  rewrite <- T1 in P1. rewrite <- T2 in P2.
  assert (B : forall k, In k (intermediateOf cs) \/ In k (terminalOf cs) -> built k).
  { destruct Ha as [A1 A2].
    intros k [Hk|Hk]; [exact (proj1 (Forall_forall _ _) A1 k Hk)|exact (proj1 (Forall_forall _ _) A2 k Hk)]. }
  split; [|split; [|split]].
  - destruct (stage_sparseS x u t _ I1 F1 P1) as (rows & cols & vals & G1 & G2 & G3 & G4).
    rewrite stage_denseS by auto. eexists _, rows, cols, vals. split; [reflexivity|].
    rewrite T1 in *. split; [exact G1|]. split; [exact G2|]. split; [exact G3|].
    rewrite Hl by (intros; apply (built_lengths n m); auto). split; [reflexivity|].
    unfold total in G4. rewrite T1 in G4. exact G4.
  - destruct (stage_sparseI x u t _ I1 F1 P1) as (rows & cols & vals & G1 & G2 & G3 & G4).
    rewrite stage_denseI by auto. eexists _, rows, cols, vals. split; [reflexivity|].
    rewrite T1 in *. split; [exact G1|]. split; [exact G2|]. split; [exact G3|].
    rewrite Hl by (intros; apply (built_lengths n m); auto). split; [reflexivity|].
    unfold total in G4. rewrite T1 in G4. exact G4.
  - destruct (stage_sparseS x u t _ I2 F2 P2) as (rows & cols & vals & G1 & G2 & G3 & G4).
    rewrite stage_denseS by auto. eexists _, rows, cols, vals. split; [reflexivity|].
    rewrite T2 in *. split; [exact G1|]. split; [exact G2|]. split; [exact G3|].
    rewrite Hl by (intros; apply (built_lengths n m); auto). split; [reflexivity|].
    unfold total in G4. rewrite T2 in G4. exact G4.
  - destruct (stage_sparseI x u t _ I2 F2 P2) as (rows & cols & vals & G1 & G2 & G3 & G4).
    rewrite stage_denseI by auto. eexists _, rows, cols, vals. split; [reflexivity|].
    rewrite T2 in *. split; [exact G1|]. split; [exact G2|]. split; [exact G3|].
    rewrite Hl by (intros; apply (built_lengths n m); auto). split; [reflexivity|].
    unfold total in G4. rewrite T2 in G4. exact G4.
Qed.

(** ** C34 *)

Lemma zipR_spec f a b : length a = length b -> exists z, zipR f a b = Ok z /\ length z = length a /\
  forall r, (r < length a)%nat -> nth r z 0 = f (nth r a 0) (nth r b 0).
Proof.
  intros L. unfold zipR. rewrite L, Nat.eqb_refl. eexists. split; [reflexivity|].
  split; [rewrite map_length, combine_length; lia|].
  intros r Hr. set (g := fun p : R * R => f (fst p) (snd p)).
  rewrite (nth_indep _ 0 (g (0, 0))) by (rewrite map_length, combine_length; lia).
  rewrite (map_nth g), combine_nth by auto. reflexivity.
Qed.

Lemma stage_violation x u t s : stage_inv s -> s_init s = true ->
  let v := concat (map (fun c => evaluate c x u t) (s_terms s)) in
  let lo := concat (map lower (s_terms s)) in
  let hi := concat (map upper (s_terms s)) in
  exists e up low, totalViolation n m x u t s = Ok e /\ upperViolation n m x u t s = Ok up /\
    lowerViolation n m x u t s = Ok low /\ length e = total size s /\ length up = total size s /\
    length low = total size s /\
    forall r, (r < total size s)%nat ->
      nth r up 0 = Rmax (nth r v 0 - nth r hi 0) 0 /\ nth r low 0 = Rmin (nth r v 0 - nth r lo 0) 0 /\
      nth r e 0 = Rmin (nth r v 0 - nth r lo 0) 0 + Rmax (nth r v 0 - nth r hi 0) 0.
Proof.
  intros Hi Hf v lo hi. pose proof (stage_eval x u t s Hi Hf) as Ev. fold v in Ev.
  destruct Hi as (H1 & _ & H3). pose proof (proj1 (Forall_forall _ _) H1) as Hb.
  destruct (H3 Hf) as (_ & _ & _ & _ & _ & El & Eu).
  fold lo in El. fold hi in Eu.
  assert (Lv : length v = total size s).
  { apply concat_length_sum. intros c Hc. apply built_lengths; auto. }
  assert (Ll : length lo = total size s).
  { apply concat_length_sum. intros c Hc. apply (built_lengths n m c rzero rzero 0); auto. }
  assert (Lu : length hi = total size s).
  { apply concat_length_sum. intros c Hc. apply (built_lengths n m c rzero rzero 0); auto. }
  unfold totalViolation, upperViolation, lowerViolation. rewrite Ev, El, Eu. cbn [obind].
  set (k := total size s) in *. clearbody k.
  destruct (zipR_spec Rminus v hi) as (du & Edu & Ldu & Ndu); [lia|].
  destruct (zipR_spec Rminus v lo) as (dl & Edl & Ldl & Ndl); [lia|].
  destruct (zipR_spec Rmax du (repeat 0 (length hi))) as (mu & Emu & Lmu & Nmu); [rewrite repeat_length; lia|].
  destruct (zipR_spec Rmin dl (repeat 0 (length lo))) as (ml & Eml & Lml & Nml); [rewrite repeat_length; lia|].
  destruct (zipR_spec Rplus ml mu) as (e & Ee & Le & Ne); [lia|].
  rewrite Edu, Edl. cbn [obind]. rewrite Emu, Eml. cbn [obind].
  rewrite Ll, <- Lu, Emu. cbn [obind]. rewrite Ee.
  exists e, mu, ml. repeat (split; [auto; lia|]).
  intros r Hr. rewrite Ne, Nmu, Nml, Ndu, Ndl, !nth_repeat_lt by lia. auto.
Qed.

(** Total, upper and lower violation, for every history.  [violates] and "zero iff within the
    bounds" are for rows with lower bound <= upper bound. *)
Theorem C34_violation cs pts x u t : allOf built cs ->
  exists c, crun (history cs pts x u t) newContainer = Ok c /\
  forall st l, st = c_inter c /\ l = intermediateOf cs \/ st = c_term c /\ l = terminalOf cs ->
  exists e up low,
    totalViolation n m x u t st = Ok e /\ upperViolation n m x u t st = Ok up /\
    lowerViolation n m x u t st = Ok low /\
    length e = list_sum (map size l) /\
    forall r, (r < length e)%nat ->
      let v := nth r (concat (map (fun k => evaluate k x u t) l)) 0 in
      let lo := nth r (concat (map lower l)) 0 in
      let hi := nth r (concat (map upper l)) 0 in
      lo <= hi ->
      violates lo v hi (nth r e 0) /\
      (nth r e 0 = 0 <-> lo <= v <= hi) /\ (0 < nth r e 0 <-> hi < v) /\
      (nth r e 0 < 0 <-> v < lo) /\
      (v <= hi -> nth r up 0 = 0) /\ (hi < v -> nth r up 0 = v - hi) /\
      (lo <= v -> nth r low 0 = 0) /\ (v < lo -> nth r low 0 = v - lo).
Proof.
  intros Ha. destruct (history_run cs pts x u t Ha)
    as (c & E & [I1 I2] & Ex & Eu & Et & F1 & F2 & T1 & T2).
  exists c. split; [exact E|]. intros st l Hst.
  assert (Hh : stage_inv st /\ s_init st = true /\ s_terms st = l).
  { destruct Hst as [[-> ->]|[-> ->]]; auto. }
  destruct Hh as (Hi & Hf & Ht).
  destruct (stage_violation x u t st Hi Hf) as (e & up & low & E1 & E2 & E3 & L1 & L2 & L3 & N).
  rewrite Ht in N. exists e, up, low. repeat (split; [assumption|]).
  unfold total in *. rewrite Ht in *. split; [exact L1|]. intros r Hr. cbv zeta.
  destruct (N r) as (Nu & Nl & Ne); [lia|].
  set (v := nth r (concat (map (fun k => evaluate k x u t) l)) 0) in *.
  set (lo := nth r (concat (map lower l)) 0) in *. set (hi := nth r (concat (map upper l)) 0) in *.
  clearbody v lo hi. intros Hb. unfold violates. rewrite Nu, Nl, Ne.
  unfold Rmax, Rmin.
  destruct (Rle_dec (v - lo) 0); destruct (Rle_dec (v - hi) 0);
    repeat match goal with |- _ /\ _ => split | |- _ <-> _ => split end; intros; lra.
Qed.

(** The obstacle constraint is met exactly by the positions that are not strictly inside the ellipsoid (and within the
    largest value): with y the position seen from the centre, in the axes of the ellipsoid scaled to the unit ball. *)
Theorem C34_obstacle o x u t :
  let y k := rsum 3 (fun i => o_A o k i * rsum 3 (fun j => o_S o j i * (o_pos o x j - o_x0 o j))) in
  let r2 := y 0%nat ^ 2 + y 1%nat ^ 2 + y 2%nat ^ 2 in
  evaluate (CObstacle o) x u t = [r2 - 1] /\
  (nth 0 (lower (CObstacle o)) 0 <= r2 - 1 <= nth 0 (upper (CObstacle o)) 0 <-> 1 <= r2 <= 1 + o_max o).
Proof.
  intros y r2. split.
  - cbn [evaluate ConstraintModel.evaluate]. f_equal. unfold insideEllipsoid, r2, y, rdot, rmv, rtr, rsubv. cbn [rsum]. ring.
  - cbn. lra.
Qed.

(** Finding: the matrix documented as that of the half axes acts as its inverse: with half axes of length h, positions at
    distance 1/h from the centre are on the boundary.  For h = 2 a position half way to the surface of the documented
    obstacle is accepted, for h = 1/2 one at twice the distance of its surface is not. *)
Theorem C34_half_axes_refuted :
  let ball h := mkObstacle rzero (fun i j => if (i =? j)%nat then h else 0) (fun i j => if (i =? j)%nat then 1 else 0)
                  (fun x => x) (fun _ i j => if (i =? j)%nat then 1 else 0) 10 in
  let x := runit 0 in
  evaluate (CObstacle (ball 2)) x rzero 0 = [3] /\ evaluate (CObstacle (ball (1 / 2))) x rzero 0 = [- (3 / 4)].
Proof.
  intros ball x. split.
  - rewrite (proj1 (C34_obstacle (ball 2) x rzero 0)). f_equal. cbn. unfold rzero. field.
  - rewrite (proj1 (C34_obstacle (ball (1 / 2)) x rzero 0)). f_equal. cbn. unfold rzero. field.
Qed.

(** Finding: values up to 1 are documented to mean that the point is inside; outside points get such values too. *)
Theorem C34_inside_value_refuted o x : 
  let y k := rsum 3 (fun i => o_A o k i * rsum 3 (fun j => o_S o j i * (x j - o_x0 o j))) in
  1 < y 0%nat ^ 2 + y 1%nat ^ 2 + y 2%nat ^ 2 <= 2 -> insideEllipsoid o x <= 1.
Proof.
  intros y H. replace (insideEllipsoid o x) with (y 0%nat ^ 2 + y 1%nat ^ 2 + y 2%nat ^ 2 - 1); [lra|].
  unfold insideEllipsoid, y, rdot, rmv, rtr, rsubv. cbn [rsum]. ring.
Qed.

(** For the library's own constraint types the bounds are always ordered: the constructors refuse
    others. *)
Theorem C34_ordered c : built c -> (forall g, c <> CGeneral g) ->
  (forall o, c = CObstacle o -> 0 <= o_max o) ->
  forall r, (r < size c)%nat -> nth r (lower c) 0 <= nth r (upper c) 0.
Proof.
  intros H Hg Ho r Hr. pose proof (built_box n m c H) as Hb.
  destruct c as [b|b|xF|o|g]; cbn [ConstraintModel.lower ConstraintModel.upper ConstraintModel.size] in *.
  - destruct Hb as (idx & _ & E2 & _ & _ & _ & _ & _ & Hl). apply Hl. lia.
  - destruct Hb as (idx & _ & E2 & _ & _ & _ & _ & _ & Hl). apply Hl. lia.
  - lra.
  - specialize (Ho o eq_refl). destruct r as [|r]; simpl; [lra|destruct r; lra].
  - destruct (Hg g eq_refl).
Qed.

(** ** C61 *)

(** The Jacobians of a constraint are the partial derivatives of its value. *)
Definition right_jacobians (c : constraint) : Prop :=
  forall x u t r j, (r < size c)%nat ->
    ((j < n)%nat -> is_derive (fun v => nth r (evaluate c (rset x j v) u t) 0) (x j)
                      (nth r (jacobianState c x u t) rzero j)) /\
    ((j < m)%nat -> is_derive (fun v => nth r (evaluate c x (rset u j v) t) 0) (u j)
                      (nth r (jacobianInput c x u t) rzero j)).

Lemma rset_id (x : rvec) j : rset x j (x j) = x.
Proof. extensionality i. unfold rset. destruct (Nat.eqb_spec i j); congruence. Qed.

Lemma coordinate_derive (x : rvec) i j : is_derive (fun v => rset x j v i) (x j) (if (j =? i)%nat then 1 else 0).
Proof.
  unfold rset. replace (j =? i)%nat with (i =? j)%nat by apply Nat.eqb_sym. destruct (i =? j)%nat; auto_derive; auto; ring.
Qed.

Lemma mulVec_units k idx v r : (forall j, In j idx -> (j < k)%nat) -> (r < length idx)%nat ->
  nth r (mulVec k (map runit idx) v) 0 = v (nth r idx 0%nat).
Proof.
  intros Hr H. unfold mulVec. rewrite map_map.
  set (f := fun i => rdot k (runit i) v).
  rewrite (nth_indep _ 0 (f 0%nat)) by (rewrite map_length; auto). rewrite (map_nth f).
  unfold f, rdot.
  rewrite (rsum_ext k _ (fun i => if (i =? nth r idx 0%nat)%nat then v i else 0)).
  - rewrite rsum_delta; auto. apply Hr, nth_In; auto.
  - intros i _. unfold runit. destruct (i =? nth r idx 0)%nat; ring.
Qed.

Lemma obstacle_derive o x j :
  (forall k, (k < 3)%nat -> is_derive (fun v => o_pos o (rset x j v) k) (x j) (o_dpos o x k j)) ->
  is_derive (fun v => insideEllipsoid o (o_pos o (rset x j v))) (x j) (obstacleJac o x j).
Proof.
  intros H.
  pose proof (H 0%nat ltac:(lia)) as H0. pose proof (H 1%nat ltac:(lia)) as H1.
  pose proof (H 2%nat ltac:(lia)) as H2. clear H.
  set (p0 := fun v => o_pos o (rset x j v) 0%nat) in *.
  set (p1 := fun v => o_pos o (rset x j v) 1%nat) in *.
  set (p2 := fun v => o_pos o (rset x j v) 2%nat) in *.
  change (is_derive p0 (x j) (o_dpos o x 0%nat j)) in H0.
  change (is_derive p1 (x j) (o_dpos o x 1%nat j)) in H1.
  change (is_derive p2 (x j) (o_dpos o x 2%nat j)) in H2.
  change (is_derive (fun v => insideEllipsoid o (fun k => match k with 0%nat => p0 v | 1%nat => p1 v | _ => p2 v end))
            (x j) (obstacleJac o x j)).
  unfold obstacleJac.
  replace (o_pos o x) with (o_pos o (rset x j (x j))) by (now rewrite rset_id).
  unfold rdot, rmv, rtr, rsubv. cbn [rsum].
  change (o_pos o (rset x j (x j)) 0%nat) with (p0 (x j)).
  change (o_pos o (rset x j (x j)) 1%nat) with (p1 (x j)).
  change (o_pos o (rset x j (x j)) 2%nat) with (p2 (x j)).
  clearbody p0 p1 p2. unfold insideEllipsoid, rdot, rmv, rtr, rsubv. cbn [rsum].
  generalize (o_dpos o x 0%nat j) (o_dpos o x 1%nat j) (o_dpos o x 2%nat j) H0 H1 H2.
  clear H0 H1 H2. intros d0 d1 d2 H0 H1 H2.
  auto_derive.
  - repeat split; solve [exists d0; exact H0|exists d1; exact H1|exists d2; exact H2].
  - change (fun x0 => p0 x0) with p0. change (fun x0 => p1 x0) with p1. change (fun x0 => p2 x0) with p2.
    rewrite (is_derive_unique _ _ _ H0), (is_derive_unique _ _ _ H1), (is_derive_unique _ _ _ H2). ring.
Qed.

Lemma const_derive (f : R -> R) a y : (forall v, f v = a) -> is_derive f y 0.
Proof. intros H. apply (is_derive_ext (fun _ => a)); [auto|auto_derive; auto]. Qed.

Lemma nth_zeros k r j : nth r (repeat rzero k) rzero j = 0.
Proof. apply (entry_zero k r j). Qed.

Lemma box_derive k b idx (x : rvec) r j : box_ok k b idx -> (r < b_size b)%nat ->
  is_derive (fun v => nth r (mulVec k (b_J b) (rset x j v)) 0) (x j) (nth r (b_J b) rzero j).
Proof.
  intros (E1 & E2 & _ & _ & Hr & _) Hlt. rewrite E2 in Hlt. rewrite E1.
  apply (is_derive_ext (fun v => rset x j v (nth r idx 0%nat))).
  - intros v. now rewrite mulVec_units.
  - change (nth r (map runit idx) rzero j) with (entry (map runit idx) r j).
    rewrite entry_units by auto. apply coordinate_derive.
Qed.

(** The library's constraint types: box constraints on states and inputs, terminal constraints, and
    obstacle constraints whose position Jacobian is the derivative of the position. *)
Theorem C61_terms c : built c -> (forall g, c <> CGeneral g) ->
  (forall o, c = CObstacle o -> forall x j k, (j < n)%nat -> (k < 3)%nat ->
     is_derive (fun v => o_pos o (rset x j v) k) (x j) (o_dpos o x k j)) ->
  right_jacobians c.
Proof.
  intros Hb Hg Ho x u t r j Hr. pose proof (built_box n m c Hb) as Hbox.
  destruct c as [b|b|xF|o|g]; cbn [ConstraintModel.evaluate ConstraintModel.jacobianState
    ConstraintModel.jacobianInput ConstraintModel.size] in *.
  - destruct Hbox as (idx & Hbox). split; intros Hj; [eapply box_derive; eauto|].
    rewrite nth_zeros. eapply const_derive. reflexivity.
  - destruct Hbox as (idx & Hbox). split; intros Hj; [|eapply box_derive; eauto].
    rewrite nth_zeros. eapply const_derive. reflexivity.
  - split; intros Hj.
    + apply (is_derive_ext (fun v => rset x j v r - xF r)).
      * intros v. unfold toList. rewrite nth_map_seq by auto. reflexivity.
      * change (nth r (map runit (seq 0 n)) rzero j) with (entry (map runit (seq 0 n)) r j).
        rewrite entry_units, seq_nth by (rewrite ?seq_length; auto). cbn [Nat.add].
        replace (if (j =? r)%nat then 1 else 0) with ((if (j =? r)%nat then 1 else 0) - 0) by ring.
        apply (is_derive_minus (K := R_AbsRing) (fun v => rset x j v r)).
        -- apply coordinate_derive.
        -- apply (const_derive _ (xF r)). reflexivity.
    + rewrite nth_zeros. eapply const_derive. reflexivity.
  - assert (r = 0%nat) by lia. subst r. cbn [nth]. split; intros Hj.
    + apply obstacle_derive. intros k Hk. apply (Ho o eq_refl); auto.
    + eapply const_derive. reflexivity.
  - destruct (Hg g eq_refl).
Qed.

Lemma concat_derive (f : constraint -> R -> list R) (J : constraint -> list rvec) y j l :
  (forall c v, In c l -> length (f c v) = size c) -> (forall c, In c l -> length (J c) = size c) ->
  (forall c r, In c l -> (r < size c)%nat -> is_derive (fun v => nth r (f c v) 0) y (nth r (J c) rzero j)) ->
  forall r, (r < list_sum (map size l))%nat ->
  is_derive (fun v => nth r (concat (map (fun c => f c v) l)) 0) y (nth r (concat (map J l)) rzero j).
Proof.
  induction l as [|c l IH]; intros Hf HJ Hd r Hr; [simpl in Hr; lia|].
  cbn [map concat] in *. change (list_sum (size c :: map size l)) with (size c + list_sum (map size l))%nat in Hr.
  destruct (lt_dec r (size c)) as [Hl|Hl].
  - apply (is_derive_ext (fun v => nth r (f c v) 0)).
    + intros v. rewrite app_nth1; auto. rewrite Hf; auto. left; auto.
    + rewrite app_nth1 by (rewrite HJ; auto; left; auto). apply Hd; auto. left; auto.
  - apply (is_derive_ext (fun v => nth (r - size c) (concat (map (fun c => f c v) l)) 0)).
    + intros v. rewrite app_nth2 by (rewrite Hf; [lia|left; auto]). rewrite Hf by (left; auto). auto.
    + rewrite app_nth2 by (rewrite HJ; [lia|left; auto]). rewrite HJ by (left; auto).
      apply IH; [intros; apply Hf; right; auto|intros; apply HJ; right; auto|intros; apply Hd; [right|]; auto|lia].
Qed.

(** The dense Jacobians the container returns are the derivatives of the values it returns, for
    every history; [val v] is what the container returns in row r when visited with component j of
    the state (of the input) set to v. *)
Theorem C61_container cs pts x u t : allOf built cs -> allOf right_jacobians cs ->
  exists c, crun (history cs pts x u t) newContainer = Ok c /\
  forall (inter : bool), let st := fun c => if inter then c_inter c else c_term c in
  exists DS DI, stageDenseState n x u t (s_init (c_inter c)) (st c) = Ok DS /\
    stageDenseInput n x u t (st c) = Ok DI /\ length DI = length DS /\
    forall r j, (r < length DS)%nat ->
      ((j < n)%nat -> exists val : R -> R,
         (forall v, exists c' e, crun (history cs pts (rset x j v) u t) newContainer = Ok c' /\
            stageEval n m (rset x j v) u t (st c') = Ok e /\ nth r e 0 = val v) /\
         is_derive val (x j) (nth r DS rzero j)) /\
      ((j < m)%nat -> exists val : R -> R,
         (forall v, exists c' e, crun (history cs pts x (rset u j v) t) newContainer = Ok c' /\
            stageEval n m x (rset u j v) t (st c') = Ok e /\ nth r e 0 = val v) /\
         is_derive val (u j) (nth r DI rzero j)).
Proof.
  intros Ha [R1 R2]. destruct (history_run cs pts x u t Ha)
    as (c & E & [I1 I2] & Ex & Eu & Et & F1 & F2 & T1 & T2).
  exists c. split; [exact E|]. intros inter st.
  assert (Hh : forall x u t, exists c, crun (history cs pts x u t) newContainer = Ok c /\
     stage_inv (st c) /\ s_init (st c) = true /\
     s_terms (st c) = if inter then intermediateOf cs else terminalOf cs).
  { intros x' u' t'. destruct (history_run cs pts x' u' t' Ha)
      as (c' & E' & [I1' I2'] & _ & _ & _ & F1' & F2' & T1' & T2').
    exists c'. split; [exact E'|]. destruct inter; auto. }
  set (l := if inter then intermediateOf cs else terminalOf cs) in *.
  assert (Hb : forall k, In k l -> built k).
  { destruct Ha as [A1 A2]. unfold l.
    destruct inter; [exact (proj1 (Forall_forall _ _) A1)|exact (proj1 (Forall_forall _ _) A2)]. }
  assert (Hrj : forall k, In k l -> right_jacobians k).
  { unfold l. destruct inter; [exact (proj1 (Forall_forall _ _) R1)|exact (proj1 (Forall_forall _ _) R2)]. }
  assert (Hc : stage_inv (st c) /\ s_init (st c) = true /\ s_terms (st c) = l).
  { unfold st, l. destruct inter; auto. }
  destruct Hc as (J & F & T). rewrite F1.
  rewrite (stage_denseS x u t (st c) J F), (stage_denseI x u t (st c) J F), T.
  eexists _, _. split; [reflexivity|]. split; [reflexivity|].
  assert (LS : length (concat (map (fun k => jacobianState k x u t) l)) = list_sum (map size l)).
  { apply concat_length_sum. intros k Hk. apply (built_lengths n m); auto. }
  assert (LI : length (concat (map (fun k => jacobianInput k x u t) l)) = list_sum (map size l)).
  { apply concat_length_sum. intros k Hk. apply (built_lengths n m); auto. }
  split; [congruence|]. rewrite LS. intros r j Hr. split; intros Hj.
  - exists (fun v => nth r (concat (map (fun k => evaluate k (rset x j v) u t) l)) 0). split.
    + intros v. destruct (Hh (rset x j v) u t) as (c' & E' & J' & F' & T').
      exists c'. eexists. split; [exact E'|]. split; [apply stage_eval; auto|]. now rewrite T'.
    + apply (concat_derive (fun k v => evaluate k (rset x j v) u t)); auto.
      * intros k v Hk. apply built_lengths; auto.
      * intros k Hk. apply (built_lengths n m); auto.
      * intros k r' Hk Hr'. apply (Hrj k Hk x u t r' j Hr'). exact Hj.
  - exists (fun v => nth r (concat (map (fun k => evaluate k x (rset u j v) t) l)) 0). split.
    + intros v. destruct (Hh x (rset u j v) t) as (c' & E' & J' & F' & T').
      exists c'. eexists. split; [exact E'|]. split; [apply stage_eval; auto|]. now rewrite T'.
    + apply (concat_derive (fun k v => evaluate k x (rset u j v) t)); auto.
      * intros k v Hk. apply built_lengths; auto.
      * intros k Hk. apply (built_lengths n m); auto.
      * intros k r' Hk Hr'. apply (Hrj k Hk x u t r' j Hr'). exact Hj.
Qed.
End Container.

(** ** Refutations *)

(** A user-defined constraint with two rows and two columns that implements only the dense Jacobian:
    the inherited sparse Jacobian lists the values column by column and the pattern row by row. *)
Definition twoRows : general :=
  mkGeneral 2 (fun x u t => [x 0%nat + 2 * x 1%nat; 3 * x 0%nat + 4 * x 1%nat])
    (fun _ _ _ => [fun j => match j with 0%nat => 1 | _ => 2 end; fun j => match j with 0%nat => 3 | _ => 4 end])
    (fun _ _ _ => [rzero; rzero]) [0; 0] [1; 1].

Lemma twoRows_built : built 2 0 (CGeneral twoRows).
Proof. constructor; auto. Qed.

Theorem C31_general_refuted : exists cs pts x u t c D rows cols vals,
  allOf (built 2 0) cs /\ crun 2 0 (history cs pts x u t) newContainer = Ok c /\
  jacobianStateIntermediate 2 c = Ok D /\ stagePatternState 2 (c_inter c) = Ok (rows, cols) /\
  jacobianStateSparseIntermediate 2 c = Ok vals /\ allOf (right_jacobians 2 0) cs /\
  ~ sparse_form (length D) 2 (fun r j => nth r D rzero j) rows cols vals.
Proof.
  exists [AddIntermediate (CGeneral twoRows)], [], rzero, rzero, 0.
  do 5 eexists. split; [|split; [reflexivity|split; [reflexivity|split; [reflexivity|split; [reflexivity|split]]]]].
  - split; repeat constructor.
  - split; [|constructor]. constructor; [|constructor]. intros x u t r j Hr. split; intros Hj; [|lia].
    change (r < 2)%nat in Hr.
    destruct r as [|[|r]]; [| |lia]; destruct j as [|[|j]]; try lia; unfold rset; cbn; auto_derive; auto; ring.
  - intros (_ & _ & H & _). specialize (H 1%nat). cbn in H. destruct H as (_ & _ & H); [lia|]. lra.
Qed.
Print Assumptions C31_general_refuted.

(** A container to which a constraint has been added since it was last initialised refuses every query about
    the constraints of that kind; for terminal constraints this holds for the values, the input Jacobians and the
    patterns (for the state Jacobians see below). *)
Theorem C31_uninitialised n m before k after c : ~ In Initialize after ->
  crun n m (before ++ k :: after) newContainer = Ok c ->
  ((exists a, k = AddIntermediate a) ->
     evaluateIntermediate n m c = Throw /\ jacobianStateIntermediate n c = Throw /\
     jacobianInputIntermediate n c = Throw /\ jacobianStateSparseIntermediate n c = Throw /\
     jacobianInputSparseIntermediate n m c = Throw /\
     stagePatternState n (c_inter c) = Throw /\ stagePatternInput n m (c_inter c) = Throw) /\
  ((exists a, k = AddTerminal a) ->
     evaluateTerminal n m c = Throw /\ jacobianInputTerminal n c = Throw /\
     jacobianInputSparseTerminal n m c = Throw /\
     stagePatternState n (c_term c) = Throw /\ stagePatternInput n m (c_term c) = Throw).
Proof.
  intros Hn H. rewrite crun_app in H. destruct (crun n m before newContainer) as [c0| |]; cbn [obind] in H; try discriminate.
  cbn [crun] in H.
  assert (K : forall l a b, ~ In Initialize l -> crun n m l a = Ok b ->
    (s_init (c_inter a) = false -> s_init (c_inter b) = false) /\ (s_init (c_term a) = false -> s_init (c_term b) = false)).
  { clear. induction l as [|k l IH]; intros a b Hn H; cbn [crun] in H.
    - apply Ok_inj in H. subst. auto.
    - destruct k as [d|d| |x u t]; [| |exfalso; apply Hn; now left|]; cbn [cstep obind] in H;
        (destruct (IH _ _ (fun X => Hn (or_intror X)) H) as [I1 I2]; cbn in I1, I2; auto). }
  split; intros [a ->]; cbn [cstep obind] in H; destruct (K _ _ _ Hn H) as [I1 I2]; cbn in I1, I2.
  - specialize (I1 eq_refl). unfold evaluateIntermediate, jacobianStateIntermediate, jacobianInputIntermediate,
      jacobianStateSparseIntermediate, jacobianInputSparseIntermediate, stageEval, stageDenseState, stageDenseInput,
      stageSparseState, stageSparseInput, stagePatternState, stagePatternInput. rewrite I1. repeat split.
  - specialize (I2 eq_refl). unfold evaluateTerminal, jacobianInputTerminal, jacobianInputSparseTerminal, stageEval,
      stageDenseInput, stageSparseInput, stagePatternState, stagePatternInput. rewrite I2. repeat split.
Qed.
Print Assumptions C31_uninitialised.

(** The terminal state Jacobian looks at the flag of the intermediate constraints: after adding a
    terminal constraint to an initialised container, the query writes outside its buffer instead of
    throwing, while the terminal evaluation throws. *)
Theorem C31_terminal_flag_refuted :
  (exists cs c, allOf (built 1 1) cs /\ crun 1 1 cs newContainer = Ok c /\
     evaluateTerminal 1 1 c = Throw /\ jacobianStateTerminal 1 c = UB) /\
  (exists cs c e, allOf (built 1 1) cs /\ crun 1 1 cs newContainer = Ok c /\
     evaluateTerminal 1 1 c = Ok e /\ jacobianStateTerminal 1 c = Throw).
Proof.
  split.
  - exists [Initialize; AddTerminal (CTerminal rzero)]. eexists.
    split; [split; repeat constructor|]. repeat split; reflexivity.
  - exists [AddTerminal (CTerminal rzero); Initialize; AddIntermediate (CTerminal rzero)]. do 2 eexists.
    split; [split; repeat constructor|]. repeat split; reflexivity.
Qed.
Print Assumptions C31_terminal_flag_refuted.

(** Bounds of a user-defined constraint are not checked: with lower bound 1 and upper bound -1 the
    value 0 violates both, and the two violations cancel. *)
Definition crossed : general :=
  mkGeneral 1 (fun x u t => [0]) (fun _ _ _ => [rzero]) (fun _ _ _ => [rzero]) [1] [-1].

Theorem C34_crossed_refuted : exists cs pts x u t c e,
  allOf (built 1 1) cs /\ crun 1 1 (history cs pts x u t) newContainer = Ok c /\
  totalViolationIntermediate 1 1 c = Ok e /\ e = [0] /\
  evaluateIntermediate 1 1 c = Ok [0] /\ s_lb (c_inter c) = [1] /\ s_ub (c_inter c) = [-1].
Proof.
  exists [AddIntermediate (CGeneral crossed)], [], rzero, rzero, 0. do 2 eexists.
  split; [split; repeat constructor|]. split; [reflexivity|]. split; [reflexivity|].
  split; [|repeat split; reflexivity].
  cbn. f_equal. unfold Rmin, Rmax. destruct (Rle_dec (0 - 1) 0); destruct (Rle_dec (0 - -1) 0); lra.
Qed.
Print Assumptions C34_crossed_refuted.

(** ** Examples *)

(** A sparse box on the second of two states, a terminal constraint and a one-row user constraint;
    visited twice. *)
Definition exBox : box := mkBox [0; 1]%Z [runit 1] 1 [-1] [2].
Lemma exBox_built : built 2 1 (CState exBox).
Proof.
  apply (built_state 2 1 [-1] [2] [0; 1]%Z). unfold newSparseBox, sanityCheck. cbn.
  destruct (Rlt_dec 2 (-1)); [lra|reflexivity].
Qed.
Definition oneRow : general :=
  mkGeneral 1 (fun x u t => [x 0%nat * u 0%nat])
    (fun x u _ => [fun j => if (j =? 0)%nat then u 0%nat else 0])
    (fun x u _ => [fun j => x 0%nat]) [0] [1].
Definition exCalls : list ccall :=
  [AddIntermediate (CState exBox); Initialize; AddTerminal (CTerminal rzero);
   AddIntermediate (CGeneral oneRow)].
Example C31_example : allOf (built 2 1) exCalls /\ allOf (sparse_ok 2 1) exCalls /\
  allOf (right_jacobians 2 1) exCalls /\
  intermediateOf exCalls = [CState exBox; CGeneral oneRow] /\ terminalOf exCalls = [CTerminal rzero] /\
  exists c, crun 2 1 (history exCalls [(rzero, rzero, 0)] (fun i => INR i + 3) (fun _ => 5) 0) newContainer = Ok c /\
    evaluateIntermediate 2 1 c = Ok [4; 15].
Proof.
  assert (B1 := exBox_built).
  assert (B2 : built 2 1 (CGeneral oneRow)) by (constructor; auto).
  split; [split; repeat (constructor; auto)|].
  split; [split; repeat (constructor; auto)|].
  split; [|split; [reflexivity|split; [reflexivity|]]].
  - split; repeat apply List.Forall_cons; try apply List.Forall_nil.
    + apply C61_terms; auto; discriminate.
    + intros x u t r j Hr. change (r < 1)%nat in Hr. assert (r = 0%nat) by lia. subst r.
      split; intros Hj.
      * destruct j as [|[|j]]; [| |lia]; unfold rset; cbn; auto_derive; auto; ring.
      * destruct j as [|j]; [|lia]; unfold rset; cbn; auto_derive; auto; ring.
    + apply C61_terms; [constructor|discriminate|discriminate].
  - eexists. split; [reflexivity|]. cbn. unfold runit, rdot. cbn. do 3 f_equal; ring.
Qed.

Print Assumptions C31_rows.
Print Assumptions C31_sparse_partial.
Print Assumptions C34_violation.
Print Assumptions C34_ordered.
Print Assumptions C61_terms.
Print Assumptions C61_container.
Print Assumptions C34_obstacle.
Print Assumptions C34_half_axes_refuted.
Print Assumptions C34_inside_value_refuted.
