(** C46: clones of cost functions.  C59: reference updates.
    Calls ([call], [crun]) and observations ([observe]) are defined in CostClone.v. *)
From Coq Require Import Reals String List Bool Arith Lia Lra FunctionalExtensionality.
From Verif Require Import Base.Outcome Base.RVec Core.ActivationModel Core.ActivationProofs
  Optcon.CostModel Optcon.CostProofs Optcon.CostClone.
Import ListNotations.
Local Open Scope R_scope.

(** ** C46 *)

(** No term is a state barrier. *)
Definition no_barrier (tms : list term) : Prop :=
  forall tm, In tm tms -> forall ub lb al bs, t_kind tm <> StateBarrier ub lb al bs.

(** A clone of a cost function without barrier terms gives exactly the same twelve values and
    derivatives as the original, immediately after cloning and after any further
    setCurrentStateAndControl / shiftTime calls made on both, and cloning does not change what
    the original gives.
    Partial: barrier terms (C46_barrier_refuted) and the simple quadratic cost
    (C46_simple_refuted) are excluded. *)
Theorem C46_clone_partial n m c h ti tf :
  resolved h (cf_inter c) ti -> resolved h (cf_final c) tf ->
  no_barrier ti -> no_barrier tf ->
  exists c' h', cloneCost n c h = Ok (c', h') /\
    observe n m (c', h') = observe n m (c, h) /\
    observe n m (c, h') = observe n m (c, h) /\
    cf_shift c' = cf_shift c /\
    forall x u t, observe n m (setCurrent x u t c', h') = observe n m (setCurrent x u t c, h).
Proof.
  intros Hi Hf Bi Bf.
  destruct (cloneCost_spec n c h ti tf Hi Hf)
    as (c' & h' & E & Eh & Ex & Eu & Et & Es & _ & _ & Ri & Rf).
  rewrite (map_cloneTerm n ti Bi) in Ri, Eh. rewrite (map_cloneTerm n tf Bf) in Rf, Eh.
  exists c', h'. split; [exact E|].
  split; [|split; [|split]].
  - eapply observe_determined; eauto.
  - eapply observe_determined; eauto; rewrite Eh; apply resolved_app_heap; assumption.
  - exact Es.
  - intros x u t. eapply observe_determined with (ti := ti) (tf := tf); simpl; eauto.
    now rewrite Es.
Qed.

(** Independence, for all cost functions (barriers included): whatever calls are made on the
    clone, the original gives the same observations as before; and whatever calls are made on the
    original, the clone gives the same observations as before. *)
Theorem C46_independent n m c h ti tf c' h' cs :
  resolved h (cf_inter c) ti -> resolved h (cf_final c) tf ->
  cloneCost n c h = Ok (c', h') ->
  (forall c2 h2, crun cs (c', h') = Ok (c2, h2) -> observe n m (c, h2) = observe n m (c, h)) /\
  (forall c2 h2, crun cs (c, h') = Ok (c2, h2) -> observe n m (c', h2) = observe n m (c', h')).
Proof.
  intros Hi Hf E.
  destruct (cloneCost_spec n c h ti tf Hi Hf)
    as (c1 & h1 & E1 & Eh & Ex & Eu & Et & Es & Ei & Ef & Ri & Rf).
  assert (Heq : (c1, h1) = (c', h')) by congruence. injection Heq as -> ->. clear E1.
  assert (Di : forall q, (q < length h)%nat -> ~ In q (cf_inter c')).
  { intros q Hq Hin. rewrite Ei in Hin. apply in_seq in Hin. lia. }
  assert (Df : forall q, (q < length h)%nat -> ~ In q (cf_final c')).
  { intros q Hq Hin. rewrite Ef in Hin. apply in_seq in Hin. lia. }
  pose proof (resolved_lt _ _ _ Hi) as Li. pose proof (resolved_lt _ _ _ Hf) as Lf.
  split; intros c2 h2 Hrun; destruct (crun_frame _ _ _ _ _ Hrun) as [_ F].
  - eapply observe_determined with (ti := ti) (tf := tf); auto.
    + eapply resolved_ext with (h := h'); [|rewrite Eh; now apply resolved_app_heap].
      intros q Hq. apply F; [apply Di|apply Df]; now apply Li.
    + eapply resolved_ext with (h := h'); [|rewrite Eh; now apply resolved_app_heap].
      intros q Hq. apply F; [apply Di|apply Df]; now apply Lf.
  - eapply observe_determined; eauto.
    + eapply resolved_ext with (h := h'); [|exact Ri].
      intros q Hq. apply F; intros Hin.
      * apply (Di q); [now apply Li|exact Hq].
      * apply (Di q); [now apply Lf|exact Hq].
    + eapply resolved_ext with (h := h'); [|exact Rf].
      intros q Hq. apply F; intros Hin.
      * apply (Df q); [now apply Li|exact Hq].
      * apply (Df q); [now apply Lf|exact Hq].
Qed.

(** Lock step: the same calls made on the original and on the clone (each with the heap as left
    by cloning) lead to the same observations, provided no term object is shared between two
    places of the cost function (C46_alias_refuted). *)
Theorem C46_lockstep_partial n m c h ti tf c' h' cs c1 h1 :
  resolved h (cf_inter c) ti -> resolved h (cf_final c) tf ->
  no_barrier ti -> no_barrier tf -> NoDup (cf_inter c ++ cf_final c) ->
  cloneCost n c h = Ok (c', h') ->
  crun cs (c, h') = Ok (c1, h1) ->
  exists c2 h2, crun cs (c', h') = Ok (c2, h2) /\
                observe n m (c2, h2) = observe n m (c1, h1).
Proof.
  intros Hi Hf Bi Bf Hn E Hrun.
  destruct (cloneCost_spec n c h ti tf Hi Hf)
    as (c0 & h0 & E1 & Eh & Ex & Eu & Et & Es & Ei & Ef & Ri & Rf).
  assert (Heq : (c0, h0) = (c', h')) by congruence. injection Heq as -> ->. clear E1.
  rewrite (map_cloneTerm n ti Bi) in Ri, Eh. rewrite (map_cloneTerm n tf Bf) in Rf, Eh.
  assert (A : alike (c, h') (c', h')).
  { exists ti, tf. cbn [fst snd]. rewrite Eh at 1 2.
    split; [now apply resolved_app_heap|]. split; [now apply resolved_app_heap|].
    split; [exact Ri|]. split; [exact Rf|]. split; [exact Hn|]. split; [|auto].
    rewrite Ei, Ef, <- seq_app. apply seq_NoDup. }
  destruct (crun_alike cs _ _ _ A Hrun) as ([c2 h2] & E2 & A2).
  exists c2, h2. split; [exact E2|]. now apply alike_observe.
Qed.

(** A term added both as intermediate and as final term is shared in the original and not in
    the clone: updating the intermediate reference changes the terminal cost of the original
    only. *)
Definition one_quadratic : heap :=
  [newTerm (Quadratic (fun _ _ => 1) (fun _ _ => 0) rzero rzero)].
Theorem C46_alias_refuted :
  let c := addFinalTerm 0 (addIntermediateTerm 0 newCost) in
  exists c' h', cloneCost 1 c one_quadratic = Ok (c', h') /\
    let upd := [UpdateReferenceState (fun _ => 1)] in
    exists h1 h2, crun upd (c, h') = Ok (c, h1) /\ crun upd (c', h') = Ok (c', h2) /\
      evaluateTerminal 1 1 h1 c = Ok 1 /\ evaluateTerminal 1 1 h2 c' = Ok 0.
Proof.
  cbv zeta. do 2 eexists. split; [reflexivity|].
  do 2 eexists. split; [reflexivity|]. split; [reflexivity|].
  unfold evaluateTerminal; simpl. unfold rquad, rdot, rmv, rsubv, rzero; simpl.
  split; f_equal; lra.
Qed.

(** A barrier term: the clone has lost the name and the time activation; and the original, built
    by its public constructor, reads outside its (empty) table of barriers when evaluated, whereas
    the clone evaluates. *)
Theorem C46_barrier_refuted (a : activation) (ub lb al : rvec) x u t n m :
  (0 < n)%nat ->
  let tm := mkTerm "bounds" a (t_kind (newStateBarrier ub lb al)) in
  t_name (cloneTerm n tm) = "Unnamed"%string /\
  t_act (cloneTerm n tm) = defaultActivation /\
  eval n m tm x u t = UB /\
  exists v, eval n m (cloneTerm n tm) x u t = Ok v.
Proof.
  intros Hn tm. split; [reflexivity|]. split; [reflexivity|]. split.
  - unfold eval; simpl. destruct n; [lia|]. reflexivity.
  - unfold eval, cloneTerm; simpl.
    assert (H : forall k i c, (i + k <= n)%nat ->
      exists v, barrierLoop (initBarriers n ub lb al) x i k c = Ok v).
    { induction k as [|k IH]; intros i c Hk; simpl; eauto.
      destruct (vec_get_ok (initBarriers n ub lb al) i) as (b & Hb).
      - unfold initBarriers. rewrite map_length, seq_length. lia.
      - rewrite Hb. cbn [obind]. apply IH. lia. }
    destruct (H n 0%nat 0 ltac:(lia)) as (v & Ev). rewrite Ev. cbn [obind]. eauto.
Qed.

(** The value of an initialised barrier term (such as a clone) is the sum over the state components of
    exp(alpha (x - ub)) + exp(alpha (lb - x)).  For positive alpha it is at most two per component within the bounds
    and more than one outside of them. *)
Theorem C46_barrier_value (a : activation) (ub lb al : rvec) x u t n m :
  let tm := cloneTerm n (mkTerm "bounds" a (t_kind (newStateBarrier ub lb al))) in
  exists v, eval n m tm x u t = Ok v /\
    v = rsum n (fun i => exp (al i * (x i - ub i)) + exp (al i * (lb i - x i))) /\
    ((forall i, (i < n)%nat -> 0 < al i /\ lb i <= x i <= ub i) -> v <= 2 * INR n) /\
    (forall i, (i < n)%nat -> 0 < al i -> x i < lb i \/ ub i < x i -> 1 < v).
Proof.
  intros tm. set (f := fun i => exp (al i * (x i - ub i)) + exp (al i * (lb i - x i))).
  assert (H : forall k i c, (i + k <= n)%nat ->
      barrierLoop (initBarriers n ub lb al) x i k c = Ok (c + (rsum (i + k) f - rsum i f))).
  { induction k as [|k IH]; intros i c Hk; cbn [barrierLoop].
    - rewrite Nat.add_0_r. f_equal. ring.
    - assert (G : vec_get (initBarriers n ub lb al) i = Ok (barrier_new (ub i) (lb i) (al i))).
      { destruct (vec_get_ok (initBarriers n ub lb al) i) as (b & Hb).
        - unfold initBarriers. rewrite map_length, seq_length. lia.
        - rewrite Hb. f_equal. unfold vec_get in Hb.
          rewrite (nth_error_nth' (initBarriers n ub lb al) (barrier_new (ub 0%nat) (lb 0%nat) (al 0%nat))) in Hb
            by (unfold initBarriers; rewrite map_length, seq_length; lia).
          unfold initBarriers in Hb. rewrite (map_nth (fun i => barrier_new (ub i) (lb i) (al i)) (seq 0 n) 0%nat), seq_nth in Hb by lia.
          now apply Ok_inj in Hb. }
      rewrite G. cbn [obind]. rewrite IH by lia. f_equal. replace (S i + k)%nat with (i + S k)%nat by lia.
      change (rsum (S i) f) with (rsum i f + f i). unfold barrier_compute, barrier_new, b2R, f. cbn. ring. }
  exists (rsum n f). split; [|split; [reflexivity|]].
  - unfold eval, tm, cloneTerm; cbn [t_kind newStateBarrier newTerm t_act defaultActivation computeActivation evaluate].
    rewrite H by lia. cbn [obind Nat.add rsum]. f_equal. ring.
  - assert (P : forall i, 0 <= f i) by (intros i; unfold f; pose proof (exp_pos (al i * (x i - ub i))); pose proof (exp_pos (al i * (lb i - x i))); lra).
    assert (M : forall k, 0 <= rsum k f) by (induction k; cbn [rsum]; [lra|specialize (P k); lra]).
    split.
    + intros Hb. clear H. assert (Q : forall k, (k <= n)%nat -> rsum k f <= 2 * INR k).
      { induction k as [|k IH]; intros Hk; [cbn; lra|]. cbn [rsum]. rewrite S_INR. specialize (IH ltac:(lia)).
        destruct (Hb k ltac:(lia)) as (A & B & C). destruct (barrier_new_bounds (ub k) (lb k) (al k) (x k) A) as [D _].
        specialize (D (conj B C)). unfold barrier_compute, barrier_new, b2R in D. cbn [ub_active lb_active b_ub b_lb b_alpha] in D. assert (f k <= 2) by (unfold f; lra). lra. }
      apply Q. lia.
    + intros i Hi A O. destruct (barrier_new_bounds (ub i) (lb i) (al i) (x i) A) as [_ D].
      specialize (D ltac:(tauto)). unfold barrier_compute, barrier_new, b2R in D. cbn [ub_active lb_active b_ub b_lb b_alpha] in D.
      assert (F : 1 < f i) by (unfold f; lra).
      assert (G : forall k, (i < k)%nat -> f i <= rsum k f).
      { induction k as [|k IH]; intros Hk; [lia|]. cbn [rsum]. destruct (Nat.eq_dec i k) as [->|].
        - specialize (M k). lra.
        - specialize (IH ltac:(lia)). specialize (P k). lra. }
      specialize (G n Hi). lra.
Qed.
Print Assumptions C46_barrier_value.

(** The simple quadratic cost function: after the next setCurrentStateAndControl the clone gives
    the same values and derivatives, and from then on for any calls; before it, the intermediate
    values agree. *)
Definition simple_observe (n m : nat) (s : simple) :=
  (simpleIntermediate n m s, simpleStateDerivative n s, simpleStateSecond s,
   simpleControlDerivative m s, simpleControlSecond s,
   simpleTerminal n s, simpleStateDerivativeTerminal n s, simpleStateSecondTerminal s).
Inductive scall :=
| SSet (x u : rvec) (t : R) | SRef (x : rvec) | SFinal (x : rvec).
Definition sstep (s : simple) (c : scall) : simple :=
  match c with
  | SSet x u t => simpleSet x u t s
  | SRef x => simpleUpdateReferenceState x s
  | SFinal x => simpleUpdateFinalState x s
  end.
Theorem C46_simple_partial n m s cs x u t cs' :
  let before := fold_left sstep cs s in
  let before' := fold_left sstep cs (simpleClone s) in
  simpleIntermediate n m before' = simpleIntermediate n m before /\
  simple_observe n m (fold_left sstep cs' (simpleSet x u t before')) =
  simple_observe n m (fold_left sstep cs' (simpleSet x u t before)).
Proof.
  cbv zeta.
  assert (H : forall a b, s_xdev b = s_xdev a -> s_xnom b = s_xnom a -> s_Q b = s_Q a ->
    s_udev b = s_udev a -> s_unom b = s_unom a -> s_R b = s_R a -> s_xfin b = s_xfin a ->
    s_Qfin b = s_Qfin a ->
    simpleIntermediate n m (fold_left sstep cs b) =
      simpleIntermediate n m (fold_left sstep cs a) /\
    simpleSet x u t (fold_left sstep cs b) = simpleSet x u t (fold_left sstep cs a)).
  { induction cs as [|c cs IH]; intros [] [] H1 H2 H3 H4 H5 H6 H7 H8; simpl in *; subst.
    - split; reflexivity.
    - apply IH; destruct c; reflexivity. }
  destruct (H s (simpleClone s)) as [E1 E2]; try reflexivity.
  rewrite E1, E2. split; reflexivity.
Qed.

(** Before it, the terminal cost of the clone is computed at the zero state. *)
Theorem C46_simple_refuted :
  let s := simpleSet (fun _ => 3) rzero 0
             (newSimple mzero mzero rzero rzero rzero (fun _ _ => 2)) in
  simpleTerminal 1 s = 9 /\ simpleTerminal 1 (simpleClone s) = 0.
Proof.
  cbv zeta. unfold simpleTerminal; simpl. unfold rquad, rdot, rmv, rsubv, rzero; simpl. split; field.
Qed.

(** A concrete case: two terms, one of them with a time activation; a clone is taken, both are
    moved to another point, and the reference of the clone is changed. *)
Definition late : activation := mkAct (fun _ => true) (fun t => t).
Definition two_terms : heap :=
  [mkTerm "q" late (Quadratic (fun _ _ => 1) (fun _ _ => 0) rzero rzero);
   mkTerm "l" defaultActivation (Linear (fun _ => 5) rzero 7)].
Example C46_example :
  let c := addFinalTerm 1 (addIntermediateTerm 0 newCost) in
  resolved two_terms (cf_inter c) [nth 0 two_terms (newTerm (Mixed mzero rzero rzero))] /\
  resolved two_terms (cf_final c) [nth 1 two_terms (newTerm (Mixed mzero rzero rzero))] /\
  no_barrier two_terms /\ NoDup (cf_inter c ++ cf_final c) /\
  exists c' h', cloneCost 1 c two_terms = Ok (c', h') /\
    evaluateIntermediate 1 1 h' (setCurrent (fun _ => 3) rzero 2 c') = Ok 36 /\
    exists h2, crun [UpdateReferenceState (fun _ => 1)] (c', h') = Ok (c', h2) /\
      evaluateIntermediate 1 1 h2 (setCurrent (fun _ => 3) rzero 2 c') = Ok 16 /\
      evaluateIntermediate 1 1 h2 (setCurrent (fun _ => 3) rzero 2 c) = Ok 36.
Proof.
  cbv zeta. split; [repeat constructor|]. split; [repeat constructor|]. split.
  { intros tm [<-|[<-|[]]] ub lb al bs; discriminate. }
  split.
  { simpl. constructor; [|constructor; [|constructor]]; simpl; intuition discriminate. }
  do 2 eexists. split; [reflexivity|]. split.
  - unfold evaluateIntermediate; simpl. unfold weight, eval; simpl.
    unfold rquad, rdot, rmv, rsubv, rzero; simpl. f_equal. ring.
  - eexists. split; [reflexivity|].
    unfold evaluateIntermediate; simpl. unfold weight, eval; simpl.
    unfold rquad, rdot, rmv, rsubv, rzero; simpl. split; f_equal; ring.
Qed.

(** ** C59: reference updates *)

(** What a term's cost would be with the state reference replaced by xr: specified by the cost
    formulas alone. *)
Definition quadratic_cost (n m : nat) (Q W : rmat) (xr ur x u : rvec) : R :=
  rsum n (fun i => rsum n (fun j => (x i - xr i) * Q i j * (x j - xr j))) +
  rsum m (fun i => rsum m (fun j => (u i - ur i) * W i j * (u j - ur j))).
Definition mixed_cost (n m : nat) (P : rmat) (xr ur x u : rvec) : R :=
  rsum m (fun i => rsum n (fun j => (u i - ur i) * P i j * (x j - xr j))).

Lemma quad_sum n (A : rmat) (d : rvec) :
  rquad n A d d = rsum n (fun i => rsum n (fun j => d i * A i j * d j)).
Proof.
  unfold rquad, rdot, rmv. apply rsum_ext; intros i _.
  rewrite <- rsum_scal. apply rsum_ext; intros j _. ring.
Qed.

(** Quadratic and mixed terms: after the update the cost is that for the new state reference,
    everything else unchanged; a quadratic term likewise for the control reference. *)
Theorem C59_terms n m Q W P xr ur xr' ur' x u t :
  evaluate n m (updateReferenceState xr' (Quadratic Q W xr ur)) x u t =
    Ok (quadratic_cost n m Q W xr' ur x u) /\
  evaluate n m (updateReferenceControl ur' (Quadratic Q W xr ur)) x u t =
    Ok (quadratic_cost n m Q W xr ur' x u) /\
  evaluate n m (updateReferenceState xr' (Mixed P xr ur)) x u t =
    Ok (mixed_cost n m P xr' ur x u).
Proof.
  unfold evaluate, updateReferenceState, updateReferenceControl; cbv zeta.
  split; [|split]; f_equal.
  - now rewrite !quad_sum.
  - now rewrite !quad_sum.
  - unfold rdot, rmv, mixed_cost. apply rsum_ext; intros i _.
    rewrite <- rsum_scal. apply rsum_ext; intros j _. unfold rsubv. ring.
Qed.

(** The cost function: updating the reference state replaces the reference of every intermediate
    quadratic and mixed term and of no other term; names, activations, final terms and the
    current point keep; likewise the other two updates.  Terms shared between the intermediate
    and the final list are excluded. *)
Definition new_state_reference (xr : rvec) (tm tm' : term) : Prop :=
  t_name tm' = t_name tm /\ t_act tm' = t_act tm /\
  match t_kind tm with
  | Quadratic Q W _ ur => t_kind tm' = Quadratic Q W xr ur
  | Mixed P _ ur => t_kind tm' = Mixed P xr ur
  | k => t_kind tm' = k
  end.
Definition new_control_reference (ur : rvec) (tm tm' : term) : Prop :=
  t_name tm' = t_name tm /\ t_act tm' = t_act tm /\
  match t_kind tm with
  | Quadratic Q W xr _ => t_kind tm' = Quadratic Q W xr ur
  | k => t_kind tm' = k
  end.

Theorem C59_costfunction c h ti tf r :
  resolved h (cf_inter c) ti -> resolved h (cf_final c) tf ->
  NoDup (cf_inter c ++ cf_final c) ->
  (exists ti', resolved (cfUpdateReferenceState r c h) (cf_inter c) ti' /\
     Forall2 (new_state_reference r) ti ti' /\
     resolved (cfUpdateReferenceState r c h) (cf_final c) tf) /\
  (exists tf', resolved (cfUpdateFinalState r c h) (cf_final c) tf' /\
     Forall2 (new_state_reference r) tf tf' /\
     resolved (cfUpdateFinalState r c h) (cf_inter c) ti) /\
  (exists ti', resolved (cfUpdateReferenceControl r c h) (cf_inter c) ti' /\
     Forall2 (new_control_reference r) ti ti' /\
     resolved (cfUpdateReferenceControl r c h) (cf_final c) tf).
Proof.
  intros Hi Hf Hn.
  pose proof (nodup_app_l _ _ Hn). pose proof (nodup_app_r _ _ Hn).
  pose proof (nodup_app_disj _ _ Hn). pose proof (not_in_sym _ _ Hn).
  assert (HS : forall l, Forall2 (new_state_reference r) l (map (onKind (updateReferenceState r)) l)).
  { induction l as [|[nm a k] l IH]; simpl; constructor; auto.
    unfold new_state_reference; simpl. destruct k; auto. }
  assert (HC : forall l,
    Forall2 (new_control_reference r) l (map (onKind (updateReferenceControl r)) l)).
  { induction l as [|[nm a k] l IH]; simpl; constructor; auto.
    unfold new_control_reference; simpl. destruct k; auto. }
  unfold cfUpdateReferenceState, cfUpdateFinalState, cfUpdateReferenceControl.
  split; [|split]; eexists; (split; [apply fold_upd_same; eassumption|]); split; auto;
    apply fold_upd_keeps; auto.
Qed.

(** The last update wins, and updating twice with the same value is updating once. *)
Theorem C59_last_wins x1 x2 k :
  updateReferenceState x2 (updateReferenceState x1 k) = updateReferenceState x2 k /\
  updateReferenceControl x2 (updateReferenceControl x1 k) = updateReferenceControl x2 k /\
  updateReferenceControl x2 (updateReferenceState x1 k) =
    updateReferenceState x1 (updateReferenceControl x2 k).
Proof. destruct k; repeat split; reflexivity. Qed.

(** Finding: the other terms that have a state (control) reference silently keep the old one. *)
Theorem C59_ignored_refuted xr' ur' Q W P a b (xr ur : rvec) al xt ut tr :
  updateReferenceState xr' (QuadMult Q W xr ur) = QuadMult Q W xr ur /\
  updateReferenceState xr' (SmoothAbs a xr b ur al) = SmoothAbs a xr b ur al /\
  updateReferenceState xr' (Tracking Q W xt ut tr) = Tracking Q W xt ut tr /\
  updateReferenceControl ur' (QuadMult Q W xr ur) = QuadMult Q W xr ur /\
  updateReferenceControl ur' (Mixed P xr ur) = Mixed P xr ur /\
  updateReferenceControl ur' (SmoothAbs a xr b ur al) = SmoothAbs a xr b ur al /\
  exists n m x u t, evaluate n m (updateReferenceState (fun _ => 1)
                       (SmoothAbs (fun _ => 1) rzero rzero rzero 0)) x u t <>
                    evaluate n m (SmoothAbs (fun _ => 1) (fun _ => 1) rzero rzero 0) x u t.
Proof.
  repeat (split; [reflexivity|]).
  exists 1%nat, 0%nat, (fun _ => 1), rzero, 0. simpl. unfold rdot, rzero; simpl.
  intros H. apply Ok_inj in H.
  replace ((1 - 0) * (1 - 0) + 0) with 1 in H by ring.
  replace ((1 - 1) * (1 - 1) + 0) with 0 in H by ring.
  rewrite sqrt_1, sqrt_0 in H. lra.
Qed.

(** Finding: the simple quadratic cost keeps evaluating against the old reference until the next
    setCurrentStateAndControl; the final state takes effect at once. *)
Theorem C59_simple n m s xr xf x u t :
  let upd := simpleUpdateReferenceState xr s in
  simpleIntermediate n m upd = simpleIntermediate n m s /\
  simpleIntermediate n m (simpleSet x u t upd) =
    / 2 * quadratic_cost n m (s_Q s) (s_R s) xr (s_unom s) x u /\
  simpleTerminal n (simpleSet x u t (simpleUpdateFinalState xf s)) =
    / 2 * quadratic_cost n 0 (s_Qfin s) mzero xf rzero x u.
Proof.
  cbv zeta. split; [reflexivity|].
  unfold simpleIntermediate, simpleTerminal, quadratic_cost; simpl.
  rewrite !quad_sum. unfold rsubv. split; ring.
Qed.

Example C59_example :
  let c := addFinalTerm 1 (addIntermediateTerm 0 newCost) in
  exists h2, crun [UpdateReferenceState (fun _ => 1)] (c, two_terms) = Ok (c, h2) /\
    evaluateIntermediate 1 1 two_terms (setCurrent (fun _ => 3) rzero 1 c) = Ok 9 /\
    evaluateIntermediate 1 1 h2 (setCurrent (fun _ => 3) rzero 1 c) = Ok 4.
Proof.
  cbv zeta. eexists. split; [reflexivity|].
  unfold evaluateIntermediate; simpl. unfold weight, eval; simpl.
  unfold rquad, rdot, rmv, rsubv, rzero; simpl. split; f_equal; ring.
Qed.

Print Assumptions C46_clone_partial.
Print Assumptions C46_independent.
Print Assumptions C46_lockstep_partial.
Print Assumptions C46_alias_refuted.
Print Assumptions C46_barrier_refuted.
Print Assumptions C46_simple_partial.
Print Assumptions C46_simple_refuted.
Print Assumptions C59_terms.
Print Assumptions C59_costfunction.
Print Assumptions C59_last_wins.
Print Assumptions C59_ignored_refuted.
Print Assumptions C59_simple.
