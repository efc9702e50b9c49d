(** C44: the shot cache never serves stale data.  C52: changing the initial state. *)
From Coq Require Import List Bool Arith Reals Lia Lra.
From Verif Require Import Base.Outcome Optcon.DmsModel Optcon.DmsSpec Optcon.DmsProofs
  Optcon.DmsProps Optcon.ShotModel.
Import ListNotations.

Section Cache.
Variables V Traj Cost Lin Sens CSens : Type.
Variable integ : V -> V -> Traj.
Variable costOf : Traj -> Cost.
Variable linOf : Traj -> Lin.
Variable sensOf : Lin -> Traj -> Sens.
Variable csensOf : Traj -> Sens -> CSens.

Notation shot := (shot Traj Cost Lin Sens CSens).
Notation cb := (callback V Traj Cost Lin Sens CSens integ costOf linOf sensOf csensOf).
Notation Answer := (answer Traj Cost Sens CSens).

(** ** Specification *)

(** What an evaluation at the decision vector v must return: everything computed from v. *)
Definition expected (r : request) (v : V) : Answer :=
  let tr := integ v v in
  match r with
  | EvalConstraints => AState tr
  | EvalCost => ACost (costOf tr)
  | EvalJacobian => ASens (sensOf (linOf tr) tr)
  | EvalGradient => ACSens (csensOf tr (sensOf (linOf tr) tr))
  end.

(** A history of callbacks (decision vector, new?, evaluation).  The NLP solver says "not new"
    only when the vector is the one of the previous callback, and never in the first one. *)
Definition event := (V * bool * request)%type.
Fixpoint honest (prev : option V) (h : list event) : Prop :=
  match h with
  | [] => True
  | (v, isNew, _) :: r => (isNew = false -> prev = Some v) /\ honest (Some v) r
  end.

Fixpoint run (h : list event) (ps : prob V * shot) : outcome (list Answer * (prob V * shot)) :=
  match h with
  | [] => Ok ([], ps)
  | (v, isNew, r) :: t =>
      do q <- cb v isNew r ps ;;
      do q' <- run t (snd q) ;; Ok (fst q :: fst q', snd q')
  end.

Definition same_pass (a b : pass) : bool :=
  match a, b with
  | PState, PState | PCost, PCost | PSens, PSens | PCostSens, PCostSens => true
  | _, _ => false
  end.
Definition times (k : pass) (l : list pass) : nat := length (filter (same_pass k) l).

(** ** Invariant: [v] is the current decision vector, [c] the update count, [w0] the work done
    before the last update. *)
Definition inv (v : V) (c : nat) (w0 : list pass) (ps : prob V * shot) : Prop :=
  let p := fst ps in let s := snd ps in let tr := integ v v in
  p_w p = v /\ p_spline p = v /\ p_count p = c /\ 1 <= c /\
  s_nState _ _ _ _ _ s <= c /\ s_nCost _ _ _ _ _ s <= c /\ s_nSens _ _ _ _ _ s <= c /\
  s_nCSens _ _ _ _ _ s <= c /\
  (s_nState _ _ _ _ _ s = c ->
     s_sub _ _ _ _ _ s = Some tr /\ s_cached _ _ _ _ _ s = Some tr) /\
  (s_nCost _ _ _ _ _ s = c ->
     s_cost _ _ _ _ _ s = Some (costOf tr) /\ s_nState _ _ _ _ _ s = c) /\
  (s_nSens _ _ _ _ _ s = c ->
     s_sens _ _ _ _ _ s = Some (sensOf (linOf tr) tr) /\
     s_dx _ _ _ _ _ s = [sensOf (linOf tr) tr] /\ s_nState _ _ _ _ _ s = c) /\
  (s_nSens _ _ _ _ _ s <> c -> s_lin _ _ _ _ _ s = [] /\ s_dx _ _ _ _ _ s = []) /\
  (s_nCSens _ _ _ _ _ s = c ->
     s_csens _ _ _ _ _ s = Some (csensOf tr (sensOf (linOf tr) tr)) /\
     s_nSens _ _ _ _ _ s = c) /\
  exists recent, s_work s = recent ++ w0 /\
    times PState recent = (if s_nState _ _ _ _ _ s =? c then 1 else 0) /\
    times PCost recent = (if s_nCost _ _ _ _ _ s =? c then 1 else 0) /\
    times PSens recent = (if s_nSens _ _ _ _ _ s =? c then 1 else 0) /\
    times PCostSens recent = (if s_nCSens _ _ _ _ _ s =? c then 1 else 0).

Lemma inv_extract v c w0 ps v' : inv v c w0 ps ->
  inv v' (S c) (s_work (snd ps)) (extract V Traj Cost Lin Sens CSens v' true ps).
Proof.
  destruct ps as [p s]. unfold inv, extract. cbn [fst snd].
  intros (Hw & Hsp & Hc & H1 & L1 & L2 & L3 & L4 & _).
  unfold shotReset; cbn. rewrite Hc.
  repeat (match goal with |- _ /\ _ => split end); auto; try lia.
  exists []. split; [reflexivity|].
  repeat split; cbn; symmetry; (replace (_ =? _) with false; [reflexivity|]);
    symmetry; apply Nat.eqb_neq; lia.
Qed.

Ltac eqb_true := match goal with |- context [?a =? ?a] => rewrite (Nat.eqb_refl a) end.

Lemma inv_state v c w0 p s : inv v c w0 (p, s) ->
  let s' := integrateShot V Traj Cost Lin Sens CSens integ p s in
  inv v c w0 (p, s') /\ s_nState _ _ _ _ _ s' = c /\
  s_nCost _ _ _ _ _ s' = s_nCost _ _ _ _ _ s /\
  s_nSens _ _ _ _ _ s' = s_nSens _ _ _ _ _ s /\
  s_nCSens _ _ _ _ _ s' = s_nCSens _ _ _ _ _ s.
Proof.
  intros H s'. unfold s', integrateShot. pose proof H as H0. unfold inv in H. cbn [fst snd] in H.
  destruct H as (Hw & Hsp & Hc & H1 & L1 & L2 & L3 & L4 & I1 & I2 & I3 & I3' & I4 & rec & Hr &
                 T1 & T2 & T3 & T4).
  rewrite Hc. destruct (Nat.eqb_spec c (s_nState _ _ _ _ _ s)) as [E|E].
  - auto.
  - assert (Hsens : s_nSens _ _ _ _ _ s <> c) by (intros E'; apply I3 in E'; lia).
    assert (Hcost : s_nCost _ _ _ _ _ s <> c) by (intros E'; apply I2 in E'; lia).
    assert (Hcs : s_nCSens _ _ _ _ _ s <> c) by (intros E'; apply I4 in E'; lia).
    destruct (I3' Hsens) as [El Ed].
    cbn. split; [|auto]. unfold inv. cbn. rewrite Hw, Hsp.
    repeat (match goal with |- _ /\ _ => split end); auto; try lia.
    exists (PState :: rec). split; [now rewrite Hr|]. rewrite Nat.eqb_refl.
    unfold times in *. cbn. rewrite T1, T2, T3, T4.
    replace (s_nState _ _ _ _ _ s =? c) with false by (symmetry; apply Nat.eqb_neq; lia). auto.
Qed.

Lemma inv_cost v c w0 p s : inv v c w0 (p, s) ->
  exists s', integrateCost V Traj Cost Lin Sens CSens integ costOf p s = Ok s' /\
    inv v c w0 (p, s') /\ s_nCost _ _ _ _ _ s' = c.
Proof.
  intros H. unfold integrateCost. assert (Hc : p_count p = c) by apply H. rewrite Hc.
  destruct (Nat.eqb_spec c (s_nCost _ _ _ _ _ s)) as [E|E]; [exists s; auto|].
  (* the count is written before the integration; integrateShot does not look at it *)
  assert (C : forall k, integrateShot V Traj Cost Lin Sens CSens integ p
     (mkShot _ _ _ _ _ (s_nState _ _ _ _ _ s) k (s_nSens _ _ _ _ _ s) (s_nCSens _ _ _ _ _ s)
       (s_sub _ _ _ _ _ s) (s_cost _ _ _ _ _ s) (s_sens _ _ _ _ _ s) (s_csens _ _ _ _ _ s)
       (s_cached _ _ _ _ _ s) (s_lin _ _ _ _ _ s) (s_dx _ _ _ _ _ s) (s_work s)) =
     let s' := integrateShot V Traj Cost Lin Sens CSens integ p s in
     mkShot _ _ _ _ _ (s_nState _ _ _ _ _ s') k (s_nSens _ _ _ _ _ s') (s_nCSens _ _ _ _ _ s')
       (s_sub _ _ _ _ _ s') (s_cost _ _ _ _ _ s') (s_sens _ _ _ _ _ s') (s_csens _ _ _ _ _ s')
       (s_cached _ _ _ _ _ s') (s_lin _ _ _ _ _ s') (s_dx _ _ _ _ _ s') (s_work s')).
  { intros k. unfold integrateShot. cbn. destruct (p_count p =? s_nState _ _ _ _ _ s); reflexivity. }
  rewrite C. destruct (inv_state v c w0 p s H) as (H' & En & E2 & E3 & E4).
  set (s1 := integrateShot _ _ _ _ _ _ _ _ _) in *. clearbody s1. cbn zeta. cbn.
  unfold inv in H'. cbn [fst snd] in H'.
  destruct H' as (Hw & Hsp & _ & H1 & L1 & L2 & L3 & L4 & I1 & I2 & I3 & I3' & I4 & rec & Hr &
                 T1 & T2 & T3 & T4).
  destruct (I1 En) as [Esub Ec]. rewrite Ec. eexists. split; [reflexivity|]. cbn.
  split; [|reflexivity]. unfold inv. cbn.
  repeat (match goal with |- _ /\ _ => split end); auto; try lia.
  exists (PCost :: rec). split; [now rewrite Hr|]. rewrite Nat.eqb_refl.
  unfold times in *. cbn. rewrite T1, T2, T3, T4.
  replace (s_nCost _ _ _ _ _ s1 =? c) with false by (symmetry; apply Nat.eqb_neq; lia). auto.
Qed.

Lemma inv_sens v c w0 p s : inv v c w0 (p, s) ->
  exists s', integrateSensitivities V Traj Cost Lin Sens CSens integ linOf sensOf p s = Ok s' /\
    inv v c w0 (p, s') /\ s_nSens _ _ _ _ _ s' = c /\
    s_nCSens _ _ _ _ _ s' = s_nCSens _ _ _ _ _ s.
Proof.
  intros H. unfold integrateSensitivities. assert (Hc : p_count p = c) by apply H. rewrite Hc.
  destruct (Nat.eqb_spec c (s_nSens _ _ _ _ _ s)) as [E|E]; [exists s; auto|].
  assert (C : forall k, integrateShot V Traj Cost Lin Sens CSens integ p
     (mkShot _ _ _ _ _ (s_nState _ _ _ _ _ s) (s_nCost _ _ _ _ _ s) k (s_nCSens _ _ _ _ _ s)
       (s_sub _ _ _ _ _ s) (s_cost _ _ _ _ _ s) (s_sens _ _ _ _ _ s) (s_csens _ _ _ _ _ s)
       (s_cached _ _ _ _ _ s) (s_lin _ _ _ _ _ s) (s_dx _ _ _ _ _ s) (s_work s)) =
     let s' := integrateShot V Traj Cost Lin Sens CSens integ p s in
     mkShot _ _ _ _ _ (s_nState _ _ _ _ _ s') (s_nCost _ _ _ _ _ s') k (s_nCSens _ _ _ _ _ s')
       (s_sub _ _ _ _ _ s') (s_cost _ _ _ _ _ s') (s_sens _ _ _ _ _ s') (s_csens _ _ _ _ _ s')
       (s_cached _ _ _ _ _ s') (s_lin _ _ _ _ _ s') (s_dx _ _ _ _ _ s') (s_work s')).
  { intros k. unfold integrateShot. cbn. destruct (p_count p =? s_nState _ _ _ _ _ s); reflexivity. }
  rewrite C. destruct (inv_state v c w0 p s H) as (H' & En & E2 & E3 & E4).
  set (s1 := integrateShot _ _ _ _ _ _ _ _ _) in *. clearbody s1. cbn zeta.
  unfold linearize. cbn.
  unfold inv in H'. cbn [fst snd] in H'.
  destruct H' as (Hw & Hsp & _ & H1 & L1 & L2 & L3 & L4 & I1 & I2 & I3 & I3' & I4 & rec & Hr &
                 T1 & T2 & T3 & T4).
  destruct (I1 En) as [Es Ec]. rewrite Ec.
  assert (Hns : s_nSens _ _ _ _ _ s1 <> c) by lia.
  assert (Hcs : s_nCSens _ _ _ _ _ s1 <> c) by (intros Hc'; apply I4 in Hc'; lia).
  destruct (I3' Hns) as [El Ed]. rewrite El, Ed. cbn.
  eexists. split; [reflexivity|]. cbn.
  split; [|auto]. unfold inv. cbn.
  repeat (match goal with |- _ /\ _ => split end); auto; try lia.
  exists (PSens :: rec). split; [now rewrite Hr|]. rewrite Nat.eqb_refl.
  unfold times in *. cbn. rewrite T1, T2, T3, T4.
  replace (s_nSens _ _ _ _ _ s1 =? c) with false by (symmetry; apply Nat.eqb_neq; lia). auto.
Qed.

Lemma inv_csens v c w0 p s : inv v c w0 (p, s) ->
  exists s', integrateCostSensitivities V Traj Cost Lin Sens CSens integ linOf sensOf csensOf p s
             = Ok s' /\
    inv v c w0 (p, s') /\ s_nCSens _ _ _ _ _ s' = c.
Proof.
  intros H. unfold integrateCostSensitivities. assert (Hc : p_count p = c) by apply H. rewrite Hc.
  destruct (Nat.eqb_spec c (s_nCSens _ _ _ _ _ s)) as [E|E]; [exists s; auto|].
  assert (C : forall k, integrateSensitivities V Traj Cost Lin Sens CSens integ linOf sensOf p
     (mkShot _ _ _ _ _ (s_nState _ _ _ _ _ s) (s_nCost _ _ _ _ _ s) (s_nSens _ _ _ _ _ s) k
       (s_sub _ _ _ _ _ s) (s_cost _ _ _ _ _ s) (s_sens _ _ _ _ _ s) (s_csens _ _ _ _ _ s)
       (s_cached _ _ _ _ _ s) (s_lin _ _ _ _ _ s) (s_dx _ _ _ _ _ s) (s_work s)) =
     do s' <- integrateSensitivities V Traj Cost Lin Sens CSens integ linOf sensOf p s ;;
     Ok (mkShot _ _ _ _ _ (s_nState _ _ _ _ _ s') (s_nCost _ _ _ _ _ s') (s_nSens _ _ _ _ _ s') k
       (s_sub _ _ _ _ _ s') (s_cost _ _ _ _ _ s') (s_sens _ _ _ _ _ s') (s_csens _ _ _ _ _ s')
       (s_cached _ _ _ _ _ s') (s_lin _ _ _ _ _ s') (s_dx _ _ _ _ _ s') (s_work s'))).
  { intros k. unfold integrateSensitivities, integrateShot, linearize. cbn.
    destruct (p_count p =? s_nSens _ _ _ _ _ s); [reflexivity|].
    destruct (p_count p =? s_nState _ _ _ _ _ s); cbn; [|reflexivity].
    destruct (s_cached _ _ _ _ _ s); [|destruct (s_lin _ _ _ _ _ s); reflexivity].
    destruct (s_lin _ _ _ _ _ s); reflexivity. }
  rewrite C. destruct (inv_sens v c w0 p s H) as (s1 & -> & H' & En & E2). cbn [obind].
  cbn.
  unfold inv in H'. cbn [fst snd] in H'.
  destruct H' as (Hw & Hsp & _ & H1 & L1 & L2 & L3 & L4 & I1 & I2 & I3 & I3' & I4 & rec & Hr &
                 T1 & T2 & T3 & T4).
  destruct (I3 En) as (Es & Ed & Est). destruct (I1 Est) as [Esub Ec]. rewrite Ec, Ed. cbn.
  eexists. split; [reflexivity|]. cbn. split; [|reflexivity].
  unfold inv. cbn.
  repeat (match goal with |- _ /\ _ => split end); auto; try lia.
  exists (PCostSens :: rec). split; [now rewrite Hr|]. rewrite Nat.eqb_refl.
  unfold times in *. cbn. rewrite T1, T2, T3, T4.
  replace (s_nCSens _ _ _ _ _ s1 =? c) with false by (symmetry; apply Nat.eqb_neq; lia). auto.
Qed.

Lemma inv_evaluate v c w0 r ps : inv v c w0 ps ->
  exists ps', evaluate V Traj Cost Lin Sens CSens integ costOf linOf sensOf csensOf r ps =
              Ok (expected r v, ps') /\ inv v c w0 ps'.
Proof.
  destruct ps as [p s]. intros H. unfold evaluate. destruct r.
  - destruct (inv_state v c w0 p s H) as (H' & En & _).
    assert (Es : s_sub _ _ _ _ _ (integrateShot V Traj Cost Lin Sens CSens integ p s) =
                 Some (integ v v)).
    { destruct H' as (_ & _ & _ & _ & _ & _ & _ & _ & I1 & _). now apply I1. }
    rewrite Es. cbn [served obind]. eexists. split; [reflexivity|exact H'].
  - destruct (inv_cost v c w0 p s H) as (s' & -> & H' & En). cbn [obind].
    assert (Es : s_cost _ _ _ _ _ s' = Some (costOf (integ v v))).
    { destruct H' as (_ & _ & _ & _ & _ & _ & _ & _ & _ & I2 & _). now apply I2. }
    rewrite Es. cbn [served obind]. eexists. split; [reflexivity|exact H'].
  - destruct (inv_sens v c w0 p s H) as (s' & -> & H' & En & _). cbn [obind].
    assert (Es : s_sens _ _ _ _ _ s' = Some (sensOf (linOf (integ v v)) (integ v v))).
    { destruct H' as (_ & _ & _ & _ & _ & _ & _ & _ & _ & _ & I3 & _). now apply I3. }
    rewrite Es. cbn [served obind]. eexists. split; [reflexivity|exact H'].
  - destruct (inv_csens v c w0 p s H) as (s' & -> & H' & En). cbn [obind].
    assert (Es : s_csens _ _ _ _ _ s' =
      Some (csensOf (integ v v) (sensOf (linOf (integ v v)) (integ v v)))).
    { destruct H' as (_ & _ & _ & _ & _ & _ & _ & _ & _ & _ & _ & _ & I4 & _). now apply I4. }
    rewrite Es. cbn [served obind]. eexists. split; [reflexivity|exact H'].
Qed.

Lemma inv_run h : forall v c w0 ps, inv v c w0 ps -> honest (Some v) h ->
  exists ps' v' c' w', run h ps = Ok (map (fun e => expected (snd e) (fst (fst e))) h, ps') /\
    inv v' c' w' ps' /\ (Forall (fun e => snd (fst e) = false) h -> w' = w0).
Proof.
  induction h as [|[[v1 new] r] h IH]; intros v c w0 ps H Hh.
  - exists ps, v, c, w0. split; [reflexivity|]. auto.
  - cbn [honest] in Hh. destruct Hh as [Hn Hh]. cbn [run map fst snd]. unfold callback.
    destruct new.
    + pose proof (inv_extract v c w0 ps v1 H) as H1.
      destruct (inv_evaluate v1 (S c) _ r _ H1) as (ps1 & E1 & H2). rewrite E1. cbn [obind snd].
      destruct (IH v1 (S c) _ ps1 H2 Hh) as (ps' & v' & c' & w' & E & H3 & _).
      rewrite E. cbn [obind fst snd]. exists ps', v', c', w'. split; [reflexivity|].
      split; [exact H3|]. intros F. inversion F. discriminate.
    + assert (Some v = Some v1) by (symmetry; apply eq_sym, Hn; reflexivity).
      injection H0 as <-. cbn [extract].
      destruct (inv_evaluate v c w0 r ps H) as (ps1 & E1 & H2). rewrite E1. cbn [obind snd].
      destruct (IH v c w0 ps1 H2 Hh) as (ps' & v' & c' & w' & E & H3 & H4).
      rewrite E. cbn [obind fst snd]. exists ps', v', c', w'. split; [reflexivity|].
      split; [exact H3|]. intros F. inversion F. auto.
Qed.

Lemma inv_start w cost0 csens0 v :
  inv v 1 [] (extract V Traj Cost Lin Sens CSens v true (mkProb w 0 w, newShot cost0 csens0)).
Proof.
  unfold inv, extract, newShot, shotReset. cbn.
  repeat (match goal with |- _ /\ _ => split end); auto; try lia; try (intros; discriminate).
  exists []. auto.
Qed.

(** Every honest history of callbacks succeeds, and every answer is computed from the decision
    vector of its own callback, in whatever order cost, constraints, gradient and Jacobian are
    requested. *)
Theorem C44_fresh w cost0 csens0 h : honest None h ->
  exists ps, run h (mkProb w 0 w, newShot cost0 csens0) =
             Ok (map (fun e => expected (snd e) (fst (fst e))) h, ps).
Proof.
  destruct h as [|[[v new] r] h]; intros Hh; [eexists; reflexivity|].
  cbn [honest] in Hh. destruct Hh as [Hn Hh]. destruct new; [|specialize (Hn eq_refl); discriminate].
  cbn [run map fst snd]. unfold callback.
  destruct (inv_evaluate v 1 [] r _ (inv_start w cost0 csens0 v)) as (ps1 & -> & H1). cbn [obind snd].
  destruct (inv_run h v 1 [] ps1 H1 Hh) as (ps' & _ & _ & _ & E & _). rewrite E. cbn [obind fst snd].
  eexists. reflexivity.
Qed.

(** Each quantity is integrated at most once per decision vector: during any stretch of callbacks
    that starts with a new vector and contains no further one, no pass is executed twice. *)
Theorem C44_once w cost0 csens0 h1 v r h2 :
  honest None (h1 ++ (v, true, r) :: h2) -> Forall (fun e => snd (fst e) = false) h2 ->
  exists a1 ps1 a2 ps2 recent,
    run h1 (mkProb w 0 w, newShot cost0 csens0) = Ok (a1, ps1) /\
    run ((v, true, r) :: h2) ps1 = Ok (a2, ps2) /\
    s_work (snd ps2) = recent ++ s_work (snd ps1) /\ forall k, times k recent <= 1.
Proof.
  intros Hh F.
  assert (Hsplit : forall h prev, honest prev (h ++ (v, true, r) :: h2) ->
            honest prev h /\ honest (Some v) h2).
  { induction h as [|[[v1 b] r1] h IH]; intros prev H; cbn [app honest] in *.
    - tauto.
    - destruct H as [Ha Hb]. destruct (IH _ Hb). auto. }
  destruct (Hsplit h1 None Hh) as [Hh1 Hh2].
  assert (G : exists a1 ps1, run h1 (mkProb w 0 w, newShot cost0 csens0) = Ok (a1, ps1) /\
    exists c, inv v c (s_work (snd ps1)) (extract V Traj Cost Lin Sens CSens v true ps1)).
  { destruct h1 as [|[[v1 b] r1] h1].
    - eexists _, _. split; [reflexivity|]. exists 1. cbn [snd]. apply inv_start.
    - cbn [honest] in Hh1. destruct Hh1 as [Hn Hh1].
      destruct b; [|specialize (Hn eq_refl); discriminate]. cbn [run]. unfold callback.
      destruct (inv_evaluate v1 1 [] r1 _ (inv_start w cost0 csens0 v1)) as (ps1 & -> & H1).
      cbn [obind snd].
      destruct (inv_run h1 v1 1 [] ps1 H1 Hh1) as (ps' & v' & c' & w' & E & H2 & _).
      rewrite E. cbn [obind fst snd]. eexists _, _. split; [reflexivity|].
      exists (S c'). eapply inv_extract. exact H2. }
  destruct G as (a1 & ps1 & E1 & c & H1). exists a1, ps1.
  cbn [run]. unfold callback.
  destruct (inv_evaluate v c _ r _ H1) as (ps2 & E2 & H2). rewrite E2. cbn [obind snd].
  destruct (inv_run h2 v c _ ps2 H2 Hh2) as (ps3 & v3 & c3 & w3 & E3 & H3 & Hw3).
  rewrite E3. cbn [obind fst snd]. specialize (Hw3 F). subst w3.
  destruct H3 as (_ & _ & _ & _ & _ & _ & _ & _ & _ & _ & _ & _ & _ & rec & Hr & T1 & T2 & T3 & T4).
  eexists _, ps3, rec. split; [exact E1|]. split; [reflexivity|]. split; [exact Hr|].
  intros []; [rewrite T1|rewrite T2|rewrite T3|rewrite T4];
    match goal with |- context [?a =? ?b] => destruct (a =? b) end; lia.
Qed.

(** Findings.  Before the first callback with a new decision vector the counts coincide: nothing
    is integrated; the integrated state is read from an empty array and the cost is the initial
    value. *)
Theorem C44_before_first_update_refuted w cost0 csens0 :
  evaluate V Traj Cost Lin Sens CSens integ costOf linOf sensOf csensOf EvalConstraints
    (mkProb w 0 w, newShot cost0 csens0) = UB /\
  exists ps, evaluate V Traj Cost Lin Sens CSens integ costOf linOf sensOf csensOf EvalCost
    (mkProb w 0 w, newShot cost0 csens0) = Ok (ACost cost0, ps).
Proof. split; [reflexivity|]. eexists. reflexivity. Qed.

(** Changing the initial state changes the decision vector without invalidating the cache. *)
Theorem C44_change_initial_refuted w cost0 csens0 v v' :
  integ v v <> integ v' v ->
  exists a ps, cb v true EvalConstraints (mkProb w 0 w, newShot cost0 csens0) = Ok (a, ps) /\
    p_w (fst (changeInitial V Traj Cost Lin Sens CSens v' ps)) = v' /\
    exists ps', evaluate V Traj Cost Lin Sens CSens integ costOf linOf sensOf csensOf
                  EvalConstraints (changeInitial V Traj Cost Lin Sens CSens v' ps) =
                Ok (AState (integ v v), ps') /\
                AState (integ v v) <> (AState (integ v' v) : Answer).
Proof.
  intros Hne. eexists _, _. split; [reflexivity|]. split; [reflexivity|].
  eexists. split; [reflexivity|]. intros E. injection E. exact Hne.
Qed.

(** Resetting the update count makes a later count coincide with the cached one: the answer for
    the new vector v' is the one of the old vector v. *)
Theorem C44_reset_refuted w cost0 csens0 v v' :
  exists a ps, cb v true EvalConstraints (mkProb w 0 w, newShot cost0 csens0) = Ok (a, ps) /\
    exists ps', cb v' true EvalConstraints (vecReset V Traj Cost Lin Sens CSens ps) =
                Ok (AState (integ v v), ps').
Proof. eexists _, _. split; [reflexivity|]. eexists. reflexivity. Qed.
End Cache.

(** A concrete honest history with repeated evaluations at the same vector. *)
Example C44_example :
  honest nat None [(3, true, EvalCost); (3, false, EvalGradient); (3, false, EvalCost);
                   (4, true, EvalJacobian); (4, false, EvalConstraints)].
Proof. cbn. intuition discriminate. Qed.

(** ** C52 *)

(** A shooting problem as constructed, and any history of changes of the decision vector and of
    the initial state. *)
Inductive scall := SVars (l : list node) | SInitial (x0 : list R).
Definition sstep (c : scall) (p : shooting) : outcome shooting :=
  match c with
  | SVars l => Ok (problemSetVars (flatten l) p)
  | SInitial x0 => problemChangeInitialState x0 p
  end.
Fixpoint srun (cs : list scall) (p : shooting) : outcome shooting :=
  match cs with
  | [] => Ok p
  | c :: r => do p' <- sstep c p ;; srun r p'
  end.
Definition scall_ok (n m N : nat) (c : scall) : Prop :=
  match c with SVars l => nodes_ok n m N l | SInitial x => length x = n end.
(** The first node of the decision vector after the calls. *)
Definition sfirst (x : list R) (c : scall) : list R :=
  match c with SVars l => fst (nth 0 l ([], [])) | SInitial x0 => x0 end.
Definition feasible (n : nat) (p : shooting) : Prop :=
  exists r, initConstraint n p = Ok r /\ Forall (fun y => y = 0%R) r.

Lemma difference_zero : forall x y : list R, length x = length y ->
  (Forall (fun z => z = 0%R) (map (fun q => (fst q - snd q)%R) (combine x y)) <-> x = y).
Proof.
  induction x as [|a x IH]; intros [|b y] H; try discriminate; simpl.
  - split; auto.
  - simpl in H. rewrite Forall_cons_iff, IH by lia. split.
    + intros [E ->]. f_equal. lra.
    + intros E. injection E as -> ->. split; [lra|reflexivity].
Qed.

Lemma srun_first n m N cs : forall l g w x0, holds n m N l g w ->
  Forall (scall_ok n m N) cs ->
  exists w' l' , srun cs (mkShooting w x0) = Ok (mkShooting w' x0) /\ holds n m N l' g w' /\
    fst (nth 0 l' ([], [])) = fold_left sfirst cs (fst (nth 0 l ([], []))).
Proof.
  induction cs as [|c cs IH]; intros l g w x0 H F.
  - exists w, l. auto.
  - inversion F as [|? ? Hc F']; subst. destruct c as [l1|x1]; cbn [srun sstep scall_ok] in *.
    + destruct (IH l1 g (setOptimizationVars (flatten l1) w) x0) as (w' & l' & E & H' & Hf); auto.
      { eapply holds_set; eauto. }
      exists w', l'. unfold problemSetVars. cbn [sh_w sh_x0 obind]. auto.
    + destruct (ostep_holds n m N l g w (OInitial x1) H Hc) as (w1 & E1 & H1).
      cbn [ostep] in E1. unfold problemChangeInitialState. cbn [sh_w sh_x0]. rewrite E1.
      cbn [obind]. cbn [ospec fst snd] in H1.
      destruct (IH _ g w1 x0 H1 F') as (w' & l' & E & H' & Hf).
      exists w', l'. split; [exact E|]. split; [exact H'|]. rewrite Hf. cbn [fold_left sfirst].
      f_equal. unfold set_state. destruct l; [|reflexivity].
      destruct H as (_ & _ & _ & _ & _ & _ & [Hl _] & _). discriminate.
Qed.

(** The initial state constraint compares the first node with the initial state given to the
    constructor: after any history, exactly the decision vectors whose first node equals that
    state are feasible.
    Partial: changing the initial state of the problem does not change it. *)
Theorem C52_feasible_partial n m N g0 x0 cs : nodes_ok n m N g0 -> length x0 = n ->
  Forall (scall_ok n m N) cs ->
  exists p, srun cs (mkShooting (newOptVec n m ((N + 1) * (n + m)) N (flatten g0)) x0) = Ok p /\
    (feasible n p <-> fold_left sfirst cs (repeat 0%R n) = x0).
Proof.
  intros Hg Hx F. pose proof (new_holds n m N g0 Hg) as H.
  destruct (srun_first n m N cs _ _ _ x0 H F) as (w' & l' & E & H' & Hf).
  exists (mkShooting w' x0). split; [exact E|].
  assert (Hz : fst (nth 0 (repeat (repeat 0%R n, repeat 0%R m) (N + 1)) ([], [])) = repeat 0%R n).
  { rewrite Nat.add_1_r. reflexivity. }
  refine (let Hf' := eq_trans Hf (f_equal (fold_left sfirst cs) Hz) in _). clearbody Hf'.
  rewrite <- Hf'. clear Hf Hf' Hz.
  assert (Hl : length (fst (nth 0 l' ([], []))) = n).
  { destruct H' as (_ & _ & _ & _ & _ & _ & [Hl Hd] & _). apply Hd. apply nth_In. lia. }
  unfold feasible, initConstraint. cbn [sh_w sh_x0].
  rewrite (holds_get_state n m N l' g0 w' 0 H') by lia. cbn [obind].
  rewrite <- difference_zero by (rewrite Hl; auto). split.
  - intros (r & Er & Fr). injection Er as <-. exact Fr.
  - intros Fr. eexists. split; [reflexivity|exact Fr].
Qed.

(** Finding: after changing the initial state to a different one, the vectors that start at the
    new state are exactly not feasible. *)
Theorem C52_change_refuted n m N g0 x0 x1 l : nodes_ok n m N g0 -> length x0 = n ->
  length x1 = n -> x1 <> x0 -> nodes_ok n m N l -> fst (nth 0 l ([], [])) = x1 ->
  exists p, srun [SInitial x1; SVars l]
              (mkShooting (newOptVec n m ((N + 1) * (n + m)) N (flatten g0)) x0) = Ok p /\
    ~ feasible n p.
Proof.
  intros Hg H0 H1 Hne Hl Hf.
  destruct (C52_feasible_partial n m N g0 x0 [SInitial x1; SVars l] Hg H0) as (p & E & Hp).
  { apply Forall_cons; [exact H1|]. apply Forall_cons; [exact Hl|]. apply Forall_nil. }
  exists p. split; [exact E|]. rewrite Hp. cbn [fold_left sfirst]. rewrite Hf. exact Hne.
Qed.

(** The container's own update, which nothing calls, would do it. *)
Theorem C52_container_update n m N l g w x0 x1 : holds n m N l g w -> length x1 = n ->
  feasible n (changeInitialConstraint x1 (mkShooting w x0)) <-> fst (nth 0 l ([], [])) = x1.
Proof.
  intros H Hx. unfold feasible, initConstraint, changeInitialConstraint. cbn [sh_w sh_x0].
  rewrite (holds_get_state n m N l g w 0 H) by lia. cbn [obind].
  assert (Hl : length (fst (nth 0 l dflt)) = n).
  { destruct H as (_ & _ & _ & _ & _ & _ & [Hl Hd] & _). apply Hd. apply nth_In. lia. }
  assert (D : fst (nth 0 l ([], [])) = fst (nth 0 l dflt)) by reflexivity. rewrite D.
  rewrite <- difference_zero by lia. split.
  - intros (r & Er & Fr). injection Er as <-. exact Fr.
  - intros Fr. eexists. split; [reflexivity|exact Fr].
Qed.

Example C52_example : scall_ok 1 1 1 (SVars [([2%R], [0%R]); ([3%R], [0%R])]) /\
  fold_left sfirst [SInitial [1%R]; SVars [([2%R], [0%R]); ([3%R], [0%R])]] [0%R] = [2%R].
Proof.
  split; [|reflexivity]. split; [reflexivity|]. intros p [<-|[<-|[]]]; split; reflexivity.
Qed.

Print Assumptions C44_fresh.
Print Assumptions C44_once.
Print Assumptions C44_before_first_update_refuted.
Print Assumptions C44_change_initial_refuted.
Print Assumptions C44_reset_refuted.
Print Assumptions C52_feasible_partial.
Print Assumptions C52_change_refuted.
Print Assumptions C52_container_update.
