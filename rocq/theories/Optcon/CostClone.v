(** Client calls on a cost function and its clone (supporting C46). *)
From Coq Require Import Reals String List Bool Arith Lia.
From Verif Require Import Base.Outcome Base.RVec Core.ActivationModel
  Optcon.CostModel Optcon.CostProofs.
Import ListNotations.

(** Calls a client can make on a cost function.  [ModInter i f]: getIntermediateTermById(i)
    (CostFunctionQuadratic-impl.hpp 139-142, unchecked) followed by any member function f of the
    term; [ModFinal] likewise (145-149). *)
Inductive call :=
| SetCurrent (x u : rvec) (t : R)
| ShiftTime (s : R)
| UpdateReferenceState (x : rvec)
| UpdateFinalState (x : rvec)
| UpdateReferenceControl (u : rvec)
| ModInter (i : nat) (f : term -> term)
| ModFinal (i : nat) (f : term -> term).

Definition cstep (c : call) (s : costfun * heap) : outcome (costfun * heap) :=
  let '(k, h) := s in
  match c with
  | SetCurrent x u t => Ok (setCurrent x u t k, h)
  | ShiftTime d => Ok (shiftTime d k, h)
  | UpdateReferenceState x => Ok (k, cfUpdateReferenceState x k h)
  | UpdateFinalState x => Ok (k, cfUpdateFinalState x k h)
  | UpdateReferenceControl u => Ok (k, cfUpdateReferenceControl u k h)
  | ModInter i f => do p <- vec_get (cf_inter k) i ;; Ok (k, updHeap f p h)
  | ModFinal i f => do p <- vec_get (cf_final k) i ;; Ok (k, updHeap f p h)
  end.

Fixpoint crun (cs : list call) (s : costfun * heap) : outcome (costfun * heap) :=
  match cs with
  | [] => Ok s
  | c :: r => do s' <- cstep c s ;; crun r s'
  end.

(** Everything a client can observe of a cost function at its current point. *)
Record observation := mkObs {
  o_int : outcome R; o_term : outcome R;
  o_dx : outcome rvec; o_dxx : outcome rmat; o_du : outcome rvec; o_duu : outcome rmat;
  o_dux : outcome rmat;
  o_tdx : outcome rvec; o_tdxx : outcome rmat; o_tdu : outcome rvec; o_tduu : outcome rmat;
  o_tdux : outcome rmat }.

Definition observe (n m : nat) (s : costfun * heap) : observation :=
  let '(c, h) := s in
  mkObs (evaluateIntermediate n m h c) (evaluateTerminal n m h c)
    (stateDerivativeIntermediate n m h c) (stateSecondDerivativeIntermediate m h c)
    (controlDerivativeIntermediate n m h c) (controlSecondDerivativeIntermediate n h c)
    (stateControlDerivativeIntermediate n m h c)
    (stateDerivativeTerminal n m h c) (stateSecondDerivativeTerminal m h c)
    (controlDerivativeTerminal n m h c) (controlSecondDerivativeTerminal n h c)
    (stateControlDerivativeTerminal n m h c).

(** ** Heap lemmas *)

Lemma resolved_length h ps tms : resolved h ps tms -> length ps = length tms.
Proof. induction 1; simpl; congruence. Qed.

Lemma updHeap_length f h : forall p, length (updHeap f p h) = length h.
Proof. induction h as [|tm h IH]; intros [|p]; simpl; auto. Qed.

Lemma updHeap_other f h : forall p q, p <> q -> vec_get (updHeap f p h) q = vec_get h q.
Proof.
  unfold vec_get.
  induction h as [|tm h IH]; intros [|p] [|q] H; simpl; auto; try lia.
Qed.

Lemma updHeap_same f h : forall p tm, vec_get h p = Ok tm -> vec_get (updHeap f p h) p = Ok (f tm).
Proof.
  unfold vec_get.
  induction h as [|t0 h IH]; intros [|p] tm H; simpl in *; try discriminate.
  - injection H as ->. reflexivity.
  - auto.
Qed.

Lemma vec_get_lt {A} (l : list A) i v : vec_get l i = Ok v -> (i < length l)%nat.
Proof.
  unfold vec_get. destruct (nth_error l i) eqn:E; intros H; try discriminate.
  apply nth_error_Some. congruence.
Qed.

Lemma vec_get_app1 {A} (l r : list A) i : (i < length l)%nat -> vec_get (l ++ r) i = vec_get l i.
Proof. intros H. unfold vec_get. now rewrite nth_error_app1. Qed.

Lemma vec_get_ok {A} (l : list A) i : (i < length l)%nat -> exists v, vec_get l i = Ok v.
Proof.
  intros H. unfold vec_get. destruct (nth_error l i) eqn:E; eauto.
  apply nth_error_None in E. lia.
Qed.

Lemma resolved_ext h h' ps tms :
  (forall p, In p ps -> vec_get h' p = vec_get h p) -> resolved h ps tms -> resolved h' ps tms.
Proof.
  intros He Hr. induction Hr as [|p tm ps tms Hp Hr IH]; constructor.
  - rewrite He by (now left). exact Hp.
  - apply IH. intros q Hq. apply He. now right.
Qed.

Lemma resolved_app_heap h e ps tms : resolved h ps tms -> resolved (h ++ e) ps tms.
Proof.
  induction 1 as [|p tm ps tms Hp Hr IH]; constructor; auto.
  rewrite vec_get_app1; [exact Hp|]. eapply vec_get_lt; eauto.
Qed.

Lemma resolved_lt h ps tms : resolved h ps tms -> forall p, In p ps -> (p < length h)%nat.
Proof.
  induction 1 as [|p tm ps tms Hp Hr IH]; intros q Hq; [destruct Hq|].
  destruct Hq as [<-|Hq]; auto. eapply vec_get_lt; eauto.
Qed.

(** ** cloneTerms *)

Lemma cloneTerms_spec n ps : forall h tms, resolved h ps tms ->
  cloneTerms n ps h =
  Ok (seq (length h) (length ps), h ++ map (cloneTerm n) tms).
Proof.
  induction ps as [|p ps IH]; intros h tms Hr; inversion Hr as [|? tm ? tms' Hp Hr']; subst; simpl.
  - now rewrite app_nil_r.
  - rewrite Hp; simpl.
    rewrite (IH (h ++ [cloneTerm n tm]) tms') by (apply resolved_app_heap; exact Hr').
    simpl. rewrite app_length, Nat.add_1_r, <- app_assoc. reflexivity.
Qed.

Lemma resolved_seq h l e : resolved (h ++ l ++ e) (seq (length h) (length l)) l.
Proof.
  revert h. induction l as [|a l IH]; intros h; simpl; constructor.
  - unfold vec_get. rewrite nth_error_app2 by lia. now rewrite Nat.sub_diag.
  - specialize (IH (h ++ [a])). rewrite app_length, Nat.add_1_r, <- app_assoc in IH. exact IH.
Qed.

Lemma cloneCost_spec n c h ti tf :
  resolved h (cf_inter c) ti -> resolved h (cf_final c) tf ->
  exists c' h', cloneCost n c h = Ok (c', h') /\
    h' = h ++ map (cloneTerm n) ti ++ map (cloneTerm n) tf /\
    cf_x c' = cf_x c /\ cf_u c' = cf_u c /\ cf_t c' = cf_t c /\ cf_shift c' = cf_shift c /\
    cf_inter c' = seq (length h) (length ti) /\
    cf_final c' = seq (length h + length ti) (length tf) /\
    resolved h' (cf_inter c') (map (cloneTerm n) ti) /\
    resolved h' (cf_final c') (map (cloneTerm n) tf).
Proof.
  intros Hi Hf. unfold cloneCost. rewrite (cloneTerms_spec n _ h ti Hi). cbn [obind fst snd].
  rewrite (cloneTerms_spec n _ _ tf (resolved_app_heap h (map (cloneTerm n) ti) _ _ Hf)).
  cbn [obind fst snd].
  assert (Li : length (cf_inter c) = length ti) by (eapply resolved_length; exact Hi).
  assert (Lf : length (cf_final c) = length tf) by (eapply resolved_length; exact Hf).
  rewrite Li, Lf, app_length, map_length, <- app_assoc.
  do 2 eexists. split; [reflexivity|]. cbn [cf_x cf_u cf_t cf_shift cf_inter cf_final].
  split; [reflexivity|]. do 6 (split; [reflexivity|]). split.
  - pose proof (resolved_seq h (map (cloneTerm n) ti) (map (cloneTerm n) tf)) as H.
    rewrite map_length in H. exact H.
  - pose proof (resolved_seq (h ++ map (cloneTerm n) ti) (map (cloneTerm n) tf) []) as H.
    rewrite app_length, !map_length, app_nil_r, <- app_assoc in H. exact H.
Qed.

(** ** Observations depend only on the current point and the terms referred to *)

Lemma observe_determined n m c h ti tf c' h' :
  resolved h (cf_inter c) ti -> resolved h (cf_final c) tf ->
  resolved h' (cf_inter c') ti -> resolved h' (cf_final c') tf ->
  cf_x c' = cf_x c -> cf_u c' = cf_u c -> cf_t c' = cf_t c ->
  observe n m (c', h') = observe n m (c, h).
Proof.
  intros Hi Hf Hi' Hf' Ex Eu Et. unfold observe.
  unfold evaluateIntermediate, evaluateTerminal, stateDerivativeIntermediate,
    stateSecondDerivativeIntermediate, controlDerivativeIntermediate,
    controlSecondDerivativeIntermediate, stateControlDerivativeIntermediate,
    stateDerivativeTerminal, stateSecondDerivativeTerminal, controlDerivativeTerminal,
    controlSecondDerivativeTerminal, stateControlDerivativeTerminal,
    sumIntermediateV, sumIntermediateM, sumTerminalV, sumTerminalM, active, weight.
  rewrite Ex, Eu, Et.
  repeat match goal with
  | |- context [sumTerms ?a h' ?w ?u ?y (cf_inter c')] =>
      rewrite (sumTerms_resolved a h' w u (cf_inter c') ti Hi' y)
  | |- context [sumTerms ?a h' ?w ?u ?y (cf_final c')] =>
      rewrite (sumTerms_resolved a h' w u (cf_final c') tf Hf' y)
  | |- context [sumTerms ?a h ?w ?u ?y (cf_inter c)] =>
      rewrite (sumTerms_resolved a h w u (cf_inter c) ti Hi y)
  | |- context [sumTerms ?a h ?w ?u ?y (cf_final c)] =>
      rewrite (sumTerms_resolved a h w u (cf_final c) tf Hf y)
  end.
  reflexivity.
Qed.

(** ** Calls only touch the terms of the cost function they are made on *)

Lemma fold_upd_other f ps : forall h q, ~ In q ps ->
  vec_get (fold_left (fun h p => updHeap f p h) ps h) q = vec_get h q.
Proof.
  induction ps as [|p ps IH]; intros h q Hq; simpl; [reflexivity|].
  rewrite IH by (intros H; apply Hq; now right).
  apply updHeap_other. intros ->. apply Hq. now left.
Qed.

Lemma fold_upd_same f ps : forall h tms, NoDup ps -> resolved h ps tms ->
  resolved (fold_left (fun h p => updHeap f p h) ps h) ps (map f tms).
Proof.
  induction ps as [|p ps IH]; intros h tms Hn Hr; inversion Hr as [|? tm ? tms' Hp Hr']; subst;
    simpl; constructor; inversion Hn as [|? ? Hn1 Hn2]; subst.
  - rewrite fold_upd_other by exact Hn1. now apply updHeap_same.
  - apply IH; auto. eapply resolved_ext; [|exact Hr'].
    intros q Hq. apply updHeap_other. intros ->. contradiction.
Qed.

Lemma fold_upd_keeps f ps qs tms : forall h, (forall q, In q qs -> ~ In q ps) ->
  resolved h qs tms -> resolved (fold_left (fun h p => updHeap f p h) ps h) qs tms.
Proof.
  intros h Hd Hr. eapply resolved_ext; [|exact Hr]. intros q Hq. apply fold_upd_other; auto.
Qed.

Lemma cstep_pointers c k h k' h' : cstep c (k, h) = Ok (k', h') ->
  cf_inter k' = cf_inter k /\ cf_final k' = cf_final k.
Proof.
  destruct c; simpl; intros H;
    try (apply bind_ok in H; destruct H as (p & _ & H));
    (match type of H with Ok ?a = Ok ?b => assert (E : a = b) by congruence end;
     injection E as <- <-); auto.
Qed.

Lemma cstep_frame c k h k' h' : cstep c (k, h) = Ok (k', h') ->
  forall q, ~ In q (cf_inter k) -> ~ In q (cf_final k) -> vec_get h' q = vec_get h q.
Proof.
  destruct c; simpl; intros H q Hi Hf;
    try (apply bind_ok in H; destruct H as (p & Hp & H));
    (match type of H with Ok ?a = Ok ?b => assert (E : a = b) by congruence end;
     injection E as <- <-); auto.
  - now apply fold_upd_other.
  - now apply fold_upd_other.
  - now apply fold_upd_other.
  - apply updHeap_other. intros ->. apply Hi. unfold vec_get in Hp.
    destruct (nth_error (cf_inter k) i) eqn:En; try discriminate.
    apply nth_error_In in En. congruence.
  - apply updHeap_other. intros ->. apply Hf. unfold vec_get in Hp.
    destruct (nth_error (cf_final k) i) eqn:En; try discriminate.
    apply nth_error_In in En. congruence.
Qed.

Lemma crun_frame cs : forall k h k' h', crun cs (k, h) = Ok (k', h') ->
  (cf_inter k' = cf_inter k /\ cf_final k' = cf_final k) /\
  forall q, ~ In q (cf_inter k) -> ~ In q (cf_final k) -> vec_get h' q = vec_get h q.
Proof.
  induction cs as [|c cs IH]; intros k h k' h' H; cbn [crun] in H.
  - assert (E : (k, h) = (k', h')) by congruence. injection E as <- <-. auto.
  - apply bind_ok in H. destruct H as ([k1 h1] & H1 & H2).
    destruct (cstep_pointers _ _ _ _ _ H1) as [E1 E2].
    pose proof (cstep_frame _ _ _ _ _ H1) as F1.
    destruct (IH _ _ _ _ H2) as [[E3 E4] F2].
    split; [split; congruence|]. intros q Hi Hf.
    rewrite F2 by congruence. now apply F1.
Qed.

(** Two cost functions in lock step: same point, same terms. *)
Definition alike (s s' : costfun * heap) : Prop :=
  exists ti tf,
    resolved (snd s) (cf_inter (fst s)) ti /\ resolved (snd s) (cf_final (fst s)) tf /\
    resolved (snd s') (cf_inter (fst s')) ti /\ resolved (snd s') (cf_final (fst s')) tf /\
    NoDup (cf_inter (fst s) ++ cf_final (fst s)) /\
    NoDup (cf_inter (fst s') ++ cf_final (fst s')) /\
    cf_x (fst s') = cf_x (fst s) /\ cf_u (fst s') = cf_u (fst s) /\
    cf_t (fst s') = cf_t (fst s) /\ cf_shift (fst s') = cf_shift (fst s).

Lemma nodup_app_l {A} (l r : list A) : NoDup (l ++ r) -> NoDup l.
Proof.
  induction l as [|a l IH]; simpl; intros H; constructor; inversion H; subst; auto.
  intros Hin. apply H2. apply in_or_app. now left.
Qed.

Lemma nodup_app_r {A} (l r : list A) : NoDup (l ++ r) -> NoDup r.
Proof. induction l as [|a l IH]; simpl; intros H; auto. inversion H; subst; auto. Qed.

Lemma nodup_app_disj {A} (l r : list A) : NoDup (l ++ r) -> forall q, In q r -> ~ In q l.
Proof.
  induction l as [|a l IH]; simpl; intros H q Hq; auto.
  inversion H; subst. intros [->|Hl]; [|eapply IH; eauto].
  apply H2. apply in_or_app. now right.
Qed.

Fixpoint updNth {A} (f : A -> A) (i : nat) (l : list A) : list A :=
  match l, i with
  | [], _ => []
  | a :: r, O => f a :: r
  | a :: r, S j => a :: updNth f j r
  end.

Lemma resolved_upd f h ps tms : NoDup ps -> resolved h ps tms ->
  forall i p, vec_get ps i = Ok p -> resolved (updHeap f p h) ps (updNth f i tms).
Proof.
  intros Hn Hr. revert Hn.
  induction Hr as [|q tm ps tms Hq Hr IH]; intros Hn i p Hp.
  - destruct i; discriminate.
  - inversion Hn as [|? ? Hn1 Hn2]; subst. destruct i as [|i]; simpl.
    + assert (q = p) by (unfold vec_get in Hp; simpl in Hp; congruence). subst q.
      constructor; [now apply updHeap_same|].
      eapply resolved_ext; [|exact Hr]. intros r Hr'. apply updHeap_other.
      intros ->. contradiction.
    + assert (Hp' : vec_get ps i = Ok p) by exact Hp.
      constructor; [|apply IH; auto].
      rewrite updHeap_other; [exact Hq|]. intros ->. apply Hn1.
      unfold vec_get in Hp'. destruct (nth_error ps i) eqn:En; try discriminate.
      apply nth_error_In in En. congruence.
Qed.

Lemma resolved_upd_keeps f h ps tms p : ~ In p ps -> resolved h ps tms ->
  resolved (updHeap f p h) ps tms.
Proof.
  intros Hn Hr. eapply resolved_ext; [|exact Hr]. intros q Hq. apply updHeap_other.
  intros ->. contradiction.
Qed.

Lemma vec_get_in {A} (l : list A) i v : vec_get l i = Ok v -> In v l.
Proof.
  unfold vec_get. destruct (nth_error l i) eqn:E; intros H; try discriminate.
  apply nth_error_In in E. congruence.
Qed.

Lemma not_in_sym {A} (l r : list A) : NoDup (l ++ r) -> forall q, In q l -> ~ In q r.
Proof. intros H q Hl Hr. exact (nodup_app_disj l r H q Hr Hl). Qed.

Lemma cstep_alike c s s' s1 : alike s s' -> cstep c s = Ok s1 ->
  exists s1', cstep c s' = Ok s1' /\ alike s1 s1'.
Proof.
  destruct s as [k h], s' as [k' h'].
  intros (ti & tf & Hi & Hf & Hi' & Hf' & Hn & Hn' & Ex & Eu & Et & Es). cbn [fst snd] in *.
  pose proof (nodup_app_l _ _ Hn) as N1. pose proof (nodup_app_r _ _ Hn) as N2.
  pose proof (nodup_app_l _ _ Hn') as N1'. pose proof (nodup_app_r _ _ Hn') as N2'.
  pose proof (nodup_app_disj _ _ Hn) as D. pose proof (nodup_app_disj _ _ Hn') as D'.
  pose proof (not_in_sym _ _ Hn) as F. pose proof (not_in_sym _ _ Hn') as F'.
  destruct c; simpl; intros H;
    try (apply bind_ok in H; destruct H as (p & Hp & H));
    (match type of H with Ok ?a = Ok ?b => assert (E : a = b) by congruence end; subst s1).
  - eexists; split; [reflexivity|]. exists ti, tf; cbn [fst snd]. simpl.
    rewrite Es. repeat (split; [assumption || reflexivity|]). reflexivity.
  - eexists; split; [reflexivity|]. exists ti, tf; cbn [fst snd]. simpl.
    repeat (split; [assumption || reflexivity|]). reflexivity.
  - eexists; split; [reflexivity|].
    exists (map (onKind (updateReferenceState x)) ti), tf; cbn [fst snd].
    unfold cfUpdateReferenceState.
    repeat split; auto using fold_upd_same, fold_upd_keeps.
  - eexists; split; [reflexivity|].
    exists ti, (map (onKind (updateReferenceState x)) tf); cbn [fst snd].
    unfold cfUpdateFinalState.
    repeat split; auto using fold_upd_same, fold_upd_keeps.
  - eexists; split; [reflexivity|].
    exists (map (onKind (updateReferenceControl u)) ti), tf; cbn [fst snd].
    unfold cfUpdateReferenceControl.
    repeat split; auto using fold_upd_same, fold_upd_keeps.
  - assert (L : length (cf_inter k') = length (cf_inter k)).
    { rewrite (resolved_length _ _ _ Hi), (resolved_length _ _ _ Hi'). reflexivity. }
    destruct (vec_get_ok (cf_inter k') i) as (p' & Hp').
    { rewrite L. eapply vec_get_lt; eauto. }
    rewrite Hp'. eexists; split; [reflexivity|].
    exists (updNth f i ti), tf; cbn [fst snd].
    repeat split; auto using resolved_upd, resolved_upd_keeps.
    + apply resolved_upd_keeps; auto. apply F. eapply vec_get_in; eauto.
    + apply resolved_upd_keeps; auto. apply F'. eapply vec_get_in; eauto.
  - assert (L : length (cf_final k') = length (cf_final k)).
    { rewrite (resolved_length _ _ _ Hf), (resolved_length _ _ _ Hf'). reflexivity. }
    destruct (vec_get_ok (cf_final k') i) as (p' & Hp').
    { rewrite L. eapply vec_get_lt; eauto. }
    rewrite Hp'. eexists; split; [reflexivity|].
    exists ti, (updNth f i tf); cbn [fst snd].
    repeat split; auto using resolved_upd, resolved_upd_keeps.
    + apply resolved_upd_keeps; auto. apply D. eapply vec_get_in; eauto.
    + apply resolved_upd_keeps; auto. apply D'. eapply vec_get_in; eauto.
Qed.

Lemma crun_alike cs : forall s s' s1, alike s s' -> crun cs s = Ok s1 ->
  exists s1', crun cs s' = Ok s1' /\ alike s1 s1'.
Proof.
  induction cs as [|c cs IH]; intros s s' s1 Ha H; cbn [crun] in *.
  - assert (s = s1) by congruence. subst. eauto.
  - apply bind_ok in H. destruct H as (s2 & H1 & H2).
    destruct (cstep_alike _ _ _ _ Ha H1) as (s2' & E1 & A1). rewrite E1. cbn [obind]. eauto.
Qed.

Lemma alike_observe n m s s' : alike s s' -> observe n m s' = observe n m s.
Proof.
  destruct s as [k h], s' as [k' h'].
  intros (ti & tf & Hi & Hf & Hi' & Hf' & Hn & Hn' & Ex & Eu & Et & Es). cbn [fst snd] in *.
  eapply observe_determined; eauto.
Qed.

(** Terms other than the barrier are copied completely. *)
Lemma cloneTerm_id n tm : (forall ub lb al bs, t_kind tm <> StateBarrier ub lb al bs) ->
  cloneTerm n tm = tm.
Proof.
  destruct tm as [nm a k]. unfold cloneTerm; simpl. intros H.
  destruct k; try reflexivity. exfalso. eapply H. reflexivity.
Qed.

Lemma map_cloneTerm n l :
  (forall tm, In tm l -> forall ub lb al bs, t_kind tm <> StateBarrier ub lb al bs) ->
  map (cloneTerm n) l = l.
Proof.
  intros H. rewrite <- (map_id l) at 2. apply map_ext_in. intros tm Hin.
  apply cloneTerm_id. auto.
Qed.
