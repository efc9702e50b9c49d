From Coq Require Import List ZArith QArith Lqa Lia.
From Verif Require Import Base.Outcome Core.InterpModel Core.InterpProofs Core.PhaseModel.
Import ListNotations.
Open Scope Q_scope.

(** Specification side: sum of durations. *)
Fixpoint total {P} (l : list (P * Q)) : Q := match l with [] => 0 | (_, d) :: r => d + total r end.

(** Times produced by appending. *)
Fixpoint times_from {P} (t0 : Q) (l : list (P * Q)) : list Q :=
  match l with [] => [t0] | (_, d) :: r => t0 :: times_from (t0 + d) r end.

Lemma times_from_len {P} (l : list (P * Q)) : forall t0, length (times_from t0 l) = S (length l).
Proof. induction l as [|[p d] l IH]; intro t0; simpl; [reflexivity|]. rewrite IH. reflexivity. Qed.

Lemma times_from_snoc {P} (l : list (P * Q)) (p : P) d : forall t0,
  exists b, vec_back (times_from t0 l) = Ok b /\
            times_from t0 (l ++ [(p, d)]) = times_from t0 l ++ [b + d].
Proof.
  induction l as [|[q e] l IH]; intro t0; simpl.
  - exists t0. split; reflexivity.
  - destruct (IH (t0 + e)) as (b & Hb & Ht). exists b. split.
    + assert (Hl : exists x r, times_from (t0 + e) l = x :: r).
      { destruct l as [|[q' e'] l']; simpl; eauto. }
      destruct Hl as (x & r & Hl). rewrite Hl in Hb |- *. unfold vec_back in *.
      unfold vec_get in *. simpl in *. rewrite Nat.sub_0_r in Hb. exact Hb.
    + rewrite Ht. reflexivity.
Qed.

Lemma addPhases_ok {P} (l : list (P * Q)) : forall (pre : list (P * Q)) t0,
  addPhases (mk_seq (map fst pre) (times_from t0 pre)) l =
  Ok (mk_seq (map fst (pre ++ l)) (times_from t0 (pre ++ l))).
Proof.
  induction l as [|[p d] l IH]; intros pre t0.
  - rewrite app_nil_r. reflexivity.
  - cbn [addPhases]. unfold addPhase. cbn [time_schedule phase_schedule].
    destruct (times_from_snoc pre p d t0) as (b & Hb & Ht). rewrite Hb. cbn [obind].
    rewrite <- Ht.
    replace (map fst pre ++ [p]) with (map fst (pre ++ [(p, d)])) by (rewrite map_app; reflexivity).
    rewrite IH. rewrite <- app_assoc. reflexivity.
Qed.

Lemma build_ok {P} t0 (l : list (P * Q)) :
  addPhases (ps_new t0) l = Ok (mk_seq (map fst l) (times_from t0 l)).
Proof. apply (addPhases_ok l []). Qed.

Lemma times_from_back {P} (l : list (P * Q)) : forall t0,
  exists b, vec_back (times_from t0 l) = Ok b /\ b == t0 + total l.
Proof.
  induction l as [|[q e] l IH]; intro t0; simpl.
  - exists t0. split; [reflexivity|]. lra.
  - destruct (IH (t0 + e)) as (b & Hb & He). exists b. split; [|lra].
    assert (Hl : exists x r, times_from (t0 + e) l = x :: r).
    { destruct l as [|[q' e'] l']; simpl; eauto. }
    destruct Hl as (x & r & Hl). rewrite Hl in Hb |- *. unfold vec_back in *.
    unfold vec_get in *. simpl in *. rewrite Nat.sub_0_r in Hb. exact Hb.
Qed.

Lemma times_from_front {P} (l : list (P * Q)) t0 : vec_front (times_from t0 l) = Ok t0.
Proof. destruct l as [|[p d] l]; reflexivity. Qed.

Lemma size_sub_pos a : (1 <= a < 2 ^ 64)%Z -> size_sub a 1 = (a - 1)%Z.
Proof. intro H. unfold size_sub. apply Z.mod_small. lia. Qed.

Lemma vec_getz_nat {A} (l : list A) i v :
  nth_error l i = Some v -> vec_getz l (Z.of_nat i) = Ok v.
Proof.
  intro H. unfold vec_getz.
  assert (i < length l)%nat by (apply nth_error_Some; congruence).
  replace ((0 <=? Z.of_nat i) && (Z.of_nat i <? Z.of_nat (length l)))%Z with true.
  - rewrite Nat2Z.id. unfold vec_get. rewrite H. reflexivity.
  - symmetry. apply andb_true_intro. split; [apply Z.leb_le|apply Z.ltb_lt]; lia.
Qed.

(** position of t among the appended times *)
Lemma upper_bound_split {P} (l1 : list (P * Q)) p d l2 t : forall t0,
  Forall (fun e => 0 < snd e) l1 ->
  t0 + total l1 <= t -> t < t0 + total l1 + d ->
  upper_bound (times_from t0 (l1 ++ (p, d) :: l2)) t = S (length l1).
Proof.
  induction l1 as [|[q e] l1 IH]; intros t0 Hpos H1 H2.
  - simpl in *. assert (E : Qltb t t0 = false) by (apply Qltb_false; lra). rewrite E.
    destruct l2 as [|[q e] l2]; simpl;
      (assert (E' : Qltb t (t0 + d) = true) by (apply Qltb_true; lra)); rewrite E'; reflexivity.
  - inversion Hpos as [|x y Hx Hy]; subst. simpl in *.
    assert (Htot : 0 <= total l1).
    { clear - Hy. induction Hy as [|[a b] l Ha Hl IH]; simpl in *; lra. }
    assert (E : Qltb t t0 = false) by (apply Qltb_false; lra). rewrite E.
    rewrite IH; auto; lra.
Qed.

Lemma total_app {P} (l m : list (P * Q)) : total (l ++ m) == total l + total m.
Proof. induction l as [|[a b] l IH]; simpl; [lra|]. rewrite IH. lra. Qed.

Lemma total_nonneg {P} (l : list (P * Q)) : Forall (fun e => 0 < snd e) l -> 0 <= total l.
Proof. induction 1 as [|[a b] l Ha Hl IH]; simpl in *; lra. Qed.

(** every time inside the schedule lies in exactly one interval *)
Lemma interval_exists {P} (l : list (P * Q)) t : forall t0,
  Forall (fun e => 0 < snd e) l -> t0 <= t -> t < t0 + total l ->
  exists l1 p d l2, l = l1 ++ (p, d) :: l2 /\ t0 + total l1 <= t /\ t < t0 + total l1 + d.
Proof.
  induction l as [|[p d] l IH]; intros t0 Hpos H1 H2; simpl in *.
  - exfalso. lra.
  - inversion Hpos as [|x y Hx Hy]; subst. simpl in Hx.
    destruct (Qlt_le_dec t (t0 + d)) as [Hlt|Hge].
    + exists [], p, d, l. simpl. repeat split; auto; lra.
    + destruct (IH (t0 + d)) as (l1 & p' & d' & l2 & -> & Ha & Hb); auto; try lra.
      exists ((p, d) :: l1), p', d', l2. simpl. repeat split; auto; lra.
Qed.

Lemma idx_inside {P} t0 (l1 : list (P * Q)) p d l2 t :
  let l := l1 ++ (p, d) :: l2 in
  Forall (fun e => 0 < snd e) l ->
  (Z.of_nat (length l) < 2 ^ 63)%Z ->
  t0 + total l1 <= t -> t < t0 + total l1 + d ->
  getIdxFromTime (mk_seq (map fst l) (times_from t0 l)) t = Ok (Z.of_nat (length l1)).
Proof.
  intros l Hpos Hlen H1 H2. unfold getIdxFromTime. cbn [time_schedule].
  rewrite times_from_front. cbn [obind].
  assert (Hp1 : Forall (fun e : P * Q => 0 < snd e) l1) by (apply Forall_app in Hpos; tauto).
  pose proof (total_nonneg l1 Hp1) as Hn.
  assert (Hp2 : Forall (fun e : P * Q => 0 < snd e) l2).
  { apply Forall_app in Hpos. destruct Hpos as [_ Hpos]. inversion Hpos; assumption. }
  pose proof (total_nonneg l2 Hp2) as Hn2.
  assert (E : Qltb t t0 = false) by (apply Qltb_false; lra). rewrite E.
  destruct (times_from_back l t0) as (b & Hb & Heq). rewrite Hb. cbn [obind].
  assert (Hbt : t < b).
  { rewrite Heq. unfold l. rewrite total_app. simpl. lra. }
  assert (E2 : Qle_bool b t = false) by (apply Qle_bool_false; exact Hbt). rewrite E2.
  unfold l. rewrite upper_bound_split; auto.
  f_equal. rewrite size_sub_pos; lia || idtac.
  unfold l in Hlen. rewrite app_length in Hlen. simpl in Hlen. lia.
Qed.

Lemma nth_error_mid {A} (l1 : list A) x l2 : nth_error (l1 ++ x :: l2) (length l1) = Some x.
Proof. rewrite nth_error_app2 by lia. rewrite Nat.sub_diag. reflexivity. Qed.

Lemma phase_inside {P} t0 (l1 : list (P * Q)) p d l2 t s :
  let l := l1 ++ (p, d) :: l2 in
  Forall (fun e => 0 < snd e) l ->
  (Z.of_nat (length l) < 2 ^ 63)%Z ->
  addPhases (ps_new t0) l = Ok s ->
  t0 + total l1 <= t -> t < t0 + total l1 + d ->
  getPhaseFromTime s t = Ok p.
Proof.
  intros l Hpos Hlen Hs H1 H2. rewrite build_ok in Hs. apply Ok_inj in Hs; subst s.
  unfold getPhaseFromTime. unfold l in *. rewrite (idx_inside t0 l1 p d l2 t) by assumption.
  cbn [obind]. unfold getPhaseFromIdx. cbn [phase_schedule]. apply vec_getz_nat.
  rewrite map_app. simpl. rewrite <- (map_length fst l1). apply nth_error_mid.
Qed.

Lemma phase_before {P} t0 p d (l : list (P * Q)) t s :
  addPhases (ps_new t0) ((p, d) :: l) = Ok s -> t < t0 -> getPhaseFromTime s t = Ok p.
Proof.
  intros Hs H. rewrite build_ok in Hs. apply Ok_inj in Hs; subst s.
  unfold getPhaseFromTime, getIdxFromTime. cbn [time_schedule]. rewrite times_from_front.
  cbn [obind]. assert (E : Qltb t t0 = true) by (apply Qltb_true; lra). rewrite E.
  cbn [obind]. unfold getPhaseFromIdx. apply (vec_getz_nat _ 0). reflexivity.
Qed.

Lemma phase_after {P} t0 (l : list (P * Q)) p d t s :
  Forall (fun e => 0 < snd e) (l ++ [(p, d)]) ->
  (Z.of_nat (length (l ++ [(p, d)])) < 2 ^ 63)%Z ->
  addPhases (ps_new t0) (l ++ [(p, d)]) = Ok s ->
  t0 + total (l ++ [(p, d)]) <= t -> getPhaseFromTime s t = Ok p.
Proof.
  intros Hpos Hlen Hs H. rewrite build_ok in Hs. apply Ok_inj in Hs; subst s.
  unfold getPhaseFromTime, getIdxFromTime. cbn [time_schedule]. rewrite times_from_front.
  cbn [obind]. pose proof (total_nonneg _ Hpos) as Hn.
  assert (E : Qltb t t0 = false) by (apply Qltb_false; lra). rewrite E.
  destruct (times_from_back (l ++ [(p, d)]) t0) as (b & Hb & Heq). rewrite Hb. cbn [obind].
  assert (E2 : Qle_bool b t = true) by (apply Qle_bool_iff; lra). rewrite E2. cbn [obind].
  unfold getPhaseFromIdx, getNumPhases. cbn [phase_schedule].
  rewrite app_length in Hlen. simpl in Hlen.
  rewrite size_sub_pos by (rewrite map_length, app_length; simpl; lia).
  rewrite map_length, app_length. simpl length.
  replace (Z.of_nat (length l + 1) - 1)%Z with (Z.of_nat (length l)) by lia.
  apply vec_getz_nat. rewrite map_app. simpl. rewrite <- (map_length fst l). apply nth_error_mid.
Qed.

Lemma times_nth {P} (l1 : list (P * Q)) : forall t0 l2,
  exists b, nth_error (times_from t0 (l1 ++ l2)) (length l1) = Some b /\ b == t0 + total l1.
Proof.
  induction l1 as [|[q e] l1 IH]; intros t0 l2; simpl.
  - destruct l2 as [|[q e] l2]; simpl; eexists; (split; [reflexivity|]); lra.
  - destruct (IH (t0 + e) l2) as (b & Hb & He). exists b. split; [exact Hb|lra].
Qed.

Lemma phase_times {P} t0 (l1 : list (P * Q)) p d l2 s :
  let l := l1 ++ (p, d) :: l2 in
  (Z.of_nat (length l) < 2 ^ 63)%Z ->
  addPhases (ps_new t0) l = Ok s ->
  exists a b, getStartTimeFromIdx s (Z.of_nat (length l1)) = Ok a /\
              getEndTimeFromIdx s (Z.of_nat (length l1)) = Ok b /\
              a == t0 + total l1 /\ b == a + d.
Proof.
  intros l Hlen Hs. rewrite build_ok in Hs. apply Ok_inj in Hs; subst s.
  destruct (times_nth l1 t0 ((p, d) :: l2)) as (a & Ha & Hea).
  destruct (times_nth (l1 ++ [(p, d)]) t0 l2) as (b & Hb & Heb).
  rewrite <- app_assoc in Hb. simpl in Hb. rewrite app_length in Hb. simpl in Hb.
  exists a, b. unfold getStartTimeFromIdx, getEndTimeFromIdx. cbn [time_schedule].
  unfold l in *. rewrite app_length in Hlen. simpl in Hlen.
  split; [apply vec_getz_nat; exact Ha|]. split.
  - rewrite Z.mod_small by lia.
    replace (Z.of_nat (length l1) + 1)%Z with (Z.of_nat (length l1 + 1)) by lia.
    apply vec_getz_nat. exact Hb.
  - rewrite total_app in Heb. simpl in Heb. split; lra.
Qed.

Lemma total_duration {P} t0 (l : list (P * Q)) s :
  addPhases (ps_new t0) l = Ok s -> exists T, getTotalDuration s = Ok T /\ T == total l.
Proof.
  intro Hs. rewrite build_ok in Hs. apply Ok_inj in Hs; subst s.
  unfold getTotalDuration. cbn [time_schedule].
  destruct (times_from_back l t0) as (b & Hb & Heq). rewrite Hb, times_from_front.
  cbn [obind]. eexists. split; [reflexivity|]. lra.
Qed.

Lemma switch_inside {P} t0 (l1 : list (P * Q)) p d p' d' l2 t s :
  let l := l1 ++ (p, d) :: (p', d') :: l2 in
  Forall (fun e => 0 < snd e) l ->
  (Z.of_nat (length l) < 2 ^ 63)%Z ->
  addPhases (ps_new t0) l = Ok s ->
  t0 + total l1 <= t -> t < t0 + total l1 + d ->
  exists ts, getSwitchEventFromTime s t = Ok (p, p', ts) /\ ts == t0 + total l1 + d.
Proof.
  intros l Hpos Hlen Hs H1 H2.
  destruct (phase_times t0 l1 p d ((p', d') :: l2) s Hlen Hs) as (a & b & _ & Hb & Ha & Hab).
  rewrite build_ok in Hs. apply Ok_inj in Hs; subst s.
  unfold getSwitchEventFromTime, l in *. rewrite (idx_inside t0 l1 p d ((p', d') :: l2) t) by assumption.
  cbn [obind]. unfold getSwitchEventFromIdx. rewrite Hb.
  unfold getPhaseFromIdx. cbn [phase_schedule].
  rewrite (vec_getz_nat _ (length l1) p).
  - cbn [obind]. rewrite app_length in Hlen. simpl in Hlen.
    rewrite Z.mod_small by lia.
    replace (Z.of_nat (length l1) + 1)%Z with (Z.of_nat (length l1 + 1)) by lia.
    rewrite (vec_getz_nat _ (length l1 + 1) p').
    + cbn [obind]. eexists. split; [reflexivity|]. lra.
    + rewrite map_app. simpl. rewrite nth_error_app2 by (rewrite map_length; lia).
      rewrite map_length. replace (length l1 + 1 - length l1)%nat with 1%nat by lia. reflexivity.
  - rewrite map_app. simpl. rewrite <- (map_length fst l1). apply nth_error_mid.
Qed.

Lemma vec_getz_nil {A} i : vec_getz (@nil A) i = UB.
Proof.
  unfold vec_getz. destruct (Z.leb_spec 0 i); simpl andb; [|reflexivity].
  change (Z.of_nat (length (@nil A))) with 0%Z.
  destruct (Z.ltb_spec i 0); [lia|reflexivity].
Qed.

Lemma phase_empty P t0 t : getPhaseFromTime (@ps_new P t0) t = UB.
Proof.
  unfold getPhaseFromTime, getPhaseFromIdx. change (phase_schedule (ps_new t0)) with (@nil P).
  unfold getIdxFromTime, vec_front, vec_back, vec_get.
  cbn [ps_new time_schedule nth_error obind length Nat.sub].
  destruct (Qltb t t0); [apply vec_getz_nil|].
  destruct (Qle_bool t0 t); apply vec_getz_nil.
Qed.
