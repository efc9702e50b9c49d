From Coq Require Import List ZArith QArith Qabs SpecFloat Lqa Lia.
From Verif Require Import Base.Scalar Core.PIDModel.
Import ListNotations.
Open Scope Q_scope.

Lemma qltb_true a b : s_ltb Qops a b = true -> a < b.
Proof.
  simpl. intro H. apply Bool.negb_true_iff in H. apply Qnot_le_lt. intro Hc.
  apply Qle_bool_iff in Hc. congruence.
Qed.
Lemma qltb_false a b : s_ltb Qops a b = false -> b <= a.
Proof. simpl. intro H. apply Bool.negb_false_iff in H. apply Qle_bool_iff. exact H. Qed.

Ltac qcase := match goal with
  | _ : context [if s_ltb Qops ?a ?b then _ else _] |- _ =>
      let E := fresh "E" in destruct (s_ltb Qops a b) eqn:E;
      [apply qltb_true in E|apply qltb_false in E]
  | |- context [if s_ltb Qops ?a ?b then _ else _] =>
      let E := fresh "E" in destruct (s_ltb Qops a b) eqn:E;
      [apply qltb_true in E|apply qltb_false in E]
  end.

Lemma computeI_bounds c e :
  0 <= Imax (params c) -> - Imax (params c) <= computeI Qops c e <= Imax (params c).
Proof. intro H. unfold computeI. repeat qcase; simpl in *; lra. Qed.

Lemma saturate_bounds p u :
  uMin p <= uMax p -> uMin p <= saturateControl Qops p u <= uMax p.
Proof. intro H. unfold saturateControl. repeat qcase; simpl in *; lra. Qed.

Lemma saturate_inside p u :
  uMin p <= u -> u <= uMax p -> saturateControl Qops p u = u.
Proof. intros H1 H2. unfold saturateControl. repeat qcase; simpl in *; try reflexivity; exfalso; lra. Qed.

(** C05 invariant over histories *)
Lemma pid_bounded : forall hist c,
  Forall (fun e =>
            let p := params (fst e) in
            (uMin p <= uMax p -> uMin p <= snd e <= uMax p) /\
            (0 <= Imax p -> - Imax p <= I_ (fst e) <= Imax p))
         (pid_run Qops c hist).
Proof.
  induction hist as [|o r IH]; intro c; [constructor|].
  destruct o; cbn [pid_run pid_step]; try apply IH.
  - cbn -[Qplus Qmult Qminus Qdiv saturateControl computeI]. constructor; [|apply IH]. cbn -[saturateControl computeI Qplus Qmult Qminus Qdiv].
    split; intro H; [apply saturate_bounds|apply computeI_bounds]; exact H.
  - cbn -[Qplus Qmult Qminus Qdiv saturateControl computeI]. constructor; [|apply IH]. cbn -[saturateControl computeI Qplus Qmult Qminus Qdiv].
    split; intro H; [apply saturate_bounds|apply computeI_bounds]; exact H.
Qed.

(** After [reset] the controller behaves like a freshly constructed one. *)
Lemma pid_reset_fresh {S} (ops : scalar_ops S) c h1 h2 :
  let c1 := pid_exec ops c h1 in
  pid_run ops (fst (pid_step ops c1 (PReset))) h2 =
  pid_run ops (pid_new ops (params c1) (setpoint c1)) h2.
Proof. reflexivity. Qed.

(** Closed form of a sequence of calls without saturation. *)
Fixpoint qsum (l : list Q) : Q := match l with [] => 0 | x :: r => x + qsum r end.

Lemma computeI_noclamp c e :
  let p := params c in
  - Imax p <= I_ c + k_i p * e * dt p -> I_ c + k_i p * e * dt p <= Imax p ->
  computeI Qops c e == I_ c + k_i p * e * dt p.
Proof. intros p H1 H2. unfold computeI. repeat qcase; simpl in *; try reflexivity; subst p; lra. Qed.

Definition err (c : @pid Q) (x : Q) : Q := stateDesired (setpoint c) - x.

Lemma qsum_app l m : qsum (l ++ m) == qsum l + qsum m.
Proof. induction l as [|a l IH]; simpl; [lra|]. rewrite IH. lra. Qed.

Lemma pid_exec_params xs : forall c,
  params (pid_exec Qops c (map PCompute xs)) = params c /\
  setpoint (pid_exec Qops c (map PCompute xs)) = setpoint c.
Proof.
  induction xs as [|x xs IH]; intro c; [auto|]. cbn [map pid_exec].
  destruct (IH (fst (pid_step Qops c (PCompute x)))) as [H1 H2]. rewrite H1, H2.
  split; reflexivity.
Qed.

Lemma pid_exec_prev xs : forall c,
  statePrevious (pid_exec Qops c (map PCompute xs)) = last xs (statePrevious c).
Proof.
  induction xs as [|x xs IH]; intro c; [reflexivity|]. cbn [map pid_exec]. rewrite IH.
  destruct xs as [|y xs]; [reflexivity|]. cbn [last].
  change (statePrevious (fst (pid_step Qops c (PCompute x)))) with x.
  clear. revert y. induction xs as [|z xs IH]; intro y; [reflexivity|]. cbn [last]. apply IH.
Qed.

Lemma pid_integral xs : forall c,
  (forall m, (m <= length xs)%nat ->
     Qabs (I_ c + k_i (params c) * dt (params c) * qsum (map (err c) (firstn m xs)))
       <= Imax (params c)) ->
  I_ (pid_exec Qops c (map PCompute xs)) ==
  I_ c + k_i (params c) * dt (params c) * qsum (map (err c) xs).
Proof.
  induction xs as [|x xs IH]; intros c H.
  - simpl. ring.
  - cbn [map pid_exec].
    set (c1 := fst (pid_step Qops c (PCompute x))).
    assert (Hp : params c1 = params c) by reflexivity.
    assert (Hs : setpoint c1 = setpoint c) by reflexivity.
    assert (Hi : I_ c1 == I_ c + k_i (params c) * err c x * dt (params c)).
    { change (I_ c1) with (computeI Qops c (err c x)).
      pose proof (H 1%nat) as H1. simpl firstn in H1. cbn [map qsum length] in H1.
      assert (Hb : Qabs (I_ c + k_i (params c) * dt (params c) * (err c x + 0)) <= Imax (params c)).
      { apply H1. simpl. lia. }
      apply Qabs_Qle_condition in Hb. apply computeI_noclamp; simpl; lra. }
    assert (He : map (err c1) xs = map (err c) xs) by (unfold err; rewrite Hs; reflexivity).
    rewrite IH.
    + rewrite Hp, He, Hi. simpl. ring.
    + intros m Hm. rewrite Hp.
      assert (He' : map (err c1) (firstn m xs) = map (err c) (firstn m xs))
        by (unfold err; rewrite Hs; reflexivity).
      rewrite He'. specialize (H (Datatypes.S m)).
      assert (Hle : (Datatypes.S m <= length (x :: xs))%nat) by (simpl; lia).
      specialize (H Hle). cbn [firstn map qsum] in H.
      eapply Qle_trans; [|exact H]. apply Qle_lteq. right. apply Qabs_wd.
      rewrite Hi. ring.
Qed.

Lemma pid_closed_form p sp xs x :
  let c0 := pid_new Qops p sp in
  let e y := stateDesired sp - y in
  let U := k_p p * e x + k_i p * dt p * qsum (map e (xs ++ [x]))
           + k_d p * (stateDerivativeDesired sp - (x - last xs 0) / dt p) in
  (forall m, (m <= length (xs ++ [x]))%nat ->
     Qabs (k_i p * dt p * qsum (map e (firstn m (xs ++ [x])))) <= Imax p) ->
  uMin p <= U <= uMax p ->
  snd (pid_step Qops (pid_exec Qops c0 (map PCompute xs)) (PCompute x)) <> None /\
  forall u, snd (pid_step Qops (pid_exec Qops c0 (map PCompute xs)) (PCompute x)) = Some u ->
            u == U.
Proof.
  intros c0 e U HI HU. split; [discriminate|].
  set (c := pid_exec Qops c0 (map PCompute xs)).
  destruct (pid_exec_params xs c0) as [Hp Hs]. fold c in Hp, Hs.
  pose proof (pid_exec_prev xs c0) as Hprev. fold c in Hprev.
  assert (HIc : I_ (pid_exec Qops c0 (map PCompute (xs ++ [x]))) ==
                k_i p * dt p * qsum (map e (xs ++ [x]))).
  { rewrite pid_integral.
    - change (I_ c0) with 0. change (params c0) with p.
      change (map (err c0) (xs ++ [x])) with (map e (xs ++ [x])). ring.
    - intros m Hm. specialize (HI m Hm). eapply Qle_trans; [|exact HI].
      apply Qle_lteq. right. apply Qabs_wd.
      change (I_ c0) with 0. change (params c0) with p.
      change (map (err c0) (firstn m (xs ++ [x]))) with (map e (firstn m (xs ++ [x]))). ring. }
  assert (HIc' : computeI Qops c (e x) == k_i p * dt p * qsum (map e (xs ++ [x]))).
  { rewrite <- HIc. rewrite map_app. cbn [map].
    assert (Happ : forall l1 l2 d, pid_exec Qops d (l1 ++ l2) = pid_exec Qops (pid_exec Qops d l1) l2).
    { induction l1 as [|o l1 IHl]; intros l2 d; [reflexivity|]. cbn [app pid_exec]. apply IHl. }
    rewrite Happ. fold c. cbn [pid_exec pid_step computeControl fst I_].
    rewrite Hs. reflexivity. }
  intros u Hu. cbn [pid_step computeControl snd] in Hu. injection Hu as <-.
  rewrite Hp, Hs, Hprev. change (params c0) with p. change (setpoint c0) with sp.
  change (statePrevious c0) with 0.
  change (s_sub Qops (stateDesired sp) x) with (e x).
  assert (HUeq : s_add Qops (s_add Qops (s_mul Qops (k_p p) (e x)) (computeI Qops c (e x)))
           (s_mul Qops (k_d p) (s_sub Qops (stateDerivativeDesired sp)
              (s_div Qops (s_sub Qops x (last xs 0)) (dt p)))) == U).
  { cbn [s_add s_mul s_sub s_div Qops]. rewrite HIc'. unfold U. reflexivity. }
  rewrite saturate_inside; [exact HUeq| |].
  - apply Qle_trans with U; [tauto|]. apply Qle_lteq. right. symmetry. exact HUeq.
  - apply Qle_trans with U; [|tauto]. apply Qle_lteq. right. exact HUeq.
Qed.

(** With dt = 0 an IEEE division 0/0 makes the output NaN, which passes both comparisons. *)
Lemma pid_nan_witness :
  exists p sp x u,
    let c := pid_new Fops p sp in
    snd (pid_step Fops c (PCompute x)) = Some u /\
    SFltb (uMin p) (uMax p) = true /\ SFltb (S754_zero false) (Imax p) = true /\
    u = S754_nan.
Proof.
  exists (mk_pid_params (SFnum 1 0) (SFnum 1 0) (SFnum 1 0) (SFnum 1 0) (SFnum 0 0)
            (SFopp (SFnum 1 0)) (SFnum 1 0)).
  exists (mk_setpoint (SFnum 1 0) (SFnum 0 0)), (SFnum 0 0), S754_nan.
  vm_compute. auto.
Qed.

(** [w] is the point of [lo, hi] closest to [v]. *)
Definition clamped (lo hi v w : Q) : Prop :=
  lo <= hi -> (v <= lo -> w == lo) /\ (lo <= v <= hi -> w == v) /\ (hi <= v -> w == hi).

Lemma clamp2 lo hi v :
  clamped lo hi v (let u := if s_ltb Qops hi v then hi else v in if s_ltb Qops u lo then lo else u).
Proof.
  unfold clamped. intro H. cbv zeta.
  destruct (s_ltb Qops hi v) eqn:E1; [apply qltb_true in E1|apply qltb_false in E1].
  - destruct (s_ltb Qops hi lo) eqn:E2; [apply qltb_true in E2|apply qltb_false in E2]; repeat split; intros; lra.
  - destruct (s_ltb Qops v lo) eqn:E2; [apply qltb_true in E2|apply qltb_false in E2]; repeat split; intros; lra.
Qed.

Lemma pid_step_law (c : @pid Q) x :
  let p := params c in let sp := setpoint c in let e := stateDesired sp - x in
  exists c' u, pid_step Qops c (PCompute x) = (c', Some u) /\
    params c' = p /\ setpoint c' = sp /\ statePrevious c' = x /\
    clamped (- Imax p) (Imax p) (I_ c + k_i p * e * dt p) (I_ c') /\
    clamped (uMin p) (uMax p)
      (k_p p * e + I_ c' + k_d p * (stateDerivativeDesired sp - (x - statePrevious c) / dt p)) u.
Proof.
  intros p sp e. cbn [pid_step computeControl]. do 2 eexists. split; [reflexivity|]. cbn [params setpoint statePrevious I_].
  do 3 (split; [reflexivity|]). split; [apply clamp2|]. apply clamp2.
Qed.

Lemma pid_step_law_d (c : @pid Q) x d :
  let p := params c in let sp := setpoint c in let e := stateDesired sp - x in
  exists c' u, pid_step Qops c (PComputeD x d) = (c', Some u) /\
    params c' = p /\ setpoint c' = sp /\ statePrevious c' = x /\
    clamped (- Imax p) (Imax p) (I_ c + k_i p * e * dt p) (I_ c') /\
    clamped (uMin p) (uMax p) (k_p p * e + I_ c' + k_d p * (stateDerivativeDesired sp - d)) u.
Proof.
  intros p sp e. cbn [pid_step computeControl_d]. do 2 eexists. split; [reflexivity|]. cbn [params setpoint statePrevious I_].
  do 3 (split; [reflexivity|]). split; [apply clamp2|]. apply clamp2.
Qed.
