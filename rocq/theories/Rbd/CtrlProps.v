(** Joint position PID controllers, whole body controller and selection matrix (C74). *)
From Coq Require Import List ZArith Reals Lia QArith Lqa.
From Verif Require Import Base.Outcome Base.Scalar Core.PIDModel Rbd.StateModel Rbd.StateProps Rbd.CtrlModel.
Import ListNotations.
Local Open Scope nat_scope.

Section Spec.
Context {Sc : Type} (ops : scalar_ops Sc).
Variable defaults : @pid_params Sc.
Variable n : nat.
Notation entry := (entry ops).
(** What a call of the robot controller means for the controller of joint [j] alone. *)
Definition joint_calls (j : nat) (o : @jop Sc) : list (@pid_op Sc) :=
  match o with
  | JCompute state => [PComputeD (nth j state (s_zero ops)) (nth (n + j) state (s_zero ops))]
  | JSetDesired d => [PSetDesired (nth j d (s_zero ops))]
  | JSetDesired1 d i => if Z.eq_dec i (Z.of_nat j) then [PSetDesired d] else []
  | JSetAllPIDGains kp ki kd =>
      [PChangeParameters {| k_p := kp; k_i := ki; k_d := kd; Imax := Imax defaults; dt := dt defaults;
                            uMin := uMin defaults; uMax := uMax defaults |}]
  | JReset => [PReset]
  end.
(** Joint numbers of the calls exist. *)
Definition valid (o : @jop Sc) : Prop := match o with JSetDesired1 _ i => (0 <= i < Z.of_nat n)%Z | _ => True end.

Notation jstep := (jstep ops defaults n).
Notation jrun := (jrun ops defaults n).
Notation call := (call ops defaults n).

Lemma vec_get_mid {A} (a b : list A) x : vec_get (a ++ x :: b) (length a) = Ok x.
Proof. unfold vec_get. rewrite nth_error_app2 by lia. now rewrite Nat.sub_diag. Qed.
Lemma vec_set_mid {A} (a b : list A) x y : vec_set (a ++ x :: b) (length a) y = Ok (a ++ y :: b).
Proof. induction a as [|z a IH]; simpl; auto. now rewrite IH. Qed.
Fixpoint steps (f : nat -> @pid_op Sc) (k : nat) (cs : list (@pid Sc)) : list (@pid Sc * option Sc) :=
  match cs with [] => [] | c :: r => pid_step ops c (f k) :: steps f (S k) r end.
Lemma forJoints_ok f : forall cs pre,
  forJoints ops f (seq (length pre) (length cs)) (pre ++ cs) =
  Ok (pre ++ map fst (steps f (length pre) cs), map snd (steps f (length pre) cs)).
Proof.
  induction cs as [|c cs IH]; intro pre; simpl; [reflexivity|].
  unfold withJoint. rewrite vec_get_mid. simpl. destruct (pid_step ops c (f (length pre))) as [c' u].
  rewrite vec_set_mid. simpl.
  specialize (IH (pre ++ [c'])). rewrite app_length in IH. simpl in IH. rewrite Nat.add_1_r in IH.
  rewrite <- !app_assoc in IH. simpl in IH. rewrite IH. simpl. reflexivity.
Qed.
Lemma steps_length f : forall cs k, length (steps f k cs) = length cs.
Proof. induction cs; intro k; simpl; auto. Qed.
Lemma steps_nth f d d' : forall cs k j, j < length cs -> nth j (steps f k cs) d' = pid_step ops (nth j cs d) (f (k + j)).
Proof.
  induction cs as [|c cs IH]; intros k [|j] H; simpl in *; try lia.
  - now rewrite Nat.add_0_r.
  - rewrite IH by lia. now rewrite Nat.add_succ_r.
Qed.
Lemma all_ok f cs : length cs = n ->
  forJoints ops f (seq 0 n) cs = Ok (map fst (steps f 0 cs), map snd (steps f 0 cs)).
Proof. intros <-. exact (forJoints_ok f cs []). Qed.

Variable d : @pid Sc.
Definition outputs (r : list (@pid Sc * Sc)) : list Sc := map snd r.
Notation pid_run := (pid_run ops). Notation pid_exec := (pid_exec ops).
Lemma pid_exec_app c a b : pid_exec c (a ++ b) = pid_exec (pid_exec c a) b.
Proof. revert c. induction a as [|o a IH]; intro c; simpl; auto. Qed.
Lemma pid_run_app c a b : pid_run c (a ++ b) = pid_run c a ++ pid_run (pid_exec c a) b.
Proof.
  revert c. induction a as [|o a IH]; intro c; simpl; auto.
  destruct (pid_step ops c o) as [c' [u|]]; simpl; now rewrite IH.
Qed.

(** One call. *)
Lemma withJoint_ok cs i o : i < length cs ->
  exists cs', withJoint ops cs i o = Ok (cs', snd (pid_step ops (nth i cs d) o)) /\ length cs' = length cs /\
  forall j, nth j cs' d = if Nat.eq_dec j i then fst (pid_step ops (nth i cs d) o) else nth j cs d.
Proof.
  intro H. destruct (nth_split cs d H) as (a & b & E & La). remember (nth i cs d) as c.
  rewrite E, <- La. unfold withJoint. rewrite vec_get_mid. simpl. destruct (pid_step ops c o) as [c' u]. rewrite vec_set_mid. simpl.
  eexists. split; [reflexivity|]. split; [rewrite !app_length; reflexivity|]. intro j. destruct (Nat.eq_dec j (length a)) as [->|N].
  - rewrite app_nth2 by lia. now rewrite Nat.sub_diag.
  - destruct (lt_dec j (length a)). + now rewrite !app_nth1 by lia.
    + rewrite !app_nth2 by lia. destruct (j - length a) eqn:X; [lia|reflexivity].
Qed.
Definition picks (j : nat) (u : option (list (option Sc))) : list (option Sc) :=
  match u with Some v => [nth j v None] | None => [] end.
Lemma jstep_ok cs o : length cs = n -> valid o ->
  exists cs' u, jstep cs o = Ok (cs', u) /\ length cs' = n /\
  (forall v, u = Some v -> length v = n) /\
  forall j, j < n -> nth j cs' d = pid_exec (nth j cs d) (joint_calls j o) /\
    picks j u = map Some (outputs (pid_run (nth j cs d) (joint_calls j o))).
Proof.
  intros L V.
  assert (A : forall o', (match o' with JSetDesired1 _ _ => False | _ => True end) ->
     exists cs', forJoints ops (call o') (seq 0 n) cs = Ok (cs', map snd (steps (call o') 0 cs)) /\ length cs' = n /\
     forall j, j < n -> nth j cs' d = fst (pid_step ops (nth j cs d) (call o' j)) /\
       nth j (map snd (steps (call o') 0 cs)) None = snd (pid_step ops (nth j cs d) (call o' j))).
  { intros o' _. rewrite all_ok by auto. eexists. split; [reflexivity|]. split.
    - now rewrite map_length, steps_length.
    - intros j Hj. split.
      + rewrite (nth_indep _ d (fst (d, @None Sc))) by (rewrite map_length, steps_length; lia).
        rewrite map_nth. rewrite (steps_nth _ d) by lia. reflexivity.
      + rewrite (nth_indep _ None (snd (d, @None Sc))) by (rewrite map_length, steps_length; lia).
        rewrite map_nth. rewrite (steps_nth _ d) by lia. reflexivity. }
  destruct o as [st|p|p i|kp ki kd|].
  - destruct (A (JCompute st) I) as (cs' & E & L' & H). unfold CtrlModel.jstep. rewrite E. simpl obind.
    eexists. eexists. split; [reflexivity|]. split; [auto|]. split.
    + intros v [= <-]. now rewrite map_length, steps_length.
    + intros j Hj. destruct (H j Hj) as [H1 H2]. simpl fst. rewrite H1. simpl snd. unfold picks. rewrite H2. simpl. auto.
  - destruct (A (JSetDesired p) I) as (cs' & E & L' & H). unfold CtrlModel.jstep. rewrite E. simpl obind.
    eexists. eexists. split; [reflexivity|]. split; [auto|]. split; [discriminate|].
    intros j Hj. destruct (H j Hj) as [H1 H2]. simpl fst. rewrite H1. simpl. auto.
  - unfold CtrlModel.jstep. simpl in V. destruct (Z.ltb_spec i 0); [lia|].
    destruct (withJoint_ok cs (Z.to_nat i) (call (JSetDesired1 p i) 0)) as (cs' & E & L' & H'); [lia|].
    rewrite E. simpl obind. eexists. eexists. split; [reflexivity|]. split; [simpl; lia|]. split; [discriminate|].
    intros j Hj. simpl fst. rewrite H'. simpl joint_calls. simpl picks.
    destruct (Z.eq_dec i (Z.of_nat j)) as [Ez|Nz].
    + destruct (Nat.eq_dec j (Z.to_nat i)); [|lia]. subst. rewrite Nat2Z.id. simpl. auto.
    + destruct (Nat.eq_dec j (Z.to_nat i)); [lia|]. simpl. auto.
  - destruct (A (JSetAllPIDGains kp ki kd) I) as (cs' & E & L' & H). unfold CtrlModel.jstep. rewrite E. simpl obind.
    eexists. eexists. split; [reflexivity|]. split; [auto|]. split; [discriminate|].
    intros j Hj. destruct (H j Hj) as [H1 H2]. simpl fst. rewrite H1. simpl. auto.
  - destruct (A JReset I) as (cs' & E & L' & H). unfold CtrlModel.jstep. rewrite E. simpl obind.
    eexists. eexists. split; [reflexivity|]. split; [auto|]. split; [discriminate|].
    intros j Hj. destruct (H j Hj) as [H1 H2]. simpl fst. rewrite H1. simpl. auto.
Qed.
Lemma jrun_ok : forall hist cs, length cs = n -> Forall valid hist ->
  exists cs' us, jrun cs hist = Ok (cs', us) /\ length cs' = n /\ Forall (fun v => length v = n) us /\
  forall j, j < n -> nth j cs' d = pid_exec (nth j cs d) (flat_map (joint_calls j) hist) /\
    map (fun v => nth j v None) us = map Some (outputs (pid_run (nth j cs d) (flat_map (joint_calls j) hist))).
Proof.
  induction hist as [|o hist IH]; intros cs L V; simpl.
  - eexists. eexists. split; [reflexivity|]. split; [auto|]. split; [constructor|]. auto.
  - inversion V; subst. destruct (jstep_ok cs o L H1) as (c1 & u & E & L1 & U & H). rewrite E. simpl.
    destruct (IH c1 L1 H2) as (c2 & us & E2 & L2 & U2 & H'). rewrite E2. simpl.
    eexists. eexists. split; [reflexivity|]. split; [auto|]. split.
    + destruct u; auto.
    + intros j Hj. destruct (H j Hj) as [A B]. destruct (H' j Hj) as [A' B'].
      rewrite pid_exec_app, pid_run_app, <- A. split; [auto|]. unfold outputs. rewrite !map_app. fold (outputs (pid_run (nth j cs d) (joint_calls j o))).
      rewrite <- B. fold (outputs (pid_run (nth j c1 d) (flat_map (joint_calls j) hist))). rewrite <- B'. destruct u; reflexivity.
Qed.

(** Construction. *)
Lemma newLoop_eq pos vel ps p0 : forall m k acc, k + m <= length ps ->
  newLoop ops pos vel ps (seq k m) acc =
  Ok (acc ++ map (fun i => pid_new ops (nth i ps p0) (mk_setpoint (entry pos i) (entry vel i))) (seq k m)).
Proof.
  induction m as [|m IH]; intros k acc H; simpl.
  - now rewrite app_nil_r.
  - unfold vec_get. rewrite (nth_error_nth' ps p0) by lia. simpl. rewrite IH by lia. now rewrite <- app_assoc.
Qed.
Lemma newSame_eq pos vel p : newControllerSame ops n pos vel p =
  map (fun i => pid_new ops p (mk_setpoint (entry pos i) (entry vel i))) (seq 0 n).
Proof.
  unfold newControllerSame. enough (forall l acc, fold_left (fun acc i => acc ++ [pid_new ops p (mk_setpoint (entry pos i) (entry vel i))]) l acc =
   acc ++ map (fun i => pid_new ops p (mk_setpoint (entry pos i) (entry vel i))) l) by (now rewrite H).
  induction l as [|i l IH]; intro acc; simpl; [now rewrite app_nil_r|]. rewrite IH. now rewrite <- app_assoc.
Qed.
End Spec.

(** Every joint is controlled by its own PID controller: after any history of calls with existing joint numbers the
    controls of joint [j] are those of a single PID controller with the joint's parameters and set-point that has seen
    the joint's part of the history; there is no undefined behaviour and every control has one entry per joint. *)
Theorem C74_joints_independent {Sc : Type} (ops : scalar_ops Sc) (defaults : @pid_params Sc) (n : nat)
  (pos vel : list Sc) (parameters : list (@pid_params Sc)) (p0 : @pid_params Sc) (hist : list (@jop Sc)) :
  n <= length parameters -> Forall (valid n) hist ->
  exists cs cs' us, newController ops n pos vel parameters = Ok cs /\ jrun ops defaults n cs hist = Ok (cs', us) /\
  Forall (fun v => length v = n) us /\
  forall j, j < n ->
    map (fun v => nth j v None) us =
    map Some (map snd (pid_run ops (pid_new ops (nth j parameters p0) {| stateDesired := nth j pos (s_zero ops); stateDerivativeDesired := nth j vel (s_zero ops) |})
                                   (flat_map (joint_calls ops defaults n j) hist))).
Proof.
  intros H V. set (d := pid_new ops p0 (mk_setpoint (s_zero ops) (s_zero ops))).
  unfold newController. rewrite (newLoop_eq ops pos vel parameters p0) by lia. simpl app. set (cs := map _ _).
  assert (L : length cs = n) by (unfold cs; now rewrite map_length, seq_length).
  destruct (jrun_ok ops defaults n d hist cs L V) as (cs' & us & E & L' & U & P).
  exists cs, cs', us. repeat split; auto. intros j Hj. destruct (P j Hj) as [_ ->]. unfold outputs, cs.
  set (g := fun i => pid_new _ _ _). rewrite (nth_indep _ d (g 0)) by (now rewrite map_length, seq_length).
  rewrite map_nth. rewrite seq_nth by auto. reflexivity.
Qed.

(** The constructor with one parameter set is the constructor with that set for every joint. *)
Theorem C74_same_parameters {Sc : Type} (ops : scalar_ops Sc) (n : nat) (pos vel : list Sc) (p : @pid_params Sc) :
  newController ops n pos vel (repeat p n) = Ok (newControllerSame ops n pos vel p).
Proof.
  unfold newController. rewrite (newLoop_eq ops pos vel (repeat p n) p) by (now rewrite repeat_length).
  rewrite newSame_eq. simpl. f_equal. apply map_ext_in. intros i Hi. apply in_seq in Hi.
  now rewrite (nth_repeat p n i).
Qed.

(** Release builds do not check: too few parameter sets and joint numbers that do not exist are undefined behaviour. *)
Theorem C74_unchecked {Sc : Type} (ops : scalar_ops Sc) (defaults : @pid_params Sc) (n : nat) (pos vel : list Sc) :
  (forall parameters, length parameters < n -> newController ops n pos vel parameters = UB) /\
  (forall cs v i, length cs = n -> (i < 0 \/ Z.of_nat n <= i)%Z -> jstep ops defaults n cs (JSetDesired1 v i) = UB).
Proof.
  split.
  - intros ps L. unfold newController.
    enough (G : forall m k acc, length ps < k + m -> k <= length ps -> newLoop ops pos vel ps (seq k m) acc = UB) by (apply G; lia).
    induction m as [|m IH]; intros k acc H1 H2; [lia|]. simpl. unfold vec_get.
    destruct (nth_error ps k) as [q|] eqn:E; simpl; [|reflexivity].
    assert (k < length ps) by (apply nth_error_Some; congruence). apply IH; lia.
  - intros cs v i L H. unfold jstep. destruct (Z.ltb_spec i 0); [reflexivity|]. unfold withJoint, vec_get.
    destruct (nth_error cs (Z.to_nat i)) as [q|] eqn:E; [|reflexivity].
    assert (Z.to_nat i < length cs) by (apply nth_error_Some; congruence). lia.
Qed.

(** Changing the gains of all joints also replaces the limits and the time step: a controller limited to controls in
    [-1, 1] returns 2, whatever (at least 2) the default limit is. *)
Theorem C74_gains_refuted (defaults : @pid_params Q) : (2 <= uMax defaults)%Q -> (uMin defaults <= 0)%Q -> (2 <= Imax defaults)%Q ->
  let p := mk_pid_params 1%Q 0%Q 0%Q 1%Q 1%Q (-1)%Q 1%Q in
  let cs := newControllerSame Qops 1 [0%Q] [0%Q] p in
  exists c1 c2 u1 u2, jrun Qops defaults 1 cs [JCompute [(-2)%Q; 0%Q]; JSetAllPIDGains 1%Q 0%Q 0%Q; JCompute [(-2)%Q; 0%Q]] =
    Ok (c2, [[Some u1]; [Some u2]]) /\ jrun Qops defaults 1 cs [JCompute [(-2)%Q; 0%Q]; JCompute [(-2)%Q; 0%Q]] = Ok (c1, [[Some u1]; [Some u1]]) /\
    (u1 == 1)%Q /\ (u2 == 2)%Q.
Proof.
  intros H1 H2 H3 p cs. destruct defaults as [dp di dd dI ddt dmin dmax]. simpl in H1, H2, H3.
  assert (F : forall a b : Q, (b <= a)%Q -> s_ltb Qops a b = false).
  { intros a b H. simpl. destruct (Qle_bool b a) eqn:E; [reflexivity|]. apply Qle_bool_iff in H. congruence. }
  set (c1 := mk_pid (-2)%Q (0 + 0 * (0 - -2) * 1)%Q p (mk_setpoint 0%Q 0%Q)).
  set (q := mk_pid_params 1%Q 0%Q 0%Q dI ddt dmin dmax).
  set (c2 := mk_pid (-2)%Q (0 + 0 * (0 - -2) * 1 + 0 * (0 - -2) * ddt)%Q q (mk_setpoint 0%Q 0%Q)).
  assert (E2 : pid_step Qops (mk_pid (-2)%Q (0 + 0 * (0 - -2) * 1)%Q q (mk_setpoint 0%Q 0%Q)) (PComputeD (-2)%Q 0%Q) =
     (c2, Some (1 * (0 - -2) + (0 + 0 * (0 - -2) * 1 + 0 * (0 - -2) * ddt) + 0 * (0 - 0))%Q)).
  { unfold pid_step, computeControl_d, computeI, saturateControl, q. cbn [params I_ setpoint Imax uMin uMax k_p k_i k_d dt stateDesired stateDerivativeDesired].
    set (i1 := s_add Qops _ _). rewrite (F dI i1) by (unfold i1; simpl; lra). rewrite (F i1) by (unfold i1; simpl; lra).
    set (u := s_add Qops _ _). rewrite (F dmax u) by (unfold u, i1; simpl; lra). rewrite (F u) by (unfold u, i1; simpl; lra). reflexivity. }
  exists [mk_pid (-2)%Q (0 + 0 * (0 - -2) * 1 + 0 * (0 - -2) * 1)%Q p (mk_setpoint 0%Q 0%Q)], [c2], 1%Q, (1 * (0 - -2) + (0 + 0 * (0 - -2) * 1 + 0 * (0 - -2) * ddt) + 0 * (0 - 0))%Q.
  repeat split.
  - unfold jrun, jstep, forJoints, withJoint. cbn [seq]. cbn -[pid_step]. 
    change (pid_step Qops (pid_new Qops p (mk_setpoint 0%Q 0%Q)) (PComputeD (-2)%Q 0%Q)) with (c1, Some 1%Q). cbn -[pid_step].
    change (pid_step Qops c1 (PChangeParameters (mk_pid_params 1%Q 0%Q 0%Q dI ddt dmin dmax))) with (mk_pid (-2)%Q (0 + 0 * (0 - -2) * 1)%Q q (mk_setpoint 0%Q 0%Q), @None Q). cbn -[pid_step].
    rewrite E2. reflexivity.
  - lra.
Qed.

(** clone() of both controllers throws: a closed loop system holding one cannot be cloned. *)
Theorem C74_clone_refuted {Sc : Type} (cs : list (@pid Sc)) : clone cs = Throw.
Proof. reflexivity. Qed.

(** The whole body controller applies the joint controller to the joint positions and velocities of the state vector, and
    to nothing else: of a state vector in Euler coordinates and of the one written by a robot state [x]. *)
Theorem C74_whole_body (quatOfEuler eulerOfQuat : list R -> list R) (defaults : @pid_params R) (n : nat) (st : storage) (cs : list (@pid R)) :
  (forall base q w d, length base = 6 -> length q = n -> length w = 6 -> length d = n ->
    wholeBodyControl quatOfEuler defaults n st cs (base ++ q ++ w ++ d) = jstep Rops defaults n cs (JCompute (q ++ d))) /\
  (forall x : rbd, wf n x -> length (getEulerAnglesXyz eulerOfQuat (r_pose x)) = 3 ->
    wholeBodyControl quatOfEuler defaults n st cs (toStateVectorEulerXyz eulerOfQuat n x) = jstep Rops defaults n cs (JCompute (r_joints x))).
Proof.
  split.
  - intros base q w d Lb Lq Lw Ld. unfold wholeBodyControl.
    rewrite <- (firstn_skipn 3 base), <- (firstn_skipn 3 w), <- !app_assoc.
    rewrite fromE_parts; auto; rewrite ?firstn_length, ?skipn_length; lia.
  - intros x (Lp & Lw & Lv & Lj) Lo. unfold wholeBodyControl.
    unfold toStateVectorEulerXyz, toCoordinatePosition, toCoordinateVelocity, getPositions, getVelocities.
    rewrite <- !app_assoc. rewrite fromE_parts; try (auto; rewrite ?firstn_length, ?skipn_length; lia). simpl r_joints.
    now rewrite firstn_skipn.
Qed.

(** The hypotheses can be met: two joints, a history with all calls, and what joint 1 computes. *)
Example C74_example :
  let p := mk_pid_params 2%Q 1%Q 1%Q 10%Q 1%Q (-50)%Q 50%Q in
  let hist := [JCompute [1%Q; 2%Q; 0%Q; 0%Q]; JSetDesired1 5%Q 1%Z; JCompute [1%Q; 2%Q; 0%Q; 1%Q]; JReset; JCompute [0%Q; 0%Q; 0%Q; 0%Q]] in
  2 <= length [p; p] /\ Forall (valid 2) hist /\
  exists cs, jrun Qops p 2 (newControllerSame Qops 2 [0%Q; 0%Q] [0%Q; 0%Q] p) hist =
    Ok (cs, [[Some (-3)%Q; Some (-6)%Q]; [Some (-4)%Q; Some 6%Q]; [Some 0%Q; Some 15%Q]]).
Proof.
  intros p hist. split; [simpl; lia|]. split.
  - repeat constructor; simpl; lia.
  - eexists. vm_compute. reflexivity.
Qed.
Print Assumptions C74_joints_independent.
Print Assumptions C74_same_parameters.
Print Assumptions C74_unchecked.
Print Assumptions C74_gains_refuted.
Print Assumptions C74_clone_refuted.
Print Assumptions C74_whole_body.
