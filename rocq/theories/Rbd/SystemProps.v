(** C72: the robot systems are the equations of motion of the robot with its actuators and external forces. *)
From Coq Require Import Reals List Lia.
From Verif Require Import Base.Outcome Rbd.SystemModel.
Import ListNotations.
Local Open Scope R_scope.

(** * Lists *)

Lemma head_app (a b : list R) k : length a = k -> head k (a ++ b) = a.
Proof. intros <-. unfold head. now rewrite firstn_app, firstn_all, Nat.sub_diag, app_nil_r. Qed.
Lemma tail_app (a b : list R) k : length b = k -> tail k (a ++ b) = b.
Proof. intros <-. unfold tail. rewrite app_length, Nat.add_sub. now rewrite skipn_app, skipn_all, Nat.sub_diag. Qed.
Lemma segm_app (a b c : list R) i k : length a = i -> length b = k -> segm i k (a ++ b ++ c) = b.
Proof. intros <- Hb. unfold segm. rewrite skipn_app, skipn_all, Nat.sub_diag. cbn [app skipn]. now apply head_app. Qed.
Lemma segm_app0 (a b : list R) i k : length a = i -> length b = k -> segm i k (a ++ b) = b.
Proof. intros Ha Hb. rewrite <- (app_nil_r b) at 1. now apply segm_app. Qed.
Lemma put_app (a b c v : list R) i : length a = i -> length b = length v -> put (a ++ b ++ c) i v = a ++ v ++ c.
Proof.
  intros <- Hb. unfold put. rewrite firstn_app, firstn_all, Nat.sub_diag, app_nil_r. f_equal. f_equal.
  rewrite skipn_app. rewrite (skipn_all2 a) by lia. rewrite <- Hb, Nat.add_comm, Nat.add_sub. now rewrite skipn_app, skipn_all, Nat.sub_diag.
Qed.
Lemma cut (l : list R) k : (k <= length l)%nat -> exists a b, l = a ++ b /\ length a = k /\ length b = (length l - k)%nat.
Proof. intros H. exists (firstn k l), (skipn k l). rewrite firstn_skipn, firstn_length, skipn_length. repeat split; lia. Qed.

Section C72.
Context {W Pose : Type} (wzero : W).
Variables (n nlinks nee : nat) (linkOf : nat -> nat).
Variable mapForce : list R -> Pose -> list R -> nat -> W.
Variable FD : list R -> list R -> list R -> list W -> list R.

(** * Specification *)

(** The generated forward dynamics returns one acceleration per joint. *)
Definition fd_size : Prop := forall q qd tau lf, length (FD q qd tau lf) = n.
(** Every end-effector belongs to a link of the robot. *)
Definition links_valid : Prop := forall i, (i < nee)%nat -> (linkOf i < nlinks)%nat.
(** No two end-effectors are on the same link. *)
Definition links_distinct : Prop := forall i j, (i < nee)%nat -> (j < nee)%nat -> linkOf i = linkOf j -> i = j.
(** The external forces on the links: the mapped force of the end-effector on its link, zero on all others. *)
Definition wrenches (lf : list W) (force : nat -> list R) (pose : Pose) (q : list R) : Prop :=
  length lf = nlinks /\
  (forall i, (i < nee)%nat -> nth_error lf (linkOf i) = Some (mapForce (force i) pose q i)) /\
  (forall l, (l < nlinks)%nat -> (forall i, (i < nee)%nat -> linkOf i <> l) -> nth_error lf l = Some wzero).

(** * Proofs *)

Local Notation mapForces := (mapForces W Pose linkOf mapForce).
Local Notation linkForces := (linkForces W Pose wzero n nlinks nee linkOf mapForce).

Lemma mapSet_spec (m : list W) l w m' : mapSet m l w = Ok m' ->
  length m' = length m /\ nth_error m' l = Some w /\ forall k, k <> l -> nth_error m' k = nth_error m k.
Proof.
  unfold mapSet. destruct (Nat.ltb_spec l (length m)) as [L|L]; [|discriminate]. intros E. apply Ok_inj in E. subst m'.
  assert (Lf : length (firstn l m) = l) by (rewrite firstn_length; lia).
  split; [|split].
  - rewrite app_length, Lf. cbn [length]. rewrite skipn_length. lia.
  - rewrite nth_error_app2 by lia. rewrite Lf, Nat.sub_diag. reflexivity.
  - intros k Hk. destruct (Nat.lt_ge_cases k l) as [K|K].
    + rewrite nth_error_app1 by lia. rewrite <- (firstn_skipn l m) at 2. now rewrite nth_error_app1 by lia.
    + rewrite nth_error_app2 by lia. rewrite Lf. destruct (k - l)%nat as [|d] eqn:D; [lia|]. cbn [nth_error].
      rewrite <- (firstn_skipn (S l) m) at 2. rewrite nth_error_app2 by (rewrite firstn_length; lia).
      rewrite firstn_length. f_equal. lia.
Qed.
Lemma mapSet_ok (m : list W) l w : (l < length m)%nat -> exists m', mapSet m l w = Ok m'.
Proof. intros L. unfold mapSet. destruct (Nat.ltb_spec l (length m)); [eauto|lia]. Qed.

Lemma mapForces_spec force pose q : forall is lf, NoDup is -> (forall i, List.In i is -> (linkOf i < length lf)%nat) ->
  (forall i j, List.In i is -> List.In j is -> linkOf i = linkOf j -> i = j) ->
  exists lf', mapForces is force pose q lf = Ok lf' /\ length lf' = length lf /\
    (forall i, List.In i is -> nth_error lf' (linkOf i) = Some (mapForce (force i) pose q i)) /\
    (forall l, (forall i, List.In i is -> linkOf i <> l) -> nth_error lf' l = nth_error lf l).
Proof.
  induction is as [|a is IH]; intros lf ND V D.
  - exists lf. split; [reflexivity|]. split; [reflexivity|]. split; [intros i []|auto].
  - inversion ND as [|? ? Na Ni]; subst. destruct (mapSet_ok lf (linkOf a) (mapForce (force a) pose q a)) as (lf1 & E1).
    { apply V. now left. }
    destruct (mapSet_spec _ _ _ _ E1) as (L1 & S1 & O1).
    destruct (IH lf1) as (lf2 & E2 & L2 & S2 & O2); auto.
    { intros i Hi. rewrite L1. apply V. now right. }
    { intros i j Hi Hj. apply D; now right. }
    exists lf2. cbn [SystemModel.mapForces]. rewrite E1. cbn [obind]. split; [exact E2|]. split; [lia|]. split.
    + intros i [<-|Hi]; [|auto]. rewrite O2; auto. intros j Hj E. assert (j = a) by (apply D; [now right|now left|auto]). now subst.
    + intros l Hl. rewrite O2 by (intros i Hi; apply Hl; now right). apply O1. intros ->. apply (Hl a); [now left|reflexivity].
Qed.
Lemma linkForces_spec control pose q : links_valid -> links_distinct ->
  exists lf, linkForces true control pose q = Ok lf /\ wrenches lf (fun i => segm (n + i * 3) 3 control) pose q.
Proof.
  intros V D. unfold SystemModel.linkForces.
  destruct (mapForces_spec (fun i => segm (n + i * 3) 3 control) pose q (seq 0 nee) (repeat wzero nlinks)) as (lf & E & L & S & O).
  - apply seq_NoDup.
  - intros i Hi. rewrite in_seq in Hi. rewrite repeat_length. apply V. lia.
  - intros i j Hi Hj. rewrite in_seq in Hi, Hj. apply D; lia.
  - exists lf. split; [exact E|]. rewrite repeat_length in L. split; [exact L|]. split.
    + intros i Hi. apply S. rewrite in_seq. lia.
    + intros l Hl Hn. rewrite O.
      * rewrite nth_error_nth' with (d := wzero) by (now rewrite repeat_length). now rewrite nth_repeat.
      * intros i Hi. rewrite in_seq in Hi. apply Hn. lia.
Qed.

(** Two writes that agree except for one element, which is written again later. *)
Lemma mapSet_agree (m1 m2 : list W) l w : length m1 = length m2 -> (forall k, k <> l -> nth_error m1 k = nth_error m2 k) ->
  mapSet m1 l w = mapSet m2 l w.
Proof.
  intros L A. unfold mapSet. rewrite <- L. destruct (Nat.ltb_spec l (length m1)) as [H|H]; [|reflexivity]. f_equal.
  apply f_equal2.
  - assert (G : forall (a b : list W) k, length a = length b -> (forall i, (i < k)%nat -> nth_error a i = nth_error b i) -> firstn k a = firstn k b).
    { induction a as [|x a IH]; intros [|y b] k Hl Hk; try discriminate; [reflexivity|]. destruct k; [reflexivity|]. cbn [firstn].
      pose proof (Hk 0%nat ltac:(lia)) as H0. cbn in H0. injection H0 as ->. f_equal. apply IH; [now injection Hl|].
      intros i Hi. apply (Hk (S i)). lia. }
    apply G; auto. intros i Hi. apply A. lia.
  - f_equal. assert (G : forall (a b : list W) k, length a = length b -> (forall i, (k <= i)%nat -> nth_error a i = nth_error b i) -> skipn k a = skipn k b).
    { induction a as [|x a IH]; intros [|y b] k Hl Hk; try discriminate; [reflexivity|]. destruct k.
      - cbn [skipn]. pose proof (Hk 0%nat ltac:(lia)) as H0. cbn in H0. injection H0 as ->. f_equal.
        apply (IH b 0%nat); [now injection Hl|]. intros i Hi. apply (Hk (S i)). lia.
      - cbn [skipn]. apply IH; [now injection Hl|]. intros i Hi. apply (Hk (S i)). lia. }
    apply G; auto. intros i Hi. apply A. lia.
Qed.
Lemma mapForces_overwritten f1 f2 pose q l : forall is lf1 lf2, length lf1 = length lf2 ->
  (forall k, k <> l -> nth_error lf1 k = nth_error lf2 k) -> (forall i, List.In i is -> f1 i = f2 i) ->
  (exists j, List.In j is /\ linkOf j = l) -> mapForces is f1 pose q lf1 = mapForces is f2 pose q lf2.
Proof.
  induction is as [|a is IH]; intros lf1 lf2 L A F (j & Hj & El); [destruct Hj|]. cbn [SystemModel.mapForces].
  rewrite (F a) by (now left). destruct (Nat.eq_dec (linkOf a) l) as [E|E].
  - rewrite (mapSet_agree lf1 lf2) by (auto; now rewrite E). destruct (mapSet lf2 _ _) as [m| |]; try reflexivity. cbn [obind].
    clear - F. assert (G : forall is m, (forall i, List.In i is -> f1 i = f2 i) -> mapForces is f1 pose q m = mapForces is f2 pose q m).
    { intros l'. induction l' as [|b l' IH']; intros m' H; [reflexivity|]. cbn [SystemModel.mapForces]. rewrite (H b) by (now left).
      destruct (mapSet _ _ _); try reflexivity. cbn [obind]. apply IH'. intros i Hi. apply H. now right. }
    apply G. intros i Hi. apply F. now right.
  - destruct (Nat.lt_ge_cases (linkOf a) (length lf1)) as [B|B].
    + destruct (mapSet_ok lf1 (linkOf a) (mapForce (f2 a) pose q a) B) as (m1 & E1). rewrite E1.
      destruct (mapSet_ok lf2 (linkOf a) (mapForce (f2 a) pose q a)) as (m2 & E2); [lia|]. rewrite E2. cbn [obind].
      destruct (mapSet_spec _ _ _ _ E1) as (L1 & S1 & O1). destruct (mapSet_spec _ _ _ _ E2) as (L2 & S2 & O2).
      apply IH.
      * lia.
      * intros k Hk. destruct (Nat.eq_dec k (linkOf a)) as [->|Nk]; [congruence|]. rewrite O1, O2 by auto. now apply A.
      * intros i Hi. apply F. now right.
      * destruct Hj as [<-|Hj]; [contradiction|]. now exists j.
    + unfold mapSet. destruct (Nat.ltb_spec (linkOf a) (length lf1)); [lia|]. destruct (Nat.ltb_spec (linkOf a) (length lf2)); [lia|]. reflexivity.
Qed.
Lemma mapForces_ignored i j f1 f2 pose q lf : (i < j < nee)%nat -> linkOf i = linkOf j -> (forall k, k <> i -> f1 k = f2 k) ->
  mapForces (seq 0 nee) f1 pose q lf = mapForces (seq 0 nee) f2 pose q lf.
Proof.
  intros Hij El F. assert (G : forall m s lf, (s <= i)%nat -> (j < s + m)%nat ->
    mapForces (seq s m) f1 pose q lf = mapForces (seq s m) f2 pose q lf).
  { induction m as [|m IH]; intros s lf' Hs Hm; [lia|]. cbn [seq SystemModel.mapForces].
    destruct (Nat.eq_dec s i) as [->|Ns].
    - destruct (Nat.lt_ge_cases (linkOf i) (length lf')) as [B|B].
      + destruct (mapSet_ok lf' (linkOf i) (mapForce (f1 i) pose q i) B) as (m1 & E1). rewrite E1.
        destruct (mapSet_ok lf' (linkOf i) (mapForce (f2 i) pose q i) B) as (m2 & E2). rewrite E2. cbn [obind].
        destruct (mapSet_spec _ _ _ _ E1) as (L1 & S1 & O1). destruct (mapSet_spec _ _ _ _ E2) as (L2 & S2 & O2).
        apply (mapForces_overwritten f1 f2 pose q (linkOf i)).
        * lia.
        * intros k Hk. now rewrite O1, O2.
        * intros k Hk. rewrite in_seq in Hk. apply F. lia.
        * exists j. rewrite in_seq. split; [lia|auto].
      + unfold mapSet. destruct (Nat.ltb_spec (linkOf i) (length lf')); [lia|reflexivity].
    - rewrite (F s) by auto. destruct (mapSet _ _ _); try reflexivity. cbn [obind]. apply IH; lia. }
  apply G; lia.
Qed.

(** * C72 *)

Local Notation fixDynamics := (fixDynamics W Pose wzero n nlinks nee linkOf mapForce FD).
Local Notation symDynamics := (symDynamics W Pose wzero n nlinks nee linkOf mapForce FD).

(** Full claim: the derivative of the state of a fixed base robot is (velocities, accelerations of the forward dynamics under
    the commanded torques and all end-effector forces, actuator derivative).  Without actuators, proved when no two
    end-effectors share a link; sharing is refuted below. *)
Theorem C72_torques_partial (s : fixBase Pose) (q qd tau fs d : list R) (t : R) : fd_size -> f_m Pose s = 0%nat ->
  length q = n -> length qd = n -> length tau = n -> length d = (n + n)%nat ->
  (f_ee Pose s = false -> fixDynamics s (q ++ qd) t tau d = Ok (qd ++ FD q qd tau (repeat wzero nlinks))) /\
  (f_ee Pose s = true -> links_valid -> links_distinct ->
   exists lf, fixDynamics s (q ++ qd) t (tau ++ fs) d = Ok (qd ++ FD q qd tau lf) /\
     wrenches lf (fun i => segm (i * 3) 3 fs) (f_pose Pose s) q).
Proof.
  intros HF Hm Lq Lqd Lt Ld. destruct (cut d n) as (d1 & d2 & -> & L1 & L2); [lia|]. rewrite app_length in Ld, L2.
  assert (P : forall acc, length acc = n -> put (put (d1 ++ d2) 0 qd) n acc = qd ++ acc).
  { intros acc La. replace (d1 ++ d2) with ([] ++ d1 ++ d2) by reflexivity. rewrite put_app by (simpl; lia). cbn [app].
    replace (qd ++ d2) with (qd ++ d2 ++ []) by (now rewrite app_nil_r). rewrite put_app by lia. now rewrite app_nil_r. }
  unfold SystemModel.fixDynamics. rewrite Hm. fold (head n (q ++ qd)). rewrite !head_app, segm_app0 by auto. split.
  - intros Ee. rewrite Ee. cbn [obind]. unfold SystemModel.linkForces. cbn [obind]. rewrite P by apply HF.
    rewrite <- (app_nil_r tau), head_app by auto. now rewrite app_nil_r.
  - intros Ee V D. rewrite Ee. cbn [obind].
    destruct (linkForces_spec (tau ++ fs) (f_pose Pose s) q V D) as (lf & E & L & S & O).
    rewrite E. cbn [obind]. rewrite head_app by auto. rewrite P by apply HF. exists lf. split; [reflexivity|].
    split; [exact L|]. split; [|exact O]. intros i Hi. rewrite S by auto. f_equal. f_equal. unfold segm.
    rewrite skipn_app. rewrite (skipn_all2 tau) by lia. cbn [app]. f_equal. f_equal. lia.
Qed.
(** REFUTED: if an end-effector shares its link with a later one, the force on it has no effect on the motion. *)
Theorem C72_shared_link_refuted (s : fixBase Pose) (state d u1 u2 : list R) (t : R) (i j : nat) :
  f_m Pose s = 0%nat -> f_ee Pose s = true -> (i < j < nee)%nat -> linkOf i = linkOf j ->
  head n u1 = head n u2 ->
  (forall k, k <> i -> segm (n + k * 3) 3 u1 = segm (n + k * 3) 3 u2) ->
  fixDynamics s state t u1 d = fixDynamics s state t u2 d.
Proof.
  intros Hm He Hij El H1 F. unfold SystemModel.fixDynamics. rewrite Hm, He. cbn [obind]. unfold SystemModel.linkForces.
  rewrite (mapForces_ignored i j (fun k => segm (n + k * 3) 3 u1) (fun k => segm (n + k * 3) 3 u2)) by auto.
  now rewrite H1.
Qed.

(** With actuators: the actuators are driven by the commanded control, the joints by the actuators' output. *)
Theorem C72_actuators (s : fixBase Pose) (a : actuator) (q qd act u d : list R) (t : R) : fd_size -> (0 < f_m Pose s)%nat ->
  f_ee Pose s = false -> f_act Pose s = Some a ->
  length q = n -> length qd = n -> length act = f_m Pose s -> length u = n -> length d = (n + n + f_m Pose s)%nat ->
  length (a_dynamics a q qd act t u) = f_m Pose s -> length (a_output a q qd act) = n ->
  fixDynamics s (q ++ qd ++ act) t u d =
    Ok (qd ++ FD q qd (a_output a q qd act) (repeat wzero nlinks) ++ a_dynamics a q qd act t u).
Proof.
  intros HF Hm Ee Ea Lq Lqd La Lu Ld Ldyn Lo.
  destruct (cut d n) as (d1 & d' & -> & L1 & L'); [lia|]. rewrite app_length in Ld, L'.
  destruct (cut d' n) as (d2 & d3 & -> & L2 & L3); [lia|]. rewrite app_length in Ld, L', L3.
  unfold SystemModel.fixDynamics. destruct (f_m Pose s) as [|m] eqn:Em; [lia|]. rewrite <- Em in *. rewrite Ea, Ee. cbn [obind].
  fold (head n (q ++ qd ++ act)). rewrite (head_app q), segm_app by auto.
  replace (q ++ qd ++ act) with ((q ++ qd) ++ act) by (now rewrite <- !app_assoc). rewrite tail_app by auto.
  assert (Hu : head n u = u) by (rewrite <- (app_nil_r u); now rewrite head_app, app_nil_r).
  rewrite Hu. unfold SystemModel.linkForces. cbn [obind].
  assert (Ho : head n (a_output a q qd act) = a_output a q qd act) by (rewrite <- (app_nil_r (a_output _ _ _ _)); now rewrite head_app, app_nil_r).
  rewrite Ho. f_equal. set (A := a_dynamics _ _ _ _ _ _) in *. set (F := FD _ _ _ _).
  assert (LF : length F = n) by apply HF.
  replace (d1 ++ d2 ++ d3) with ([] ++ d1 ++ (d2 ++ d3)) by reflexivity. rewrite put_app by (simpl; lia). cbn [app].
  rewrite (app_length qd), (app_length d2).
  replace (qd ++ d2 ++ d3) with ((qd ++ d2) ++ d3 ++ []) by (now rewrite app_nil_r, <- !app_assoc).
  rewrite put_app by (rewrite ?app_length; lia). rewrite app_nil_r, <- app_assoc.
  rewrite put_app by lia. reflexivity.
Qed.
(** At an actuator state that gives the torque tau, the joints accelerate as if tau were applied to them. *)
Theorem C72_consistent_state (s s0 : fixBase Pose) (a : actuator) (q qd act u tau d d0 x x0 : list R) (t : R) : fd_size ->
  (0 < f_m Pose s)%nat -> f_ee Pose s = false -> f_act Pose s = Some a -> f_m Pose s0 = 0%nat -> f_ee Pose s0 = false ->
  length q = n -> length qd = n -> length act = f_m Pose s -> length u = n -> length tau = n ->
  length d = (n + n + f_m Pose s)%nat -> length d0 = (n + n)%nat ->
  length (a_dynamics a q qd act t u) = f_m Pose s -> a_output a q qd act = tau ->
  fixDynamics s (q ++ qd ++ act) t u d = Ok x -> fixDynamics s0 (q ++ qd) t tau d0 = Ok x0 -> head (n + n) x = x0.
Proof.
  intros HF Hm Ee Ea Hm0 Ee0 Lq Lqd La Lu Lt Ld Ld0 Ldyn <- H H0.
  rewrite (C72_actuators s a) in H by auto. apply Ok_inj in H. subst x.
  destruct (C72_torques_partial s0 q qd (a_output a q qd act) [] d0 t) as (T & _); auto. rewrite T in H0 by auto. apply Ok_inj in H0. subst x0.
  rewrite app_assoc. apply head_app. rewrite app_length, HF. lia.
Qed.
(** REFUTED: a system with actuator states can be constructed without actuators (default constructor); evaluating it is
    undefined. *)
Theorem C72_null_actuator_refuted (s : fixBase Pose) (state u d : list R) (t : R) : (0 < f_m Pose s)%nat -> f_act Pose s = None ->
  fixDynamics s state t u d = UB.
Proof. intros Hm Ha. unfold SystemModel.fixDynamics. destruct (f_m Pose s); [lia|]. now rewrite Ha. Qed.

(** The symplectic system is the same system with the state in the order (joint positions, actuator positions, joint
    velocities, actuator velocities), when its actuators are. *)
Theorem C72_symplectic (s : fixSym Pose) (s' : fixBase Pose) (h : nat) (q pa qd va u pd0 vd0 d : list R) (t : R) : fd_size ->
  y_m Pose s = (h + h)%nat -> f_m Pose s' = (h + h)%nat -> y_pose Pose s = f_pose Pose s' -> y_ee Pose s = f_ee Pose s' ->
  (h = 0%nat \/ f_ee Pose s' = false) ->
  (forall a, y_act Pose s = Some a -> exists a', f_act Pose s' = Some a' /\
     length (s_pdot a q qd (pa ++ va) va (head n u)) = h /\ length (s_vdot a q qd (pa ++ va) pa (head n u)) = h /\
     a_dynamics a' q qd (pa ++ va) t (head n u) = s_pdot a q qd (pa ++ va) va (head n u) ++ s_vdot a q qd (pa ++ va) pa (head n u) /\
     a_output a' q qd (pa ++ va) = s_output a q qd (pa ++ va)) ->
  (y_act Pose s = None -> f_act Pose s' = None) ->
  length q = n -> length pa = h -> length qd = n -> length va = h -> length pd0 = (n + h)%nat -> length vd0 = (n + h)%nat ->
  length d = (n + n + (h + h))%nat ->
  match symDynamics s pd0 vd0 (q ++ pa ++ qd ++ va) u, fixDynamics s' (q ++ qd ++ pa ++ va) t u d with
  | Ok y, Ok x => exists dq dpa dqd dva, y = dq ++ dpa ++ dqd ++ dva /\ x = dq ++ dqd ++ dpa ++ dva /\
      length dq = n /\ length dpa = h /\ length dqd = n /\ length dva = h
  | UB, UB => True
  | Throw, Throw => True
  | _, _ => False
  end.
Proof.
  intros HF Hm Hm' Ep Ee Hc HA HN Lq Lpa Lqd Lva Lp Lv Ld.
  assert (Hh : symHalf Pose n s = (n + h)%nat).
  { unfold symHalf. rewrite Hm. replace (n + n + (h + h))%nat with (2 * (n + h))%nat by lia. apply Nat.div2_double. }
  destruct (cut pd0 n) as (p1 & p2 & -> & Lp1 & Lp2); [lia|]. rewrite app_length in Lp, Lp2.
  destruct (cut vd0 n) as (v1 & v2 & -> & Lv1 & Lv2); [lia|]. rewrite app_length in Lv, Lv2.
  destruct (cut d n) as (d1 & d' & -> & L1 & L'); [lia|]. rewrite app_length in Ld, L'.
  destruct (cut d' n) as (d2 & d3 & -> & L2 & L3); [lia|]. rewrite app_length in Ld, L', L3.
  unfold SystemModel.symDynamics, symPdot, symVdot, SystemModel.fixDynamics, symQ, symQd. rewrite Hh, Hm, Hm', Ep, Ee.
  replace (Nat.div2 (h + h)) with h by (replace (h + h)%nat with (2 * h)%nat by lia; now rewrite Nat.div2_double).
  fold (head n (q ++ qd ++ pa ++ va)).
  assert (X1 : tail (n + h) (q ++ pa ++ qd ++ va) = qd ++ va).
  { replace (q ++ pa ++ qd ++ va) with ((q ++ pa) ++ qd ++ va) by (now rewrite <- !app_assoc). apply tail_app. rewrite app_length. lia. }
  assert (X2 : head (n + h) (q ++ pa ++ qd ++ va) = q ++ pa).
  { replace (q ++ pa ++ qd ++ va) with ((q ++ pa) ++ qd ++ va) by (now rewrite <- !app_assoc). apply head_app. rewrite app_length. lia. }
  assert (X3 : segm (n + h) n (q ++ pa ++ qd ++ va) = qd).
  { replace (q ++ pa ++ qd ++ va) with ((q ++ pa) ++ qd ++ va) by (now rewrite <- !app_assoc). apply segm_app; auto. rewrite app_length. lia. }
  assert (X4 : tail h (q ++ pa ++ qd ++ va) = va).
  { replace (q ++ pa ++ qd ++ va) with ((q ++ pa ++ qd) ++ va) by (now rewrite <- !app_assoc). apply tail_app; auto. }
  assert (X5 : tail (h + h) (q ++ qd ++ pa ++ va) = pa ++ va).
  { replace (q ++ qd ++ pa ++ va) with ((q ++ qd) ++ pa ++ va) by (now rewrite <- !app_assoc). apply tail_app. rewrite app_length. lia. }
  rewrite X1, X2, X3, X4, X5, !(head_app q), (head_app qd), (tail_app qd), (segm_app q pa), (segm_app q qd), (segm_app0 q pa) by auto.
  assert (Q1 : put (p1 ++ p2) 0 qd = qd ++ p2).
  { replace (p1 ++ p2) with ([] ++ p1 ++ p2) by reflexivity. rewrite put_app by (simpl; lia). reflexivity. }
  assert (Q2 : put (d1 ++ d2 ++ d3) 0 qd = qd ++ d2 ++ d3).
  { replace (d1 ++ d2 ++ d3) with ([] ++ d1 ++ d2 ++ d3) by reflexivity. rewrite put_app by (simpl; lia). reflexivity. }
  rewrite Q1, Q2. destruct (h + h)%nat as [|m] eqn:Ehh.
  - assert (h = 0)%nat by lia.
    assert (pa = []) by (apply length_zero_iff_nil; lia). assert (va = []) by (apply length_zero_iff_nil; lia).
    assert (p2 = []) by (apply length_zero_iff_nil; lia). assert (v2 = []) by (apply length_zero_iff_nil; lia).
    assert (d3 = []) by (apply length_zero_iff_nil; lia). subst pa va p2 v2 d3. cbn [obind].
    destruct (SystemModel.linkForces _ _ _ _ _ _ _ _ _ _ _ _) as [lf| |]; cbn [obind]; auto.
    set (F := FD _ _ _ _). assert (LF : length F = n) by apply HF.
    exists qd, [], F, []. rewrite !app_nil_r. cbn [app].
    replace v1 with ([] ++ v1 ++ []) by (now rewrite app_nil_r). rewrite put_app by (simpl; lia).
    replace (qd ++ d2) with (qd ++ d2 ++ []) by (now rewrite app_nil_r). rewrite put_app by lia. rewrite !app_nil_r. cbn [length]. auto 10.
  - rewrite <- Ehh in *. destruct (y_act Pose s) as [a|]; [|now rewrite HN].
    destruct (HA a eq_refl) as (a' & Ea' & Lsp & Lsv & Edyn & Eout). rewrite Ea', Edyn, Eout. cbn [obind].
    destruct Hc as [->|Hc]; [lia|]. rewrite Hc. unfold SystemModel.linkForces. cbn [obind].
    set (sp := s_pdot _ _ _ _ _ _) in *. set (sv := s_vdot _ _ _ _ _ _) in *.
    set (F := FD _ _ _ _). assert (LF : length F = n) by apply HF.
    exists qd, sp, F, sv. rewrite !app_length.
    replace (qd ++ p2) with (qd ++ p2 ++ []) by (now rewrite app_nil_r). rewrite (put_app qd p2 [] sp) by lia.
    replace (v1 ++ v2) with (v1 ++ v2 ++ []) by (now rewrite app_nil_r). rewrite (put_app v1 v2 [] sv) by lia.
    replace (v1 ++ sv ++ []) with ([] ++ v1 ++ sv) by (now rewrite app_nil_r). rewrite (put_app [] v1 sv F) by (simpl; lia).
    replace (qd ++ d2 ++ d3) with ((qd ++ d2) ++ d3 ++ []) by (now rewrite app_nil_r, <- !app_assoc).
    rewrite (put_app (qd ++ d2) d3 [] (sp ++ sv)) by (rewrite ?app_length; lia).
    replace ((qd ++ d2) ++ (sp ++ sv) ++ []) with (qd ++ d2 ++ (sp ++ sv)) by (now rewrite app_nil_r, <- !app_assoc).
    rewrite (put_app qd d2 (sp ++ sv) F) by lia.
    rewrite !app_nil_r, <- !app_assoc. cbn [app]. auto 10.
Qed.

(** Copies of a fixed base system behave like the original. *)
Theorem C72_copy (s : fixBase Pose) (state u d : list R) (t : R) :
  fixDynamics (fixCopy Pose s) state t u d = fixDynamics s state t u d.
Proof. now destruct s. Qed.

(** ** Floating base *)

Variable FDfloat : rstate Pose -> list R -> list W -> list R * list R.
Variables (p : nat) (poseOf : list R -> Pose) (poseRate : Pose -> list R -> list R).
Local Notation floatDynamics := (floatDynamics W Pose wzero n nlinks nee linkOf mapForce FDfloat p poseOf poseRate).
(** Sizes of the results of the generated code and of the pose conversion. *)
Definition float_sizes : Prop := (forall s tau lf, length (fst (FDfloat s tau lf)) = 6%nat /\ length (snd (FDfloat s tau lf)) = n) /\
  forall pose tw, length (poseRate pose tw) = p.
(** The force on end-effector i: that of the contact model, if there is one, plus that in the control, if forces are inputs. *)
Definition ee_force (ee : bool) (contact : option (contactModel Pose)) (s : rstate Pose) (fs : list R) (i : nat) : list R :=
  map (fun k => nth k (nth i (match contact with Some c => c s | None => [] end) []) 0 + (if ee then nth (i * 3 + k) fs 0 else 0)) (seq 0 3).

Lemma map_nth_eq (f : list R) k : length f = k -> map (fun i => nth i f 0 + 0) (seq 0 k) = f.
Proof.
  intros <-. induction f as [|x f IH]; [reflexivity|]. cbn [length seq map nth]. f_equal; [ring|].
  rewrite <- seq_shift, map_map. exact IH.
Qed.
Lemma addForces_nth control : forall m s eeF i, length eeF = m -> (i < m)%nat ->
  nth i (addForces n (seq s m) eeF control) [] = map (fun k => nth k (nth i eeF []) 0 + nth (n + (s + i) * 3 + k) control 0) (seq 0 3).
Proof.
  induction m as [|m IH]; intros s eeF i L Hi; [lia|]. destruct eeF as [|f eeF]; [discriminate|]. cbn [seq addForces].
  destruct i as [|i]; cbn [nth].
  - now rewrite Nat.add_0_r.
  - rewrite (IH (S s)) by (cbn in L; lia). now replace (S s + i)%nat with (s + S i)%nat by lia.
Qed.

(** Full claim as for the fixed base, with the base pose, twist and accelerations in front; contact forces and end-effector
    inputs add up.  Proved when no two end-effectors share a link. *)
Theorem C72_floating_partial (ee : bool) (contact : option (contactModel Pose)) (pose q tw qd tau fs : list R) : float_sizes ->
  links_valid -> links_distinct -> length pose = p -> length q = n -> length tw = 6%nat -> length qd = n -> length tau = n ->
  (forall c s, contact = Some c -> length (c s) = nee /\ forall f, List.In f (c s) -> length f = 3%nat) ->
  exists lf : list W, let s := mkR Pose (poseOf pose) tw q qd in
    floatDynamics ee contact (pose ++ q ++ tw ++ qd) (tau ++ fs) =
      Ok (poseRate (poseOf pose) tw ++ qd ++ fst (FDfloat s tau lf) ++ snd (FDfloat s tau lf)) /\
    wrenches lf (ee_force ee contact s fs) (poseOf pose) q.
Proof.
  intros (SF & SP) V D Lp Lq Lw Lqd Lt HC.
  assert (X : floatState Pose n p poseOf (pose ++ q ++ tw ++ qd) = mkR Pose (poseOf pose) tw q qd).
  { unfold floatState. f_equal.
    - fold (head p (pose ++ q ++ tw ++ qd)). now rewrite head_app.
    - replace (pose ++ q ++ tw ++ qd) with ((pose ++ q) ++ tw ++ qd) by (now rewrite <- !app_assoc). apply segm_app; auto. rewrite app_length. lia.
    - now apply segm_app.
    - replace (pose ++ q ++ tw ++ qd) with ((pose ++ q ++ tw) ++ qd) by (now rewrite <- !app_assoc). now apply tail_app. }
  assert (H1 : head (p + n) (pose ++ q ++ tw ++ qd) = pose ++ q).
  { replace (pose ++ q ++ tw ++ qd) with ((pose ++ q) ++ tw ++ qd) by (now rewrite <- !app_assoc). apply head_app. rewrite app_length. lia. }
  assert (H2 : tail (6 + n) (pose ++ q ++ tw ++ qd) = tw ++ qd).
  { replace (pose ++ q ++ tw ++ qd) with ((pose ++ q) ++ tw ++ qd) by (now rewrite <- !app_assoc). apply tail_app. rewrite app_length. lia. }
  assert (H3 : put (pose ++ q ++ tw ++ qd) 0 (pose ++ q) = pose ++ q ++ tw ++ qd).
  { replace (pose ++ q ++ tw ++ qd) with ([] ++ (pose ++ q) ++ tw ++ qd) at 1 by (now rewrite <- !app_assoc). rewrite put_app by auto.
    now rewrite <- !app_assoc. }
  assert (H4 : put (pose ++ q ++ tw ++ qd) (length (pose ++ q ++ tw ++ qd) - (6 + n)) (tw ++ qd) = pose ++ q ++ tw ++ qd).
  { replace (length (pose ++ q ++ tw ++ qd) - (6 + n))%nat with (p + n)%nat by (rewrite !app_length; lia).
    replace (pose ++ q ++ tw ++ qd) with ((pose ++ q) ++ (tw ++ qd) ++ []) at 1 by (now rewrite app_nil_r, <- !app_assoc).
    rewrite put_app by (auto; rewrite app_length; lia). now rewrite app_nil_r, <- !app_assoc. }
  set (s := mkR Pose (poseOf pose) tw q qd) in *.
  unfold SystemModel.floatDynamics, floatVdot, floatPdot. rewrite H1, H2, H3, H4, X.
  set (f0 := match contact with Some c => c s | None => repeat (repeat 0 3) nee end).
  set (f := if ee then addForces n (seq 0 nee) f0 (tau ++ fs) else f0).
  assert (L0 : length f0 = nee /\ forall i, (i < nee)%nat -> length (nth i f0 []) = 3%nat /\
    forall k, nth k (nth i f0 []) 0 = nth k (nth i (match contact with Some c => c s | None => [] end) []) 0).
  { unfold f0. destruct contact as [c|].
    - destruct (HC c s eq_refl) as (A & B). split; [exact A|]. intros i Hi. split; [|reflexivity]. apply B, nth_In. lia.
    - split; [apply repeat_length|]. intros i Hi.
      assert (E : nth i (repeat (repeat 0 3) nee) [] = repeat 0 3).
      { rewrite (nth_indep _ [] (repeat 0 3)) by (now rewrite repeat_length). apply nth_repeat. }
      rewrite E. split; [reflexivity|]. intros k. rewrite nth_repeat. destruct i; now destruct k. }
  destruct L0 as (L0 & L3).
  assert (Ff : forall i, (i < nee)%nat -> nth i f [] = ee_force ee contact s fs i).
  { intros i Hi. destruct (L3 i Hi) as (A & B). unfold f, ee_force. destruct ee.
    - rewrite addForces_nth by auto. apply map_ext. intros k. rewrite B. f_equal. rewrite app_nth2 by lia. f_equal. lia.
    - rewrite <- (map_nth_eq (nth i f0 []) 3) by auto. apply map_ext. intros k. now rewrite B. }
  destruct (mapForces_spec (fun i => nth i f []) (poseOf pose) q (seq 0 nee) (repeat wzero nlinks)) as (lf & E & L & S & O).
  - apply seq_NoDup.
  - intros i Hi. rewrite in_seq in Hi. rewrite repeat_length. apply V. lia.
  - intros i j Hi Hj. rewrite in_seq in Hi, Hj. apply D; lia.
  - exists lf. cbn [r_pose r_q s]. subst s. cbn [r_pose r_q] in *. rewrite E. cbn [obind]. rewrite head_app by auto. split.
    + f_equal. unfold floatDerivative. cbn [fst snd r_pose r_twist r_qd]. destruct (SF (mkR Pose (poseOf pose) tw q qd) tau lf) as (S1 & S2).
      rewrite !(app_assoc (poseRate (poseOf pose) tw) qd).
      rewrite (tail_app (poseRate (poseOf pose) tw ++ qd)) by (rewrite app_length; lia).
      rewrite head_app by (rewrite app_length, SP; lia). reflexivity.
    + rewrite repeat_length in L. split; [exact L|]. split.
      * intros i Hi. rewrite S by (rewrite in_seq; lia). now rewrite Ff.
      * intros l Hl Hn. rewrite O.
        -- rewrite nth_error_nth' with (d := wzero) by (now rewrite repeat_length). now rewrite nth_repeat.
        -- intros i Hi. rewrite in_seq in Hi. apply Hn. lia.
Qed.
(** Copies of a floating base system with a contact model have that model.  REFUTED: without one, which is the default, copying
    (and therefore cloning) is undefined. *)
Theorem C72_floating_copy_refuted (c : contactModel Pose) :
  floatCopy Pose (Some c) = Ok (Some c) /\ floatCopy Pose None = UB.
Proof. now split. Qed.
End C72.

(** The kinematic systems are a double and a single integrator. *)
Theorem C72_kinematic (n : nat) (q qd u d1 d2 : list R) : length q = n -> length qd = n -> length u = n ->
  length d1 = (n + n)%nat -> length d2 = n -> accDynamics n (q ++ qd) u d1 = qd ++ u /\ velDynamics n u d2 = u.
Proof.
  intros Lq Lqd Lu L1 L2. assert (Hu : head n u = u) by (rewrite <- (app_nil_r u); now rewrite head_app, app_nil_r).
  unfold accDynamics, velDynamics. rewrite Hu, tail_app by auto. split.
  - destruct (cut d1 n) as (a & b & -> & La & Lb); [lia|]. rewrite app_length in *.
    replace (a ++ b) with ([] ++ a ++ b) by reflexivity. rewrite put_app by (simpl; lia). cbn [app].
    replace (qd ++ b) with (qd ++ b ++ []) by (now rewrite app_nil_r). rewrite put_app by lia. now rewrite app_nil_r.
  - replace d2 with ([] ++ d2 ++ []) by (now rewrite app_nil_r). rewrite put_app by (simpl; lia). now rewrite app_nil_r.
Qed.

(** A concrete case: one joint, two links, two end-effectors; the acceleration is the torque plus the forces on both links.
    On different links both forces act; on the same link the first is lost. *)
Definition exFD (q qd tau : list R) (lf : list R) : list R := [nth 0 tau 0 + nth 0 lf 0 + nth 1 lf 0].
Definition exMap (f : list R) (pose : unit) (q : list R) (i : nat) : R := nth 0 f 0.
Definition exSys : fixBase unit := mkFix unit tt None 0 true.
Example C72_example :
  fixDynamics R unit 0 1 2 2 (fun i => i) exMap exFD exSys [5; 6] 0 [1; 10; 0; 0; 100; 0; 0] [0; 0] = Ok [6; 1 + 10 + 100] /\
  fixDynamics R unit 0 1 2 2 (fun i => 1%nat) exMap exFD exSys [5; 6] 0 [1; 10; 0; 0; 100; 0; 0] [0; 0] = Ok [6; 1 + 0 + 100] /\
  fd_size 1 exFD /\ links_valid 2 2 (fun i => i) /\ links_distinct 2 (fun i => i).
Proof. split; [reflexivity|]. split; [reflexivity|]. split; [intros ? ? ? ?; reflexivity|]. split; intros i; auto. Qed.

Print Assumptions C72_torques_partial.
Print Assumptions C72_shared_link_refuted.
Print Assumptions C72_actuators.
Print Assumptions C72_consistent_state.
Print Assumptions C72_null_actuator_refuted.
Print Assumptions C72_symplectic.
Print Assumptions C72_copy.
Print Assumptions C72_floating_partial.
Print Assumptions C72_floating_copy_refuted.
Print Assumptions C72_kinematic.
