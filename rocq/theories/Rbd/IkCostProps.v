(** C82: the inverse kinematics cost, its gradient and its approximate Hessian. *)
From Coq Require Import Reals List Lra Lia.
From Coquelicot Require Import Coquelicot.
From Verif Require Import Base.Outcome Rbd.ContactModel Rbd.KinModel Rbd.KinProps Rbd.IkCostModel Rbd.IkCostProofs.
Import ListNotations.
Local Open Scope R_scope.

(** * Specification *)

(** A motion of N coordinates that at time t has the velocity xd. *)
Definition moves (x : R -> list R) (t : R) (xd : list R) (N : nat) : Prop :=
  (forall s, length (x s) = N) /\ length xd = N /\ forall i, (i < N)%nat -> is_derive (fun s => nth i (x s) 0) t (nth i xd 0).
Definition dotl (a b : list R) : R := fold_right (fun p acc => fst p * snd p + acc) 0 (combine a b).
(** Sum of columns times velocities. *)
Definition along (J : list vec3) (v : list R) : vec3 := fold_right (fun p acc => add3 (scale3 (snd p) (fst p)) acc) zero3 (combine J v).
(** The generated kinematics: rotations are rotations, and the Jacobian times joint velocities is the twist of the end-effector. *)
Definition kinematics_ok (k : kin) (n ee : nat) : Prop :=
  (forall q, length q = n -> proper (eeRot k ee q) /\ length (eeJac k ee q) = n) /\
  forall q t qd, moves q t qd n ->
    turns (fun s => eeRot k ee (q s)) t (along (map fst (eeJac k ee (q t))) qd) /\
    derive3 (fun s => eePosition k ee (q s)) t (along (map snd (eeJac k ee (q t))) qd).
Definition symmetric3 (m : m3) : Prop := transp m = m.
Definition positive3 (m : m3) : Prop := forall v, v <> zero3 -> 0 < dot3 v (mulv m v).
Definition semidef3 (m : m3) : Prop := forall v, 0 <= dot3 v (mulv m v).
Definition isotropic (c : R) : m3 := ((c, 0, 0), (0, c, 0), (0, 0, c)).
(** phi is the rotation vector that turns A into B: by at most half a turn, about the axis phi / |phi|. *)
Definition rotation_vector (A B : m3) (phi : vec3) : Prop :=
  exists a k, phi = scale3 a k /\ 0 <= a <= PI /\ dot3 k k = 1 /\ forall v, rodrigues a k (mulv A v) = mulv B v.

(** * Lemmas *)
Lemma transp_proper m : proper m -> proper (transp m).
Proof.
  intros (A & B & C & D). assert (E : transp (transp m) = m) by (v3; reflexivity). split; [|split; [|split]]; rewrite ?E; auto.
  - intros u v. rewrite <- (C (mulv (transp m) u)), !B. reflexivity.
  - intros u v. rewrite <- (A (cross3 (mulv (transp m) u) (mulv (transp m) v))), D, !B. reflexivity.
Qed.
Lemma qinv_unit q : unit_quat q -> qinv q = qconj q.
Proof.
  destruct q as [[[w x] y] z]. unfold unit_quat, qinv, qnorm2. intros H. rewrite H. destruct (Rlt_dec 0 1); [|lra]. unfold qscale, qconj.
  rewrite Rinv_1, !Rmult_1_l. reflexivity.
Qed.
Definition errorQuat (m r : m3) : quat := qmul (quatOfMat m) (qinv (quatOfMat r)).
Lemma errorQuat_ok m r : proper m -> proper r -> unit_quat (errorQuat m r) /\ qmat (errorQuat m r) = mulm m (transp r).
Proof.
  intros M P. destruct (quatOfMat_ok m M) as (U & E). destruct (quatOfMat_ok r P) as (V & F). unfold errorQuat. rewrite (qinv_unit _ V).
  split; [now apply qmul_unit, qconj_unit|]. rewrite qmat_mul, qmat_conj, E, F; auto. now apply qconj_unit.
Qed.
Lemma dotl_cons a l b v : dotl (a :: l) (b :: v) = a * b + dotl l v.
Proof. reflexivity. Qed.
Lemma dotl_map J w v : dotl (map (fun c => dot3 c w) J) v = dot3 (along J v) w.
Proof.
  revert v. induction J as [|c J IH]; intros [|b v]; try (unfold dotl, along; cbn; unf; ring).
  cbn [map]. rewrite dotl_cons, IH. change (along (c :: J) (b :: v)) with (add3 (scale3 b c) (along J v)).
  destruct c as [[? ?] ?], w as [[? ?] ?], (along J v) as [[? ?] ?]. unf. ring.
Qed.
Lemma addl_map {A} (f g : A -> R) l : addl (map f l) (map g l) = map (fun a => f a + g a) l.
Proof. induction l; [reflexivity|]. cbn. unfold addl in IHl. now rewrite IHl. Qed.
Lemma dotl_addl a b v : length a = length b -> dotl (addl a b) v = dotl a v + dotl b v.
Proof.
  revert b v. induction a as [|x a IH]; intros [|y b] [|z v] H; try discriminate; try (unfold dotl; cbn; ring).
  change (addl (x :: a) (y :: b)) with ((x + y) :: addl a b). rewrite !dotl_cons, IH by (cbn in H; lia). ring.
Qed.
Lemma dotl_zeros a m v : dotl (a ++ repeat 0 m) v = dotl a (firstn (length a) v).
Proof.
  revert v. induction a as [|x a IH]; intros v.
  - cbn [app length firstn]. revert v. induction m as [|m IHm]; intros [|b v]; try reflexivity. cbn [repeat]. rewrite dotl_cons, IHm. unfold dotl. cbn. ring.
  - destruct v as [|b v]; [reflexivity|]. change (x * b + dotl (a ++ repeat 0 m) v = x * b + dotl a (firstn (length a) v)). now rewrite IH.
Qed.
Lemma moves_firstn x t xd n m : moves x t xd (n + m) -> moves (fun s => firstn n (x s)) t (firstn n xd) n.
Proof.
  intros (L & Ld & D). assert (N : forall (l : list R) i, (i < n)%nat -> nth i (firstn n l) 0 = nth i l 0).
  { intros l i Hi. revert l i Hi. clear. induction n as [|n IH]; intros [|a l] [|i] Hi; try lia; try reflexivity. cbn. apply IH. lia. }
  split; [|split]. intros s. rewrite firstn_length, L. lia. rewrite firstn_length, Ld. lia.
  intros i Hi. rewrite N by auto. eapply dext; [|apply (D i); lia]. intros s. cbn beta. now rewrite N.
Qed.

Lemma map_zeros l o : map (fun _ : nat => 0) (seq o l) = repeat 0 l.
Proof. revert o. induction l as [|l IH]; intros o; [reflexivity|]. cbn. now rewrite IH. Qed.
Lemma nth_zeros l i : nth i (repeat 0 l) 0 = 0.
Proof. revert i. induction l as [|l IH]; intros [|i]; try reflexivity. cbn. apply IH. Qed.

Section Term.
Variables (k : kin) (n m : nat) (c : term).
Hypothesis Kok : kinematics_ok k n (eeInd c).
Hypothesis Rok : proper (R_ref c).
Notation ee := (eeInd c).

Lemma worldPosition q : getEEPositionInWorld (list R) (eePosition k) ee basePose q = eePosition k ee q.
Proof.
  unfold getEEPositionInWorld, rotateBaseToInertia, getRotationMatrix, basePose. cbn [p_storage p_euler p_position].
  change (mulv (qmat (eulerToQuat zero3)) (eePosition k ee q)) with (mulv (qmat (eulerToQuat zero3)) (eePosition k ee q)).
  replace (qmat (qmul (qmul (aaX (vx zero3)) (aaY (vy zero3))) (aaZ (vz zero3)))) with i3.
  - destruct (eePosition k ee q) as [[? ?] ?]. unfold i3. unf. eq3; ring.
  - unfold aaX, aaY, aaZ, i3. unf. replace (0 / 2) with 0 by field. rewrite cos_0, sin_0. eq9; ring.
Qed.
Lemma qDiff_rotvec x : qDiff k n c x = rotvec (errorQuat (eeRot k ee (firstn n x)) (R_ref c)).
Proof. reflexivity. Qed.
Lemma properAt x : length x = (n + m)%nat -> proper (eeRot k ee (firstn n x)).
Proof. intros L. apply (proj1 Kok). rewrite firstn_length, L. lia. Qed.
Lemma jacAt x : length x = (n + m)%nat -> length (eeJac k ee (firstn n x)) = n.
Proof. intros L. apply (proj1 Kok). rewrite firstn_length, L. lia. Qed.

(** The cost is the weighted square of the position error and of the rotation vector from the target to the end-effector. *)
Theorem C82_error (x : list R) : length x = (n + m)%nat ->
  exists dx phi, dx = sub3 (eePosition k ee (firstn n x)) (x_ref c) /\ rotation_vector (R_ref c) (eeRot k ee (firstn n x)) phi /\
    evaluate k n c x = / 2 * dot3 dx (mulv (Q_pos c) dx) + / 2 * dot3 phi (mulv (Q_rot c) phi) /\
    (eeRot k ee (firstn n x) = R_ref c -> phi = zero3) /\
    stateDerivative k n m c x = map (fun J => dot3 (snd J) (mulv (Q_pos c) dx) + dot3 (fst J) (mulv (Q_rot c) phi)) (eeJac k ee (firstn n x)) ++ repeat 0 m.
Proof.
  intros L. exists (xDiff k n c x), (qDiff k n c x). destruct (errorQuat_ok _ _ (properAt x L) Rok) as (U & E).
  split; [|split; [|split; [|split]]].
  - unfold xDiff. now rewrite worldPosition.
  - rewrite qDiff_rotvec. destruct (angleAxis_spec _ zero3 U) as (B & N & _).
    eexists _, _. split; [reflexivity|]. split; [exact B|]. split; [exact N|].
    intros v. destruct (angleAxis_spec _ (mulv (R_ref c) v) U) as (_ & _ & ->). rewrite E, mulv_mulm. f_equal. apply (proj1 Rok).
  - unfold evaluate, quadForm. f_equal; f_equal; match goal with |- context [dot3 (mulv (transp ?Q) ?v) ?v] => destruct Q as [[[[? ?] ?] [[? ?] ?]] [[? ?] ?]], v as [[? ?] ?] end; unf; ring.
  - intros H. rewrite qDiff_rotvec. apply identity_of_scalar; [exact U|]. rewrite E, H.
    destruct (R_ref c) as [[[[a b] c0] [[d e] f]] [[g h] i]] eqn:ER. destruct (proper_eqs _ _ _ _ _ _ _ _ _ Rok) as ((O1 & O2 & O3 & _) & _).
    unfold scalarOf, trace3. unf. lra.
  - unfold stateDerivative, posT, rotT. now rewrite addl_map.
Qed.
(** With positive definite weights the cost is zero exactly at the target pose, and positive elsewhere. *)
Theorem C82_minimum (x : list R) : length x = (n + m)%nat -> positive3 (Q_pos c) -> positive3 (Q_rot c) ->
  0 <= evaluate k n c x /\ (evaluate k n c x = 0 <-> eePosition k ee (firstn n x) = x_ref c /\ forall v, mulv (eeRot k ee (firstn n x)) v = mulv (R_ref c) v).
Proof.
  intros L Pp Pr. destruct (C82_error x L) as (dx & phi & D & (a & ax & HP & Ha & Hk & HR) & -> & Z & _).
  assert (Q : forall M v, positive3 M -> 0 <= dot3 v (mulv M v) /\ (dot3 v (mulv M v) = 0 -> v = zero3)).
  { intros M v P. destruct v as [[v0 v1] v2]. destruct (Req_EM_T v0 0) as [->|N0]; [destruct (Req_EM_T v1 0) as [->|N1]; [destruct (Req_EM_T v2 0) as [->|N2]|]|].
    - split; [|reflexivity]. destruct M as [[[[? ?] ?] [[? ?] ?]] [[? ?] ?]]. unf. lra.
    - pose proof (P (0, 0, v2) ltac:(intros H; apply pair3 in H; lra)). split; [lra|]. intros. lra.
    - pose proof (P (0, v1, v2) ltac:(intros H; apply pair3 in H; lra)). split; [lra|]. intros. lra.
    - pose proof (P (v0, v1, v2) ltac:(intros H; apply pair3 in H; lra)). split; [lra|]. intros. lra. }
  destruct (Q _ dx Pp) as (A1 & A2). destruct (Q _ phi Pr) as (B1 & B2). split; [lra|]. split.
  - intros H. rewrite A2 in D by lra. specialize (B2 ltac:(lra)). rewrite B2 in HP. split.
    + destruct (eePosition k ee (firstn n x)) as [[? ?] ?], (x_ref c) as [[? ?] ?]. unf. apply pair3 in D. apply f_equal2; [apply f_equal2|]; lra.
    + assert (a = 0). { destruct ax as [[k0 k1] k2]. unf. apply pair3 in HP. destruct HP as (H0 & H1 & H2). nra. } subst a.
      intros v. rewrite <- HR. unfold rodrigues. rewrite cos_0, sin_0. destruct (mulv (R_ref c) v) as [[? ?] ?], ax as [[? ?] ?]. unf. eq3; ring.
  - intros (H1 & H2). assert (E : eeRot k ee (firstn n x) = R_ref c).
    { pose proof (H2 (1, 0, 0)). pose proof (H2 (0, 1, 0)). pose proof (H2 (0, 0, 1)). clear - H H0 H3.
      destruct (eeRot k ee (firstn n x)) as [[[[? ?] ?] [[? ?] ?]] [[? ?] ?]], (R_ref c) as [[[[? ?] ?] [[? ?] ?]] [[? ?] ?]]. unf.
      apply pair3 in H, H0, H3. eq9; lra. }
    rewrite (Z E), D, H1. destruct (x_ref c) as [[? ?] ?], (Q_pos c) as [[[[? ?] ?] [[? ?] ?]] [[? ?] ?]], (Q_rot c) as [[[[? ?] ?] [[? ?] ?]] [[? ?] ?]]. unf. lra.
Qed.

(** The gradient is the derivative of the cost along every motion, if the position weights are symmetric, all directions of
    rotation weigh the same and the error is not half a turn. *)
Theorem C82_gradient_partial (x : R -> list R) (t : R) (xd : list R) (w : R) :
  symmetric3 (Q_pos c) -> Q_rot c = isotropic w -> moves x t xd (n + m) ->
  trace3 (mulm (eeRot k ee (firstn n (x t))) (transp (R_ref c))) <> -1 ->
  is_derive (fun s => evaluate k n c (x s)) t (dotl (stateDerivative k n m c (x t)) xd).
Proof.
  intros SP IR MV NH. pose proof (moves_firstn _ _ _ _ _ MV) as MV'. destruct (proj2 Kok _ _ _ MV') as (HT & HP). cbn beta in HT, HP.
  set (J := eeJac k ee (firstn n (x t))) in *. set (qd := firstn n xd) in *.
  set (om := along (map fst J) qd) in *. set (ve := along (map snd J) qd) in *.
  assert (LX : forall s, length (x s) = (n + m)%nat) by apply MV.
  set (q := fun s => errorQuat (eeRot k ee (firstn n (x s))) (R_ref c)).
  assert (Uq : forall s, unit_quat (q s)) by (intros s; apply errorQuat_ok; [apply properAt, LX|exact Rok]).
  assert (Eq : forall s, qmat (q s) = mulm (eeRot k ee (firstn n (x s))) (transp (R_ref c))) by (intros s; apply errorQuat_ok; [apply properAt, LX|exact Rok]).
  assert (Tq : turns (fun s => qmat (q s)) t om).
  { intros v. destruct (turns_mul _ _ _ (transp (R_ref c)) HT v) as (A & B & C). rewrite Eq.
    split; [|split]; (eapply dext; [|eassumption]); intros s; cbn beta; now rewrite Eq. }
  assert (Nq : trace3 (qmat (q t)) <> -1) by now rewrite Eq.
  pose proof (rotvec_sq q t om Uq Tq Nq) as DR. pose proof (dscal w _ _ _ DR) as DR'.
  assert (DX : derive3 (fun s => xDiff k n c (x s)) t ve).
  { destruct HP as (A & B & C). 
    assert (G : forall part : vec3 -> R, (forall u v, part (sub3 u v) = part u - part v) -> is_derive (fun s => part (eePosition k ee (firstn n (x s)))) t (part ve) ->
      is_derive (fun s => part (xDiff k n c (x s))) t (part ve)).
    { intros part Hp D. eapply dval. apply (dext (fun s => part (eePosition k ee (firstn n (x s))) - part (x_ref c))).
      - intros s. unfold xDiff. now rewrite worldPosition, Hp.
      - apply dminus; [exact D|apply dconst].
      - ring. }
    split; [|split]; (apply (G _); [reflexivity|assumption]). }
  destruct DX as (X0 & X1 & X2).
  assert (DP : is_derive (fun s => / 2 * quadForm (Q_pos c) (xDiff k n c (x s))) t (dot3 ve (mulv (Q_pos c) (xDiff k n c (x t))))).
  { unfold symmetric3 in SP. destruct (Q_pos c) as [[[[a b] c0] [[d e] f]] [[g h] i]]. unf. injection SP. intros E1 E2 E3 E4 E5 E6.
    eapply dval. unfold quadForm. unf. apply dscal.
    apply dplus; [apply dplus|]; apply dmult; try eassumption; (apply dplus; [apply dplus|]; apply dscal; eassumption).
    cbn beta. destruct ve as [[? ?] ?], (xDiff k n c (x t)) as [[? ?] ?]. cbn [fst snd]. subst. field. }
  eapply dval. eapply dext; [|exact (dplus _ _ _ _ _ DP DR')].
  - intros s. cbn beta. unfold evaluate. rewrite qDiff_rotvec, IR. fold (q s). f_equal. destruct (rotvec (q s)) as [[? ?] ?]. unfold quadForm, isotropic. unf. field.
  - unfold stateDerivative. fold J. unfold posT, rotT. rewrite addl_map, dotl_zeros, map_length.
    assert (LJ : length J = n) by (apply jacAt, LX). rewrite LJ. fold qd. rewrite <- addl_map, dotl_addl by now rewrite !map_length.
    rewrite <- (map_map snd (fun v => dot3 v _)), <- (map_map fst (fun v => dot3 v _)), !dotl_map. fold om ve. rewrite qDiff_rotvec. fold (q t).
    rewrite IR. f_equal. destruct om as [[? ?] ?], (rotvec (q t)) as [[? ?] ?]. unfold isotropic. unf. ring.
Qed.

(** The matrix handed out as second derivative, as a bilinear form on the N state coordinates. *)
Definition rowOf (N : nat) (H : nat -> nat -> R) (i : nat) : list R := map (H i) (seq 0 N).
Definition hform (N : nat) (H : nat -> nat -> R) (a b : list R) : R := dotl (map (fun i => dotl (rowOf N H i) b) (seq 0 N)) a.
Lemma map_nth_seq {A B} (f : A -> B) (d : A) (l : list A) : map (fun j => f (nth j l d)) (seq 0 (length l)) = map f l.
Proof.
  induction l as [|a l IH]; [reflexivity|]. cbn [length seq map nth]. f_equal. rewrite <- seq_shift, map_map. exact IH.
Qed.
Lemma row_split i x : length x = (n + m)%nat -> rowOf (n + m) (stateSecondDerivative k n c x) i = rowOf n (stateSecondDerivative k n c x) i ++ repeat 0 m.
Proof.
  intros L. unfold rowOf. rewrite seq_app, map_app. f_equal. transitivity (map (fun _ : nat => 0) (seq (0 + n) m)).
  - apply map_ext_in. intros j Hj. apply in_seq in Hj. unfold stateSecondDerivative. replace (Nat.ltb j n) with false by (symmetry; apply Nat.ltb_ge; lia). now rewrite Bool.andb_false_r.
  - apply map_zeros.
Qed.
Lemma row_form i x b : length x = (n + m)%nat -> let J := eeJac k ee (firstn n x) in let q := firstn n b in
  dotl (rowOf (n + m) (stateSecondDerivative k n c x) i) b =
  if Nat.ltb i n then dot3 (snd (nth i J (zero3, zero3))) (mulv (Q_pos c) (along (map snd J) q)) +
                      dot3 (fst (nth i J (zero3, zero3))) (mulv (Q_rot c) (along (map fst J) q)) else 0.
Proof.
  intros L J q. rewrite (row_split i x L), dotl_zeros. unfold rowOf at 2. rewrite map_length, seq_length. fold q.
  assert (LJ : length J = n) by now apply jacAt.
  unfold rowOf, stateSecondDerivative. fold J. destruct (Nat.ltb i n) eqn:Hi; cbn [andb].
  - set (a := nth i J (zero3, zero3)).
    transitivity (dotl (map (fun b0 : vec3 * vec3 => dot3 (snd b0) (mulv (transp (Q_pos c)) (snd a)) + dot3 (fst b0) (mulv (transp (Q_rot c)) (fst a))) J) q).
    + f_equal. rewrite <- (map_nth_seq _ (zero3, zero3)), LJ. apply map_ext_in. intros j Hj. apply in_seq in Hj.
      replace (Nat.ltb j n) with true by (symmetry; apply Nat.ltb_lt; lia).
      destruct (nth j J (zero3, zero3)) as [[[? ?] ?] [[? ?] ?]], a as [[[? ?] ?] [[? ?] ?]], (Q_pos c) as [[[[? ?] ?] [[? ?] ?]] [[? ?] ?]], (Q_rot c) as [[[[? ?] ?] [[? ?] ?]] [[? ?] ?]].
      unf. ring.
    + rewrite <- addl_map, dotl_addl by now rewrite !map_length.
      rewrite <- (map_map snd (fun v => dot3 v _)), <- (map_map fst (fun v => dot3 v _)), !dotl_map.
      destruct (along (map snd J) q) as [[? ?] ?], (along (map fst J) q) as [[? ?] ?], a as [[[? ?] ?] [[? ?] ?]], (Q_pos c) as [[[[? ?] ?] [[? ?] ?]] [[? ?] ?]], (Q_rot c) as [[[[? ?] ?] [[? ?] ?]] [[? ?] ?]].
      unf. ring.
  - generalize (seq 0 n) q. induction l as [|x0 l IH]; intros [|b0 q']; try reflexivity. cbn [map]. rewrite dotl_cons, IH. ring.
Qed.
Lemma hform_form x a b : length x = (n + m)%nat -> let J := eeJac k ee (firstn n x) in let A := along in
  hform (n + m) (stateSecondDerivative k n c x) a b =
  dot3 (along (map snd J) (firstn n a)) (mulv (Q_pos c) (along (map snd J) (firstn n b))) +
  dot3 (along (map fst J) (firstn n a)) (mulv (Q_rot c) (along (map fst J) (firstn n b))).
Proof.
  intros L J _. unfold hform. assert (LJ : length J = n) by now apply jacAt.
  rewrite seq_app, map_app.
  replace (map (fun i => dotl (rowOf (n + m) (stateSecondDerivative k n c x) i) b) (seq (0 + n) m)) with (repeat 0 m).
  2: { transitivity (map (fun _ : nat => 0) (seq (0 + n) m)).
       - symmetry. apply map_zeros.
       - apply map_ext_in. intros j Hj. apply in_seq in Hj. rewrite row_form by exact L. replace (Nat.ltb j n) with false by (symmetry; apply Nat.ltb_ge; lia). reflexivity. }
  rewrite dotl_zeros, map_length, seq_length.
  transitivity (dotl (map (fun b0 : vec3 * vec3 => dot3 (snd b0) (mulv (Q_pos c) (along (map snd J) (firstn n b))) + dot3 (fst b0) (mulv (Q_rot c) (along (map fst J) (firstn n b)))) J) (firstn n a)).
  - f_equal. rewrite <- (map_nth_seq _ (zero3, zero3)), LJ. apply map_ext_in. intros j Hj. apply in_seq in Hj. rewrite row_form by exact L.
    replace (Nat.ltb j n) with true by (symmetry; apply Nat.ltb_lt; lia). reflexivity.
  - rewrite <- addl_map, dotl_addl by now rewrite !map_length.
    now rewrite <- (map_map snd (fun v => dot3 v _)), <- (map_map fst (fun v => dot3 v _)), !dotl_map.
Qed.
(** The second derivative handed out: symmetric for symmetric weights, positive semidefinite for such weights, ... *)
Theorem C82_hessian (x : list R) : length x = (n + m)%nat ->
  let H := stateSecondDerivative k n c x in
  (symmetric3 (Q_pos c) -> symmetric3 (Q_rot c) -> forall i j, H i j = H j i) /\
  (semidef3 (Q_pos c) -> semidef3 (Q_rot c) -> forall v, 0 <= hform (n + m) H v v).
Proof.
  intros L H. split.
  - intros S1 S2 i j. unfold H, stateSecondDerivative. rewrite (Bool.andb_comm (Nat.ltb j n)). destruct (_ && _)%bool; [|reflexivity].
    unfold symmetric3 in *. destruct (nth i _ _) as [[[? ?] ?] [[? ?] ?]], (nth j _ _) as [[[? ?] ?] [[? ?] ?]], (Q_pos c) as [[[[? ?] ?] [[? ?] ?]] [[? ?] ?]], (Q_rot c) as [[[[? ?] ?] [[? ?] ?]] [[? ?] ?]].
    unf. injection S1. injection S2. intros. subst. ring.
  - intros P1 P2 v. unfold H. rewrite hform_form by exact L. pose proof (P1 (along (map snd (eeJac k ee (firstn n x))) (firstn n v))). pose proof (P2 (along (map fst (eeJac k ee (firstn n x))) (firstn n v))). lra.
Qed.
Definition continuous3 (f : R -> vec3) (t : R) : Prop :=
  continuous (fun s => vx (f s)) t /\ continuous (fun s => vy (f s)) t /\ continuous (fun s => vz (f s)) t.
Lemma dvanish3 (f g : R -> vec3) t b : continuous3 f t -> derive3 g t b -> g t = zero3 -> is_derive (fun s => dot3 (f s) (g s)) t (dot3 (f t) b).
Proof.
  intros (F0 & F1 & F2) (G0 & G1 & G2) Z. unfold dot3.
  apply dplus; [apply dplus|].
  - apply (dvanish (fun s => vx (f s)) (fun s => vx (g s))); auto. now rewrite Z.
  - apply (dvanish (fun s => vy (f s)) (fun s => vy (g s))); auto. now rewrite Z.
  - apply (dvanish (fun s => vz (f s)) (fun s => vz (g s))); auto. now rewrite Z.
Qed.
Lemma derive3_lin (M : m3) f t d : derive3 f t d -> derive3 (fun s => mulv M (f s)) t (mulv M d).
Proof.
  intros (A & B & C). destruct M as [[[[? ?] ?] [[? ?] ?]] [[? ?] ?]]. unfold derive3. unfold mulv, dot3, row0, row1, row2. cbn [fst snd vx vy vz].
  split; [|split]; (apply dplus; [apply dplus|]); apply dscal; assumption.
Qed.
(** ... and where the target pose is attained, it is the derivative of the gradient. *)
Theorem C82_hessian_at_target (x : R -> list R) (t : R) (xd : list R) : moves x t xd (n + m) ->
  eePosition k ee (firstn n (x t)) = x_ref c -> eeRot k ee (firstn n (x t)) = R_ref c ->
  (forall i, continuous3 (fun s => fst (nth i (eeJac k ee (firstn n (x s))) (zero3, zero3))) t /\
             continuous3 (fun s => snd (nth i (eeJac k ee (firstn n (x s))) (zero3, zero3))) t) ->
  forall i, (i < n + m)%nat ->
  is_derive (fun s => nth i (stateDerivative k n m c (x s)) 0) t (dotl (rowOf (n + m) (stateSecondDerivative k n c (x t)) i) xd).
Proof.
  intros MV XP XR CJ i Hi. pose proof (moves_firstn _ _ _ _ _ MV) as MV'. destruct (proj2 Kok _ _ _ MV') as (HT & HP). cbn beta in HT, HP.
  assert (LX : forall s, length (x s) = (n + m)%nat) by apply MV.
  rewrite (row_form i (x t) xd (LX t)). set (J := eeJac k ee (firstn n (x t))) in *. set (qd := firstn n xd) in *.
  set (om := along (map fst J) qd) in *. set (ve := along (map snd J) qd) in *.
  set (q := fun s => errorQuat (eeRot k ee (firstn n (x s))) (R_ref c)).
  assert (Uq : forall s, unit_quat (q s)) by (intros s; apply errorQuat_ok; [apply properAt, LX|exact Rok]).
  assert (Eq : forall s, qmat (q s) = mulm (eeRot k ee (firstn n (x s))) (transp (R_ref c))) by (intros s; apply errorQuat_ok; [apply properAt, LX|exact Rok]).
  assert (Tq : turns (fun s => qmat (q s)) t om).
  { intros v. destruct (turns_mul _ _ _ (transp (R_ref c)) HT v) as (A & B & C). rewrite Eq.
    split; [|split]; (eapply dext; [|eassumption]); intros s; cbn beta; now rewrite Eq. }
  assert (Sq : trace3 (qmat (q t)) = 3).
  { rewrite Eq, XR. destruct (R_ref c) as [[[[a b] c0] [[d e] f]] [[g h] i0]] eqn:ER. destruct (proper_eqs _ _ _ _ _ _ _ _ _ Rok) as ((O1 & O2 & O3 & _) & _). unfold trace3. unf. lra. }
  assert (S1 : scalarOf (qmat (q t)) = 1) by (unfold scalarOf; lra). assert (Nq : trace3 (qmat (q t)) <> -1) by lra.
  pose proof (rotvec_identity q t om Uq Tq Nq S1) as DR. assert (ZR : rotvec (q t) = zero3) by (apply identity_of_scalar; auto).
  assert (DX : derive3 (fun s => xDiff k n c (x s)) t ve).
  { destruct HP as (A & B & C). 
    assert (G : forall part : vec3 -> R, (forall u v, part (sub3 u v) = part u - part v) -> is_derive (fun s => part (eePosition k ee (firstn n (x s)))) t (part ve) ->
      is_derive (fun s => part (xDiff k n c (x s))) t (part ve)).
    { intros part Hp D. eapply dval. apply (dext (fun s => part (eePosition k ee (firstn n (x s))) - part (x_ref c))).
      - intros s. unfold xDiff. now rewrite worldPosition, Hp.
      - apply dminus; [exact D|apply dconst].
      - ring. }
    split; [|split]; (apply (G _); [reflexivity|assumption]). }
  assert (ZX : xDiff k n c (x t) = zero3) by (unfold xDiff; rewrite worldPosition, XP; destruct (x_ref c) as [[? ?] ?]; unf; eq3; ring).
  assert (MZ : forall M, mulv M zero3 = zero3) by (intros M; destruct M as [[[[? ?] ?] [[? ?] ?]] [[? ?] ?]]; unf; eq3; ring).
  assert (LJ : forall s, length (eeJac k ee (firstn n (x s))) = n) by (intros s; apply jacAt, LX).
  destruct (Nat.ltb i n) eqn:Hn.
  - apply Nat.ltb_lt in Hn. destruct (CJ i) as (Cr & Cp).
    eapply dext; [|exact (dplus _ _ _ _ _ (dvanish3 _ _ t _ Cp (derive3_lin (Q_pos c) _ _ _ DX) ltac:(cbn beta; rewrite ZX; apply MZ)) (dvanish3 _ _ t _ Cr (derive3_lin (Q_rot c) _ _ _ DR) ltac:(cbn beta; rewrite ZR; apply MZ)))].
    intros s. cbn beta. unfold stateDerivative, posT, rotT. rewrite addl_map, app_nth1 by (rewrite map_length, LJ; lia).
    set (f := fun a : vec3 * vec3 => _). rewrite (nth_indep _ 0 (f (zero3, zero3))) by (rewrite map_length, LJ; lia). rewrite map_nth. reflexivity.
  - apply Nat.ltb_ge in Hn. eapply dext; [|apply dconst]. intros s. unfold stateDerivative, posT, rotT. rewrite addl_map, app_nth2 by (rewrite map_length, LJ; lia).
    symmetry. apply nth_zeros.
Qed.
End Term.

(** * Target poses and the cost evaluator *)

(** A target given as a quaternion of any length but zero is its rotation; reading the target pose back gives the same pose.
    A target given as Euler angles x, y, z is the product of the rotations about these axes. *)
Theorem C82_target (e : evaluator) (p : vec3) (q : quat) (ee : nat) (Qp Qr : m3) (a : vec3) : 0 < qnorm2 q ->
  let c := goal (setTargetPose e p q) in
  (exists u, unit_quat u /\ q = qscale (sqrt (qnorm2 q)) u /\ R_ref c = qmat u) /\ proper (R_ref c) /\
  getReferencePosition c = p /\ unit_quat (getReferenceOrientation c) /\ qmat (getReferenceOrientation c) = R_ref c /\
  eeInd c = eeInd (goal e) /\ Q_pos c = Q_pos (goal e) /\ Q_rot c = Q_rot (goal e) /\
  newTermEuler ee Qp Qr p a = mkTerm ee Qp Qr p (mulm (mulm (rX (vx a)) (rY (vy a))) (rZ (vz a))) /\
  newTerm ee Qp Qr p q = mkTerm ee Qp Qr p (R_ref c).
Proof.
  intros H c. set (N := sqrt (qnorm2 q)). assert (N0 : 0 < N) by now apply sqrt_lt_R0. assert (NN : N * N = qnorm2 q) by (apply sqrt_sqrt; lra).
  assert (U : unit_quat (qnormalized q)).
  { unfold qnormalized. destruct (Rlt_dec 0 (qnorm2 q)); [|lra]. fold N. destruct q as [[[w x] y] z]. unfold qnorm2 in NN. unfold qscale, unit_quat.
    match goal with |- ?l = 1 => replace l with ((w * w + x * x + y * y + z * z) / (N * N)) by (field; lra) end. rewrite <- NN. field. lra. }
  assert (P : proper (R_ref c)) by (cbn; now apply qmat_proper).
  split; [|split; [exact P|split; [reflexivity|split; [|split]]]].
  - exists (qnormalized q). split; [exact U|]. split; [|reflexivity]. unfold qnormalized. destruct (Rlt_dec 0 (qnorm2 q)); [|lra]. fold N. destruct q as [[[w x] y] z].
    unfold qscale. apply f_equal2; [apply f_equal2; [apply f_equal2|]|]; field; lra.
  - now apply quatOfMat_ok.
  - now apply quatOfMat_ok.
  - repeat (split; [reflexivity|]). split; [|reflexivity].
    unfold newTermEuler, newTerm, setReferenceOrientation, setReferenceRotation, setReferencePosition. cbn [eeInd Q_pos Q_rot x_ref R_ref]. f_equal.
    rewrite <- euler_mat. unfold eulerToQuat. pose proof (euler_unit a) as V. unfold eulerToQuat in V. unfold qnormalized. set (b := qmul _ _) in *.
    assert (Z : qnorm2 b = 1) by (destruct b as [[[? ?] ?] ?]; exact V). rewrite Z. destruct (Rlt_dec 0 1); [|lra]. rewrite sqrt_1, Rinv_1.
    destruct b as [[[? ?] ?] ?]. unfold qscale. now rewrite !Rmult_1_l.
Qed.

(** The cost evaluator after any history of calls: without optimization variables it throws; otherwise value, gradient and
    Hessian are those of the target set last, at the variables set last, with the joint reference term and the regularizer. *)
Inductive iop := IVars (w : list R) | ITarget (p : vec3) (q : quat) | IReg (r : option (list R -> nat -> nat -> R)).
Definition icall (e : evaluator) (o : iop) : evaluator :=
  match o with IVars w => setOptVector e w | ITarget p q => setTargetPose e p q | IReg r => setRegularizer e r end.
Definition lastVars (l : list iop) : option (list R) := fold_left (fun a o => match o with IVars w => Some w | _ => a end) l None.
Definition lastReg (l : list iop) : option (list R -> nat -> nat -> R) := fold_left (fun a o => match o with IReg r => r | _ => a end) l None.
Definition lastTarget (d : vec3 * m3) (l : list iop) : vec3 * m3 :=
  fold_left (fun a o => match o with ITarget p q => (p, qmat (qnormalized q)) | _ => a end) l d.
Lemma ihistory c j l : fold_left icall l (mkEvaluator None c j None) =
  mkEvaluator (lastVars l) (mkTerm (eeInd c) (Q_pos c) (Q_rot c) (fst (lastTarget (x_ref c, R_ref c) l)) (snd (lastTarget (x_ref c, R_ref c) l))) j (lastReg l).
Proof.
  unfold lastVars, lastReg, lastTarget.
  assert (G : forall w r d, fold_left icall l (mkEvaluator w (mkTerm (eeInd c) (Q_pos c) (Q_rot c) (fst d) (snd d)) j r) =
    mkEvaluator (fold_left (fun a o => match o with IVars w => Some w | _ => a end) l w)
      (mkTerm (eeInd c) (Q_pos c) (Q_rot c) (fst (fold_left (fun a o => match o with ITarget p q => (p, qmat (qnormalized q)) | _ => a end) l d))
        (snd (fold_left (fun a o => match o with ITarget p q => (p, qmat (qnormalized q)) | _ => a end) l d))) j
      (fold_left (fun a o => match o with IReg r => r | _ => a end) l r)).
  { induction l as [|o l IH]; intros w r d; [reflexivity|]. destruct o; cbn [fold_left icall].
    - apply (IH (Some w0) r d).
    - apply (IH w r (p, qmat (qnormalized q))).
    - apply (IH w r0 d). }
  rewrite <- (G None None (x_ref c, R_ref c)). now destruct c.
Qed.
Theorem C82_evaluator (k : kin) (n : nat) (c : term) (j : option joint_term) (l : list iop) :
  let e := fold_left icall l (mkEvaluator None c j None) in
  let c' := mkTerm (eeInd c) (Q_pos c) (Q_rot c) (fst (lastTarget (x_ref c, R_ref c) l)) (snd (lastTarget (x_ref c, R_ref c) l)) in
  match lastVars l with
  | None => eval k n e = Throw /\ evalGradient k n e = Throw /\ forall a b, evalHessian k n e a b = Throw
  | Some w =>
      eval k n e = Ok (evaluate k n c' w + match j with Some t => jt_eval t w | None => 0 end) /\
      (exists g, evalGradient k n e = Ok g /\ (match j with Some t => length (jt_grad t w) = length (stateDerivative k n 0 c' w) | None => True end ->
         length g = length (stateDerivative k n 0 c' w) /\
         forall i, nth i g 0 = nth i (stateDerivative k n 0 c' w) 0 + match j with Some t => nth i (jt_grad t w) 0 | None => 0 end)) /\
      forall a b, evalHessian k n e a b = Ok (stateSecondDerivative k n c' w a b + match j with Some t => jt_hess t w a b | None => 0 end
        + match lastReg l with Some r => r w a b | None => 0 end)
  end.
Proof.
  intros e c'. unfold e. rewrite ihistory. fold c'. unfold eval, evalGradient, evalHessian. cbn [w_ goal jointRef regularizer].
  destruct (lastVars l) as [w|]; [|auto]. split; [reflexivity|]. split; [|reflexivity]. eexists. split; [reflexivity|].
  destruct j as [t|].
  - intros L. set (g := stateDerivative k n 0 c' w) in *. set (h := jt_grad t w) in *. clearbody g h. split.
    + unfold addl. rewrite map_length, combine_length. lia.
    + revert h L. clear. induction g as [|x g IH]; intros [|y h] L i; try discriminate.
      * destruct i; cbn; ring.
      * destruct i as [|i]; [reflexivity|]. cbn. apply (IH h). cbn in L. lia.
  - intros _. split; [reflexivity|]. intros i. ring.
Qed.
(** The gradient handed to the solver is the derivative of the value handed to it, as the variables move; conditions as above
    for the goal term, and the gradient of the joint reference term is right. *)
Theorem C82_evaluator_gradient_partial (k : kin) (n : nat) (c : term) (j : option joint_term) (l : list iop) (x : R -> list R) (t : R) (xd : list R) (w : R) :
  let c' := mkTerm (eeInd c) (Q_pos c) (Q_rot c) (fst (lastTarget (x_ref c, R_ref c) l)) (snd (lastTarget (x_ref c, R_ref c) l)) in
  kinematics_ok k n (eeInd c) -> proper (R_ref c') -> symmetric3 (Q_pos c) -> Q_rot c = isotropic w -> moves x t xd n ->
  trace3 (mulm (eeRot k (eeInd c) (x t)) (transp (R_ref c'))) <> -1 ->
  match j with Some u => length (jt_grad u (x t)) = n /\ is_derive (fun s => jt_eval u (x s)) t (dotl (jt_grad u (x t)) xd) | None => True end ->
  let e s := fold_left icall (l ++ [IVars (x s)]) (mkEvaluator None c j None) in
  exists f g, (forall s, eval k n (e s) = Ok (f s)) /\ evalGradient k n (e t) = Ok g /\ is_derive f t (dotl g xd).
Proof.
  intros c' K P SP IR MV NH HJ e.
  assert (E : forall s, e s = mkEvaluator (Some (x s)) c' j (lastReg l)).
  { intros s. unfold e. rewrite ihistory. unfold lastVars, lastReg, lastTarget. rewrite !fold_left_app. reflexivity. }
  assert (F : forall s, firstn n (x s) = x s) by (intros s; apply firstn_all2; now rewrite (proj1 MV)).
  assert (MV0 : moves x t xd (n + 0)) by now rewrite Nat.add_0_r.
  assert (D : is_derive (fun s => evaluate k n c' (x s)) t (dotl (stateDerivative k n 0 c' (x t)) xd)).
  { apply (C82_gradient_partial k n 0 c' K P x t xd w SP IR MV0). now rewrite F. }
  exists (fun s => evaluate k n c' (x s) + match j with Some u => jt_eval u (x s) | None => 0 end). eexists.
  split; [intros s; now rewrite E|]. split; [rewrite E; reflexivity|]. cbn [jointRef goal].
  destruct j as [u|].
  - destruct HJ as (L & DJ). rewrite dotl_addl. now apply dplus. rewrite L. unfold stateDerivative, posT, rotT. rewrite addl_map, app_nil_r, map_length.
    rewrite F. apply (proj1 K). apply MV.
  - eapply dext; [|exact D]. intros s. cbn beta. symmetry. apply Rplus_0_r.
Qed.

(** * Where the gradient is wrong *)

(** Two sliding joints: the end-effector is at (q0, q1, 0). *)
Definition slider : kin := mkKin (fun _ q => (nth 0 q 0, nth 1 q 0, 0)) (fun _ _ => i3) (fun _ _ => [(zero3, (1, 0, 0)); (zero3, (0, 1, 0))]).
Lemma i3_proper : proper i3.
Proof. change i3 with (((1, 0, 0), (0, 1, 0), (0, 0, 1)) : m3). replace ((1, 0, 0), (0, 1, 0), (0, 0, 1)) with (qmat (1, 0, 0, 0)) by (unf; eq9; ring). apply qmat_proper. unfold unit_quat. ring. Qed.
Lemma slider_ok ee : kinematics_ok slider 2 ee.
Proof.
  split. intros q _. split; [apply i3_proper|reflexivity].
  intros q t qd (L & Ld & D). destruct qd as [|a [|b [|? ?]]]; try discriminate. split.
  - intros v. unfold slider, along. cbn [eeRot eeJac map combine fold_right fst snd].
    destruct v as [[v0 v1] v2]. unfold i3. unf. split; [|split]; (eapply dval; [apply dconst|unf; ring]).
  - unfold slider, along. cbn [eePosition eeJac map combine fold_right fst snd]. pose proof (D 0%nat ltac:(lia)) as D0. pose proof (D 1%nat ltac:(lia)) as D1. cbn [nth] in D0, D1.
    unf. split; [|split]; (eapply dval; [exact D0 || exact D1 || exact (dconst 0 t)|unf; ring]).
Qed.
(** Position weights that are not symmetric: cost q0 q1 / 2, gradient (q1, 0). *)
Theorem C82_position_weights_refuted : exists k n c x t xd, kinematics_ok k n (eeInd c) /\ proper (R_ref c) /\ Q_rot c = isotropic 1 /\ moves x t xd n /\
  eeRot k (eeInd c) (x t) = R_ref c /\ ~ is_derive (fun s => evaluate k n c (x s)) t (dotl (stateDerivative k n 0 c (x t)) xd).
Proof.
  set (c := mkTerm 0 ((0, 1, 0), (0, 0, 0), (0, 0, 0)) (isotropic 1) zero3 i3). exists slider, 2%nat, c, (fun s => [1; s]), 0, [0; 1].
  assert (MV : moves (fun s => [1; s]) 0 [0; 1] 2).
  { split; [reflexivity|split; [reflexivity|]]. intros [|[|i]] Hi; [exact (dconst 1 0)|exact (is_derive_id (K := R_AbsRing) 0)|lia]. }
  assert (Ev : forall s, xDiff slider 2 c [1; s] = (1, s, 0) /\ qDiff slider 2 c [1; s] = zero3).
  { intros s. split. unfold xDiff. rewrite worldPosition. cbn. unf. eq3; ring.
    rewrite qDiff_rotvec. cbn [firstn eeRot slider c eeInd R_ref]. destruct (errorQuat_ok i3 i3 i3_proper i3_proper) as (U & E).
    apply identity_of_scalar; [exact U|]. rewrite E. unfold scalarOf, trace3, i3. unf. field. }
  split; [apply slider_ok|]. split; [apply i3_proper|]. split; [reflexivity|]. split; [exact MV|]. split; [reflexivity|].
  assert (Ec : forall s : R, / 2 * s = evaluate slider 2 c [1; s]).
  { intros s. unfold evaluate, quadForm. destruct (Ev s) as (-> & ->). cbn [Q_pos Q_rot c]. unfold isotropic. unf. ring. }
  intros H. assert (D : is_derive (fun s => evaluate slider 2 c [1; s]) 0 (/ 2)).
  { eapply dval. apply (dext (fun s : R => / 2 * s)); [|exact (dscal (/ 2) _ _ _ (is_derive_id (K := R_AbsRing) 0))].
    - exact Ec.
    - unfold one. cbn. ring. }
  apply is_derive_unique in H. apply is_derive_unique in D. apply (eq_trans (eq_sym D)) in H. unfold stateDerivative in H. destruct (Ev 0) as (E1 & E2). rewrite E1, E2 in H.
  cbn in H. unfold dotl in H. cbn in H. unf. lra.
Qed.

(** A joint that turns the end-effector about z, which starts turned by 90 degrees about (1, 1, 0). *)
Definition startQuat : quat := (sqrt (/ 2), / 2, / 2, 0).
Definition spinner : kin := mkKin (fun _ _ => zero3) (fun _ q => qmat (qmul (aaZ (nth 0 q 0)) startQuat)) (fun _ _ => [((0, 0, 1), zero3)]).
Lemma start_unit : unit_quat startQuat.
Proof. unfold startQuat, unit_quat. rewrite sqrt_sqrt by lra. field. Qed.
Lemma spinner_matrix a : qmat (qmul (aaZ a) startQuat) = mulm (rZ a) (qmat startQuat).
Proof. rewrite qmat_mul; [|apply aa_unit|apply start_unit]. now rewrite (proj2 (proj2 (aa_mat a))). Qed.
Lemma rZ_turns (f : R -> R) t d : is_derive f t d -> turns (fun s => rZ (f s)) t (0, 0, d).
Proof.
  intros D [[v0 v1] v2].
  assert (Dc : is_derive (fun s => cos (f s)) t (- sin (f t) * d)).
  { eapply dval. exact (is_derive_comp cos f t _ _ (proj2 (is_derive_Reals _ _ _) (derivable_pt_lim_cos _)) D). unfold scal. cbn. unfold mult. cbn. ring. }
  assert (Ds : is_derive (fun s => sin (f s)) t (cos (f t) * d)).
  { eapply dval. exact (is_derive_comp sin f t _ _ (proj2 (is_derive_Reals _ _ _) (derivable_pt_lim_sin _)) D). unfold scal. cbn. unfold mult. cbn. ring. }
  split; [|split].
  - eapply dval. eapply dext; [|exact (dminus _ _ _ _ _ (dscal v0 _ _ _ Dc) (dscal v1 _ _ _ Ds))]. intros s. unfold rZ. unf. ring. unfold rZ. unf. ring.
  - eapply dval. eapply dext; [|exact (dplus _ _ _ _ _ (dscal v0 _ _ _ Ds) (dscal v1 _ _ _ Dc))]. intros s. unfold rZ. unf. ring. unfold rZ. unf. ring.
  - eapply dval. eapply dext; [|exact (dconst v2 t)]. intros s. unfold rZ. unf. ring. unfold rZ. unf. ring.
Qed.
Lemma spinner_ok ee : kinematics_ok spinner 1 ee.
Proof.
  split. intros q _. split; [|reflexivity]. apply qmat_proper, qmul_unit; [apply aa_unit|apply start_unit].
  intros q t qd (L & Ld & D). destruct qd as [|a [|? ?]]; try discriminate. pose proof (D 0%nat ltac:(lia)) as D0. cbn [nth] in D0. split.
  - unfold along, spinner. cbn [eeRot eeJac map combine fold_right fst snd].
    replace (add3 (scale3 a (0, 0, 1)) zero3) with ((0, 0, a) : vec3) by (unf; eq3; ring).
    intros v. destruct (turns_mul _ _ _ (qmat startQuat) (rZ_turns _ _ _ D0) v) as (A & B & C). rewrite spinner_matrix.
    split; [|split]; (eapply dext; [|eassumption]); intros s; cbn beta; now rewrite spinner_matrix.
  - unfold along, spinner. cbn [eePosition eeJac map combine fold_right fst snd]. unf. split; [|split]; (eapply dval; [apply dconst|unf; ring]).
Qed.
Lemma factor_derive s : 0 < s < 1 -> exists d, is_derive factor s d.
Proof.
  intros H. assert (P : 0 < (1 - s) / s) by (apply Rdiv_lt_0_compat; lra). assert (U0 : 0 < sqrt ((1 - s) / s)) by now apply sqrt_lt_R0.
  assert (E : ex_derive (fun s => atan (sqrt ((1 - s) / s)) / (2 * s * sqrt ((1 - s) / s))) s).
  { auto_derive. unfold Rdiv, Rminus in *. repeat split; try lra. apply Rmult_integral_contrapositive. split; lra. }
  destruct E as (d & D). exists d. eapply is_derive_ext_loc; [|exact D].
  assert (O : locally s (fun y => y < 1)) by (apply (open_lt 1); lra). revert O. apply filter_imp. intros y Hy. unfold factor. now destruct (Rlt_dec y 1).
Qed.
(** Rotations weighted differently about different axes: the gradient is zero, although the cost changes. *)
Theorem C82_rotation_weights_refuted : exists k n c x t xd, kinematics_ok k n (eeInd c) /\ proper (R_ref c) /\ symmetric3 (Q_pos c) /\ symmetric3 (Q_rot c) /\
  moves x t xd n /\ trace3 (mulm (eeRot k (eeInd c) (x t)) (transp (R_ref c))) <> -1 /\
  ~ is_derive (fun s => evaluate k n c (x s)) t (dotl (stateDerivative k n 0 c (x t)) xd).
Proof.
  set (c := mkTerm 0 (isotropic 1) ((1, 0, 0), (0, 0, 0), (0, 0, 0)) zero3 i3). exists spinner, 1%nat, c, (fun s => [s]), 0, [1].
  set (r := sqrt (/ 2)). assert (Rr : r * r = / 2) by (apply sqrt_sqrt; lra). assert (R0 : 0 < r) by (apply sqrt_lt_R0; lra).
  assert (MM : forall s, mulm (eeRot spinner 0 [s]) (transp i3) = mulm (rZ s) (qmat startQuat)).
  { intros s. cbn [eeRot spinner nth]. rewrite spinner_matrix. destruct (mulm (rZ s) _) as [[[[? ?] ?] [[? ?] ?]] [[? ?] ?]]. unfold i3. unf. eq9; ring. }
  assert (Tr : forall s, trace3 (mulm (rZ s) (qmat startQuat)) = cos s) by (intros s; unfold trace3, rZ, startQuat; unf; field).
  assert (Ve : forall s, vx (vee (mulm (rZ s) (qmat startQuat))) = r * (1 + cos s - sin s)).
  { intros s. unfold vee, rZ, startQuat. fold r. unf. field. }
  assert (Ev : forall s, -1 < cos s -> evaluate spinner 1 c [s] = / 2 * ((factor ((1 + cos s) / 4) * (r * (1 + cos s - sin s))) * (factor ((1 + cos s) / 4) * (r * (1 + cos s - sin s))))).
  { intros s Hs. assert (P : proper (eeRot spinner 0 [s])) by (apply (spinner_ok 0); reflexivity).
    destruct (errorQuat_ok _ _ P i3_proper) as (U & E). rewrite MM in E.
    assert (Hx : vx (qDiff spinner 1 c [s]) = factor ((1 + cos s) / 4) * (r * (1 + cos s - sin s))).
    { rewrite qDiff_rotvec. cbn [firstn eeInd R_ref c]. rewrite (proj1 (rotvec_matrix _ U ltac:(rewrite E, Tr; lra))), E. unfold scalarOf. rewrite Tr. unfold scale3 at 1. unfold vx at 1. cbn [fst]. now rewrite Ve. }
    unfold evaluate. rewrite <- Hx. assert (Z : xDiff spinner 1 c [s] = zero3) by (unfold xDiff; rewrite worldPosition; cbn; unf; eq3; ring).
    rewrite Z. destruct (qDiff spinner 1 c [s]) as [[p0 p1] p2]. unfold quadForm. cbn [Q_pos Q_rot c]. unfold isotropic. unf. ring. }
  split; [apply spinner_ok|]. split; [apply i3_proper|]. split; [reflexivity|]. split; [reflexivity|].
  split. { split; [reflexivity|split; [reflexivity|]]. intros [|i] Hi; [exact (is_derive_id (K := R_AbsRing) 0)|lia]. }
  split. { cbn [eeInd R_ref c]. rewrite MM, Tr, cos_0. lra. }
  destruct (factor_derive (/ 2) ltac:(lra)) as (d & Df).
  assert (Dc : is_derive (fun s => (1 + cos s) / 4) 0 0).
  { auto_derive; [exact I|]. rewrite sin_0. field. }
  assert (D1 : is_derive (fun s => factor ((1 + cos s) / 4)) 0 0).
  { assert (Df' : is_derive factor ((1 + cos 0) / 4) d) by (rewrite cos_0; replace ((1 + 1) / 4) with (/ 2) by field; exact Df).
    eapply dval. exact (is_derive_comp factor _ 0 _ _ Df' Dc). unfold scal. cbn. unfold mult. cbn. ring. }
  assert (D2 : is_derive (fun s => r * (1 + cos s - sin s)) 0 (- r)).
  { auto_derive; [exact I|]. rewrite sin_0, cos_0. ring. }
  pose proof (dmult _ _ _ _ _ D1 D2) as D3. pose proof (dscal (/ 2) _ _ _ (dmult _ _ _ _ _ D3 D3)) as D4. cbn beta in D4.
  intros H. assert (H' : is_derive (fun s => evaluate spinner 1 c [s]) 0 (- (factor (/ 2) * factor (/ 2)))).
  { eapply dval. eapply is_derive_ext_loc; [|exact D4].
    - assert (O : locally 0 (fun y => -1 < cos y)).
      { assert (Cc : continuous cos 0) by (apply continuity_pt_filterlim, continuity_cos). apply (Cc (fun y => -1 < y)). apply (open_gt (-1)). rewrite cos_0. lra. }
      revert O. apply filter_imp. intros y Hy. now rewrite Ev.
    - rewrite cos_0, sin_0. replace ((1 + 1) / 4) with (/ 2) by field. set (F := factor (/ 2)).
      transitivity (- (2 * (r * r)) * (F * F)); [field|]. rewrite Rr. field. }
  apply is_derive_unique in H. apply is_derive_unique in H'. apply (eq_trans (eq_sym H')) in H.
  assert (Z : dotl (stateDerivative spinner 1 0 c [0]) [1] = 0).
  { unfold stateDerivative. cbn [firstn eeJac spinner]. assert (Z : xDiff spinner 1 c [0] = zero3) by (unfold xDiff; rewrite worldPosition; cbn; unf; eq3; ring). rewrite Z.
    destruct (qDiff spinner 1 c [0]) as [[? ?] ?]. cbn. unfold dotl. cbn. unf. ring. }
  rewrite Z in H. destruct (factor_bounds (/ 2) ltac:(lra)) as (B & _). nra.
Qed.

(** * Example: an arm of length one that turns about z, target at angle zero *)
Definition arm : kin := mkKin (fun _ q => (cos (nth 0 q 0), sin (nth 0 q 0), 0)) (fun _ q => rZ (nth 0 q 0))
  (fun _ q => [((0, 0, 1), (- sin (nth 0 q 0), cos (nth 0 q 0), 0))]).
Definition armTerm : term := mkTerm 0 (isotropic 2) (isotropic 3) (1, 0, 0) i3.
Example C82_example : kinematics_ok arm 1 0 /\ proper (R_ref armTerm) /\ symmetric3 (Q_pos armTerm) /\ positive3 (Q_pos armTerm) /\ positive3 (Q_rot armTerm) /\
  moves (fun s => [s]) 1 [1] (1 + 0) /\ trace3 (mulm (eeRot arm 0 [1]) (transp (R_ref armTerm))) <> -1 /\
  is_derive (fun s => evaluate arm 1 armTerm [s]) 1 (dotl (stateDerivative arm 1 0 armTerm [1]) [1]) /\
  eePosition arm 0 [0] = x_ref armTerm /\ eeRot arm 0 [0] = R_ref armTerm.
Proof.
  assert (K : kinematics_ok arm 1 0).
  { split. intros q _. split; [|reflexivity]. cbn [eeRot arm]. rewrite <- (proj2 (proj2 (aa_mat (nth 0 q 0)))). apply qmat_proper, aa_unit.
    intros q t qd (L & Ld & D). destruct qd as [|a [|? ?]]; try discriminate. pose proof (D 0%nat ltac:(lia)) as D0. cbn [nth] in D0. split.
    - unfold along, arm. cbn [eeRot eeJac map combine fold_right fst snd].
      replace (add3 (scale3 a (0, 0, 1)) zero3) with ((0, 0, a) : vec3) by (unf; eq3; ring). exact (rZ_turns _ _ _ D0).
    - destruct (rZ_turns _ _ _ D0 (1, 0, 0)) as (A & B & C). unfold along, arm. cbn [eePosition eeJac map combine fold_right fst snd].
      split; [|split]; [eapply dval; [eapply dext; [|exact A]|]|eapply dval; [eapply dext; [|exact B]|]|eapply dval; [eapply dext; [|exact C]|]];
        try (intros s; cbn beta; unfold rZ; unf; ring); unfold rZ; unf; ring. }
  assert (MV : moves (fun s => [s]) 1 [1] (1 + 0)).
  { split; [reflexivity|split; [reflexivity|]]. intros [|i] Hi; [exact (is_derive_id (K := R_AbsRing) 1)|lia]. }
  assert (T : trace3 (mulm (eeRot arm 0 [1]) (transp (R_ref armTerm))) <> -1).
  { cbn [eeRot arm nth R_ref armTerm]. unfold trace3, rZ, i3. unf. pose proof (cos_gt_0 1) as H. pose proof PI2_1. specialize (H ltac:(lra) ltac:(lra)). lra. }
  assert (P : forall a, 0 < a -> positive3 (isotropic a)).
  { intros a Ha [[v0 v1] v2] N. assert (S : 0 < v0 * v0 + v1 * v1 + v2 * v2).
    { destruct (Req_EM_T v0 0) as [->|]; [destruct (Req_EM_T v1 0) as [->|]; [destruct (Req_EM_T v2 0) as [->|]; [now destruct N|]|]|]; nra. }
    pose proof (Rmult_lt_0_compat _ _ Ha S). unfold isotropic. unf. lra. }
  split; [exact K|]. split; [apply i3_proper|]. split; [reflexivity|]. split; [apply P; lra|]. split; [apply P; lra|]. split; [exact MV|]. split; [exact T|].
  split. { apply (C82_gradient_partial arm 1 0 armTerm K i3_proper (fun s => [s]) 1 [1] 3 eq_refl eq_refl MV T). }
  split; [cbn; now rewrite cos_0, sin_0|]. cbn [eeRot arm nth R_ref armTerm]. unfold rZ, i3. rewrite cos_0, sin_0. unf. eq9; ring.
Qed.
Print Assumptions C82_error.
Print Assumptions C82_minimum.
Print Assumptions C82_gradient_partial.
Print Assumptions C82_hessian.
Print Assumptions C82_hessian_at_target.
Print Assumptions C82_target.
Print Assumptions C82_evaluator.
Print Assumptions C82_evaluator_gradient_partial.
Print Assumptions C82_position_weights_refuted.
Print Assumptions C82_rotation_weights_refuted.
