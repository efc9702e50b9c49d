(** C100: task space costs. *)
From Coq Require Import Reals List Bool Arith String Lra Lia.
From Coquelicot Require Import Coquelicot.
From Verif Require Import Base.Outcome Rbd.ContactModel Rbd.KinModel Rbd.KinProps Rbd.IkCostModel Rbd.IkCostProofs Core.JitModel Rbd.TaskTermModel.
Import ListNotations.
Local Open Scope R_scope.

(** ** Specification *)
(** Sum of the squared differences of all nine entries of two matrices. *)
Definition entryDistance2 (a b : m3) : R :=
  let '((a00, a01, a02), (a10, a11, a12), (a20, a21, a22)) := a in let '((b00, b01, b02), (b10, b11, b12), (b20, b21, b22)) := b in
  (a00 - b00) ^ 2 + (a01 - b01) ^ 2 + (a02 - b02) ^ 2 + (a10 - b10) ^ 2 + (a11 - b11) ^ 2 + (a12 - b12) ^ 2 + (a20 - b20) ^ 2 + (a21 - b21) ^ 2 + (a22 - b22) ^ 2.
Definition weighted (Q : m3) (v : vec3) : R := dot3 v (mulv Q v).
(** Cost of a pose: weighted square of the position error, and weighted distance of the orientations. *)
Definition cost (Qpos : m3) (Qrot : R) (p r : vec3) (A B : m3) : R := weighted Qpos (sub3 p r) + Qrot * entryDistance2 A B.
Definition positive3 (m : m3) : Prop := forall v, v <> zero3 -> 0 < weighted m v.
Definition semidef3 (m : m3) : Prop := forall v, 0 <= weighted m v.

Section Pose.
Variable eePos : list R -> vec3.
Variable eeRotW : list R -> m3.

Lemma quad_weighted Q v : quad Q v = weighted Q v.
Proof. destruct Q as [[[[a b] c] [[d e] f]] [[g h] i]], v as [[x y] z]. unfold quad, weighted. unf. ring. Qed.
Lemma norm_entries a b : proper a -> squaredNorm (subm (mulm (transp a) b) i3) = entryDistance2 b a.
Proof.
  destruct a as [[[[a00 a01] a02] [[a10 a11] a12]] [[a20 a21] a22]], b as [[[[b00 b01] b02] [[b10 b11] b12]] [[b20 b21] b22]]. intros P. destruct (proper_eqs _ _ _ _ _ _ _ _ _ P) as ((R1 & R2 & R3 & R4 & R5 & R6) & (C1 & C2 & C3 & _) & _).
  unfold squaredNorm, subm, i3, entryDistance2. unf. clear P.
  match goal with |- ?l = ?r => assert (D : l - r = (b00 * b00 + b01 * b01 + b02 * b02) * (a00 * a00 + a01 * a01 + a02 * a02 - 1) + (b10 * b10 + b11 * b11 + b12 * b12) * (a10 * a10 + a11 * a11 + a12 * a12 - 1)
    + (b20 * b20 + b21 * b21 + b22 * b22) * (a20 * a20 + a21 * a21 + a22 * a22 - 1) + 2 * (b00 * b10 + b01 * b11 + b02 * b12) * (a00 * a10 + a01 * a11 + a02 * a12)
    + 2 * (b00 * b20 + b01 * b21 + b02 * b22) * (a00 * a20 + a01 * a21 + a02 * a22) + 2 * (b10 * b20 + b11 * b21 + b12 * b22) * (a10 * a20 + a11 * a21 + a12 * a22)
    - (a00 * a00 + a01 * a01 + a02 * a02 - 1) - (a10 * a10 + a11 * a11 + a12 * a12 - 1) - (a20 * a20 + a21 * a21 + a22 * a22 - 1)) by ring end.
  rewrite R1, R2, R3, R4, R5, R6 in D. lra.
Qed.
Lemma entries_nonneg a b : 0 <= entryDistance2 a b.
Proof. destruct a as [[[[a00 a01] a02] [[a10 a11] a12]] [[a20 a21] a22]], b as [[[[b00 b01] b02] [[b10 b11] b12]] [[b20 b21] b22]]. unfold entryDistance2. repeat apply Rplus_le_le_0_compat; apply pow2_ge_0. Qed.
Lemma entries_zero a b : entryDistance2 a b = 0 -> a = b.
Proof.
  destruct a as [[[[a00 a01] a02] [[a10 a11] a12]] [[a20 a21] a22]], b as [[[[b00 b01] b02] [[b10 b11] b12]] [[b20 b21] b22]]. unfold entryDistance2. intros H.
  pose proof (pow2_ge_0 (a00 - b00)). pose proof (pow2_ge_0 (a01 - b01)). pose proof (pow2_ge_0 (a02 - b02)). pose proof (pow2_ge_0 (a10 - b10)). pose proof (pow2_ge_0 (a11 - b11)). pose proof (pow2_ge_0 (a12 - b12)). pose proof (pow2_ge_0 (a20 - b20)). pose proof (pow2_ge_0 (a21 - b21)). pose proof (pow2_ge_0 (a22 - b22)).
  assert (Z : forall x y, (x - y) ^ 2 = 0 -> x = y) by (intros x y E; destruct (Req_dec (x - y) 0) as [E0|E0]; [lra|exfalso; apply (pow_nonzero _ 2 E0); exact E]).
  repeat apply f_equal2; apply Z; lra.
Qed.
Lemma entries_same a : entryDistance2 a a = 0.
Proof. destruct a as [[[[a00 a01] a02] [[a10 a11] a12]] [[a20 a21] a22]]. unfold entryDistance2. ring. Qed.
Lemma weighted_zero Q : weighted Q zero3 = 0.
Proof. destruct Q as [[[[a b] c] [[d e] f]] [[g h] i]]. unfold weighted. unf. ring. Qed.
Lemma sub_zero p r : sub3 p r = zero3 <-> p = r.
Proof. destruct p as [[a b] c], r as [[d e] f]. unf. split; [intros [= A B C]; repeat apply f_equal2; lra|intros [= -> -> ->]; repeat apply f_equal2; ring]. Qed.

Lemma zero_or v : v = zero3 \/ v <> zero3.
Proof.
  destruct v as [[a b] d]. destruct (Req_EM_T a 0) as [->|A]; [|right; intros [= E _ _]; contradiction]. destruct (Req_EM_T b 0) as [->|B]; [|right; intros [= E _]; contradiction].
  destruct (Req_EM_T d 0) as [->|D]; [left; reflexivity|right; intros [= E]; contradiction].
Qed.

(** The pose term is the weighted distance to its reference, for every weight and every proper reference rotation. It is never
    negative, and with positive weights it vanishes at the reference pose only. *)
Theorem C100_pose (c : poseTerm) (x : list R) : proper (w_R_ref c) ->
  evaluatePose eePos eeRotW c x = cost (t_Qpos c) (t_Qrot c) (eePos x) (w_p_ref c) (eeRotW x) (w_R_ref c) /\
  (semidef3 (t_Qpos c) -> 0 <= t_Qrot c -> 0 <= evaluatePose eePos eeRotW c x) /\
  (positive3 (t_Qpos c) -> 0 < t_Qrot c -> (evaluatePose eePos eeRotW c x = 0 <-> eePos x = w_p_ref c /\ eeRotW x = w_R_ref c)).
Proof.
  intros P. assert (E : evaluatePose eePos eeRotW c x = cost (t_Qpos c) (t_Qrot c) (eePos x) (w_p_ref c) (eeRotW x) (w_R_ref c)).
  { unfold evaluatePose, poseCost, cost. rewrite quad_weighted, norm_entries by exact P. reflexivity. }
  split; [exact E|]. rewrite E. unfold cost. pose proof (entries_nonneg (eeRotW x) (w_R_ref c)) as N. split.
  - intros S Q. apply Rplus_le_le_0_compat; [apply S|apply Rmult_le_pos; assumption].
  - intros S Q. split.
    + intros Z. assert (M : 0 <= t_Qrot c * entryDistance2 (eeRotW x) (w_R_ref c)) by (apply Rmult_le_pos; lra).
      destruct (zero_or (sub3 (eePos x) (w_p_ref c))) as [D|D]; [|exfalso; pose proof (S _ D); lra]. rewrite D, weighted_zero in Z. split.
      * apply sub_zero, D.
      * apply entries_zero. assert (M0 : t_Qrot c * entryDistance2 (eeRotW x) (w_R_ref c) = 0) by lra. apply Rmult_integral in M0. destruct M0; lra.
    + intros [A B]. rewrite A, B, entries_same. replace (sub3 (w_p_ref c) (w_p_ref c)) with zero3 by (symmetry; apply sub_zero; reflexivity). rewrite weighted_zero. ring.
Qed.
(** If the end-effector is turned from its reference by an angle about any axis, the cost of the orientation is
    8 Q sin^2 of half the angle: it depends on nothing but the angle, and is at most 8 Q. *)
Theorem C100_angle (c : poseTerm) (x : list R) (a : R) (k : vec3) : proper (w_R_ref c) -> dot3 k k = 1 ->
  (forall v, mulv (eeRotW x) v = rodrigues a k (mulv (w_R_ref c) v)) ->
  evaluatePose eePos eeRotW c x = weighted (t_Qpos c) (sub3 (eePos x) (w_p_ref c)) + 8 * t_Qrot c * (sin (a / 2)) ^ 2 /\
  (0 <= t_Qrot c -> evaluatePose eePos eeRotW c x <= weighted (t_Qpos c) (sub3 (eePos x) (w_p_ref c)) + 8 * t_Qrot c).
Proof.
  intros P K H. destruct (C100_pose c x P) as [E _]. unfold cost in E.
  assert (D : entryDistance2 (eeRotW x) (w_R_ref c) = 8 * (sin (a / 2)) ^ 2).
  { assert (S2 : cos a = 1 - 2 * (sin (a / 2)) ^ 2) by (replace a with (2 * (a / 2)) at 1 by field; rewrite cos_2a_sin; ring).
    pose proof (sin2_cos2 a) as SC. unfold Rsqr in SC. pose proof (H (1, 0, 0)) as H1. pose proof (H (0, 1, 0)) as H2. pose proof (H (0, 0, 1)) as H3. clear H E.
    destruct (eeRotW x) as [[[[b00 b01] b02] [[b10 b11] b12]] [[b20 b21] b22]], (w_R_ref c) as [[[[a00 a01] a02] [[a10 a11] a12]] [[a20 a21] a22]], k as [[kx ky] kz].
    destruct (proper_eqs _ _ _ _ _ _ _ _ _ P) as ((R1 & R2 & R3 & R4 & R5 & R6) & _). clear P. unfold rodrigues in H1, H2, H3. unf.
    injection H1 as X1 Y1 Z1. injection H2 as X2 Y2 Z2. injection H3 as X3 Y3 Z3. unfold entryDistance2.
    set (C := cos a) in *. set (S := sin a) in *. set (h := (sin (a / 2)) ^ 2) in *.
    assert (col : forall u v w b d e, b = C * u + S * (ky * w - kz * v) + (1 - C) * (kx * u + ky * v + kz * w) * kx -> d = C * v + S * (kz * u - kx * w) + (1 - C) * (kx * u + ky * v + kz * w) * ky ->
       e = C * w + S * (kx * v - ky * u) + (1 - C) * (kx * u + ky * v + kz * w) * kz -> (b - u) ^ 2 + (d - v) ^ 2 + (e - w) ^ 2 = 2 * (1 - C) * ((u * u + v * v + w * w) - (kx * u + ky * v + kz * w) ^ 2)).
    { intros u v w b d e -> -> ->. assert (SS : S * S = 1 - C * C) by lra. assert (KK : kz * kz = 1 - kx * kx - ky * ky) by lra. clear - SS KK. ring [SS KK]. }
    assert (c1 := col a00 a10 a20 b00 b10 b20 ltac:(lra) ltac:(lra) ltac:(lra)). assert (c2 := col a01 a11 a21 b01 b11 b21 ltac:(lra) ltac:(lra) ltac:(lra)). assert (c3 := col a02 a12 a22 b02 b12 b22 ltac:(lra) ltac:(lra) ltac:(lra)).
    assert (T : (kx * a00 + ky * a10 + kz * a20) ^ 2 + (kx * a01 + ky * a11 + kz * a21) ^ 2 + (kx * a02 + ky * a12 + kz * a22) ^ 2 = 1).
    { match goal with |- ?l = 1 => assert (Q : l = kx * kx * (a00 * a00 + a01 * a01 + a02 * a02) + ky * ky * (a10 * a10 + a11 * a11 + a12 * a12) + kz * kz * (a20 * a20 + a21 * a21 + a22 * a22)
        + 2 * kx * ky * (a00 * a10 + a01 * a11 + a02 * a12) + 2 * kx * kz * (a00 * a20 + a01 * a21 + a02 * a22) + 2 * ky * kz * (a10 * a20 + a11 * a21 + a12 * a22)) by ring; rewrite Q end.
      rewrite R1, R2, R3, R4, R5, R6. lra. }
    assert (N : (a00 * a00 + a10 * a10 + a20 * a20) + (a01 * a01 + a11 * a11 + a21 * a21) + (a02 * a02 + a12 * a12 + a22 * a22) = 3) by lra.
    assert (F : 2 * (1 - C) * ((a00 * a00 + a10 * a10 + a20 * a20) - (kx * a00 + ky * a10 + kz * a20) ^ 2) + 2 * (1 - C) * ((a01 * a01 + a11 * a11 + a21 * a21) - (kx * a01 + ky * a11 + kz * a21) ^ 2)
      + 2 * (1 - C) * ((a02 * a02 + a12 * a12 + a22 * a22) - (kx * a02 + ky * a12 + kz * a22) ^ 2) = 2 * (1 - C) * 2).
    { rewrite <- !Rmult_plus_distr_l. f_equal. lra. }
    lra. }
  rewrite E, D. split; [ring|]. intros Q. assert (B : (sin (a / 2)) ^ 2 <= 1) by (pose proof (sin2_cos2 (a / 2)) as X; unfold Rsqr in X; pose proof (pow2_ge_0 (cos (a / 2))); lra).
  assert (t_Qrot c * (sin (a / 2)) ^ 2 <= t_Qrot c * 1) by (apply Rmult_le_compat_l; assumption). lra.
Qed.
(** A reference given by any quaternion but zero is a proper rotation; one given by Euler angles is the product of the rotations
    about the three axes. *)
Theorem C100_reference (Qpos : m3) (Qrot : R) (p e : vec3) (q : quat) (s : string) : (0 < qnorm2 q -> proper (w_R_ref (newPoseTerm Qpos Qrot p q s))) /\
  w_R_ref (newPoseTermEuler Qpos Qrot p e s) = mulm (mulm (rX (vx e)) (rY (vy e))) (rZ (vz e)) /\ proper (w_R_ref (newPoseTermEuler Qpos Qrot p e s)).
Proof.
  assert (U : forall q, 0 < qnorm2 q -> unit_quat (qnormalized q)).
  { clear. intros q H. set (N := sqrt (qnorm2 q)). assert (N0 : 0 < N) by now apply sqrt_lt_R0. assert (NN : N * N = qnorm2 q) by (apply sqrt_sqrt; lra).
    unfold qnormalized. destruct (Rlt_dec 0 (qnorm2 q)); [|lra]. fold N. destruct q as [[[w x] y] z]. unfold qnorm2 in NN. unfold qscale, unit_quat.
    match goal with |- ?l = 1 => replace l with ((w * w + x * x + y * y + z * z) / (N * N)) by (field; lra) end. rewrite <- NN. field. lra. }
  assert (V : forall q, unit_quat q -> qnormalized q = q).
  { clear. intros [[[w x] y] z] H. unfold qnormalized. assert (Q : qnorm2 (w, x, y, z) = 1) by exact H. rewrite Q. destruct (Rlt_dec 0 1); [|lra]. rewrite sqrt_1. unfold qscale. repeat apply f_equal2; field. }
  split; [intros H; cbn; apply qmat_proper, U, H|].
  assert (W : unit_quat (eulerToQuat e)) by apply euler_unit. assert (X : qmul (qmul (aaX (vx e)) (aaY (vy e))) (aaZ (vz e)) = eulerToQuat e) by reflexivity.
  unfold newPoseTermEuler, newPoseTerm. cbn [w_R_ref]. rewrite X, V by exact W. rewrite euler_mat. split; [reflexivity|]. rewrite <- euler_mat. apply qmat_proper. exact W.
Qed.
(** The reference position and orientation last given; after every history of new references and clones that is the pose the term
    measures from, with the weights, name and activation of the constructor. *)
Definition lastPosition (p : vec3) (l : list poseOp) : vec3 := fold_left (fun p o => match o with RefPosition p' => p' | _ => p end) l p.
Definition lastOrientation (r : m3) (l : list poseOp) : m3 := fold_left (fun r o => match o with RefOrientation r' => r' | _ => r end) l r.
Theorem C100_pose_history (Qpos : m3) (Qrot : R) (p : vec3) (q : quat) (s : string) (l : list poseOp) (x : list R) :
  let c := fold_left poseStep l (newPoseTerm Qpos Qrot p q s) in let P := lastPosition p l in let O := lastOrientation (qmat (qnormalized q)) l in
  name (t_base c) = s /\ (forall t, activation (t_base c) t = 1) /\ (proper O -> evaluatePose eePos eeRotW c x = cost Qpos Qrot (eePos x) P (eeRotW x) O).
Proof.
  cbv zeta. assert (G : forall l c, let c' := fold_left poseStep l c in t_base c' = t_base c /\ t_Qpos c' = t_Qpos c /\ t_Qrot c' = t_Qrot c /\ w_p_ref c' = lastPosition (w_p_ref c) l /\ w_R_ref c' = lastOrientation (w_R_ref c) l).
  { clear. induction l as [|o l IH]; intros c; [cbn; auto|]. cbv zeta in *. destruct (IH (poseStep c o)) as (A & B & C & D & E). cbn [fold_left]. rewrite A, B, C, D, E. destruct o; cbn; auto. }
  destruct (G l (newPoseTerm Qpos Qrot p q s)) as (A & B & C & D & E). rewrite A. split; [reflexivity|]. split; [reflexivity|]. intros H.
  destruct (C100_pose (fold_left poseStep l (newPoseTerm Qpos Qrot p q s)) x) as [V _]; [rewrite E; exact H|]. rewrite V, B, C, D, E. reflexivity.
Qed.
(** The position term and its copies. *)
Theorem C100_position (c : positionTerm) (x : list R) : evaluatePosition eePos c x = weighted (p_Q c) (sub3 (eePos x) (pos_ref c)) /\
  (semidef3 (p_Q c) -> 0 <= evaluatePosition eePos c x) /\ (positive3 (p_Q c) -> eePos x <> pos_ref c -> 0 < evaluatePosition eePos c x) /\
  (eePos x = pos_ref c -> evaluatePosition eePos c x = 0) /\ evaluatePosition eePos (clonePosition c) x = evaluatePosition eePos c x.
Proof.
  unfold evaluatePosition. rewrite quad_weighted. split; [reflexivity|]. split; [intros S; apply S|]. split; [intros S N; apply S; intros Z; apply N, sub_zero, Z|]. split; [|cbn; apply quad_weighted].
  intros H. rewrite H. replace (sub3 (pos_ref c) (pos_ref c)) with zero3 by (symmetry; apply sub_zero; reflexivity). apply weighted_zero.
Qed.
(** Refuted: the clone of a position term is active at all times, whatever its original. *)
Theorem C100_position_clone_refuted (Q : m3) (p : vec3) (s : string) (x : list R) (t : R) : positive3 Q -> eePos x <> p ->
  let c := activatePosition (fun _ => 0) (newPosition Q p s) in
  evalPosition eePos c x t = 0 /\ 0 < evalPosition eePos (clonePosition c) x t /\ (s <> "Unnamed"%string -> name (p_base (clonePosition c)) <> name (p_base c)).
Proof.
  intros S N c. unfold c, evalPosition. cbn. split; [ring|]. split; [|intros H E; apply H; symmetry; exact E]. rewrite Rmult_1_l. unfold evaluatePosition. cbn. rewrite quad_weighted. apply S. intros Z. apply N, sub_zero, Z.
Qed.
End Pose.
Print Assumptions C100_pose.
Print Assumptions C100_angle.
Print Assumptions C100_reference.
Print Assumptions C100_pose_history.
Print Assumptions C100_position.
Print Assumptions C100_position_clone_refuted.

(** ** Terms with generated derivatives *)
(** The reference last set. *)
Definition reference (s : vec3 * m3) (o : cgOp) : vec3 * m3 :=
  match o with SetPosition p => (p, snd s) | SetRotation r => (fst s, r) | SetQuaternion q => (fst s, qmat (qnormalized q)) | _ => s end.
Definition lastReference (s : vec3 * m3) (l : list cgOp) : vec3 * m3 := fold_left reference l s.
Definition sized (n m : nat) (o : cgOp) : Prop := match o with EvaluateAt x u _ => List.length x = n /\ List.length u = m | _ => True end.
(** A vector with one entry replaced. *)
Definition replaced (v : list R) (c : nat) (h : R) : list R := firstn c v ++ h :: skipn (S c) v.
(** The first row of the Jacobian holds the partial derivatives of the first value, in all coordinates. *)
Definition differentiated (jacOf : func -> vec -> nat -> nat -> R) (f : func) (d : nat) : Prop :=
  forall z c, List.length z = d -> (c < d)%nat -> is_derive (fun h => nth 0 (f (replaced z c h)) 0) (nth c z 0) (jacOf f z 0%nat c).

Section Generated.
Variable eePos : list R -> vec3.
Variable eeRotW : list R -> m3.
Variable jacOf : func -> vec -> nat -> nat -> R.
Variable patternOf : func -> nat -> nat -> list (nat * nat).
Variables n m : nat.
Notation newCG := (newCG eePos eeRotW patternOf n m).
Notation cgExec := (cgExec n m).
Notation cgEvaluate := (cgEvaluate n m).
Notation D := (AD_PARAMETER_DIM n m).

Definition layout (x u : list R) (p : vec3) (r : m3) (t : R) : list R := x ++ u ++ [vx p; vy p; vz p] ++ vectorized r ++ [t].
Lemma segment_at (a l b c : list R) k : List.length a = k -> List.length b = List.length l -> setSegment k l (a ++ b ++ c) = a ++ l ++ c.
Proof.
  intros <- H. unfold setSegment. rewrite firstn_app, Nat.sub_diag, firstn_all, firstn_O, app_nil_r. f_equal. f_equal. rewrite skipn_app, skipn_all2 by lia.
  replace (List.length a + List.length l - List.length a)%nat with (List.length l) by lia. rewrite skipn_app, skipn_all2 by lia. rewrite H, Nat.sub_diag. reflexivity.
Qed.
Lemma position_layout x u p r t p' : List.length x = n -> List.length u = m -> setSegment (n + m) [vx p'; vy p'; vz p'] (layout x u p r t) = layout x u p' r t.
Proof. intros X U. unfold layout. rewrite !(app_assoc x u). apply segment_at; [rewrite app_length; lia|reflexivity]. Qed.
Lemma rotation_layout x u p r t r' : List.length x = n -> List.length u = m -> setSegment (n + m + 3) (vectorized r') (layout x u p r t) = layout x u p r' t.
Proof. intros X U. unfold layout. rewrite !(app_assoc x u). rewrite !(app_assoc (x ++ u) [vx p; vy p; vz p]). apply segment_at; [rewrite !app_length; cbn [List.length]; lia|reflexivity]. Qed.
Lemma current_layout x u p r t x' u' t' : List.length x = n -> List.length u = m -> List.length x' = n -> List.length u' = m ->
  setSegment (D - 1) [t'] (setSegment n u' (setSegment 0 x' (layout x u p r t))) = layout x' u' p r t'.
Proof.
  intros X U X' U'. unfold layout. assert (S0 : forall c, setSegment 0 x' (x ++ c) = x' ++ c) by (intros c; apply (segment_at [] x' x c 0 eq_refl); lia). rewrite S0. rewrite (segment_at x' u' u) by lia.
  rewrite !(app_assoc x' u'), !(app_assoc (x' ++ u') [vx p; vy p; vz p]), !(app_assoc ((x' ++ u') ++ [vx p; vy p; vz p]) (vectorized r)).
  rewrite <- (app_nil_r [t]). rewrite (segment_at _ [t'] [t]); [rewrite app_nil_r; reflexivity| |reflexivity].
  rewrite !app_length. unfold vectorized, AD_PARAMETER_DIM. cbn [List.length]. lia.
Qed.
Lemma vec3_eta (p : vec3) : (vx p, vy p, vz p) = p.
Proof. destruct p as [[a b] c]. reflexivity. Qed.
Lemma m3_eta (r : m3) : ((vx (row0 r), vy (row0 r), vz (row0 r)), (vx (row1 r), vy (row1 r), vz (row1 r)), (vx (row2 r), vy (row2 r), vz (row2 r))) = r.
Proof. destruct r as [[[[a b] c] [[d e] f]] [[g h] i]]. reflexivity. Qed.
Lemma nth_at (a b : list R) i k : List.length a = k -> nth (k + i) (a ++ b) 0 = nth i b 0.
Proof. intros <-. rewrite app_nth2 by lia. f_equal. lia. Qed.
Lemma local_layout Qpos Qrot x u p r t : List.length x = n -> List.length u = m ->
  evalLocal eePos eeRotW n m Qpos Qrot (layout x u p r t) = [poseCost eePos eeRotW Qpos Qrot p r x].
Proof.
  intros X U. unfold evalLocal. f_equal. assert (L : List.length (x ++ u) = (n + m)%nat) by (rewrite app_length; lia).
  assert (P : extractPosition n m (layout x u p r t) = p).
  { unfold extractPosition, layout. rewrite (app_assoc x u). etransitivity; [|apply vec3_eta]. repeat apply f_equal2; [rewrite <- (Nat.add_0_r (n + m))| |]; rewrite nth_at by exact L; reflexivity. }
  assert (Q : extractRotation n m (layout x u p r t) = r).
  { unfold extractRotation, layout. rewrite (app_assoc x u), (app_assoc (x ++ u)). assert (L3 : List.length ((x ++ u) ++ [vx p; vy p; vz p]) = (n + m + 3)%nat) by (rewrite app_length, L; reflexivity).
    etransitivity; [|apply m3_eta]. repeat apply f_equal2; try (rewrite nth_at by exact L3; reflexivity). rewrite <- (Nat.add_0_r (n + m + 3)). rewrite nth_at by exact L3. reflexivity. }
  rewrite P, Q. f_equal. unfold layout. rewrite firstn_app, firstn_all2 by lia. rewrite X, Nat.sub_diag, firstn_O. apply app_nil_r.
Qed.
Definition good (Qpos : m3) (Qrot : R) (b : base) (e : bool) (p : vec3) (r : m3) (c : cgTerm) : Prop :=
  (exists x u t, List.length x = n /\ List.length u = m /\ adParameterVector c = layout x u p r t) /\ cg_base c = b /\ evalControlDerivatives c = e /\
  outputDim (cg_jit c) = 1%nat /\ compiled (cg_jit c) = true /\ model (cg_jit c) = Some (evalLocal eePos eeRotW n m Qpos Qrot) /\ dynamicLib (cg_jit c) = true.
Lemma current_good Qpos Qrot b e p r c x u t : List.length x = n -> List.length u = m -> good Qpos Qrot b e p r c ->
  good Qpos Qrot b e p r (cgSetCurrent n m x u t c) /\ adParameterVector (cgSetCurrent n m x u t c) = layout x u p r t.
Proof.
  intros X U ((x0 & u0 & t0 & X0 & U0 & A) & B & E & J). assert (A' : adParameterVector (cgSetCurrent n m x u t c) = layout x u p r t) by (cbn [cgSetCurrent adParameterVector]; rewrite A; now apply current_layout).
  split; [|exact A']. split; [exists x, u, t; auto|]. cbn [cgSetCurrent cg_base evalControlDerivatives cg_jit]. auto.
Qed.
Lemma evaluate_good Qpos Qrot b e p r c x u t : List.length x = n -> List.length u = m -> good Qpos Qrot b e p r c -> fst (cgEvaluate x u t c) = Ok (poseCost eePos eeRotW Qpos Qrot p r x).
Proof.
  intros X U G. destruct (current_good _ _ _ _ _ _ _ x u t X U G) as [(_ & _ & _ & _ & C & M & _) A]. unfold TaskTermModel.cgEvaluate. cbn [fst]. unfold forwardZero. rewrite C, M, A, local_layout by assumption. reflexivity.
Qed.
Lemma step_good Qpos Qrot b e s c o : sized n m o -> good Qpos Qrot b e (fst s) (snd s) c -> exists c', cgStep n m c o = Ok c' /\ good Qpos Qrot b e (fst (reference s o)) (snd (reference s o)) c'.
Proof.
  intros Z G. pose proof G as ((x0 & u0 & t0 & X0 & U0 & A) & B & E & O & C & M & L). destruct o as [p|r|q|x u t|]; cbn [reference fst snd].
  - exists (cgSetPosition n m p c). split; [reflexivity|]. split; [|cbn; auto 10]. exists x0, u0, t0. split; [exact X0|split; [exact U0|]]. cbn [cgSetPosition adParameterVector]. rewrite A. now apply position_layout.
  - exists (cgSetRotation n m r c). split; [reflexivity|]. split; [|cbn; auto 10]. exists x0, u0, t0. split; [exact X0|split; [exact U0|]]. cbn [cgSetRotation adParameterVector]. rewrite A. now apply rotation_layout.
  - exists (cgSetQuaternion n m q c). split; [reflexivity|]. split; [|cbn; auto 10]. exists x0, u0, t0. split; [exact X0|split; [exact U0|]]. unfold cgSetQuaternion. cbn [cgSetRotation adParameterVector]. rewrite A. now apply rotation_layout.
  - destruct Z as [X U]. exists (cgSetCurrent n m x u t c). split; [|now apply current_good]. pose proof (evaluate_good _ _ _ _ _ _ _ x u t X U G) as V. unfold TaskTermModel.cgEvaluate in V. cbn [fst] in V.
    unfold cgStep, TaskTermModel.cgEvaluate. rewrite V. reflexivity.
  - unfold cgStep, cloneCG, copyJit. rewrite C, L. eexists. split; [reflexivity|]. split; [exists x0, u0, t0; auto|]. cbn. auto 10.
Qed.
Lemma exec_good Qpos Qrot b e : forall l s c, List.Forall (sized n m) l -> good Qpos Qrot b e (fst s) (snd s) c ->
  exists c', cgExec c l = Ok c' /\ good Qpos Qrot b e (fst (lastReference s l)) (snd (lastReference s l)) c'.
Proof.
  induction l as [|o l IH]; intros s c Z G; [exists c; auto|]. inversion Z; subst. destruct (step_good _ _ _ _ s c o H1 G) as (c1 & E & G1). destruct (IH (reference s o) c1 H2 G1) as (c2 & E2 & G2).
  exists c2. cbn [TaskTermModel.cgExec]. rewrite E. cbn [obind]. auto.
Qed.
Lemma list_pieces (l : list R) (a b : nat) : List.length l = (a + b)%nat -> exists x y, l = x ++ y /\ List.length x = a /\ List.length y = b.
Proof. intros H. exists (firstn a l), (skipn a l). rewrite firstn_skipn, firstn_length, skipn_length. split; [reflexivity|]. split; lia. Qed.
Lemma junk_layout (junk : list R) : List.length junk = D -> exists x u p r t, List.length x = n /\ List.length u = m /\ junk = layout x u p r t.
Proof.
  unfold AD_PARAMETER_DIM. intros H. destruct (list_pieces junk n (m + 13)) as (x & y & -> & X & Y); [lia|]. destruct (list_pieces y m 13 Y) as (u & z & -> & U & Z).
  do 13 (destruct z as [|? z]; [discriminate|]). destruct z; [|discriminate].
  exists x, u. match goal with |- context [x ++ u ++ [?a0; ?a1; ?a2; ?b0; ?b1; ?b2; ?b3; ?b4; ?b5; ?b6; ?b7; ?b8; ?t]] => exists (a0, a1, a2), ((b0, b3, b6), (b1, b4, b7), (b2, b5, b8)), t end. auto.
Qed.
Lemma new_good Qpos Qrot p q s e junk : List.length junk = D -> exists c, newCG Qpos Qrot p q s e junk = Ok c /\ good Qpos Qrot (newBase s) e p (qmat (qnormalized q)) c.
Proof.
  intros H. destruct (junk_layout junk H) as (x & u & p0 & r0 & t & X & U & ->). eexists. split.
  - unfold TaskTermModel.newCG, newJit, update, AD_PARAMETER_DIM. rewrite (proj2 (Nat.ltb_lt 0 (n + m + 3 + 9 + 1))) by lia. cbn -[cgSetQuaternion cgSetPosition]. reflexivity.
  - split; [|cbn; auto 10]. exists x, u, t. split; [exact X|split; [exact U|]]. unfold cgSetQuaternion. cbn [adParameterVector cgSetRotation cgSetPosition]. rewrite position_layout, rotation_layout by assumption. reflexivity.
Qed.

(** Whatever the history of new references, evaluations and clones, and whatever the memory contained at first: a term with
    generated derivatives has the value of the plain pose term with the reference last set, and keeps its name and activation. *)
Theorem C100_generated (Qpos : m3) (Qrot : R) (p : vec3) (q : quat) (s : string) (e : bool) (junk : list R) (l : list cgOp) :
  List.length junk = (n + m + 13)%nat -> List.Forall (sized n m) l ->
  exists c0 c, newCG Qpos Qrot p q s e junk = Ok c0 /\ cgExec c0 l = Ok c /\ cg_base c = newBase s /\
    let r := lastReference (p, qmat (qnormalized q)) l in
    forall x u t, List.length x = n -> List.length u = m ->
      fst (cgEvaluate x u t c) = Ok (evaluatePose eePos eeRotW (setRefOrientation (snd r) (setRefPosition (fst r) (newPoseTerm Qpos Qrot p q s))) x) /\
      (proper (snd r) -> fst (cgEvaluate x u t c) = Ok (cost Qpos Qrot (eePos x) (fst r) (eeRotW x) (snd r))).
Proof.
  intros J Z. destruct (new_good Qpos Qrot p q s e junk) as (c0 & E0 & G0); [unfold AD_PARAMETER_DIM; lia|].
  destruct (exec_good Qpos Qrot (newBase s) e l (p, qmat (qnormalized q)) c0 Z G0) as (c & E & G). exists c0, c. split; [exact E0|]. split; [exact E|]. split; [apply G|].
  cbv zeta. intros x u t X U. rewrite (evaluate_good _ _ _ _ _ _ _ x u t X U G). split; [reflexivity|]. intros P. f_equal.
  set (r := lastReference _ l) in *. destruct (C100_pose eePos eeRotW (setRefOrientation (snd r) (setRefPosition (fst r) (newPoseTerm Qpos Qrot p q s))) x P) as [V _]. exact V.
Qed.

Lemma nth_map_seq (f : nat -> R) k i : (i < k)%nat -> nth i (map f (seq 0 k)) 0 = f i.
Proof. intros H. rewrite (nth_indep _ 0 (f 0%nat)) by (rewrite map_length, seq_length; exact H). rewrite map_nth, seq_nth by exact H. reflexivity. Qed.
Lemma replaced_state x u p r t k h : List.length x = n -> (k < n)%nat -> replaced (layout x u p r t) k h = layout (replaced x k h) u p r t.
Proof.
  intros X K. unfold replaced, layout. rewrite firstn_app, skipn_app. replace (k - List.length x)%nat with 0%nat by lia. replace (S k - List.length x)%nat with 0%nat by lia. cbn [firstn skipn]. rewrite app_nil_r, <- !app_assoc. reflexivity.
Qed.
Lemma replaced_length x k h : (k < List.length x)%nat -> List.length (replaced x k h) = List.length x.
Proof. intros H. unfold replaced. rewrite app_length, firstn_length. cbn [List.length]. rewrite skipn_length. lia. Qed.
Lemma replaced_input x u p r t k h : List.length x = n -> List.length u = m -> (k < m)%nat -> replaced (layout x u p r t) (n + k) h = layout x (replaced u k h) p r t.
Proof.
  intros X U K. unfold replaced, layout. rewrite firstn_app, skipn_app. rewrite firstn_all2 by lia. rewrite (skipn_all2 x) by lia. replace (n + k - List.length x)%nat with k by lia. replace (S (n + k) - List.length x)%nat with (S k) by lia.
  rewrite firstn_app, skipn_app. replace (k - List.length u)%nat with 0%nat by lia. replace (S k - List.length u)%nat with 0%nat by lia. cbn [firstn skipn app]. rewrite app_nil_r, <- !app_assoc. reflexivity.
Qed.
(** If the differentiation library differentiates, the derivative by the state is the gradient of that cost, and the derivative by
    the input is zero, whether it is computed or not. *)
Theorem C100_gradient (Qpos : m3) (Qrot : R) (p : vec3) (q : quat) (s : string) (e : bool) (junk : list R) (l : list cgOp) :
  differentiated jacOf (evalLocal eePos eeRotW n m Qpos Qrot) (n + m + 13) ->
  List.length junk = (n + m + 13)%nat -> List.Forall (sized n m) l ->
  exists c0 c, newCG Qpos Qrot p q s e junk = Ok c0 /\ cgExec c0 l = Ok c /\
    forall x u t, List.length x = n -> List.length u = m ->
      (exists g, fst (cgStateDerivative jacOf n m x u t c) = Ok g /\ List.length g = n /\
        forall k, (k < n)%nat -> is_derive (fun h => let y := fst (cgEvaluate (replaced x k h) u t c) in match y with Ok v => v | _ => 0 end) (nth k x 0) (nth k g 0)) /\
      fst (cgControlDerivative jacOf n m x u t c) = Ok (repeat 0 m).
Proof.
  intros Jac J Z. destruct (new_good Qpos Qrot p q s e junk) as (c0 & E0 & G0); [unfold AD_PARAMETER_DIM; lia|].
  destruct (exec_good Qpos Qrot (newBase s) e l (p, qmat (qnormalized q)) c0 Z G0) as (c & E & G). exists c0, c. split; [exact E0|]. split; [exact E|].
  set (ref := lastReference _ l) in *. intros x u t X U. destruct (current_good _ _ _ _ _ _ _ x u t X U G) as [(_ & _ & _ & O & C & M & _) A].
  assert (LL : List.length (layout x u (fst ref) (snd ref) t) = (n + m + 13)%nat) by (unfold layout; rewrite !app_length; unfold vectorized; cbn [List.length]; lia).
  assert (NX : forall k, (k < n)%nat -> nth k (layout x u (fst ref) (snd ref) t) 0 = nth k x 0) by (intros k K; unfold layout; apply app_nth1; lia).
  split.
  - eexists. split; [unfold cgStateDerivative; cbn [fst]; unfold jacobian; rewrite O, C, M, A; cbn [Nat.leb obind]; reflexivity|]. split; [rewrite map_length; apply seq_length|].
    intros k K. rewrite nth_map_seq by exact K. rewrite <- (NX k K). pose proof (Jac _ k LL ltac:(lia)) as H.
    eapply is_derive_ext; [|exact H]. intros h. cbn beta. rewrite replaced_state by assumption. rewrite local_layout by (rewrite ?replaced_length by lia; assumption).
    cbv zeta. rewrite (evaluate_good Qpos Qrot (newBase s) e (fst ref) (snd ref)) by (rewrite ?replaced_length by lia; assumption). reflexivity.
  - unfold cgControlDerivative. destruct (evalControlDerivatives c); [|reflexivity]. cbn [fst]. unfold jacobian. rewrite O, C, M, A. cbn [Nat.leb obind]. f_equal.
    apply (nth_ext _ _ 0 0); [rewrite map_length, seq_length, repeat_length; reflexivity|]. intros k K. rewrite map_length, seq_length in K. rewrite nth_map_seq by exact K.
    rewrite nth_repeat. pose proof (Jac _ (n + k)%nat LL ltac:(lia)) as H.
    eapply is_derive_unique in H as H'. rewrite <- H'. transitivity (Derive (fun _ => poseCost eePos eeRotW Qpos Qrot (fst ref) (snd ref) x) (nth (n + k) (layout x u (fst ref) (snd ref) t) 0)); [|apply Derive_const]. apply Derive_ext.
    intros h. cbn beta. rewrite replaced_input by assumption. rewrite local_layout by (rewrite ?replaced_length by lia; assumption). reflexivity.
Qed.
End Generated.
Print Assumptions C100_generated.
Print Assumptions C100_gradient.

(** *** The hypotheses are met: a sliding hand at (x0, 0, 0) that does not turn, with one input *)
Definition handPos (x : list R) : vec3 := (nth 0 x 0, 0, 0).
Definition handRot (_ : list R) : m3 := i3.
Definition partials (f : func) (z : vec) (r c : nat) : R := Derive (fun h => nth r (f (replaced z c h)) 0) (nth c z 0).
Definition exampleTermOps : list cgOp := [SetPosition (3, 0, 0); EvaluateAt [1] [2] 5; CloneTerm; SetQuaternion (0, 0, 0, 2); SetPosition (1, 2, 0)].
Ltac polynomial := repeat match goal with
  | |- ex_derive (fun _ => ?c) _ => apply ex_derive_const
  | |- ex_derive (fun h => h) _ => apply ex_derive_id
  | |- ex_derive (Rminus ?a) _ => apply (ex_derive_minus (V := R_NormedModule) (fun _ => a) (fun h => h))
  | |- ex_derive (Rplus ?a) _ => apply (ex_derive_plus (V := R_NormedModule) (fun _ => a) (fun h => h))
  | |- ex_derive (Rmult ?a) _ => apply (ex_derive_mult (fun _ => a) (fun h => h))
  | |- ex_derive (fun h => _ + _) _ => apply (ex_derive_plus (V := R_NormedModule))
  | |- ex_derive (fun h => _ - _) _ => apply (ex_derive_minus (V := R_NormedModule))
  | |- ex_derive (fun h => _ * _) _ => apply ex_derive_mult
  end.
Example hand_differentiated : differentiated partials (evalLocal handPos handRot 1 1 i3 2) 15.
Proof.
  intros z c L C. unfold partials. apply Derive_correct.
  do 15 (destruct z as [|? z]; [discriminate|]). destruct z; [|discriminate].
  do 15 (destruct c as [|c]; [cbv beta iota zeta delta [evalLocal poseCost extractPosition extractRotation replaced nth firstn skipn app handPos handRot Nat.add]; unfold squaredNorm, quad, subm, i3, TaskTermModel.i3; unf; cbv beta iota zeta; polynomial|]). lia.
Qed.
Lemma i3_positive : positive3 i3.
Proof. intros [[a b] c] N. unfold weighted. unfold i3. unf. assert (H : a <> 0 \/ b <> 0 \/ c <> 0) by (destruct (Req_dec a 0) as [->|]; [destruct (Req_dec b 0) as [->|]; [destruct (Req_dec c 0) as [->|]; [exfalso; apply N; reflexivity|]|]|]; auto). match goal with |- 0 < ?e => replace e with (a * a + b * b + c * c) by ring end. pose proof (Rle_0_sqr a) as A. pose proof (Rle_0_sqr b) as B. pose proof (Rle_0_sqr c) as C. unfold Rsqr in A, B, C. destruct H as [H|[H|H]]; apply Rsqr_pos_lt in H; unfold Rsqr in H; lra. Qed.
Example term_case : positive3 i3 /\ proper (w_R_ref (newPoseTerm i3 2 (0, 0, 0) (0, 0, 0, 2) "pose")) /\
  (exists c0 c, newCG handPos handRot (fun _ _ _ => []) 1 1 i3 2 (0, 0, 0) (1, 0, 0, 0) "pose" true (repeat 7 15) = Ok c0 /\ cgExec 1 1 c0 exampleTermOps = Ok c /\
     fst (cgEvaluate 1 1 [4] [9] 0 c) = Ok (9 + 4 + 2 * 8)).
Proof.
  split; [exact i3_positive|]. split; [apply (proj1 (C100_reference i3 2 (0, 0, 0) (0, 0, 0) (0, 0, 0, 2) "pose")); unfold qnorm2; lra|].
  destruct (C100_generated handPos handRot (fun _ _ _ => []) 1 1 i3 2 (0, 0, 0) (1, 0, 0, 0) "pose" true (repeat 7 15) exampleTermOps) as (c0 & c & E0 & E & _ & H);
    [apply repeat_length|repeat (apply List.Forall_cons; [cbn; auto|]); apply List.Forall_nil|].
  exists c0, c. split; [exact E0|]. split; [exact E|]. destruct (H [4] [9] 0 eq_refl eq_refl) as [_ V]. cbn [exampleTermOps lastReference fold_left reference fst snd] in V.
  rewrite V by (apply (proj1 (C100_reference i3 2 (0, 0, 0) (0, 0, 0) (0, 0, 0, 2) "pose")); unfold qnorm2; lra). f_equal.
  assert (Q : qmat (qnormalized (0, 0, 0, 2)) = ((-1, 0, 0), (0, -1, 0), (0, 0, 1))).
  { unfold qnormalized. assert (N : qnorm2 (0, 0, 0, 2) = 2 * 2) by (unfold qnorm2; ring). rewrite N. destruct (Rlt_dec 0 (2 * 2)); [|lra]. rewrite sqrt_square by lra. unfold qscale, qmat. repeat apply f_equal2; field. }
  rewrite Q. unfold cost, weighted, entryDistance2, handPos, handRot, i3. unf. cbn. ring.
Qed.
