(** C65: joint positions, their normalisation and limits.  C66: robot states and state vectors. *)
From Coq Require Import Reals Lra Lia List ZArith Psatz SpecFloat Bool.
From Verif Require Import Base.Outcome Base.Scalar Rbd.StateModel.
Import ListNotations.
Local Open Scope R_scope.

(** * C65 *)

Lemma floorR_spec x : IZR (floorR x) <= x < IZR (floorR x) + 1.
Proof. unfold floorR. destruct (archimed x) as [A B]. rewrite minus_IZR. lra. Qed.
Lemma floorR_unique x k : IZR k <= x < IZR k + 1 -> floorR x = k.
Proof.
  intros H. pose proof (floorR_spec x) as S.
  assert (IZR (floorR x) < IZR (k + 1)) by (rewrite plus_IZR; lra).
  assert (IZR k < IZR (floorR x + 1)) by (rewrite plus_IZR; lra).
  apply lt_IZR in H0, H1. lia.
Qed.
Lemma toInt_ok z : (Z.abs z < 2147483648)%Z -> toInt z = Ok z.
Proof.
  intros H. unfold toInt. destruct ((-2147483648 <? z)%Z && (z <? 2147483648)%Z) eqn:E; [reflexivity|].
  apply andb_false_iff in E. destruct E as [E|E]; apply Z.ltb_ge in E; lia.
Qed.

(** Specification.  [q'] is the position [q] brought to the range that starts at [l]: it differs from [q]
    by full turns, lies in the range up to the tolerance, and is [q] if [q] is in the range already. *)
Definition normalised (q l tol q' : R) : Prop :=
  (exists k : Z, q = q' + IZR k * (2 * PI)) /\ l - tol <= q' < l + 2 * PI + tol /\
  (tol < PI -> l - tol <= q < l + 2 * PI + tol -> q' = q).
(** The number of turns fits into an int. *)
Definition representable (q l tol : R) : Prop := Rabs (q - l) + tol <= 2147483646 * (2 * PI).

Lemma floor_small x : Rabs x <= 2147483646 -> (Z.abs (floorR x) < 2147483648)%Z.
Proof.
  intros H. pose proof (floorR_spec x) as S.
  assert (-2147483646 <= x <= 2147483646) by (unfold Rabs in H; destruct (Rcase_abs x); lra).
  assert (IZR (floorR x) < IZR 2147483647) by lra. assert (IZR (-2147483648) < IZR (floorR x)) by lra.
  apply lt_IZR in H1, H2. lia.
Qed.
Lemma uniqueOne_ok q l tol : 0 <= tol -> representable q l tol -> exists q', uniqueOne q l tol = Ok q' /\ normalised q l tol q'.
Proof.
  intros Ht Hr. pose proof PI_RGT_0 as P. unfold uniqueOne.
  set (xl := (q - (l - tol)) / (2 * PI)). set (xu := (q - (l + tol)) / (2 * PI)).
  assert (El : q - l + tol = xl * (2 * PI)) by (unfold xl; field; lra).
  assert (Eu : q - l - tol = xu * (2 * PI)) by (unfold xu; field; lra).
  assert (Bd : forall x y, y = x * (2 * PI) -> Rabs y <= 2147483646 * (2 * PI) -> Rabs x <= 2147483646).
  { intros x y -> H. rewrite Rabs_mult, (Rabs_right (2 * PI)) in H by lra. apply (Rmult_le_reg_r (2 * PI)); lra. }
  assert (Bl : Rabs xl <= 2147483646).
  { apply (Bd _ _ El). eapply Rle_trans; [apply Rabs_triang|]. rewrite (Rabs_right tol) by lra. exact Hr. }
  assert (Bu : Rabs xu <= 2147483646).
  { apply (Bd _ _ Eu). eapply Rle_trans; [apply Rabs_triang|]. rewrite Rabs_Ropp, (Rabs_right tol) by lra. exact Hr. }
  rewrite (toInt_ok (floorR xl)) by now apply floor_small. rewrite (toInt_ok (floorR xu)) by now apply floor_small. cbn [obind].
  pose proof (floorR_spec xl) as Sl. pose proof (floorR_spec xu) as Su.
  set (kl := floorR xl) in *. set (ku := floorR xu) in *.
  assert (Rl : l - tol <= q - IZR kl * 2 * PI < l - tol + 2 * PI).
  { replace q with (l - tol + xl * (2 * PI)) by lra. split; nra. }
  assert (Ru : l + tol <= q - IZR ku * 2 * PI < l + tol + 2 * PI).
  { replace q with (l + tol + xu * (2 * PI)) by lra. split; nra. }
  assert (Choice : exists k : Z, (k = kl /\ (Z.abs kl <= Z.abs ku)%Z \/ k = ku /\ (Z.abs ku < Z.abs kl)%Z) /\
    (if (Z.abs kl <=? Z.abs ku)%Z then if (kl =? 0)%Z then Ok q else Ok (q - IZR kl * 2 * PI)
     else if (ku =? 0)%Z then Ok q else Ok (q - IZR ku * 2 * PI)) = Ok (q - IZR k * 2 * PI)).
  { destruct (Z.leb_spec (Z.abs kl) (Z.abs ku)) as [L|L].
    - exists kl. split; [auto|]. destruct (Z.eqb_spec kl 0) as [->|]; [f_equal; ring|reflexivity].
    - exists ku. split; [auto|]. destruct (Z.eqb_spec ku 0) as [->|]; [f_equal; ring|reflexivity]. }
  destruct Choice as (k & Hk & ->). eexists. split; [reflexivity|]. split; [|split].
  - exists k. ring.
  - destruct Hk as [[-> _]|[-> _]]; lra.
  - intros Tp In. cut (k = 0%Z). { intros ->. ring. }
    destruct (Rlt_dec q (l - tol + 2 * PI)) as [L|L].
    + assert (Z0 : kl = 0%Z) by (apply floorR_unique; split; nra). destruct Hk as [[-> _]|[-> A]]; [exact Z0|]. rewrite Z0 in A. simpl in A. lia.
    + assert (Z0 : ku = 0%Z) by (apply floorR_unique; split; nra). destruct Hk as [[-> A]|[-> _]]; [|exact Z0]. rewrite Z0 in A. simpl in A. lia.
Qed.

Lemma uniqueAll_ok tol : 0 <= tol -> forall qs lower, (length qs <= length lower)%nat ->
  (forall i, (i < length qs)%nat -> representable (nth i qs 0) (nth i lower 0) tol) ->
  exists qs', uniqueAll qs lower tol = Ok qs' /\ length qs' = length qs /\
    forall i, (i < length qs)%nat -> normalised (nth i qs 0) (nth i lower 0) tol (nth i qs' 0).
Proof.
  intros Ht. induction qs as [|q qs IH]; intros lower Hl Hr.
  { exists []. split; [reflexivity|]. split; [reflexivity|]. simpl. lia. }
  destruct lower as [|l lower]; [simpl in Hl; lia|]. cbn [uniqueAll].
  destruct (uniqueOne_ok q l tol Ht (Hr 0%nat ltac:(simpl; lia))) as (q' & -> & N). cbn [obind].
  destruct (IH lower) as (qs' & -> & L & Ns); [simpl in Hl; lia|intros i Hi; apply (Hr (S i)); simpl; lia|].
  cbn [obind]. exists (q' :: qs'). split; [reflexivity|]. split; [simpl; lia|].
  intros [|i] Hi; [exact N|]. apply Ns. simpl in Hi. lia.
Qed.

(** Every joint position is brought to its range, the velocities stay. *)
Theorem C65_unique (n : nat) (st lower : list R) (tol : R) : length st = (2 * n)%nat -> (n <= length lower)%nat -> 0 <= tol ->
  (forall i, (i < n)%nat -> representable (nth i st 0) (nth i lower 0) tol) ->
  exists st', toUniquePosition n st lower tol = Ok st' /\ length st' = length st /\
    (forall i, (i < n)%nat -> normalised (nth i st 0) (nth i lower 0) tol (nth i st' 0)) /\
    (forall i, (n <= i)%nat -> nth i st' 0 = nth i st 0).
Proof.
  intros Hs Hl Ht Hr. unfold toUniquePosition, getPositions, getVelocities.
  assert (Lp : length (firstn n st) = n) by (rewrite firstn_length; lia).
  assert (Np : forall i, (i < n)%nat -> nth i (firstn n st) 0 = nth i st 0).
  { intros i Hi. rewrite <- (firstn_skipn n st) at 2. rewrite app_nth1 by lia. reflexivity. }
  destruct (uniqueAll_ok tol Ht (firstn n st) lower) as (qs' & -> & L & N); [lia| |].
  { intros i Hi. rewrite Np by lia. apply Hr. lia. }
  cbn [obind]. eexists. split; [reflexivity|]. split; [rewrite app_length, skipn_length; lia|]. split.
  - intros i Hi. rewrite app_nth1 by lia. rewrite <- Np by lia. apply N. lia.
  - intros i Hi. rewrite app_nth2 by lia. rewrite L, Lp. rewrite <- (firstn_skipn n st) at 2. rewrite app_nth2 by lia.
    now rewrite Lp.
Qed.

(** Without tolerance the result is the only representative in [lower, lower + 2 pi). *)
Theorem C65_representative (q l q1 q2 : R) :
  (exists k : Z, q = q1 + IZR k * (2 * PI)) -> l <= q1 < l + 2 * PI -> normalised q l 0 q2 -> q1 = q2.
Proof.
  intros (k & E1) H1 ((k2 & E2) & H2 & _). pose proof PI_RGT_0.
  assert (E : q1 - q2 = IZR (k2 - k) * (2 * PI)) by (rewrite minus_IZR; lra).
  assert (Z0 : (k2 - k = 0)%Z).
  { assert (IZR (k2 - k) < IZR 1) by nra. assert (IZR (-1) < IZR (k2 - k)) by nra. apply lt_IZR in H0, H3. lia. }
  rewrite Z0 in E. lra.
Qed.

(** Too many turns for an int are undefined. *)
Theorem C65_int_refuted (q l tol : R) : 2147483648 * (2 * PI) <= q - l + tol -> uniqueOne q l tol = UB.
Proof.
  intros H. pose proof PI_RGT_0 as P. unfold uniqueOne. set (x := (q - (l - tol)) / (2 * PI)).
  assert (E : q - l + tol = x * (2 * PI)) by (unfold x; field; lra).
  assert (X : 2147483648 <= x) by (apply (Rmult_le_reg_r (2 * PI)); lra).
  pose proof (floorR_spec x) as S. assert (IZR 2147483647 < IZR (floorR x)) by lra. apply lt_IZR in H0.
  unfold toInt. destruct (Z.ltb_spec (floorR x) 2147483648); [lia|]. rewrite andb_false_r. reflexivity.
Qed.

(** In double precision the result can be outside the half-open range, and normalising again changes it: the position
    -2^-70 with lower limit 0 becomes exactly 2 pi. *)
Theorem C65_double_refuted : let two_pi := SFmul prec64 emax64 (SFint 2) M_PI in let zero := S754_zero false in
  exists q q', uniqueOneF q zero zero = Ok q' /\ SFltb q' (SFadd prec64 emax64 zero two_pi) = false /\
    exists q'', uniqueOneF q' zero zero = Ok q'' /\ SFeqb q'' q' = false.
Proof.
  exists (SFnum (-1) (-70)). eexists. split; [vm_compute; reflexivity|]. split; [vm_compute; reflexivity|].
  eexists. split; [vm_compute; reflexivity|vm_compute; reflexivity].
Qed.

Lemma checkPos_iff tol : forall qs lower upper, (length qs <= length lower)%nat -> (length qs <= length upper)%nat ->
  exists b, checkPos qs lower upper tol = Ok b /\ (b = true <-> forall i, (i < length qs)%nat ->
    nth i lower 0 - Rmax 0 tol <= nth i qs 0 <= nth i upper 0 + Rmax 0 tol).
Proof.
  induction qs as [|q qs IH]; intros lower upper Hl Hu.
  { exists true. split; [reflexivity|]. split; [simpl; lia|auto]. }
  destruct lower as [|l lower]; [simpl in Hl; lia|]. destruct upper as [|u upper]; [simpl in Hu; lia|].
  destruct (IH lower upper) as (b & E & Hb); [simpl in Hl; lia|simpl in Hu; lia|].
  assert (T : Rmax 0 tol = tol /\ 0 <= tol \/ Rmax 0 tol = 0 /\ tol < 0) by (unfold Rmax; destruct (Rle_dec 0 tol); [left|right]; lra).
  assert (No : forall P : Prop, (l - Rmax 0 tol <= q <= u + Rmax 0 tol -> False) ->
    (false = true <-> forall i, (i < length (q :: qs))%nat -> nth i (l :: lower) 0 - Rmax 0 tol <= nth i (q :: qs) 0 <= nth i (u :: upper) 0 + Rmax 0 tol)).
  { intros _ C. split; [discriminate|]. intros A. exfalso. apply C. apply (A 0%nat). simpl. lia. }
  assert (Yes : l - Rmax 0 tol <= q <= u + Rmax 0 tol ->
    (b = true <-> forall i, (i < length (q :: qs))%nat -> nth i (l :: lower) 0 - Rmax 0 tol <= nth i (q :: qs) 0 <= nth i (u :: upper) 0 + Rmax 0 tol)).
  { intros C. rewrite Hb. split.
    - intros A [|i] Hi; [exact C|]. apply A. simpl in Hi. lia.
    - intros A i Hi. apply (A (S i)). simpl. lia. }
  cbn [checkPos].
  assert (Al : Rabs (q - l) = q - l /\ l <= q \/ Rabs (q - l) = l - q /\ q < l) by (unfold Rabs; destruct (Rcase_abs (q - l)); [right|left]; lra).
  assert (Au : Rabs (q - u) = q - u /\ u <= q \/ Rabs (q - u) = u - q /\ q < u) by (unfold Rabs; destruct (Rcase_abs (q - u)); [right|left]; lra).
  destruct (Rgt_dec (Rabs (q - l)) tol), (Rgt_dec (Rabs (q - u)) tol); [destruct (Rlt_dec q l), (Rgt_dec q u)|destruct (Rlt_dec q l)|destruct (Rgt_dec q u)|];
    try (exists false; split; [reflexivity|]; apply (No True); lra);
    exists b; (split; [exact E|]); apply Yes; lra.
Qed.
(** The limits are checked up to the tolerance (a negative tolerance counts as none). *)
Theorem C65_position_limits (n : nat) (st lower upper : list R) (tol : R) :
  length st = (2 * n)%nat -> (n <= length lower)%nat -> (n <= length upper)%nat ->
  exists b, checkPositionLimits n st lower upper tol = Ok b /\ (b = true <-> forall i, (i < n)%nat ->
    nth i lower 0 - Rmax 0 tol <= nth i st 0 <= nth i upper 0 + Rmax 0 tol).
Proof.
  intros Hs Hl Hu. unfold checkPositionLimits, getPositions.
  assert (Lp : length (firstn n st) = n) by (rewrite firstn_length; lia).
  assert (Np : forall i, (i < n)%nat -> nth i (firstn n st) 0 = nth i st 0).
  { intros i Hi. rewrite <- (firstn_skipn n st) at 2. rewrite app_nth1 by lia. reflexivity. }
  destruct (checkPos_iff tol (firstn n st) lower upper) as (b & E & H); [lia|lia|]. rewrite Lp in H.
  exists b. split; [exact E|]. rewrite H. split; intros A i Hi; specialize (A i Hi); rewrite Np in * by lia; exact A.
Qed.
Lemma checkVel_iff : forall vs lim, (length vs <= length lim)%nat ->
  exists b, checkVel vs lim = Ok b /\ (b = true <-> forall i, (i < length vs)%nat -> Rabs (nth i vs 0) <= nth i lim 0).
Proof.
  induction vs as [|v vs IH]; intros lim Hl.
  { exists true. split; [reflexivity|]. split; [simpl; lia|auto]. }
  destruct lim as [|l lim]; [simpl in Hl; lia|]. cbn [checkVel].
  destruct (Rgt_dec (Rabs v) l) as [G|G].
  - exists false. split; [reflexivity|]. split; [discriminate|]. intros A. specialize (A 0%nat ltac:(simpl; lia)). simpl in A. lra.
  - destruct (IH lim) as (b & E & H); [simpl in Hl; lia|]. exists b. split; [exact E|]. rewrite H. split.
    + intros A [|i] Hi; [simpl; lra|]. apply A. simpl in Hi. lia.
    + intros A i Hi. apply (A (S i)). simpl. lia.
Qed.
Theorem C65_velocity_limits (n : nat) (st lim : list R) : length st = (2 * n)%nat -> (n <= length lim)%nat ->
  exists b, checkVelocityLimits n st lim = Ok b /\ (b = true <-> forall i, (i < n)%nat -> Rabs (nth (n + i) st 0) <= nth i lim 0).
Proof.
  intros Hs Hl. unfold checkVelocityLimits, getVelocities.
  assert (Lp : length (skipn n st) = n) by (rewrite skipn_length; lia).
  destruct (checkVel_iff (skipn n st) lim) as (b & E & H); [lia|]. rewrite Lp in H. exists b. split; [exact E|]. rewrite H.
  assert (Np : forall i, nth i (skipn n st) 0 = nth (n + i) st 0).
  { intros i. rewrite <- (firstn_skipn n st) at 2. rewrite app_nth2; rewrite firstn_length; [|lia]. f_equal. lia. }
  split; intros A i Hi; specialize (A i Hi); rewrite Np in *; exact A.
Qed.

(** A normalised state passes the check against [lower, lower + 2 pi] with the same tolerance. *)
Theorem C65_unique_passes (n : nat) (st st' lower upper : list R) (tol : R) :
  length st = (2 * n)%nat -> (n <= length lower)%nat -> (n <= length upper)%nat -> 0 <= tol ->
  (forall i, (i < n)%nat -> representable (nth i st 0) (nth i lower 0) tol) ->
  (forall i, (i < n)%nat -> nth i upper 0 = nth i lower 0 + 2 * PI) ->
  toUniquePosition n st lower tol = Ok st' -> checkPositionLimits n st' lower upper tol = Ok true.
Proof.
  intros Hs Hl Hu Ht Hr Hup E. destruct (C65_unique n st lower tol Hs Hl Ht Hr) as (s & E' & L & N & _).
  rewrite E in E'. apply Ok_inj in E'. subst s.
  destruct (C65_position_limits n st' lower upper tol) as (b & Eb & Hb); [lia|lia|lia|].
  rewrite Eb. f_equal. apply Hb. intros i Hi. destruct (N i Hi) as (_ & B & _). rewrite Hup by lia.
  rewrite Rmax_right by lra. lra.
Qed.

Example C65_example : representable 10 0 (1 / 10) /\ normalised 10 0 0 (10 - 2 * PI).
Proof.
  pose proof PI2_3_2. pose proof PI_4. unfold representable, normalised. rewrite Rabs_right by lra. split; [lra|]. split; [|split].
  - exists 1%Z. ring.
  - lra.
  - intros _ [_ B]. lra.
Qed.

(** * C66 *)
Section C66.
Variables (quatOfEuler eulerOfQuat uniqueEuler : list R -> list R).
Notation toQ := (toStateVectorQuaternion quatOfEuler).
Notation fromQ := (fromStateVectorQuaternion eulerOfQuat).
Notation toE := (toStateVectorEulerXyz eulerOfQuat).
Notation fromE := (fromStateVectorEulerXyz quatOfEuler).
Notation getQ := (getRotationQuaternion quatOfEuler).
Notation getE := (getEulerAnglesXyz eulerOfQuat).

(** A state of a robot with [n] joints. *)
Definition wf (n : nat) (x : rbd) : Prop :=
  length (p_position (r_pose x)) = 3%nat /\ length (r_rotvel x) = 3%nat /\ length (r_linvel x) = 3%nat /\
  length (r_joints x) = (2 * n)%nat.

Lemma tailn_app (a b : list R) k : length b = k -> tailn k (a ++ b) = b.
Proof. intros <-. unfold tailn. rewrite app_length, Nat.add_sub. now rewrite skipn_app, skipn_all, Nat.sub_diag. Qed.
Lemma firstn_app_n (a b : list R) k : length a = k -> firstn k (a ++ b) = a.
Proof. intros <-. now rewrite firstn_app, firstn_all, Nat.sub_diag, app_nil_r. Qed.
Lemma skipn_app_n (a b : list R) k : length a = k -> skipn k (a ++ b) = b.
Proof. intros <-. now rewrite skipn_app, skipn_all, Nat.sub_diag. Qed.
Lemma segment_app (a b c : list R) i k : length a = i -> length b = k -> segment i k (a ++ b ++ c) = b.
Proof. intros Ha Hb. unfold segment. rewrite (skipn_app_n a) by auto. now apply firstn_app_n. Qed.
Lemma split_at (l : list R) k : (k <= length l)%nat -> exists a b, l = a ++ b /\ length a = k /\ length b = (length l - k)%nat.
Proof. intros H. exists (firstn k l), (skipn k l). rewrite firstn_skipn, firstn_length, skipn_length. repeat split; lia. Qed.

(** The six parts of a state vector. *)
Lemma parts (m n : nat) (s : list R) : length s = (m + 3 + n + 3 + 3 + n)%nat ->
  exists o p q w v d, s = o ++ p ++ q ++ w ++ v ++ d /\ length o = m /\ length p = 3%nat /\ length q = n /\
    length w = 3%nat /\ length v = 3%nat /\ length d = n.
Proof.
  intros H. destruct (split_at s m) as (o & s1 & -> & Lo & L1); [lia|].
  destruct (split_at s1 3) as (p & s2 & -> & Lp & L2); [lia|].
  destruct (split_at s2 n) as (q & s3 & -> & Lq & L3); [lia|].
  destruct (split_at s3 3) as (w & s4 & -> & Lw & L4); [lia|].
  destruct (split_at s4 3) as (v & s5 & -> & Lv & L5); [lia|].
  exists o, p, q, w, v, s5. repeat split; try lia; auto.
Qed.
Ltac sz := repeat rewrite app_length; lia.
Lemma fromQ_parts n o p q w v d x : length o = 4%nat -> length p = 3%nat -> length q = n -> length w = 3%nat ->
  length v = 3%nat -> length d = n ->
  fromQ n (o ++ p ++ q ++ w ++ v ++ d) x =
  mkRbd (setPosition p (setFromRotationQuaternion eulerOfQuat o (r_pose x))) w v (q ++ d).
Proof.
  intros Lo Lp Lq Lw Lv Ld. unfold fromStateVectorQuaternion. f_equal.
  - rewrite (segment_app o p) by auto. now rewrite (firstn_app_n o) by auto.
  - replace (o ++ p ++ q ++ w ++ v ++ d) with ((o ++ p ++ q) ++ w ++ v ++ d) by (now rewrite <- !app_assoc).
    apply segment_app; [sz|auto].
  - replace (o ++ p ++ q ++ w ++ v ++ d) with ((o ++ p ++ q ++ w) ++ v ++ d) by (now rewrite <- !app_assoc).
    apply segment_app; [sz|auto].
  - replace (o ++ p ++ q ++ w ++ v ++ d) with ((o ++ p) ++ q ++ w ++ v ++ d) by (now rewrite <- !app_assoc).
    rewrite segment_app by (auto; sz).
    replace ((o ++ p) ++ q ++ w ++ v ++ d) with ((o ++ p ++ q ++ w ++ v) ++ d) by (now rewrite <- !app_assoc).
    now rewrite tailn_app by auto.
Qed.
Lemma fromE_parts n o p q w v d x : length o = 3%nat -> length p = 3%nat -> length q = n -> length w = 3%nat ->
  length v = 3%nat -> length d = n ->
  fromE n (o ++ p ++ q ++ w ++ v ++ d) x =
  mkRbd (setPosition p (setFromEulerAnglesXyz quatOfEuler o (r_pose x))) w v (q ++ d).
Proof.
  intros Lo Lp Lq Lw Lv Ld. unfold fromStateVectorEulerXyz. f_equal.
  - rewrite (segment_app o p) by auto. now rewrite (firstn_app_n o) by auto.
  - replace (o ++ p ++ q ++ w ++ v ++ d) with ((o ++ p ++ q) ++ w ++ v ++ d) by (now rewrite <- !app_assoc).
    apply segment_app; [sz|auto].
  - replace (o ++ p ++ q ++ w ++ v ++ d) with ((o ++ p ++ q ++ w) ++ v ++ d) by (now rewrite <- !app_assoc).
    apply segment_app; [sz|auto].
  - replace (o ++ p ++ q ++ w ++ v ++ d) with ((o ++ p) ++ q ++ w ++ v ++ d) by (now rewrite <- !app_assoc).
    rewrite segment_app by (auto; sz).
    replace ((o ++ p) ++ q ++ w ++ v ++ d) with ((o ++ p ++ q ++ w ++ v) ++ d) by (now rewrite <- !app_assoc).
    now rewrite tailn_app by auto.
Qed.

(** A vector read into a state and written again: everything but the orientation is returned unchanged, whatever the
    state held before; the orientation is returned unchanged if it is stored in this representation, and converted
    there and back otherwise. *)
Theorem C66_quaternion_vector (n : nat) (s : list R) (x : rbd) : length s = (13 + 2 * n)%nat ->
  toQ n (fromQ n s x) =
    match p_storage (r_pose x) with QUAT => s | EULER => quatOfEuler (eulerOfQuat (firstn 4 s)) ++ skipn 4 s end.
Proof.
  intros H. destruct (parts 4 n s) as (o & p & q & w & v & d & -> & Lo & Lp & Lq & Lw & Lv & Ld); [lia|].
  rewrite fromQ_parts by auto. unfold toStateVectorQuaternion, getPositions, getVelocities; cbn [r_pose r_joints r_rotvel r_linvel].
  rewrite firstn_app_n, skipn_app_n by auto.
  unfold setPosition, setFromRotationQuaternion. unfold getRotationQuaternion. destruct (p_storage (r_pose x)); cbn [p_storage p_quat p_euler p_position]; [reflexivity|].
  now rewrite (firstn_app_n o), (skipn_app_n o) by auto.
Qed.
Theorem C66_euler_vector (n : nat) (s : list R) (x : rbd) : length s = (12 + 2 * n)%nat ->
  toE n (fromE n s x) =
    match p_storage (r_pose x) with EULER => s | QUAT => eulerOfQuat (quatOfEuler (firstn 3 s)) ++ skipn 3 s end.
Proof.
  intros H. destruct (parts 3 n s) as (o & p & q & w & v & d & -> & Lo & Lp & Lq & Lw & Lv & Ld); [lia|].
  rewrite fromE_parts by auto.
  unfold toStateVectorEulerXyz, toCoordinatePosition, toCoordinateVelocity, getPositions, getVelocities; cbn [r_pose r_joints r_rotvel r_linvel].
  rewrite firstn_app_n, skipn_app_n by auto.
  unfold setPosition, setFromEulerAnglesXyz. unfold getEulerAnglesXyz. destruct (p_storage (r_pose x)); cbn [p_storage p_quat p_euler p_position]; rewrite <- ?app_assoc; [|reflexivity].
  now rewrite (firstn_app_n o), (skipn_app_n o) by auto.
Qed.
(** A state written into a vector and read into any state of the same representation is the same state. *)
Theorem C66_quaternion_state (n : nat) (x y : rbd) : wf n x -> length (getQ (r_pose x)) = 4%nat ->
  p_storage (r_pose y) = QUAT ->
  let z := fromQ n (toQ n x) y in
  getQ (r_pose z) = getQ (r_pose x) /\ p_position (r_pose z) = p_position (r_pose x) /\
  r_rotvel z = r_rotvel x /\ r_linvel z = r_linvel x /\ r_joints z = r_joints x.
Proof.
  intros (Lp & Lw & Lv & Lj) Lo Sy. unfold toStateVectorQuaternion, getPositions, getVelocities.
  rewrite fromQ_parts; try (auto; rewrite ?firstn_length, ?skipn_length; lia). cbn -[app].
  rewrite firstn_skipn. unfold setPosition, setFromRotationQuaternion. rewrite Sy. simpl. auto.
Qed.
Theorem C66_euler_state (n : nat) (x y : rbd) : wf n x -> length (getE (r_pose x)) = 3%nat ->
  p_storage (r_pose y) = EULER ->
  let z := fromE n (toE n x) y in
  getE (r_pose z) = getE (r_pose x) /\ p_position (r_pose z) = p_position (r_pose x) /\
  r_rotvel z = r_rotvel x /\ r_linvel z = r_linvel x /\ r_joints z = r_joints x.
Proof.
  intros (Lp & Lw & Lv & Lj) Lo Sy.
  unfold toStateVectorEulerXyz, toCoordinatePosition, toCoordinateVelocity, getPositions, getVelocities.
  rewrite <- !app_assoc.
  rewrite fromE_parts; try (auto; rewrite ?firstn_length, ?skipn_length; lia). cbn -[app].
  rewrite firstn_skipn. unfold setPosition, setFromEulerAnglesXyz. rewrite Sy. simpl. auto.
Qed.
(** Provided kindr's conversions keep the rotation, the rotation survives every round trip. *)
Theorem C66_rotation (M : Type) (rotQ rotE : list R -> M) (n : nat) (s : list R) (x : rbd) :
  (forall e, rotQ (quatOfEuler e) = rotE e) -> (forall q, rotE (eulerOfQuat q) = rotQ q) ->
  (length s = (13 + 2 * n)%nat -> rotQ (getQ (r_pose (fromQ n s x))) = rotQ (firstn 4 s) /\ rotE (getE (r_pose (fromQ n s x))) = rotQ (firstn 4 s)) /\
  (length s = (12 + 2 * n)%nat -> rotQ (getQ (r_pose (fromE n s x))) = rotE (firstn 3 s) /\ rotE (getE (r_pose (fromE n s x))) = rotE (firstn 3 s)).
Proof.
  intros HQ HE. split; intros _.
  - unfold fromStateVectorQuaternion, setPosition, setFromRotationQuaternion, getRotationQuaternion, getEulerAnglesXyz; cbn [r_pose].
    destruct (p_storage (r_pose x)); simpl; rewrite ?HQ, ?HE; auto.
  - unfold fromStateVectorEulerXyz, setPosition, setFromEulerAnglesXyz, getRotationQuaternion, getEulerAnglesXyz; cbn [r_pose].
    destruct (p_storage (r_pose x)); simpl; rewrite ?HQ, ?HE, ?HQ; auto.
Qed.

(** Floating base robots with actuator states. *)
Theorem C66_floating (n k : nat) (s : list R) (x : floating) :
  (length s = (13 + 2 * n + k)%nat -> p_storage (r_pose (f_rbd x)) = QUAT ->
     fToStateVectorQuaternion quatOfEuler n (fFromStateVectorQuaternion eulerOfQuat n k s x) = s) /\
  (length s = (12 + 2 * n + k)%nat -> p_storage (r_pose (f_rbd x)) = EULER ->
     fToStateVectorEulerXyz eulerOfQuat n (fFromStateVectorEulerXyz quatOfEuler n k s x) = s).
Proof.
  split; intros H S; unfold fToStateVectorQuaternion, fFromStateVectorQuaternion, fToStateVectorEulerXyz, fFromStateVectorEulerXyz; cbn [f_rbd f_act].
  - rewrite C66_quaternion_vector by (rewrite firstn_length; lia). rewrite S. unfold tailn.
    replace (length s - k)%nat with (2 * (n + 6) + 1)%nat by lia. apply firstn_skipn.
  - rewrite C66_euler_vector by (rewrite firstn_length; lia). rewrite S. unfold tailn.
    replace (length s - k)%nat with (2 * (n + 6))%nat by lia. apply firstn_skipn.
Qed.
(** Fixed base robots: state and vector, joint and actuator parts, symplectic layout. *)
Theorem C66_fixbase (n k : nat) (s : list R) (x : fixbase) : length s = (2 * n + k)%nat ->
  bToStateVector n (bFromStateVector n k s x) = s /\
  bToFullState (bJointStateFromVector n s) (bActuatorStateFromVector k s) = s /\
  b_joints (bFromStateVector n k s x) = bJointStateFromVector n s /\ b_act (bFromStateVector n k s x) = bActuatorStateFromVector k s /\
  forall p, bToRBDState (bFromStateVector n k s x) p = bRbdStateFromVector n s p.
Proof.
  intros H. destruct (split_at s n) as (q & s1 & -> & Lq & L1); [lia|].
  destruct (split_at s1 n) as (d & a & -> & Ld & La); [rewrite app_length in H; lia|].
  assert (La' : length a = k) by (rewrite !app_length in H; lia).
  assert (E : tailn k (q ++ d ++ a) = a) by (rewrite app_assoc; now apply tailn_app).
  unfold bRbdStateFromVector, bToStateVector, bFromStateVector, bToFullState, bJointStateFromVector, bActuatorStateFromVector, bToRBDState, getPositions, getVelocities.
  cbn [b_joints b_act]. rewrite E, (segment_app q d a), (firstn_app_n q) by auto.
  rewrite firstn_app_n, skipn_app_n by auto. rewrite <- app_assoc. repeat split; reflexivity.
Qed.
Theorem C66_fixbase_state (n k : nat) (x y : fixbase) : length (b_joints x) = (2 * n)%nat -> length (b_act x) = k ->
  bFromStateVector n k (bToStateVector n x) y = x.
Proof.
  intros Lj La. unfold bFromStateVector, bToStateVector, getPositions, getVelocities.
  rewrite (firstn_app_n (firstn n (b_joints x))) by (rewrite firstn_length; lia).
  rewrite (segment_app (firstn n (b_joints x))) by (rewrite ?firstn_length, ?skipn_length; lia).
  rewrite firstn_skipn, app_assoc, tailn_app by auto. destruct x; reflexivity.
Qed.
Theorem C66_symplectic (n h : nat) (xr xa : list R) : length xr = (2 * n)%nat -> length xa = (2 * h)%nat ->
  let s := sToFullState n (2 * h) xr xa in
  length s = (2 * n + 2 * h)%nat /\ sRbdStateFromVector n (2 * h) s = xr /\ sActuatorStateFromVector n (2 * h) s = xa.
Proof.
  intros Lr La. cbv zeta. unfold sToFullState, sRbdStateFromVector, sJointStateFromVector, sActuatorStateFromVector.
  replace (2 * n + 2 * h)%nat with (2 * (n + h))%nat by lia. rewrite !Nat.div2_double.
  destruct (split_at xr n) as (q & d & -> & Lq & Ld); [lia|]. destruct (split_at xa h) as (p & v & -> & Lp & Lv); [lia|].
  assert (Ld' : length d = n) by lia. assert (Lv' : length v = h) by lia.
  clear Lr La Ld Lv. rewrite !firstn_app_n by auto. rewrite !tailn_app by auto.
  split; [rewrite !app_length; lia|]. split.
  - rewrite app_assoc. rewrite (segment_app (q ++ p) d v) by (rewrite ?app_length; lia). reflexivity.
  - rewrite (segment_app q p) by auto. rewrite !app_assoc, tailn_app by auto. reflexivity.
Qed.

(** REFUTED: the constructor of a pose from an Eigen quaternion ignores the requested storage.  Since a rotation has two
    quaternions with the same Euler angles, one of them is not returned by the pose although quaternion storage was
    requested; the constructor from a kindr quaternion returns both. *)
Theorem C66_storage_refuted (q q' x : list R) : q <> q' -> eulerOfQuat q = eulerOfQuat q' ->
  getQ (poseFromQuat eulerOfQuat q x QUAT) = q /\ getQ (poseFromQuat eulerOfQuat q' x QUAT) = q' /\
  ~ (getQ (poseFromEigenQuat eulerOfQuat q x QUAT) = q /\ getQ (poseFromEigenQuat eulerOfQuat q' x QUAT) = q').
Proof.
  intros N E. split; [reflexivity|]. split; [reflexivity|]. unfold poseFromEigenQuat, poseFromQuat, getRotationQuaternion. simpl.
  rewrite E. intros [A B]. congruence.
Qed.
End C66.

Example C66_example : wf 1 (newRbd 1 QUAT) /\
  toStateVectorQuaternion (fun _ => []) 1 (fromStateVectorQuaternion (fun _ => []) 1 [1; 2; 3; 4; 5; 6; 7; 8; 9; 10; 11; 12; 13; 14; 15] (newRbd 1 QUAT))
  = [1; 2; 3; 4; 5; 6; 7; 8; 9; 10; 11; 12; 13; 14; 15].
Proof. split; [repeat split|reflexivity]. Qed.

Print Assumptions C65_unique.
Print Assumptions C65_representative.
Print Assumptions C65_int_refuted.
Print Assumptions C65_double_refuted.
Print Assumptions C65_position_limits.
Print Assumptions C65_velocity_limits.
Print Assumptions C65_unique_passes.
Print Assumptions C66_quaternion_vector.
Print Assumptions C66_euler_vector.
Print Assumptions C66_quaternion_state.
Print Assumptions C66_euler_state.
Print Assumptions C66_rotation.
Print Assumptions C66_floating.
Print Assumptions C66_fixbase.
Print Assumptions C66_fixbase_state.
Print Assumptions C66_symplectic.
Print Assumptions C66_storage_refuted.
