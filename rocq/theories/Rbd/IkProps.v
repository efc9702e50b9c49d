(** C96: inverse kinematics returns joint positions that reach the requested pose. *)
From Coq Require Import Reals List Bool Arith Lia Lra ZArith.
From Verif Require Import Base.Outcome Base.RVec Rbd.StateModel Rbd.StateProps Rbd.SpatialModel Rbd.SpatialProofs Rbd.SpatialProps Rbd.PendulumModel Rbd.PendulumProps
  Rbd.HyaProps Rbd.HyaKinProps Rbd.ContactModel Rbd.KinModel Rbd.KinProps Rbd.IkModel.
Import ListNotations.
Local Open Scope R_scope.

(** ** Specification *)
Definition angle (q : joints) (i : nat) : R := nth i q 0.
(** Distance of joint positions. *)
Definition distance (n : nat) (a b : joints) : R := sqrt (rsum n (fun i => (angle a i - angle b i) * (angle a i - angle b i))).
(** The ranges of HyA's joints. *)
Definition range (i : nat) : R * R :=
  nth i [(-3.1416, 0.5236); (-0.7679, 0.8552); (-1.6406, 0.0698); (0, 2.2689); (-2.0944, 1.5708); (-0.5236, 1.5708)] (0, 0).
Definition within (q : joints) : Prop := length q = 6%nat /\ forall i, (i < 6)%nat -> fst (range i) <= angle q i <= snd (range i).
(** The same configuration: the angles differ by full turns. *)
Definition turned (a b : joints) : Prop := forall i, (i < 6)%nat -> exists k : Z, angle a i = angle b i + IZR k * (2 * PI).
(** Base coordinates of the point with coordinates [x] in the end effector's frame (C95). *)
Definition eePoint (q : joints) (x : vec3) : vec3 :=
  let c i := eeP (angle q) i + (eeR (angle q) i 0%nat * vx x + eeR (angle q) i 1%nat * vy x + eeR (angle q) i 2%nat * vz x) in
  (c 0%nat, c 1%nat, c 2%nat).
(** The end effector of an arm whose base is at [base] is at [target]. *)
Definition reaches (target base : pose) (q : joints) : Prop := forall x, toFrame base (eePoint q x) = toFrame target x.
(** What the generated solver returns: six angles each, of less than a million. *)
Definition sane (raws : list joints) : Prop := forall s, In s raws -> length s = 6%nat /\ forall i, (i < 6)%nat -> Rabs (angle s i) <= 1000000.

(** ** Closest solution *)
Lemma diff2_sum : forall n a b, length a = n -> length b = n -> diff2 a b = rsum n (fun i => (angle a i - angle b i) * (angle a i - angle b i)).
Proof.
  unfold angle. induction n as [|n IH]; intros [|x a] [|y b] La Lb; try discriminate; [reflexivity|].
  cbn [diff2]. rewrite (IH a b) by (cbn in *; lia).
  clear. revert a b x y. assert (S0 : forall m (f : nat -> R), rsum (S m) f = f 0%nat + rsum m (fun i => f (S i))).
  { induction m as [|m IHm]; intros f; [cbn; ring|]. cbn [rsum]. cbn [rsum] in IHm. rewrite IHm. cbn. ring. }
  intros. rewrite S0. reflexivity.
Qed.
Lemma norm_dist n a b : length a = n -> length b = n -> normDiff a b = distance n a b.
Proof. intros. unfold normDiff, distance. now rewrite (diff2_sum n). Qed.
Lemma closest_spec (query : joints) : forall sols best, exists pre post, best :: sols = pre ++ closestLoop sols query best (normDiff best query) :: post /\
  (forall s, In s pre -> normDiff (closestLoop sols query best (normDiff best query)) query < normDiff s query) /\
  (forall s, In s post -> normDiff (closestLoop sols query best (normDiff best query)) query <= normDiff s query).
Proof.
  induction sols as [|s r IH]; intros best.
  - exists [], []. split; [reflexivity|]. split; intros ? [].
  - cbn [closestLoop]. destruct (Rlt_dec (normDiff s query) (normDiff best query)) as [L|L].
    + destruct (IH s) as (pre & post & E & P & Q). exists (best :: pre), post. cbn [app]. rewrite <- E. split; [reflexivity|]. split; [|exact Q].
      intros x [<-|Hx]; [|apply P; exact Hx].
      apply Rle_lt_trans with (normDiff s query); [|exact L].
      destruct pre as [|p pre]; injection E as E1 E2; [rewrite <- E1; lra|]. left. apply P. left. symmetry. exact E1.
    + destruct (IH best) as (pre & post & E & P & Q). set (z := closestLoop r query best (normDiff best query)) in *.
      assert (Z : normDiff z query <= normDiff best query).
      { destruct pre as [|p pre]; injection E as E1 E2; [rewrite <- E1; lra|]. left. apply P. left. symmetry. exact E1. }
      destruct pre as [|p pre]; injection E as E1 E2.
      * exists [], (s :: r). cbn [app]. split; [rewrite <- E1; reflexivity|]. split; [intros ? []|].
        intros x [<-|Hx]; [apply Rnot_lt_le in L; apply Rle_trans with (1 := Z); exact L|]. apply Q. rewrite <- E2. exact Hx.
      * exists (best :: s :: pre), post. cbn [app]. rewrite <- E2. split; [reflexivity|]. split; [|exact Q].
        intros x [<-|[<-|Hx]].
        -- apply P. left. symmetry. exact E1.
        -- apply Rlt_le_trans with (normDiff best query); [|lra]. apply P. left. symmetry. exact E1.
        -- apply P. right. exact Hx.
Qed.
(** computeInverseKinematicsCloseTo returns the first of the closest solutions, and nothing if there is none. *)
Theorem C96_closest (n : nat) (query old : joints) (sols : list joints) :
  length query = n -> (forall s, In s sols -> length s = n) ->
  (sols <> [] -> exists best pre post, computeInverseKinematicsCloseTo (Ok true, sols) old query = (Ok true, best) /\ sols = pre ++ best :: post /\
    (forall s, In s sols -> distance n best query <= distance n s query) /\ (forall s, In s pre -> distance n best query < distance n s query)) /\
  computeInverseKinematicsCloseTo (Ok false, sols) old query = (Ok false, old).
Proof.
  intros Lq Ls. split; [|reflexivity]. destruct sols as [|s r]; [congruence|]. intros _. cbn [computeInverseKinematicsCloseTo].
  destruct (closest_spec query r s) as (pre & post & E & P & Q). set (z := closestLoop r query s (normDiff s query)) in *.
  exists z, pre, post. split; [reflexivity|]. split; [exact E|].
  assert (Lz : length z = n) by (apply Ls; rewrite E; apply in_or_app; right; left; reflexivity).
  split; intros x Hx.
  - pose proof (Ls x Hx) as Lx. rewrite <- !norm_dist by assumption. rewrite E in Hx. apply in_app_or in Hx.
    destruct Hx as [Hx|[<-|Hx]]; [left; apply P; exact Hx|lra|apply Q; exact Hx].
  - assert (Lx : length x = n) by (apply Ls; rewrite E; apply in_or_app; left; exact Hx). rewrite <- !norm_dist by assumption. apply P. exact Hx.
Qed.
Print Assumptions C96_closest.

(** ** HyA *)
Lemma limits i : (i < 6)%nat -> nth i hyaLower 0 = fst (range i) /\ nth i hyaUpper 0 = snd (range i).
Proof. intros H. do 6 (destruct i as [|i]; [cbn; lra|]). lia. Qed.
Lemma range_ok i : (i < 6)%nat -> fst (range i) >= -4 /\ fst (range i) <= 0 /\ snd (range i) < fst (range i) + 2 * PI.
Proof. pose proof PI2_1. intros H0. do 6 (destruct i as [|i]; [cbn; lra|]). lia. Qed.
Lemma one_solution vel s : length vel = 6%nat -> length s = 6%nat -> (forall i, (i < 6)%nat -> Rabs (angle s i) <= 1000000) ->
  exists st b, toUniquePosition 6 (s ++ vel) hyaLower 0 = Ok st /\ checkPositionLimits 6 st hyaLower hyaUpper 0 = Ok b /\
    (b = true -> within (getPositions 6 st) /\ turned s (getPositions 6 st)) /\
    (forall q, within q -> turned s q -> b = true /\ q = getPositions 6 st).
Proof.
  intros Lv Ls B. pose proof PI2_1 as P2.
  assert (N : forall i, (i < 6)%nat -> nth i (s ++ vel) 0 = angle s i) by (intros i Hi; apply app_nth1; lia).
  destruct (C65_unique 6 (s ++ vel) hyaLower 0) as (st & E & L & U & _).
  { rewrite app_length. lia. } { cbn. lia. } { lra. }
  { intros i Hi. unfold representable. rewrite N by exact Hi. destruct (limits i Hi) as [-> _]. destruct (range_ok i Hi) as (R1 & R2 & _).
    specialize (B i Hi). assert (Rabs (angle s i - fst (range i)) <= 1000004) by (unfold Rabs in *; destruct (Rcase_abs _), (Rcase_abs _); lra). lra. }
  destruct (C65_position_limits 6 st hyaLower hyaUpper 0) as (b & Eb & Hb).
  { rewrite L, app_length. lia. } { cbn. lia. } { cbn. lia. }
  assert (Lst : length st = 12%nat) by (rewrite L, app_length; lia).
  assert (Np : forall i, (i < 6)%nat -> angle (getPositions 6 st) i = nth i st 0).
  { intros i Hi. unfold angle, getPositions. rewrite <- (firstn_skipn 6 st) at 2. rewrite app_nth1; [reflexivity|]. rewrite firstn_length. lia. }
  assert (Lp : length (getPositions 6 st) = 6%nat) by (unfold getPositions; rewrite firstn_length; lia).
  exists st, b. split; [exact E|]. split; [exact Eb|]. split.
  - intros Hbt. pose proof (proj1 Hb Hbt) as Hl. clear Hbt. rename Hl into Hbt. split; [split; [exact Lp|]|]; intros i Hi.
    + rewrite Np by exact Hi. specialize (Hbt i Hi). destruct (limits i Hi) as [<- <-]. unfold Rmax in Hbt. destruct (Rle_dec 0 0); lra.
    + destruct (U i Hi) as ((k & Ek) & _). exists k. rewrite Np by exact Hi. rewrite <- Ek. symmetry. apply N. exact Hi.
  - intros q (Lq & W) T. assert (Q : forall i, (i < 6)%nat -> angle q i = nth i st 0).
    { intros i Hi. apply (C65_representative (angle s i) (fst (range i))).
      - apply T. exact Hi.
      - specialize (W i Hi). destruct (range_ok i Hi) as (_ & _ & R). lra.
      - specialize (U i Hi). rewrite N in U by exact Hi. destruct (limits i Hi) as [<- _]. exact U. }
    split.
    + apply (proj2 Hb). intros i Hi. rewrite <- Q by exact Hi. specialize (W i Hi). destruct (limits i Hi) as [-> ->]. unfold Rmax. destruct (Rle_dec 0 0); lra.
    + apply (nth_ext _ _ 0 0); [lia|]. intros i Hi. rewrite Lq in Hi. change (angle q i = angle (getPositions 6 st) i). rewrite Np by exact Hi. apply Q. exact Hi.
Qed.
Lemma filter_spec vel : length vel = 6%nat -> forall raws res, sane raws -> exists r, hyaFilter vel raws res = (Ok tt, r) /\
  forall q, In q r <-> In q res \/ (within q /\ exists s, In s raws /\ turned s q).
Proof.
  intros Lv. induction raws as [|s raws IH]; intros res S.
  - exists res. split; [reflexivity|]. intros q. split; [tauto|]. intros [H|(_ & s & [] & _)]. exact H.
  - destruct (S s (or_introl eq_refl)) as [Ls Bs]. destruct (one_solution vel s Lv Ls Bs) as (st & b & E1 & E2 & T & F). cbn [hyaFilter]. rewrite E1, E2.
    assert (S' : sane raws) by (intros x Hx; apply S; right; exact Hx). destruct b.
    + destruct (T eq_refl) as [W1 W2]. destruct (IH (res ++ [getPositions 6 st]) S') as (r & Er & Hr). exists r. split; [exact Er|]. intros q. rewrite Hr, in_app_iff. split.
      * intros [[H|[<-|[]]]|(W & x & Hx & Tx)]; [left; exact H|right; split; [exact W1|]; exists s; split; [left; reflexivity|exact W2]|right; split; [exact W|]; exists x; split; [right; exact Hx|exact Tx]].
      * intros [H|(W & x & [<-|Hx] & Tx)]; [left; left; exact H|left; right; left; symmetry; apply (F q W Tx)|right; split; [exact W|]; exists x; auto].
    + destruct (IH res S') as (r & Er & Hr). exists r. split; [exact Er|]. intros q. rewrite Hr. split.
      * intros [H|(W & x & Hx & Tx)]; [left; exact H|right; split; [exact W|]; exists x; split; [right; exact Hx|exact Tx]].
      * intros [H|(W & x & [<-|Hx] & Tx)]; [left; exact H|destruct (F q W Tx); discriminate|right; split; [exact W|]; exists x; auto].
Qed.

(** The solutions for HyA are exactly the joint positions within the limits that differ from one of the generated solver's
    by full turns; the result says whether there is any. Wrong free joints throw. What the vector held before does not matter. *)
Theorem C96_hya (numFree : nat) (ikfast : vec3 -> m3 -> list nat -> list joints) (vel : joints) (old : list joints) (target : pose) (free : list nat) :
  length vel = 6%nat -> let raws := ikfast (p_position target) (getRotationMatrix target) free in sane raws ->
  (numFree = length free -> exists b sols, hyaIk numFree ikfast vel old target free = (Ok b, sols) /\ (b = true <-> sols <> []) /\
    forall q, In q sols <-> within q /\ exists s, In s raws /\ turned s q) /\
  (numFree <> length free -> hyaIk numFree ikfast vel old target free = (Throw, [])).
Proof.
  intros Lv raws S. unfold hyaIk. fold raws. split; intros Hn.
  - apply Nat.eqb_eq in Hn. rewrite Hn. cbn [negb]. destruct raws as [|s r] eqn:Er.
    + exists false, []. split; [reflexivity|]. split; [split; congruence|]. intros q. split; [intros []|intros (_ & s & [] & _)].
    + destruct (filter_spec vel Lv (s :: r) [] S) as (sols & E & H). rewrite E.
      exists (match sols with [] => false | _ => true end), sols. split; [destruct sols; reflexivity|]. split; [destruct sols; split; congruence|].
      intros q. rewrite H. split; [intros [[]|K]; exact K|right; assumption].
  - apply Nat.eqb_neq in Hn. rewrite Hn. reflexivity.
Qed.
Print Assumptions C96_hya.

(** ** Poses *)
Lemma turn_world a b : (forall i, (i < 6)%nat -> exists k : Z, a i = b i + IZR k * (2 * PI)) -> forall k, (k < 6)%nat -> worldR a k = worldR b k /\ worldP a k = worldP b k.
Proof.
  intros T. assert (A : forall k, (k < 6)%nat -> axes (mountF k) (a k) = axes (mountF k) (b k)).
  { intros k Hk. destruct (T k Hk) as (z & ->). unfold axes, turnZ. 
    assert (C : cos (b k + IZR z * (2 * PI)) = cos (b k) /\ sin (b k + IZR z * (2 * PI)) = sin (b k)).
    { destruct (Z_le_gt_dec 0 z) as [Hz|Hz].
      - replace (IZR z * (2 * PI)) with (2 * INR (Z.to_nat z) * PI) by (rewrite INR_IZR_INZ, Z2Nat.id by lia; ring). split; [apply cos_period|apply sin_period].
      - rewrite <- (cos_period (b k + IZR z * (2 * PI)) (Z.to_nat (- z))), <- (sin_period (b k + IZR z * (2 * PI)) (Z.to_nat (- z))).
        replace (b k + IZR z * (2 * PI) + 2 * INR (Z.to_nat (- z)) * PI) with (b k); [auto|]. rewrite INR_IZR_INZ, Z2Nat.id, opp_IZR by lia. ring. }
    destruct C as [-> ->]. reflexivity. }
  induction k as [|k IH]; intros Hk; cbn [worldR worldP].
  - split; [apply A; exact Hk|reflexivity].
  - destruct IH as [-> ->]; [lia|]. split; [rewrite A by exact Hk; reflexivity|reflexivity].
Qed.
Lemma turned_point a b x : turned a b -> eePoint a x = eePoint b x.
Proof. intros T. unfold eePoint, eeP, eeR. destruct (turn_world (angle a) (angle b) T 5) as [-> ->]; [lia|]. reflexivity. Qed.
Lemma to_frame_inj p u v : valid p -> toFrame p u = toFrame p v -> u = v.
Proof.
  intros V E. destruct (rot_proper p V) as (P1 & _). rewrite <- (P1 u), <- (P1 v). f_equal. unfold toFrame in E.
  destruct p as [s qq e [[a b] c]]. cbn [p_position] in E. destruct (mulv _ u) as [[u1 u2] u3], (mulv _ v) as [[v1 v2] v3].
  unfold add3, vx, vy, vz in E. cbn in E. injection E as E1 E2 E3. f_equal; [f_equal|]; lra.
Qed.
Lemma get_rotation p : getRotationMatrix p = rotation p.
Proof. unfold getRotationMatrix, rotation. destruct (p_storage p); [reflexivity|]. apply euler_mat. Qed.

(** If the generated solver's solutions place the end effector where asked, so do the returned ones, in world coordinates and
    within the limits; and if it finds every configuration for this pose, every one within the limits is returned. *)
Theorem C96_reaches (quatToEuler : quat -> vec3) (numFree : nat) (ikfast : vec3 -> m3 -> list nat -> list joints) (vel : joints) (old : list joints)
    (target base : pose) (free : list nat) :
  keeps_rotation quatToEuler -> valid target -> valid base -> length vel = 6%nat -> numFree = length free ->
  let inBase := inReferenceFrame quatToEuler target base in
  let raws := ikfast (p_position inBase) (getRotationMatrix inBase) free in
  sane raws -> (forall s, In s raws -> forall x, eePoint s x = add3 (p_position inBase) (mulv (getRotationMatrix inBase) x)) ->
  exists b sols, hyaIkWorld quatToEuler numFree ikfast vel old target base free = (Ok b, sols) /\ (b = true <-> sols <> []) /\
    (forall q, In q sols -> within q /\ reaches target base q) /\
    ((forall q, (forall x, eePoint q x = add3 (p_position inBase) (mulv (getRotationMatrix inBase) x)) -> exists s, In s raws /\ turned s q) ->
     forall q, within q -> reaches target base q -> In q sols).
Proof.
  intros KR Vt Vb Lv Hn inBase raws S So. destruct (C96_hya numFree ikfast vel old inBase free Lv S) as [H _]. destruct (H Hn) as (b & sols & E & B & C).
  assert (F : forall x, toFrame base (add3 (p_position inBase) (mulv (getRotationMatrix inBase) x)) = toFrame target x).
  { intros x. rewrite get_rotation. apply (C75_reference_frame quatToEuler KR target base x Vt Vb). }
  exists b, sols. split; [exact E|]. split; [exact B|]. split.
  - intros q Hq. apply C in Hq. destruct Hq as (W & s & Hs & T). split; [exact W|]. intros x. rewrite <- (turned_point s q x T), (So s Hs x). apply F.
  - intros K q W R. apply C. split; [exact W|]. apply K. intros x. apply (to_frame_inj base); [exact Vb|]. rewrite F. apply R.
Qed.
Print Assumptions C96_reaches.

(** The closest solution for HyA: within the limits, at the requested pose, and closest to the query among all configurations
    within the limits that the generated solver finds; without one, the result is left as it was. *)
Theorem C96_close_to (quatToEuler : quat -> vec3) (numFree : nat) (ikfast : vec3 -> m3 -> list nat -> list joints) (vel old query : joints)
    (target base : pose) (free : list nat) :
  keeps_rotation quatToEuler -> valid target -> valid base -> length vel = 6%nat -> numFree = length free -> length query = 6%nat ->
  let inBase := inReferenceFrame quatToEuler target base in
  let raws := ikfast (p_position inBase) (getRotationMatrix inBase) free in
  sane raws -> (forall s, In s raws -> forall x, eePoint s x = add3 (p_position inBase) (mulv (getRotationMatrix inBase) x)) ->
  exists b q, computeInverseKinematicsCloseTo (hyaIkWorld quatToEuler numFree ikfast vel [] target base free) old query = (Ok b, q) /\
    (b = true <-> exists s q', In s raws /\ turned s q' /\ within q') /\ (b = false -> q = old) /\
    (b = true -> within q /\ reaches target base q /\
      forall s q', In s raws -> turned s q' -> within q' -> distance 6 q query <= distance 6 q' query).
Proof.
  intros KR Vt Vb Lv Hn Lq inBase raws S So. destruct (C96_reaches quatToEuler numFree ikfast vel [] target base free KR Vt Vb Lv Hn S So) as (b & sols & E & B & C & _).
  destruct (C96_hya numFree ikfast vel [] inBase free Lv S) as [H _]. destruct (H Hn) as (b' & sols' & E' & _ & C').
  unfold hyaIkWorld in E. fold inBase in E. rewrite E' in E. injection E as Eb Es. subst b' sols'. unfold hyaIkWorld. fold inBase. rewrite E'.
  assert (Ls : forall s, In s sols -> length s = 6%nat) by (intros s Hs; apply C in Hs; destruct Hs as ((L & _) & _); exact L).
  destruct (C96_closest 6 query old sols Lq Ls) as [T F]. fold raws in C'.
  assert (Ex : b = true <-> exists s q', In s raws /\ turned s q' /\ within q').
  { rewrite B. split.
    - intros N. destruct sols as [|q r]; [congruence|]. destruct (proj1 (C' q) (or_introl eq_refl)) as (W & s & Hs & Ts). exists s, q. auto.
    - intros (s & q' & Hs & Ts & W) N. assert (I : In q' sols) by (apply C'; split; [exact W|exists s; auto]). rewrite N in I. destruct I. }
  destruct b.
  - destruct (T (proj1 B eq_refl)) as (best & pre & post & Eq & Ep & M & _). exists true, best. split; [exact Eq|]. split; [exact Ex|]. split; [discriminate|].
    intros _. assert (I : In best sols) by (rewrite Ep; apply in_or_app; right; left; reflexivity). destruct (C best I) as [W R]. split; [exact W|]. split; [exact R|].
    intros s q' Hs Ts W'. apply M. apply C'. split; [exact W'|]. exists s. auto.
  - exists false, old. split; [exact F|]. split; [exact Ex|]. split; [reflexivity|discriminate].
Qed.
Print Assumptions C96_close_to.

Lemma identity_frame x : toFrame identityPose x = x.
Proof.
  destruct x as [[a b] c]. unfold toFrame, rotation, identityPose. cbn [p_storage p_euler p_position]. unfold rX, rY, rZ. unf. cbn. rewrite cos_0, sin_0. f_equal; [f_equal|]; ring.
Qed.
Lemma identity_valid : valid identityPose. Proof. intros H. discriminate H. Qed.
(** The version in base coordinates. *)
Theorem C96_close_in_base (quatToEuler : quat -> vec3) (numFree : nat) (ikfast : vec3 -> m3 -> list nat -> list joints) (vel old query : joints)
    (target : pose) (free : list nat) :
  keeps_rotation quatToEuler -> valid target -> length vel = 6%nat -> numFree = length free -> length query = 6%nat ->
  let inBase := inReferenceFrame quatToEuler target identityPose in
  let raws := ikfast (p_position inBase) (getRotationMatrix inBase) free in
  sane raws -> (forall s, In s raws -> forall x, eePoint s x = add3 (p_position inBase) (mulv (getRotationMatrix inBase) x)) ->
  p_position inBase = p_position target /\ getRotationMatrix inBase = getRotationMatrix target /\
  exists b q, closeToInBase (fun ee ba => hyaIkWorld quatToEuler numFree ikfast vel [] ee ba free) target old query = (Ok b, q) /\
    (b = true -> within q /\ (forall x, eePoint q x = toFrame target x) /\
      forall s q', In s raws -> turned s q' -> within q' -> distance 6 q query <= distance 6 q' query).
Proof.
  intros KR Vt Lv Hn Lq inBase raws S So.
  assert (F : forall x, toFrame inBase x = toFrame target x).
  { intros x. rewrite <- (identity_frame (toFrame inBase x)). apply (C75_reference_frame quatToEuler KR target identityPose x Vt identity_valid). }
  assert (Pp : p_position inBase = p_position target).
  { specialize (F (0, 0, 0)). unfold toFrame in F. assert (Z : forall m : m3, mulv m (0, 0, 0) = (0, 0, 0)) by (intros m; v3; unf; f_equal; [f_equal|]; ring).
    rewrite !Z in F. destruct (p_position inBase) as [[a b] c], (p_position target) as [[d e] f]. unfold add3, vx, vy, vz in F. cbn in F.
    injection F as F1 F2 F3. f_equal; [f_equal|]; lra. }
  assert (Pr : getRotationMatrix inBase = getRotationMatrix target).
  { rewrite !get_rotation. assert (G : forall x, mulv (rotation inBase) x = mulv (rotation target) x).
    { intros x. specialize (F x). unfold toFrame in F. rewrite Pp in F. destruct (p_position target) as [[d e] f].
      destruct (mulv (rotation inBase) x) as [[u1 u2] u3], (mulv (rotation target) x) as [[v1 v2] v3]. unfold add3, vx, vy, vz in F. cbn in F.
      injection F as F1 F2 F3. f_equal; [f_equal|]; lra. }
    pose proof (G (1, 0, 0)) as G1. pose proof (G (0, 1, 0)) as G2. pose proof (G (0, 0, 1)) as G3. clear - G1 G2 G3.
    destruct (rotation inBase) as [[[[a1 a2] a3] [[a4 a5] a6]] [[a7 a8] a9]], (rotation target) as [[[[b1 b2] b3] [[b4 b5] b6]] [[b7 b8] b9]].
    unf. cbn in *. injection G1 as ? ? ?. injection G2 as ? ? ?. injection G3 as ? ? ?. f_equal; [f_equal|]; (f_equal; [f_equal|]); lra. }
  split; [exact Pp|]. split; [exact Pr|].
  destruct (C96_close_to quatToEuler numFree ikfast vel old query target identityPose free KR Vt identity_valid Lv Hn Lq S So) as (b & q & E & _ & _ & H).
  exists b, q. split; [exact E|]. intros Hb. destruct (H Hb) as (W & R & M). split; [exact W|]. split; [|exact M].
  intros x. rewrite <- (identity_frame (eePoint q x)). apply R.
Qed.
Print Assumptions C96_close_in_base.

(** ** Irb4600 *)
(** All solutions of the generated solver are returned as they are. *)
Theorem C96_irb (numFree : nat) (ikfast : vec3 -> m3 -> list nat -> list joints) (old : list joints) (target : pose) (free : list nat) :
  (numFree = length free -> exists b, irbIk numFree ikfast old target free = (Ok b, ikfast (p_position target) (rotation target) free) /\
    (b = true <-> ikfast (p_position target) (rotation target) free <> [])) /\
  (numFree <> length free -> irbIk numFree ikfast old target free = (Throw, [])).
Proof.
  unfold irbIk. rewrite get_rotation. split; intros Hn.
  - apply Nat.eqb_eq in Hn. rewrite Hn. cbn [negb]. destruct (ikfast _ _ _) as [|s r]; [exists false; split; [reflexivity|split; congruence]|].
    assert (A : forall l res, irbCopy l res = res ++ l) by (induction l as [|x l IH]; intros res; cbn [irbCopy]; [symmetry; apply app_nil_r|rewrite IH, <- app_assoc; reflexivity]).
    rewrite A. cbn [app]. exists true. split; [reflexivity|]. split; congruence.
  - apply Nat.eqb_neq in Hn. rewrite Hn. reflexivity.
Qed.
Print Assumptions C96_irb.

(** ** Inverse kinematics by optimisation *)
Definition solves (ev : list event) : nat := length (filter (fun e => match e with Solved _ => true | Guess _ => false end) ev).
Definition guesses (ev : list event) : list joints := flat_map (fun e => match e with Guess q => [q] | Solved _ => [] end) ev.
Definition length3 (v : vec3) : R := sqrt (vx v * vx v + vy v * vy v + vz v * vz v).
Lemma approx a b tol : 0 <= tol -> isApprox a b tol = true -> length3 (sub3 a b) <= tol * length3 a /\ length3 (sub3 a b) <= tol * length3 b.
Proof.
  intros Ht. unfold isApprox. destruct (Rle_dec _ _) as [L|]; [|discriminate]. intros _.
  assert (N : forall v, 0 <= norm2 v).
  { intros v. unfold norm2. pose proof (Rle_0_sqr (vx v)) as A1. pose proof (Rle_0_sqr (vy v)) as A2. pose proof (Rle_0_sqr (vz v)) as A3. unfold Rsqr in A1, A2, A3. lra. }
  assert (H : forall c, norm2 (sub3 a b) <= tol * tol * norm2 c -> length3 (sub3 a b) <= tol * length3 c).
  { intros c Hc. unfold length3. change (sqrt (norm2 (sub3 a b)) <= tol * sqrt (norm2 c)). rewrite <- (sqrt_square tol Ht) at 1. rewrite <- sqrt_mult_alt by (apply Rmult_le_pos; exact Ht).
    apply sqrt_le_1_alt. exact Hc. }
  assert (T : 0 <= tol * tol) by (apply Rmult_le_pos; exact Ht).
  split; apply H; (eapply Rle_trans; [exact L|]); apply Rmult_le_compat_l; [exact T|apply Rmin_l|exact T|apply Rmin_r].
Qed.
Lemma interpolate_in : forall n lower upper r, length lower = n -> length upper = n -> length r = n ->
  (forall i, (i < n)%nat -> angle lower i <= angle upper i) -> (forall i, (i < n)%nat -> 0 <= angle r i <= 1) ->
  length (interpolate lower upper r) = n /\ forall i, (i < n)%nat -> angle lower i <= angle (interpolate lower upper r) i <= angle upper i.
Proof.
  unfold angle. induction n as [|n IH]; intros [|l lower] [|u upper] [|x r] H1 H2 H3 L X; try discriminate.
  - split; [reflexivity|]. intros i Hi. lia.
  - cbn [interpolate]. destruct (IH lower upper r) as [A B]; [cbn in *; lia|cbn in *; lia|cbn in *; lia|intros i Hi; apply (L (S i)); lia|intros i Hi; apply (X (S i)); lia|].
    split; [cbn; rewrite A; reflexivity|]. intros [|i] Hi; cbn [nth]; [|apply B; lia].
    pose proof (L 0%nat ltac:(lia)) as L0. pose proof (X 0%nat ltac:(lia)) as X0. cbn [nth] in L0, X0. split; [nra|]. nra.
Qed.

Section Optimised.
Variables (ST : Type) (solve : ST -> bool * ST) (getSolution : ST -> joints) (setInitialGuess : joints -> ST -> ST)
  (setTargetPose : pose -> ST -> ST) (gen : ST -> joints * ST).
Variables (forward : joints -> pose) (quatNear : quat -> quat -> R -> bool).
Notation run := (nlpIk ST solve getSolution setInitialGuess setTargetPose gen forward quatNear).
Notation loop := (trials ST solve getSolution setInitialGuess gen forward quatNear).

Lemma loop_spec se n lower upper target : 0 <= validationTol se -> length lower = n -> length upper = n ->
  (forall i, (i < n)%nat -> angle lower i <= angle upper i) ->
  (forall st, length (fst (gen st)) = n /\ forall i, (i < n)%nat -> 0 <= angle (fst (gen st)) i <= 1) ->
  forall fuel count st found res st' ev, loop se lower upper target fuel count st = (found, res, st', ev) ->
  (found = true -> exists q, res = [q] /\ q = getSolution st' /\ isNear quatNear (forward q) target (validationTol se) = true /\ (1 <= solves ev)%nat) /\
  (found = false -> res = [] /\ solves ev = fuel) /\ (solves ev <= fuel)%nat /\
  (forall g, In g (guesses ev) -> length g = n /\ forall i, (i < n)%nat -> angle lower i <= angle g i <= angle upper i) /\
  length (guesses ev) = (if randomizeInitialGuess se then solves ev - (if (count =? 0)%nat then 1 else 0) else 0)%nat /\
  (count = 0%nat -> ev = [] \/ exists b r, ev = Solved b :: r).
Proof.
  intros Ht Ll Lu LU HG. induction fuel as [|fuel IH]; intros count st found res st' ev E; cbn [trials] in E.
  - injection E as <- <- <- <-. split; [discriminate|]. split; [auto|]. split; [cbn; lia|]. split; [intros g []|]. split; [cbn; destruct (randomizeInitialGuess se); reflexivity|]. auto.
  - assert (P : exists st1 ev1, (if randomizeInitialGuess se && negb (count =? 0)%nat then let '(r, st') := gen st in (setInitialGuess (interpolate lower upper r) st', [Guess (interpolate lower upper r)]) else (st, [])) = (st1, ev1) /\
      (forall g, In g (guesses ev1) -> length g = n /\ forall i, (i < n)%nat -> angle lower i <= angle g i <= angle upper i) /\
      length (guesses ev1) = (if randomizeInitialGuess se then if (count =? 0)%nat then 0 else 1 else 0)%nat /\ solves ev1 = 0%nat /\ (count = 0%nat -> ev1 = [])).
    { destruct (HG st) as [G1 G2]. destruct (gen st) as [r st1]. cbn [fst] in G1, G2. destruct (randomizeInitialGuess se); cbn [andb]; [destruct (count =? 0)%nat eqn:Ec; cbn [negb]|].
      - exists st, []. repeat split; try reflexivity; intros; contradiction.
      - eexists _, _. split; [reflexivity|]. split; [|split; [reflexivity|split; [reflexivity|intros ->; discriminate Ec]]].
        intros g [<-|[]]. apply interpolate_in; assumption.
      - exists st, []. repeat split; try reflexivity; intros; contradiction. }
    destruct P as (st1 & ev1 & E1 & P1 & P2 & P3 & P4). rewrite E1 in E. destruct (solve st1) as [ok st2].
    destruct (isNear quatNear (forward (getSolution st2)) target (validationTol se)) eqn:N.
    + injection E as <- <- <- <-. unfold solves, guesses in *. rewrite !filter_app, !flat_map_app, !app_length, P3. cbn [filter length flat_map]. rewrite app_nil_r, P2.
      split; [intros _; exists (getSolution st2); repeat split; [exact N|lia]|]. split; [discriminate|]. split; [lia|]. split; [exact P1|].
      split; [destruct (randomizeInitialGuess se), (count =? 0)%nat; cbn; lia|]. intros Hc. right. rewrite (P4 Hc). cbn. eauto.
    + destruct (loop se lower upper target fuel (S count) st2) as [[[f r] s3] e] eqn:El. injection E as <- <- <- <-.
      destruct (IH _ _ _ _ _ _ El) as (A & B & C & D & F & _). unfold solves, guesses in *. rewrite !filter_app, !flat_map_app, !app_length, P3. cbn [filter length flat_map app]. rewrite P2, F.
      split; [intros Hf; destruct (A Hf) as (q & Q1 & Q2 & Q3 & Q4); exists q; repeat split; [exact Q1|exact Q2|exact Q3|lia]|].
      split; [intros Hf; destruct (B Hf) as [B1 B2]; split; [exact B1|rewrite B2; lia]|]. split; [lia|].
      split; [intros g Hg; apply in_app_or in Hg; destruct Hg as [Hg|Hg]; [apply P1; exact Hg|apply D; exact Hg]|].
      split; [destruct (randomizeInitialGuess se), (count =? 0)%nat; cbn; lia|]. intros Hc. right. rewrite (P4 Hc). cbn. eauto.
Qed.
(** A solution is validated: its forward kinematics is the requested pose up to the tolerance.  There are at most [maxNumTrials]
    solves, exactly as many if nothing is found.  The first starts from the user's guess, the others, if so configured, from random
    ones within the joint limits. *)
Theorem C96_optimised (se : settings) (n : nat) (lower upper : joints) (old : list joints) (target : pose) (st : ST) :
  0 <= validationTol se -> length lower = n -> length upper = n -> (forall i, (i < n)%nat -> angle lower i <= angle upper i) ->
  (forall st, length (fst (gen st)) = n /\ forall i, (i < n)%nat -> 0 <= angle (fst (gen st)) i <= 1) ->
  exists found res st' ev, run se lower upper old target st = (found, res, st', ev) /\
  (found = true -> exists q, res = [q] /\ quatNear (getRotationQuaternion (forward q)) (getRotationQuaternion target) (validationTol se) = true /\
    length3 (sub3 (p_position (forward q)) (p_position target)) <= validationTol se * length3 (p_position target)) /\
  (found = false -> res = [] /\ solves ev = maxNumTrials se) /\ (solves ev <= maxNumTrials se)%nat /\
  (forall g, In g (guesses ev) -> length g = n /\ forall i, (i < n)%nat -> angle lower i <= angle g i <= angle upper i) /\
  length (guesses ev) = (if randomizeInitialGuess se then solves ev - 1 else 0)%nat /\
  (ev = [] \/ exists b r, ev = Solved b :: r).
Proof.
  intros Ht Ll Lu LU HG. unfold nlpIk. destruct (loop se lower upper target (maxNumTrials se) 0 (setTargetPose target st)) as [[[found res] st'] ev] eqn:E.
  exists found, res, st', ev. split; [reflexivity|]. destruct (loop_spec se n lower upper target Ht Ll Lu LU HG _ _ _ _ _ _ _ E) as (A & B & C & D & F & G).
  split; [|split; [exact B|split; [exact C|split; [exact D|split; [exact F|apply G; reflexivity]]]]].
  intros Hf. destruct (A Hf) as (q & Q1 & _ & Q3 & _). exists q. unfold isNear in Q3. apply andb_prop in Q3. destruct Q3 as [Q3 Q4].
  split; [exact Q1|]. split; [exact Q3|]. apply (approx _ _ _ Ht Q4).
Qed.
(** Refuted: the tolerance is relative to the distance from the base, so that a target at the origin of the base is never
    accepted unless it is met exactly, whatever the tolerance. *)
Theorem C96_origin_refuted (se : settings) (lower upper : joints) (old : list joints) (target : pose) (st : ST) :
  p_position target = (0, 0, 0) -> (forall q, p_position (forward q) <> (0, 0, 0)) ->
  let '(found, res, _, ev) := run se lower upper old target st in found = false /\ res = [] /\ solves ev = maxNumTrials se.
Proof.
  intros Hp Hf. unfold nlpIk. generalize (setTargetPose target st). generalize 0%nat. generalize (maxNumTrials se).
  induction n as [|fuel IH]; intros count s; [cbn; auto|]. cbn [trials].
  destruct (if randomizeInitialGuess se && negb (count =? 0)%nat then _ else _) as [st1 ev1] eqn:E1. destruct (solve st1) as [ok st2].
  assert (N : isNear quatNear (forward (getSolution st2)) target (validationTol se) = false).
  { unfold isNear, isApprox. rewrite Hp. destruct (Rle_dec _ _) as [L|L]; [exfalso|apply andb_false_r]. pose proof (Hf (getSolution st2)) as Hq.
    destruct (p_position (forward (getSolution st2))) as [[a b] c]. unfold norm2, sub3, vx, vy, vz in L. cbn [fst snd] in L.
    assert (M : Rmin (a * a + b * b + c * c) (0 * 0 + 0 * 0 + 0 * 0) = 0) by (rewrite Rmin_right; nra). rewrite M in L.
    assert (a = 0 /\ b = 0 /\ c = 0) as (-> & -> & ->) by (split; [|split]; nra). apply Hq. reflexivity. }
  rewrite N. specialize (IH (S count) st2). destruct (trials ST solve getSolution setInitialGuess gen forward quatNear se lower upper target fuel (S count) st2) as [[[f r] s3] e].
  destruct IH as (-> & -> & S). split; [reflexivity|]. split; [reflexivity|]. unfold solves in *. rewrite filter_app, app_length. cbn [filter length]. rewrite S.
  destruct (randomizeInitialGuess se && negb (count =? 0)%nat); [destruct (gen s)|]; injection E1 as _ <-; reflexivity.
Qed.
End Optimised.
Print Assumptions C96_optimised.
Print Assumptions C96_origin_refuted.

(** Refuted: neither the success of the optimisation nor the joint limits are checked, so that a position outside the limits can be returned. *)
Theorem C96_limits_refuted : exists (solve : unit -> bool * unit) (getSolution : unit -> joints) (forward : joints -> pose) (quatNear : quat -> quat -> R -> bool)
    (se : settings) (target : pose) (q : R),
  nlpIk unit solve getSolution (fun _ s => s) (fun _ s => s) (fun s => ([1 / 2], s)) forward quatNear se [0] [1] [] target tt = (true, [[q]], tt, [Solved false]) /\ ~ (0 <= q <= 1).
Proof.
  exists (fun s => (false, s)), (fun _ => [2]), (fun q => mkPose EULER (1, 0, 0, 0) (0, 0, angle q 0) (cos (angle q 0), sin (angle q 0), 0)), (fun _ _ _ => true),
    (mkIkSettings 1 true (1 / 1000)), (mkPose EULER (1, 0, 0, 0) (0, 0, 2) (cos 2, sin 2, 0)), 2.
  split; [|lra]. unfold nlpIk. cbn [trials maxNumTrials randomizeInitialGuess Nat.eqb negb andb]. unfold isNear, isApprox. cbn [andb p_position validationTol angle nth].
  destruct (Rle_dec _ _) as [L|L]; [reflexivity|]. exfalso. apply L. unfold sub3, norm2, vx, vy, vz. cbn [fst snd].
  match goal with |- ?a <= _ => replace a with 0 by ring end. apply Rmult_le_pos; [lra|]. apply Rmin_case; nra.
Qed.
Print Assumptions C96_limits_refuted.

(** The hypotheses of C96_reaches are met: the stretched arm, found with a full turn in a joint and, in another solution, with an
    angle outside of its range. *)
Definition stretched : joints := [0; 0; 0; 0; 0; 0].
Definition stretchedPose : pose := mkPose QUAT (1, 0, 0, 0) (0, 0, 0) (0.742, 0.02075, 0.178).
Example ik_case : let raws := [[2 * PI; 0; 0; 0; 0; - (4 * PI)]; stretched] in
  valid stretchedPose /\ sane raws /\ (forall s, In s raws -> forall x, eePoint s x = toFrame stretchedPose x) /\
  within stretched /\ (forall s, In s raws -> turned s stretched) /\
  exists b sols, hyaIk 0 (fun _ _ _ => raws) [0; 0; 0; 0; 0; 0] [[1]] stretchedPose [] = (Ok b, sols) /\ b = true /\ In stretched sols.
Proof.
  assert (V : valid stretchedPose) by (intros _; unfold unit_quat; cbn; lra).
  pose proof PI2_1. pose proof PI_4. pose proof PI_RGT_0.
  assert (S : sane [[2 * PI; 0; 0; 0; 0; - (4 * PI)]; stretched]).
  { intros s [<-|[<-|[]]]; (split; [reflexivity|]); intros i Hi; do 6 (destruct i as [|i]; [cbn; unfold Rabs; destruct (Rcase_abs _); lra|]); lia. }
  assert (W : within stretched).
  { split; [reflexivity|]. intros i Hi. do 6 (destruct i as [|i]; [cbn; lra|]). lia. }
  assert (T : forall s, In s [[2 * PI; 0; 0; 0; 0; - (4 * PI)]; stretched] -> turned s stretched).
  { intros s [<-|[<-|[]]] i Hi.
    - do 6 (destruct i as [|i]; [first [exists 1%Z; cbn; lra|exists 0%Z; cbn; lra|exists (-2)%Z; cbn; lra]|]). lia.
    - exists 0%Z. lra. }
  split; [exact V|]. split; [exact S|]. split; [|split; [exact W|split; [exact T|]]].
  - intros s Hs x. rewrite (turned_point s stretched x (T s Hs)). destruct x as [[a b] c].
    assert (A : forall i, angle stretched i = 0) by (intros i; unfold angle, stretched; do 7 (destruct i as [|i]; [reflexivity|]); reflexivity).
    unfold eePoint, toFrame, rotation, stretchedPose. cbn [p_storage p_quat p_position]. unf. cbn [fst snd].
    assert (Z : forall k, worldR (angle stretched) k = worldR (fun _ => 0) k /\ worldP (angle stretched) k = worldP (fun _ => 0) k).
    { induction k as [|k [IH1 IH2]]; cbn [worldR worldP]; rewrite A; [auto|]. rewrite IH1, IH2. auto. }
    unfold eeP, eeR. destruct (Z 5%nat) as [-> ->].
    cbv [worldR worldP axes mul3 turnZ mountF mountP mounting nth fst snd rsum rmv rows3 PendulumModel.vec3]. rewrite cos_0, sin_0. f_equal; [f_equal|]; lra.
  - destruct (C96_hya 0 (fun _ _ _ => [[2 * PI; 0; 0; 0; 0; - (4 * PI)]; stretched]) [0; 0; 0; 0; 0; 0] [[1]] stretchedPose [] eq_refl S) as [K _].
    destruct (K eq_refl) as (b & sols & E & B & C). exists b, sols. split; [exact E|]. assert (I : In stretched sols).
    { apply C. split; [exact W|]. exists stretched. split; [right; left; reflexivity|]. apply T. right. left. reflexivity. }
    split; [apply B; intros N; rewrite N in I; destruct I|exact I].
Qed.
