(** C94: the generated HyA arm is the arm its mounting describes, so what C91 and C93 say of arms holds of it. *)
From Coq Require Import Reals List Bool Arith Lia Lra.
From Verif Require Import Base.RVec Rbd.SpatialModel Rbd.SpatialProofs Rbd.SpatialProps Rbd.ArticulatedProps Rbd.InertiaProps
  Rbd.ChainModel Rbd.ChainProofs Rbd.ChainProps Rbd.PendulumModel Rbd.PendulumProps Rbd.JsimModel Rbd.JsimFactor Rbd.JsimProofs Rbd.JsimProps Rbd.HyaModel.
Import ListNotations.
Local Open Scope R_scope.

(** ** Specification *)
(** A link turned by [q] about its own z axis, mounted with axes [F] (columns, in the coordinates of the link before). *)
Definition turnZ (q : R) : mat := rows3 (cos q) (- sin q) 0 (sin q) (cos q) 0 0 0 1.
Definition mul3 (A B : mat) : mat := fun i j => rsum 3 (fun k => A i k * B k j).
Definition axes (F : mat) (q : R) : mat := mul3 F (turnZ q).
(** Where the origin of the link before is, in the link's coordinates, for a link mounted at [p]. *)
Definition backTo (F : mat) (p : rvec) (q : R) : rvec := fun i => - rmv 3 (tr (axes F q)) p i.
(** The mounting of the six links: axes and place in the coordinates of the link before. *)
Definition mounting : list (mat * rvec) :=
  [ (rows3 1 0 0  0 1 0  0 0 1, vec3 0 0 0);
    (rows3 1 0 0  0 0 (-1)  0 1 0, vec3 0 0 (178 / 1000));
    (rows3 0 0 1  0 1 0  (-1) 0 0, vec3 (112 / 1000) 0 0);
    (rows3 0 0 (-1)  0 1 0  1 0 0, vec3 0 0 (304 / 1000));
    (rows3 0 0 1  0 1 0  (-1) 0 0, vec3 (112 / 1000) 0 0);
    (rows3 0 1 0  0 0 1  1 0 0, vec3 (2075 / 100000) 0 (184 / 1000)) ].
Definition mountF (k : nat) : mat := fst (nth k mounting (fun _ _ => 0, fun _ => 0)).
Definition mountP (k : nat) : rvec := snd (nth k mounting (fun _ _ => 0, fun _ => 0)).

Lemma table (new : mat -> mat) (upd : R -> mat -> mat) (T : R -> mat) :
  (forall G q, same6 (upd q (new G)) (T q)) -> (forall M p q, same6 (upd q (upd p M)) (upd q M)) ->
  forall M, live new upd M -> forall q, same6 (upd q M) (T q).
Proof. intros H1 H2 M HM. induction HM as [G|p M HM IH]; intros q; [apply H1|]. intros i j Hi Hj. rewrite (H2 M p q i j Hi Hj). apply IH; assumption. Qed.

(** The motion transform with axes [E] and origin [r], entry by entry. *)
Definition motionMx (E : mat) (r : rvec) : mat := fun i j =>
  if (i <? 3)%nat then if (j <? 3)%nat then E j i else 0
  else if (j <? 3)%nat then cross r (fun k => E j k) (i - 3)%nat else E (j - 3)%nat (i - 3)%nat.
Lemma motionMx_ok E r : motionTransformBack E r (motionMx E r).
Proof. intros v i Hi. idx i; ev; ring. Qed.
Lemma motion_of (X : mat) E r : same6 X (motionMx E r) -> motionTransformBack E r X.
Proof. intros H v i Hi. rewrite (rmv_same _ _ v v i H (fun _ _ => eq_refl) Hi). apply motionMx_ok; exact Hi. Qed.
Lemma forceMx_ok E r : forceTransform E r (tr (motionMx E r)).
Proof. intros v i Hi. idx i; ev; ring. Qed.
Lemma force_of (X : mat) E r : same6 X (tr (motionMx E r)) -> forceTransform E r X.
Proof. intros H v i Hi. rewrite (rmv_same _ _ v v i H (fun _ _ => eq_refl) Hi). apply forceMx_ok; exact Hi. Qed.

Ltac six k Hk := destruct k as [|[|[|[|[|[|k]]]]]]; [| | | | | |exfalso; lia].
Ltac five k Hk := destruct k as [|[|[|[|[|k]]]]]; [| | | | |exfalso; lia].

Lemma hyaX k : (k < 6)%nat -> forall M, live (newXh k) (updXh k) M -> forall q, same6 (updXh k q M) (motionMx (axes (mountF k) q) (backTo (mountF k) (mountP k) q)).
Proof.
  intros Hk. apply table.
  - intros G q. pose proof (trig1 q) as T. six k Hk; intros i j Hi Hj; idx i; idx j; ev; try ring; try lra.
  - intros M p q. six k Hk; intros i j Hi Hj; idx i; idx j; reflexivity.
Qed.
Lemma hyaF k : (k < 5)%nat -> forall M, live (newFh k) (updFh k) M -> forall q, same6 (updFh k q M) (tr (motionMx (axes (mountF (S k)) q) (backTo (mountF (S k)) (mountP (S k)) q))).
Proof.
  intros Hk. apply table.
  - intros G q. pose proof (trig1 q) as T. five k Hk; intros i j Hi Hj; idx i; idx j; ev; try ring; try lra.
  - intros M p q. five k Hk; intros i j Hi Hj; idx i; idx j; reflexivity.
Qed.
Lemma axes_rotation k : (k < 6)%nat -> forall q, rotation (axes (mountF k) q).
Proof.
  intros Hk q. pose proof (trig1 q) as T. six k Hk; (split; [intros i j Hi Hj; idx i; idx j; ev; lra|ev; lra]).
Qed.
(** A symmetric 3x3 matrix with positive leading minors. *)
Lemma sylvester3 (M : mat) : sym3 M ->
  0 < M 0%nat 0%nat -> 0 < M 0%nat 0%nat * M 1%nat 1%nat - M 0%nat 1%nat * M 0%nat 1%nat ->
  0 <= M 0%nat 0%nat * (M 1%nat 1%nat * M 2%nat 2%nat - M 1%nat 2%nat * M 1%nat 2%nat)
       - M 0%nat 1%nat * (M 0%nat 1%nat * M 2%nat 2%nat - M 1%nat 2%nat * M 0%nat 2%nat)
       + M 0%nat 2%nat * (M 0%nat 1%nat * M 1%nat 2%nat - M 1%nat 1%nat * M 0%nat 2%nat) ->
  forall x y z, 0 <= rquad 3 M (vec3 x y z) (vec3 x y z).
Proof.
  intros HS Ha Hm Hd x y z.
  pose proof (HS 0%nat 1%nat ltac:(lia) ltac:(lia)) as S1. pose proof (HS 0%nat 2%nat ltac:(lia) ltac:(lia)) as S2. pose proof (HS 1%nat 2%nat ltac:(lia) ltac:(lia)) as S3.
  unfold rquad, rdot, rmv, vec3. cbn [rsum]. rewrite <- S1, <- S2, <- S3. clear S1 S2 S3 HS.
  generalize dependent (M 2%nat 2%nat). generalize dependent (M 1%nat 2%nat). generalize dependent (M 1%nat 1%nat). generalize dependent (M 0%nat 2%nat). generalize dependent (M 0%nat 1%nat). generalize dependent (M 0%nat 0%nat).
  intros a Ha b c d Hm e f Hd. set (m := a * d - b * b) in *.
  match goal with |- 0 <= ?Q => assert (I : a * m * Q = m * ((a * x + b * y + c * z) * (a * x + b * y + c * z)) + (m * y + (a * e - b * c) * z) * (m * y + (a * e - b * c) * z)
     + a * (a * (d * f - e * e) - b * (b * f - e * c) + c * (b * e - d * c)) * (z * z)) by (unfold m; ring) end.
  apply Rmult_le_reg_l with (a * m); [apply Rmult_lt_0_compat; assumption|]. rewrite Rmult_0_r, I.
  pose proof (Rle_0_sqr (a * x + b * y + c * z)) as Q1. pose proof (Rle_0_sqr (m * y + (a * e - b * c) * z)) as Q2. pose proof (Rle_0_sqr z) as Q3. unfold Rsqr in *.
  apply Rplus_le_le_0_compat; [apply Rplus_le_le_0_compat; [apply Rmult_le_pos; [lra|exact Q1]|exact Q2]|apply Rmult_le_pos; [apply Rmult_le_pos; [lra|exact Hd]|exact Q3]].
Qed.
Lemma hya_physical k : (k < 6)%nat -> forall G, physical (tensorH k G).
Proof.
  intros Hk G. six k Hk; cbn [tensorH nth]; match goal with |- physical (?t _) => unfold t end;
  (apply physical_of; [lra|intros i j Hi Hj; idx i; idx j; reflexivity|ev; lra|]; apply sylvester3; [intros i j Hi Hj; idx i; idx j; ev; ring|ev; lra|ev; lra|ev; lra]).
Qed.

(** ** The arm *)
(** Link [k] with transform contents [M k], angle, velocity and external force. *)
Definition hyaLink (M G : nat -> mat) (q qd : nat -> R) (f : nat -> rvec) (k : nat) : joint := mkJ (updXh k (q k) (M k)) (tensorH k (G k)) (qd k) (f k).
Definition hyaArm (M G : nat -> mat) (q qd : nat -> R) (f : nat -> rvec) : list joint := map (hyaLink M G q qd f) (seq 0 6).
(** The force transforms, from link [S k] to link [k]. *)
Definition hyaForces (N : nat -> mat) (q : nat -> R) : list mat := map (fun k => updFh k (q (S k)) (N k)) (seq 0 5).

(** Every generated transform is the one of the mounting, at all angles and after any updates. *)
Theorem C94_mounting : forall k q,
  ((k < 6)%nat -> rotation (axes (mountF k) q) /\
     forall M, live (newXh k) (updXh k) M -> motionTransformBack (axes (mountF k) q) (backTo (mountF k) (mountP k) q) (updXh k q M)) /\
  ((k < 5)%nat -> forall N, live (newFh k) (updFh k) N -> forceTransform (axes (mountF (S k)) q) (backTo (mountF (S k)) (mountP (S k)) q) (updFh k q N)).
Proof.
  intros k q. split; intros Hk.
  - split; [apply axes_rotation; exact Hk|]. intros M HM. apply motion_of, hyaX; assumption.
  - intros N HN. apply force_of, hyaF; assumption.
Qed.
(** Every link has positive mass, a symmetric tensor and a kinetic energy that is never negative. *)
Theorem C94_physical : forall k G, (k < 6)%nat -> physical (tensorH k G).
Proof. intros k G Hk. apply hya_physical; exact Hk. Qed.

Lemma arm_good M G q qd f : (forall k, (k < 6)%nat -> live (newXh k) (updXh k) (M k)) -> List.Forall goodLink (hyaArm M G q qd f).
Proof.
  intros HM. apply List.Forall_forall. intros j Hj. apply in_map_iff in Hj. destruct Hj as (k & <- & Hk). apply in_seq in Hk.
  destruct (C94_mounting k (q k)) as [H _]. destruct (H ltac:(lia)) as [HR HX]. split; [|apply hya_physical; lia].
  exists (axes (mountF k) (q k)), (backTo (mountF k) (mountP k) (q k)). split; [exact HR|]. apply HX, HM. lia.
Qed.
Lemma arm_matched M G N q qd f : (forall k, (k < 6)%nat -> live (newXh k) (updXh k) (M k)) -> (forall k, (k < 5)%nat -> live (newFh k) (updFh k) (N k)) ->
  Forall2 matched (hyaForces N q) (tl (hyaArm M G q qd f)).
Proof.
  intros HM HN.
  assert (K : forall k, (k < 5)%nat -> matched (updFh k (q (S k)) (N k)) (hyaLink M G q qd f (S k))).
  { intros k Hk. destruct (C94_mounting k (q (S k))) as [_ H2]. destruct (C94_mounting (S k) (q (S k))) as [H1 _].
    destruct (H1 ltac:(lia)) as [HR HX]. exists (axes (mountF (S k)) (q (S k))), (backTo (mountF (S k)) (mountP (S k)) (q (S k))).
    split; [exact HR|]. split; [apply H2; [exact Hk|apply HN; exact Hk]|apply HX, HM; lia]. }
  unfold hyaForces, hyaArm. cbn [seq map tl]. repeat (constructor; [apply K; lia|]). constructor.
Qed.

(** The dynamics of the arm: forward and inverse dynamics undo each other, and both belong to the inertia matrix, which is
    positive definite; for any contents of the objects' members that earlier calls left. *)
Theorem C94_dynamics : forall s st st' Gf M G N q qd f tau qdd, jsReach s -> fdReach st -> idReach st' ->
  (forall k, (k < 6)%nat -> live (newXh k) (updXh k) (M k)) -> (forall k, (k < 5)%nat -> live (newFh k) (updFh k) (N k)) ->
  let arm := hyaArm M G q qd f in
  let first := hyaLink M G q qd f 0 in
  let H := inertiaMatrix s first (tl arm) (hyaForces N q) in
  let forces (x : nat -> R) := at_ (required (combine arm (map x (seq 0 6)))) in
  (forall i, (i < 6)%nat -> forces qdd i = forces (fun _ => 0) i + rsum 6 (fun k => H i k * qdd k)) /\
  (forall i k, (i < 6)%nat -> (k < 6)%nat -> H i k = H k i) /\
  ((exists i, (i < 6)%nat /\ qd i <> 0) -> 0 < rquad 6 H qd qd) /\
  fst (id st' first (qdd 0%nat) (combine (tl arm) (map qdd (seq 1 5)))) = required (combine arm (map qdd (seq 0 6))) /\
  (forall i, (i < 6)%nat -> at_ (fst (fd st Gf first (tau 0%nat) (combine (tl arm) (map tau (seq 1 5))))) i =
     rsum 6 (fun k => computeInverse (computeL 6 H) i k * (tau k - forces (fun _ => 0) k))).
Proof.
  intros s st st' Gf M G N q qd f tau qdd HR HF HI HM HN arm first H forces.
  pose proof (arm_good M G q qd f HM) as GL. pose proof (arm_matched M G N q qd f HM HN) as MT. fold arm in GL, MT.
  assert (EA : arm = first :: tl arm) by reflexivity.
  assert (LT : length (tl arm) = 5%nat) by reflexivity.
  assert (HP : List.Forall (fun j => physical (jI j)) (first :: tl arm)) by (rewrite <- EA; revert GL; apply List.Forall_impl; intros x [_ K]; exact K).
  assert (GL' : List.Forall goodLink (first :: tl arm)) by (rewrite <- EA; exact GL).
  clearbody arm. set (rest := tl arm) in *. clearbody rest. subst arm.
  destruct (C93_inertia_matrix s first rest (hyaForces N q) HR HP MT) as (K1 & K2 & _ & K4). rewrite LT in K1, K2, K4.
  assert (AT : forall (x : nat -> R) i, (i < 6)%nat -> at_ (map x (seq 0 6)) i = x i) by (intros x i Hi; apply nth_map_seq; exact Hi).
  assert (RZ : forall i, at_ (required (combine (first :: rest) (repeat 0 6))) i = forces (fun _ => 0) i) by (intros i; unfold forces; reflexivity).
  split; [|split; [exact K2|split; [exact (K4 qd)|split]]].
  - intros i Hi. unfold forces at 1. rewrite (K1 (map qdd (seq 0 6)) eq_refl i Hi), RZ. apply (f_equal2 Rplus); [reflexivity|]. apply rsum_ext. intros k Hk. rewrite AT by exact Hk. reflexivity.
  - rewrite (C91_inverse_dynamics st' first (qdd 0%nat) rest (map qdd (seq 1 5)) HI HP) by (rewrite LT; reflexivity). reflexivity.
  - intros i Hi. pose proof (C93_forward_dynamics s st Gf first rest (hyaForces N q) (tau 0%nat) (map tau (seq 1 5)) HR HF GL' MT) as K.
    rewrite LT in K. specialize (K eq_refl i Hi). rewrite K. apply rsum_ext. intros k Hk. rewrite RZ. f_equal. f_equal. exact (AT tau k Hk).
Qed.
Example hya_case : exists s st st' (M N : nat -> mat), jsReach s /\ fdReach st /\ idReach st' /\
  (forall k, (k < 6)%nat -> live (newXh k) (updXh k) (M k)) /\ (forall k, (k < 5)%nat -> live (newFh k) (updFh k) (N k)).
Proof.
  exists (newJsim (repeat (fun i j => INR (i + j)) 5) (fun _ _ => 7)), newFd, newId,
    (fun k => updXh k 3 (newXh k (fun i j => INR i))), (fun k => updFh k 4 (newFh k (fun i j => 2))).
  split; [apply js_new|split; [apply fd_new|split; [apply id_new|split; intros k _; apply live_upd, live_new]]].
Qed.

(** ** The quadrotor with load *)
(** The tensors of the two load links are those about the centre of mass, where fill expects those about the link's origin:
    the kinetic energy of some motions is negative. *)
Theorem C94_quadrotor_load_refuted : forall G,
  (exists v, rquad 6 (tensorQ1 G) v v < 0) /\ (exists v, rquad 6 (tensorQ2 G) v v < 0) /\ ~ physical (tensorQ1 G) /\ ~ physical (tensorQ2 G).
Proof.
  intros G.
  assert (A : exists v, rquad 6 (tensorQ1 G) v v < 0).
  { exists (v6 1 0 0 0 (- (5 / 100)) 0). unfold tensorQ1. ev. lra. }
  assert (B : exists v, rquad 6 (tensorQ2 G) v v < 0).
  { exists (v6 0 0 1 0 (- (35 / 100)) 0). unfold tensorQ2. ev. lra. }
  split; [exact A|split; [exact B|]].
  split; intros (m & c & T & _ & _ & _ & P & _); [destruct A as [v Hv]|destruct B as [v Hv]]; specialize (P v); lra.
Qed.

Print Assumptions C94_mounting.
Print Assumptions C94_physical.
Print Assumptions C94_dynamics.
Print Assumptions C94_quadrotor_load_refuted.
