(** C90: the inertia class under any sequence of changes, and the rotation helpers. *)
From Coq Require Import Reals List Bool Arith Lia Lra.
From Verif Require Import Base.RVec Rbd.SpatialModel Rbd.SpatialProofs Rbd.SpatialProps.
Import ListNotations.
Local Open Scope R_scope.

(** ** Specification: a body is a mass, a centre of mass and a rotational inertia about the origin. *)
Definition body := (R * rvec * mat)%type.
Inductive change :=
| Fill (m : R) (c : rvec) (T : mat)                 (** fill and the constructor with arguments *)
| ChangeMass (m : R)
| ChangeCOM (c : rvec)
| ChangeTensor (T : mat)
| Assign (other : mat) (m : R) (c : rvec) (T : mat)   (** other is the matrix of that body *)
| AddBody (other : mat) (m : R) (c : rvec) (T : mat).
(** What each call means for the body. *)
Definition onBody (x : change) (b : body) : body :=
  let '(m, c, T) := b in
  match x with
  | Fill m' c' T' => (m', c', T')
  | ChangeMass m' => (m', c, fun i j => m' / m * T i j)          (* the density changes *)
  | ChangeCOM c' => (m, c', fun i j => T i j - steiner m c i j + steiner m c' i j)  (* the body is displaced *)
  | ChangeTensor T' => (m, c, T')
  | Assign _ m' c' T' => (m', c', T')
  | AddBody _ m' c' T' => (m + m', fun i => (m * c i + m' * c' i) / (m + m'), fun i j => T i j + T' i j)
  end.
Definition onMatrix (x : change) (M : mat) : mat :=
  match x with
  | Fill m c T => fill m c T M
  | ChangeMass m => changeMass m M
  | ChangeCOM c => changeCOM c M
  | ChangeTensor T => changeRotationalInertia T M
  | Assign other _ _ _ => assign other M
  | AddBody other _ _ _ => addTo other M
  end.
Definition allowed (x : change) : Prop :=
  match x with
  | Fill m c T => 0 < m
  | ChangeMass m => 0 < m
  | ChangeCOM _ | ChangeTensor _ => True
  | Assign other m c T | AddBody other m c T => 0 < m /\ Body other m c T
  end.
Definition massOf (b : body) := fst (fst b).
Definition comOf (b : body) := snd (fst b).
Definition tensorOf (b : body) := snd b.

Lemma Rnz x : 0 < x -> x <> 0. Proof. lra. Qed.

Lemma step_body x M m c T : 0 < m -> Body M m c T -> allowed x ->
  let b := onBody x (m, c, T) in 0 < massOf b /\ Body (onMatrix x M) (massOf b) (comOf b) (tensorOf b).
Proof.
  intros Hm HB A. cbv zeta. pose proof (Body_entry _ _ _ _ HB) as B.
  destruct x as [m' c' T'|m'|c'|T'|o m' c' T'|o m' c' T']; unfold massOf, comOf, tensorOf, allowed, onMatrix, onBody in *; cbn [fst snd].
  - split; [exact A|]. destruct (fixedZero_body _ _ _ _ HB 0%nat ltac:(lia)) as (Z1 & Z2 & Z3).
    destruct (fixedZero_body _ _ _ _ HB 1%nat ltac:(lia)) as (Z4 & Z5 & Z6). destruct (fixedZero_body _ _ _ _ HB 2%nat ltac:(lia)) as (Z7 & Z8 & Z9).
    pose proof (Z3 1%nat ltac:(lia) ltac:(discriminate)) as W1. pose proof (Z3 2%nat ltac:(lia) ltac:(discriminate)) as W2.
    pose proof (Z6 0%nat ltac:(lia) ltac:(discriminate)) as W3. pose proof (Z6 2%nat ltac:(lia) ltac:(discriminate)) as W4.
    pose proof (Z9 0%nat ltac:(lia) ltac:(discriminate)) as W5. pose proof (Z9 1%nat ltac:(lia) ltac:(discriminate)) as W6.
    cbn [Nat.add] in *.
    apply entry_Body. intros i j Hi Hj. idx i; idx j; ev; try (match goal with H : ?x = 0 |- ?x = _ => rewrite H end); ring.
  - split; [exact A|]. apply entry_Body. intros i j Hi Hj. unfold changeMass, getMass. rewrite (B 3%nat 3%nat) by lia.
    replace (inertia m c T 3%nat 3%nat) with m by (ev; ring).
    idx i; idx j; cbn -[inertia]; rewrite ?B by lia; ev; field; lra.
  - split; [exact Hm|]. apply entry_Body. intros i j Hi Hj. unfold changeCOM. cbv zeta. unfold getMass.
    idx i; idx j; cbn -[inertia]; rewrite ?B by lia; ev; field; lra.
  - split; [exact Hm|]. apply entry_Body. intros i j Hi Hj. unfold changeRotationalInertia.
    idx i; idx j; cbn -[inertia]; rewrite ?B by lia; ev; ring.
  - destruct A as [A HO]. pose proof (Body_entry _ _ _ _ HO) as BO. split; [exact A|].
    apply entry_Body. intros i j Hi Hj. unfold assign. rewrite !BO by lia.
    idx i; idx j; cbn -[inertia]; rewrite ?BO, ?B by lia; ev; ring.
  - destruct A as [A HO]. pose proof (Body_entry _ _ _ _ HO) as BO. split; [lra|].
    apply entry_Body. intros i j Hi Hj. unfold addTo.
    idx i; idx j; cbn -[inertia]; rewrite ?BO, ?B by lia; ev; field; lra.
Qed.

Theorem C90_inertia_history : forall garbage m c T changes, 0 < m -> List.Forall allowed changes ->
  let b := fold_left (fun b x => onBody x b) changes (m, c, T) in
  forall M0, M0 = newInertia m c T garbage \/ M0 = fill m c T (newInertia0 garbage) ->
  let M := fold_left (fun M x => onMatrix x M) changes M0 in
  0 < massOf b /\
  Body M (massOf b) (comOf b) (tensorOf b) /\
  getMass M = massOf b /\
  (forall i, (i < 3)%nat -> getCOM M i = comOf b i) /\
  (forall i j, (i < 3)%nat -> (j < 3)%nat -> get3x3Tensor M i j = tensorOf b i j).
Proof.
  intros G m c T xs Hm HA. cbv zeta. intros M0 HM0.
  assert (B0 : Body M0 m c T).
  { replace M0 with (newInertia m c T G) by (destruct HM0; subst; reflexivity).
    apply entry_Body. intros i j Hi Hj. idx i; idx j; ev; ring. }
  assert (K : 0 < massOf (fold_left (fun b x => onBody x b) xs (m, c, T)) /\
    Body (fold_left (fun M x => onMatrix x M) xs M0) (massOf (fold_left (fun b x => onBody x b) xs (m, c, T)))
         (comOf (fold_left (fun b x => onBody x b) xs (m, c, T))) (tensorOf (fold_left (fun b x => onBody x b) xs (m, c, T)))).
  { clear HM0. revert m c T M0 Hm B0. induction HA as [|x xs Hx HA IH]; intros m c T M0 Hm B0; [split; [exact Hm|exact B0]|].
    cbn [fold_left]. destruct (step_body x M0 m c T Hm B0 Hx) as [H1 H2].
    destruct (onBody x (m, c, T)) as [[m1 c1] T1]. unfold massOf, comOf, tensorOf in H1, H2. cbn [fst snd] in H1, H2.
    exact (IH m1 c1 T1 (onMatrix x M0) H1 H2). }
  destruct K as [K1 K2]. set (b := fold_left (fun b x => onBody x b) xs (m, c, T)) in *. set (M := fold_left (fun M x => onMatrix x M) xs M0) in *.
  pose proof (Body_entry _ _ _ _ K2) as B.
  split; [exact K1|split; [exact K2|split; [|split]]].
  - unfold getMass. rewrite B by lia. ev. ring.
  - intros i Hi. unfold getCOM. idx i; rewrite !B by lia; ev; field; apply Rgt_not_eq; exact K1.
  - intros i j Hi Hj. unfold get3x3Tensor. rewrite B by lia. idx i; idx j; ev; ring.
Qed.

(** The kinetic energy splits into that of the centre of mass and that of the rotation about it. *)
Theorem C90_energy : forall M m c T v, Body M m c T ->
  rquad 6 M v v = m * rdot 3 (fun i => lin v i + cross (ang v) c i) (fun i => lin v i + cross (ang v) c i)
                + rquad 3 (fun i j => T i j - steiner m c i j) (ang v) (ang v).
Proof.
  intros M m c T v H. unfold rquad. unfold rdot at 1.
  rewrite (rsum_ext _ _ (fun i => v i * momentum m c T v i)) by (intros; rewrite H by lia; reflexivity).
  ev. ring.
Qed.

(** So moving the centre of mass or scaling the mass keeps a physical inertia physical, and so does adding bodies. *)
Definition psd6 (M : mat) : Prop := forall v, 0 <= rquad 6 M v v.
Theorem C90_psd : forall x M m c T, 0 < m -> Body M m c T -> allowed x -> psd6 M ->
  match x with
  | ChangeMass _ | ChangeCOM _ => psd6 (onMatrix x M)
  | Assign other _ _ _ | AddBody other _ _ _ => psd6 other -> psd6 (onMatrix x M)
  | _ => True
  end.
Proof.
  intros x M m c T Hm HB A P.
  pose proof (step_body x M m c T Hm HB A) as [H1 H2].
  assert (C : forall w, 0 <= rquad 3 (fun i j => T i j - steiner m c i j) w w).
  { intros w. specialize (P (pair6 w (fun i => - cross w c i))). rewrite (C90_energy _ _ _ _ _ HB) in P.
    revert P. ev. intros P. eapply Rle_trans; [exact P|]. right. ring. }
  assert (Q : forall u : rvec, 0 <= rdot 3 u u).
  { intros u. unfold rdot. cbn [rsum]. pose proof (Rle_0_sqr (u 0%nat)). pose proof (Rle_0_sqr (u 1%nat)). pose proof (Rle_0_sqr (u 2%nat)). unfold Rsqr in *. lra. }
  destruct x as [m' c' T'|m'|c'|T'|o m' c' T'|o m' c' T']; try exact Logic.I; unfold massOf, comOf, tensorOf, allowed, onBody in *; cbn [fst snd] in *.
  - intros v. rewrite (C90_energy _ _ _ _ _ H2). apply Rplus_le_le_0_compat; [apply Rmult_le_pos; [lra|apply Q]|].
    replace (rquad 3 (fun i j => m' / m * T i j - steiner m' c i j) (ang v) (ang v))
      with (m' / m * rquad 3 (fun i j => T i j - steiner m c i j) (ang v) (ang v)) by (ev; field; lra).
    apply Rmult_le_pos; [|apply C]. apply Rlt_le. apply Rdiv_lt_0_compat; assumption.
  - intros v. rewrite (C90_energy _ _ _ _ _ H2). apply Rplus_le_le_0_compat; [apply Rmult_le_pos; [lra|apply Q]|].
    replace (rquad 3 (fun i j => T i j - steiner m c i j + steiner m c' i j - steiner m c' i j) (ang v) (ang v))
      with (rquad 3 (fun i j => T i j - steiner m c i j) (ang v) (ang v)) by (ev; ring).
    apply C.
  - intros PO v. destruct A as [A HO]. specialize (PO v). unfold rquad in *. unfold rdot in *.
    rewrite (rsum_ext _ _ (fun i => v i * momentum m' c' T' v i)) in PO by (intros; rewrite HO by lia; reflexivity).
    rewrite (rsum_ext _ _ (fun i => v i * momentum m' c' T' v i)) by (intros; rewrite H2 by lia; reflexivity).
    exact PO.
  - intros PO v. destruct A as [A HO]. specialize (PO v). specialize (P v). unfold rquad in *. unfold rdot in *.
    rewrite (rsum_ext _ _ (fun i => v i * momentum m' c' T' v i)) in PO by (intros; rewrite HO by lia; reflexivity).
    rewrite (rsum_ext _ _ (fun i => v i * momentum m c T v i)) in P by (intros; rewrite HB by lia; reflexivity).
    rewrite (rsum_ext _ _ (fun i => v i * momentum m c T v i + v i * momentum m' c' T' v i)).
    + rewrite rsum_plus. lra.
    + intros i Hi. rewrite H2 by lia. idx i; ev; field; lra.
Qed.

Example C90_history_example :
  let other := newInertia 1 (fun _ => 1) (fun i j => if (i =? j)%nat then 3 else 0) zeros in
  let l := [ ChangeMass 3; ChangeCOM (fun _ => 2); AddBody other 1 (fun _ => 1) (fun i j => if (i =? j)%nat then 3 else 0) ] in
  List.Forall allowed l /\ psd6 other /\
  (forall M, M = fold_left (fun M x => onMatrix x M) l (newInertia 1 rzero (fun i j => if (i =? j)%nat then 1 else 0) zeros) ->
     getMass M = 4 /\ getCOM M 0%nat = 7 / 4 /\ M 0%nat 0%nat = 30 /\ M 0%nat 1%nat = - (12)).
Proof.
  cbv zeta.
  assert (B : Body (newInertia 1 (fun _ => 1) (fun i j => if (i =? j)%nat then 3 else 0) zeros) 1 (fun _ => 1) (fun i j => if (i =? j)%nat then 3 else 0)).
  { apply entry_Body. intros i j Hi Hj. idx i; idx j; ev; ring. }
  split; [|split].
  - repeat constructor; try exact B; cbn; lra.
  - intros v. rewrite (C90_energy _ _ _ _ _ B).
    replace (rquad 3 (fun i j => (if (i =? j)%nat then 3 else 0) - steiner 1 (fun _ => 1) i j) (ang v) (ang v))
      with ((v 0%nat + v 1%nat + v 2%nat) * (v 0%nat + v 1%nat + v 2%nat)) by (ev; ring).
    apply Rplus_le_le_0_compat; [|apply (Rle_0_sqr (v 0%nat + v 1%nat + v 2%nat))].
    rewrite Rmult_1_l. unfold rdot. cbn [rsum].
    set (a := lin v 0%nat + _). set (b := lin v 1%nat + _). set (d := lin v 2%nat + _).
    pose proof (Rle_0_sqr a). pose proof (Rle_0_sqr b). pose proof (Rle_0_sqr d). unfold Rsqr in *. lra.
  - intros M ->. repeat split; ev; field.
Qed.

(** ** Rotations *)
(** Coordinates turned about one axis. *)
Definition turnX (a : R) : mat := fun i j => match i, j with 0%nat, 0%nat => 1 | 1%nat, 1%nat => cos a | 1%nat, 2%nat => sin a | 2%nat, 1%nat => - sin a | 2%nat, 2%nat => cos a | _, _ => 0 end.
Definition turnY (a : R) : mat := fun i j => match i, j with 1%nat, 1%nat => 1 | 0%nat, 0%nat => cos a | 0%nat, 2%nat => - sin a | 2%nat, 0%nat => sin a | 2%nat, 2%nat => cos a | _, _ => 0 end.
Definition turnZ (a : R) : mat := fun i j => match i, j with 2%nat, 2%nat => 1 | 0%nat, 0%nat => cos a | 0%nat, 1%nat => sin a | 1%nat, 0%nat => - sin a | 1%nat, 1%nat => cos a | _, _ => 0 end.

Lemma cs1 a : cos a * cos a = 1 - sin a * sin a. Proof. pose proof (sin2_cos2 a). unfold Rsqr in *. lra. Qed.

Theorem C90_buildRotationMatrix : forall rx ry rz,
  (forall v i, (i < 3)%nat -> rmv 3 (buildRotationMatrix rx ry rz) v i = rmv 3 (turnZ rz) (rmv 3 (turnY ry) (rmv 3 (turnX rx) v)) i) /\
  rotation (buildRotationMatrix rx ry rz).
Proof.
  intros rx ry rz. split.
  - intros v i Hi. idx i; ev; ring.
  - pose proof (cs1 rx) as X. pose proof (cs1 ry) as Y. pose proof (cs1 rz) as Z.
    split.
    + intros i j Hi Hj. idx i; idx j; ev; ring [X Y Z].
    + ev. ring [X Y Z].
Qed.

Theorem C90_tensor_and_transform :
  (forall Ixx Iyy Izz Ixy Ixz Iyz w, let T := buildInertiaTensor Ixx Iyy Izz Ixy Ixz Iyz in
     sym3 T /\
     rquad 3 T w w = Ixx * (w 0%nat * w 0%nat) + Iyy * (w 1%nat * w 1%nat) + Izz * (w 2%nat * w 2%nat)
       - 2 * Ixy * (w 0%nat * w 1%nat) - 2 * Ixz * (w 0%nat * w 2%nat) - 2 * Iyz * (w 1%nat * w 2%nat)) /\
  (forall A B p, (forall j, B 3%nat j = if (j =? 3)%nat then 1 else 0) ->
     forall i, (i < 3)%nat -> transform (fun i j => rsum 4 (fun k => A i k * B k j)) p i = transform A (transform B p) i).
Proof.
  split.
  - intros Ixx Iyy Izz Ixy Ixz Iyz w. cbv zeta. split.
    + intros i j Hi Hj. idx i; idx j; reflexivity.
    + ev. ring.
  - intros A B p HB i Hi. unfold transform. cbn [rsum]. rewrite !HB. idx i; ev; ring.
Qed.
Print Assumptions C90_inertia_history.
Print Assumptions C90_energy.
Print Assumptions C90_psd.
Print Assumptions C90_buildRotationMatrix.
Print Assumptions C90_tensor_and_transform.
