(** C91: forward and inverse dynamics of serial arms. *)
From Coq Require Import Reals List Bool Arith Lia Lra FunctionalExtensionality.
From Verif Require Import Base.RVec Rbd.SpatialModel Rbd.SpatialProofs Rbd.SpatialProps Rbd.ArticulatedProps Rbd.InertiaProps
  Rbd.ChainModel Rbd.ChainProofs.
Import ListNotations.
Local Open Scope R_scope.

(** ** Specification: Newton and Euler link by link.
    [v] and [a] are the motion and acceleration of the link before; a joint adds its rotation about z; the force through the
    joint moves the link, balances the external force and carries the links after it. *)
Definition aboutZ (x : R) : rvec := fun i => if (i =? 2)%nat then x else 0.
Fixpoint jointForces (v a : rvec) (l : list (joint * R)) : list R * rvec :=
  match l with
  | [] => ([], fun _ => 0)
  | (j, qdd) :: l' =>
      let v' := fun i => rmv 6 (jX j) v i + aboutZ (jqd j) i in
      let a' := fun i => rmv 6 (jX j) a i + crossMotion v' (aboutZ (jqd j)) i + aboutZ qdd i in
      let '(taus, fnext) := jointForces v' a' l' in
      let f := fun i => rmv 6 (jI j) a' i + crossForce v' (rmv 6 (jI j) v') i - jf j i + fnext i in
      (f 2%nat :: taus, rmv 6 (tr (jX j)) f)
  end.
(** The base is at rest; gravity is its upward acceleration. *)
Definition required (l : list (joint * R)) : list R := fst (jointForces (fun _ => 0) (fun i => if (i =? 5)%nat then 981 / 100 else 0) l).

(** ** The states a forward or inverse dynamics object can be in: constructed, then used any number of times. *)
Inductive idReach : idState -> Prop :=
| id_new : idReach newId
| id_call st j qdd l : idReach st -> idReach (snd (id st j qdd l))
| id_cterms st j l : idReach st -> idReach (snd (C_terms st j l)).
Inductive fdReach : fdState -> Prop :=
| fd_new : fdReach newFd
| fd_call st G j tau js taus : fdReach st -> goodLink j -> List.Forall goodLink js -> length taus = length js ->
    fdReach (snd (fd st G j tau (combine js taus))).

Definition okId (st : idState) : Prop := okV (idV st) /\ forall i, i <> 2%nat -> idv1 st i = 0.
Definition okFd (st : fdState) : Prop := okV (fdV st) /\ okIa (fdIa st) /\ forall i, i <> 2%nat -> fdv1 st i = 0.

Lemma idPass_okV l : forall v a V, okV V -> okV (snd (idPass v a V l)).
Proof.
  induction l as [|[j q] l IH]; intros v a V H; [exact H|]. cbn [idPass].
  match goal with |- context [idPass ?x ?y ?z l] => specialize (IH x y z (okV_step _ _ H)); destruct (idPass x y z l) as [[t f] V2] end.
  exact IH.
Qed.
Lemma cPass_okV l : forall v a V, okV V -> okV (snd (cPass v a V l)).
Proof.
  induction l as [|j l IH]; intros v a V H; [exact H|]. cbn [cPass].
  match goal with |- context [cPass ?x ?y ?z l] => specialize (IH x y z (okV_step _ _ H)); destruct (cPass x y z l) as [[t f] V2] end.
  exact IH.
Qed.
Lemma rset_zero (v : rvec) x : (forall i, i <> 2%nat -> v i = 0) -> rset v 2 x = aboutZ x.
Proof. intros H. apply functional_extensionality. intros i. unfold rset, aboutZ. destruct (Nat.eqb_spec i 2); [reflexivity|apply H; assumption]. Qed.
Lemma aboutZ_off x i : i <> 2%nat -> aboutZ x i = 0.
Proof. intros H. unfold aboutZ. destruct (Nat.eqb_spec i 2); [contradiction|reflexivity]. Qed.
Lemma idReach_ok st : idReach st -> okId st.
Proof.
  induction 1 as [|st j q l H [IV I1]|st j l H [IV I1]].
  - split; [split; reflexivity|reflexivity].
  - unfold id. match goal with |- context [idPass ?x ?y ?z l] => pose proof (idPass_okV l x y z IV); destruct (idPass x y z l) as [[t f] V2] end.
    split; [assumption|]. cbn [snd idv1]. intros i Hi. rewrite (rset_zero _ _ I1). apply aboutZ_off; exact Hi.
  - unfold C_terms. match goal with |- context [cPass ?x ?y ?z l] => pose proof (cPass_okV l x y z IV); destruct (cPass x y z l) as [[t f] V2] end.
    split; [assumption|]. cbn [snd idv1]. intros i Hi. rewrite (rset_zero _ _ I1). apply aboutZ_off; exact Hi.
Qed.
Lemma fdReach_ok st : fdReach st -> okFd st.
Proof.
  induction 1 as [|st G j tau js taus H (IV & II & I1) Hj Hjs HL].
  - split; [split; reflexivity|split; [intros i _; split; reflexivity|reflexivity]].
  - unfold fd. match goal with |- context [fdPass1 ?x ?y _] => pose proof (chain_iff js Hjs taus x y (fdIa st) G HL IV II) as K; destruct (fdPass1 x y (combine js taus)) as [l1 V1] end.
    destruct (fdPass2 l1 (fdIa st) G) as [[l2 [A p]] Ia1]. destruct K as (K1 & K2 & _).
    cbn [snd]. split; [exact K1|split; [exact K2|]]. cbn [fdv1]. intros i Hi. rewrite (rset_zero _ _ I1). apply aboutZ_off; exact Hi.
Qed.

(** ** Inverse dynamics *)
Lemma crossMotion_z v x i : (i < 6)%nat -> crossMotion v (aboutZ x) i = crossMotion v (runit 2) i * x.
Proof. intros Hi. idx i; ev; ring. Qed.
Lemma bias_of j v i : physical (jI j) -> (i < 6)%nat -> vxIv v (jI j) i = crossForce v (rmv 6 (jI j) v) i.
Proof. intros (m & c & T & _ & B & S & _) Hi. apply (proj1 (C90_bias _ _ _ _ v B S)); exact Hi. Qed.
Lemma crossForce_agree v w f h i : agree v w -> agree f h -> (i < 6)%nat -> crossForce v f i = crossForce w h i.
Proof.
  intros H F Hi. assert (H0 := H 0%nat ltac:(lia)). assert (H1 := H 1%nat ltac:(lia)). assert (H2 := H 2%nat ltac:(lia)).
  assert (H3 := H 3%nat ltac:(lia)). assert (H4 := H 4%nat ltac:(lia)). assert (H5 := H 5%nat ltac:(lia)).
  assert (F0 := F 0%nat ltac:(lia)). assert (F1 := F 1%nat ltac:(lia)). assert (F2 := F 2%nat ltac:(lia)).
  assert (F3 := F 3%nat ltac:(lia)). assert (F4 := F 4%nat ltac:(lia)). assert (F5 := F 5%nat ltac:(lia)).
  unfold crossForce, pair6, cross, ang, lin.
  idx i; cbv iota beta delta [Nat.ltb Nat.leb Nat.sub Nat.add]; rewrite ?H0, ?H1, ?H2, ?H3, ?H4, ?H5, ?F0, ?F1, ?F2, ?F3, ?F4, ?F5; reflexivity.
Qed.

Lemma idPass_spec js : List.Forall (fun j => physical (jI j)) js -> forall qdds v a w b V, length qdds = length js ->
  okV V -> agree v w -> agree a b ->
  fst (fst (idPass v a V (combine js qdds))) = fst (jointForces w b (combine js qdds)) /\
  agree (snd (fst (idPass v a V (combine js qdds)))) (snd (jointForces w b (combine js qdds))).
Proof.
  induction js as [|j js IH]; intros HP qdds v a w b V HL HV Hv Ha.
  - split; [reflexivity|intros i Hi; reflexivity].
  - destruct qdds as [|q qdds]; [discriminate|]. inversion HP as [|? ? Pj HP']; subst. cbn [combine idPass jointForces].
    set (v1 := rset (rmv 6 (jX j) v) 2 (rmv 6 (jX j) v 2%nat + jqd j)).
    set (w1 := fun i => rmv 6 (jX j) w i + aboutZ (jqd j) i).
    assert (Hv1 : agree v1 w1).
    { intros i Hi. unfold v1, w1. rewrite rset_add. rewrite (rmv_agree _ v w i Hv). reflexivity. }
    set (V1 := motionCross v1 V). pose proof (okV_step v1 V HV : okV V1) as HV1.
    set (a1 := rset (fun i => rmv 6 (jX j) a i + V1 i 2%nat * jqd j) 2 (rmv 6 (jX j) a 2%nat + V1 2%nat 2%nat * jqd j + q)).
    set (b1 := fun i => rmv 6 (jX j) b i + crossMotion w1 (aboutZ (jqd j)) i + aboutZ q i).
    assert (Ha1 : agree a1 b1).
    { intros i Hi. unfold a1, b1. rewrite (rset_add (fun i => rmv 6 (jX j) a i + V1 i 2%nat * jqd j) 2 q i).
      rewrite (rmv_agree _ a b i Ha), crossMotion_z by exact Hi. unfold V1. rewrite vcol by assumption.
      rewrite (crossMotion_agree _ _ _ i Hv1 Hi). unfold aboutZ. ring. }
    specialize (IH HP' qdds v1 a1 w1 b1 V1 ltac:(simpl in HL; lia) HV1 Hv1 Ha1).
    destruct (idPass v1 a1 V1 (combine js qdds)) as [[t f] V2]. destruct (jointForces w1 b1 (combine js qdds)) as [t' f'].
    cbn [fst snd] in IH. destruct IH as [-> Hf].
    assert (F : agree (fun i => rmv 6 (jI j) a1 i + vxIv v1 (jI j) i - jf j i + f i)
                      (fun i => rmv 6 (jI j) b1 i + crossForce w1 (rmv 6 (jI j) w1) i - jf j i + f' i)).
    { intros i Hi. rewrite (rmv_agree _ a1 b1 i Ha1), (bias_of j v1 i Pj Hi), (Hf i Hi).
      rewrite (crossForce_agree v1 w1 _ (rmv 6 (jI j) w1) i Hv1 (fun k Hk => rmv_agree (jI j) v1 w1 k Hv1) Hi). reflexivity. }
    cbn [fst snd]. split.
    + apply (f_equal2 (@cons R)); [apply (F 2%nat); lia|reflexivity].
    + intros i Hi. exact (rmv_agree (trans (jX j)) _ _ i F).
Qed.

Theorem C91_inverse_dynamics : forall st j qdd js qdds, idReach st ->
  List.Forall (fun j => physical (jI j)) (j :: js) -> length qdds = length js ->
  fst (id st j qdd (combine js qdds)) = required (combine (j :: js) (qdd :: qdds)).
Proof.
  intros st j qdd js qdds HR HP HL. destruct (idReach_ok st HR) as [IV I1]. inversion HP as [|? ? Pj HP']; subst.
  unfold id, required. cbn [combine jointForces].
  set (w1 := fun i => rmv 6 (jX j) (fun _ => 0) i + aboutZ (jqd j) i).
  set (b1 := fun i => rmv 6 (jX j) (fun k => if (k =? 5)%nat then 981 / 100 else 0) i + crossMotion w1 (aboutZ (jqd j)) i + aboutZ qdd i).
  set (a1 := rset (fun i => jX j i 5%nat * g) 2 (jX j 2%nat 5%nat * g + qdd)).
  rewrite (rset_zero _ _ I1).
  assert (Hv : agree (aboutZ (jqd j)) w1).
  { intros i Hi. unfold w1, rmv. rewrite (rsum_ext _ _ (fun _ => 0)), RVec.rsum_zero by (intros; ring). ring. }
  assert (Ha : agree a1 b1).
  { intros i Hi. unfold a1, b1. rewrite (rset_add (fun i => jX j i 5%nat * g) 2 qdd i).
    rewrite <- (crossMotion_agree _ _ _ i Hv Hi). unfold g.
    replace (crossMotion (aboutZ (jqd j)) (aboutZ (jqd j)) i) with 0 by (idx i; ev; ring).
    replace (rmv 6 (jX j) (fun k => if (k =? 5)%nat then 981 / 100 else 0) i) with (jX j i 5%nat * (981 / 100)) by (ev; field).
    unfold aboutZ. ring. }
  pose proof (idPass_spec js HP' qdds (aboutZ (jqd j)) a1 w1 b1 (idV st) HL IV Hv Ha) as [K1 K2].
  change (rset (fun i : nat => jX j i 5%nat * g) 2 (jX j 2%nat 5%nat * g + qdd)) with a1.
  destruct (idPass (aboutZ (jqd j)) a1 (idV st) (combine js qdds)) as [[t f] V2]. destruct (jointForces w1 b1 (combine js qdds)) as [t' f'].
  cbn [fst snd] in *. subst t'. apply (f_equal2 (@cons R)); [|reflexivity].
  rewrite (rmv_agree _ a1 b1 2 Ha), (K2 2%nat) by lia.
  rewrite <- (crossForce_agree _ _ _ _ 2%nat Hv (fun k Hk => rmv_agree (jI j) _ _ k Hv)) by lia.
  destruct Pj as (m & c & T & _ & B & S & _).
  rewrite (C90_bias_z_partial (jI j) m c T (jqd j) 2%nat B S) by lia.
  reflexivity.
Qed.

(** ** Forward dynamics: the accelerations for which exactly the given joint forces are required. *)
Theorem C91_forward_dynamics : forall st G j tau js taus qdds, fdReach st ->
  List.Forall goodLink (j :: js) -> length taus = length js -> length qdds = length (j :: js) ->
  (fst (fd st G j tau (combine js taus)) = qdds <-> required (combine (j :: js) qdds) = tau :: taus).
Proof.
  intros st G j tau js taus qdds HR HG HL HQ. destruct qdds as [|qdd qdds]; [discriminate|].
  assert (HP : List.Forall (fun j => physical (jI j)) (j :: js)) by (revert HG; apply List.Forall_impl; intros x [_ H]; exact H).
  rewrite <- (C91_inverse_dynamics newId j qdd js qdds id_new HP ltac:(simpl in HQ; lia)).
  destruct (fdReach_ok st HR) as (IV & II & I1). inversion HG as [|? ? Hj HG']; subst.
  unfold fd, id. rewrite (rset_zero _ _ I1). replace (rset (idv1 newId) 2 (jqd j)) with (aboutZ (jqd j)) by (symmetry; apply rset_zero; reflexivity).
  pose proof (chain_iff js HG' taus (aboutZ (jqd j)) (fdV st) (fdIa st) G HL IV II) as K.
  destruct (fdPass1 (aboutZ (jqd j)) (fdV st) (combine js taus)) as [l1 V1].
  destruct (fdPass2 l1 (fdIa st) G) as [[l2 [A p]] Ia1]. destruct K as (_ & _ & SA & PA & K).
  destruct Hj as [_ Pj]. destruct (physical_facts _ Pj) as (SI & PI & DI).
  set (a0 := fun i => jX j i 5%nat * g). change (jX j 2%nat 5%nat * g) with (a0 2%nat). set (an := rset a0 2 (a0 2%nat + qdd)).
  specialize (K an qdds (aboutZ (jqd j)) (fun _ _ => 0) (fun i _ => eq_refl) (conj eq_refl eq_refl) ltac:(simpl in HQ; lia)).
  change (idV newId) with (fun _ _ : nat => 0).
  destruct (idPass (aboutZ (jqd j)) an (fun _ _ => 0) (combine js qdds)) as [[t f] V2]. destruct K as (_ & IFF & FO).
  set (AI := fun a b => jI j a b + A a b).
  assert (SAI : sym6 AI) by (intros i k Hi Hk; unfold AI; rewrite (SI i k Hi Hk), (SA i k Hi Hk); reflexivity).
  assert (DAI : 0 < AI 2%nat 2%nat) by (unfold AI; pose proof (psd_diag A 2 ltac:(lia) PA); lra).
  set (u := tau - (- jf j 2%nat + vxIv_z (jqd j) (jI j) 2%nat + p 2%nat)).
  cbn [fst]. change (fun i => jI j i 2%nat + A i 2%nat) with (fun i => AI i 2%nat). change (jI j 2%nat 2%nat + A 2%nat 2%nat) with (AI 2%nat 2%nat).
  set (q := (u - rdot 6 (fun i => AI i 2%nat) a0) / AI 2%nat 2%nat).
  set (f2 := rmv 6 (jI j) an 2%nat + vxIv_z (jqd j) (jI j) 2%nat - jf j 2%nat + f 2%nat).
  assert (Q : t = taus -> (f2 = tau <-> q = qdd)).
  { intros Ht. unfold f2. rewrite (FO Ht 2%nat) by lia. unfold an. rewrite !rmv_rset by lia.
    assert (X : rdot 6 (fun i => AI i 2%nat) a0 = rmv 6 (jI j) a0 2%nat + rmv 6 A a0 2%nat).
    { rewrite row_col by (assumption || lia). apply rmv_madd. }
    unfold q, u. rewrite X. change (jI j 2%nat 2%nat) with (jI j 2%nat 2%nat). unfold AI in *. split; intros Y.
    - rewrite <- Y. field. lra.
    - rewrite <- Y. field. lra. }
  split; intros Y.
  - assert (Y1 : q = qdd) by (exact (f_equal (hd 0) Y)). assert (Y2 := f_equal (@tl R) Y). cbn [tl] in Y2.
    assert (Ht : t = taus). { apply IFF. rewrite <- Y2. rewrite Y1. reflexivity. }
    apply (f_equal2 (@cons R)); [apply (Q Ht); exact Y1|exact Ht].
  - assert (Y1 : f2 = tau) by (exact (f_equal (hd 0) Y)). assert (Ht : t = taus) by (exact (f_equal (@tl R) Y)).
    assert (Y2 := proj1 (Q Ht) Y1). apply (f_equal2 (@cons R)); [exact Y2|]. rewrite Y2. symmetry. apply IFF. exact Ht.
Qed.

(** So each undoes the other, from any states of the two objects. *)
Theorem C91_each_undoes_the_other : forall st st' G j js, fdReach st -> idReach st' -> List.Forall goodLink (j :: js) ->
  (forall tau taus, length taus = length js ->
     exists qdd qdds, fst (fd st G j tau (combine js taus)) = qdd :: qdds /\ length qdds = length js /\
       fst (id st' j qdd (combine js qdds)) = tau :: taus) /\
  (forall qdd qdds, length qdds = length js ->
     exists tau taus, fst (id st' j qdd (combine js qdds)) = tau :: taus /\ length taus = length js /\
       fst (fd st G j tau (combine js taus)) = qdd :: qdds).
Proof.
  intros st st' G j js Hs Hs' HG.
  assert (HP : List.Forall (fun j => physical (jI j)) (j :: js)) by (revert HG; apply List.Forall_impl; intros x [_ H]; exact H).
  assert (L1 : forall v V l, length (fst (fdPass1 v V l)) = length l).
  { intros v V l; revert v V. induction l as [|[x y] l IH]; intros v V; [reflexivity|]. cbn [fdPass1].
    match goal with |- context [fdPass1 ?a ?b l] => specialize (IH a b); destruct (fdPass1 a b l) end. simpl in *. f_equal. exact IH. }
  assert (L2 : forall l Ia, length (fst (fst (fdPass2 l Ia G))) = length l).
  { induction l as [|x l IH]; intros Ia; [reflexivity|]. cbn [fdPass2]. specialize (IH Ia). destruct (fdPass2 l Ia G) as [[r [A p]] I1]. simpl in *. f_equal. exact IH. }
  assert (L3 : forall l a, length (fdPass3 a l) = length l).
  { induction l as [|x l IH]; intros a; [reflexivity|]. cbn [fdPass3 length]. f_equal. apply IH. }
  assert (L4 : forall l v a V, length (fst (fst (idPass v a V l))) = length l).
  { induction l as [|[x y] l IH]; intros v a V; [reflexivity|]. cbn [idPass].
    match goal with |- context [idPass ?p ?q ?r l] => specialize (IH p q r); destruct (idPass p q r l) as [[t f] V2] end. simpl in *. f_equal. exact IH. }
  split.
  - intros tau taus HL.
    assert (E : exists qdd qdds, fst (fd st G j tau (combine js taus)) = qdd :: qdds /\ length qdds = length js).
    { unfold fd. match goal with |- context [fdPass1 ?a ?b ?l] => pose proof (L1 a b l) as X; destruct (fdPass1 a b l) as [l1 V1] end.
      cbn [fst] in X. pose proof (L2 l1 (fdIa st)) as Y. destruct (fdPass2 l1 (fdIa st) G) as [[l2 [A p]] I1]. cbn [fst] in *.
      eexists; eexists; split; [reflexivity|]. rewrite L3, Y, X, combine_length. lia. }
    destruct E as (qdd & qdds & E & L). exists qdd, qdds. split; [exact E|split; [exact L|]].
    rewrite (C91_inverse_dynamics st' j qdd js qdds Hs' HP L).
    apply (C91_forward_dynamics st G j tau js taus (qdd :: qdds) Hs HG HL); [simpl; lia|exact E].
  - intros qdd qdds HL.
    assert (E : exists tau taus, fst (id st' j qdd (combine js qdds)) = tau :: taus /\ length taus = length js).
    { unfold id. match goal with |- context [idPass ?a ?b ?c ?l] => pose proof (L4 l a b c) as X; destruct (idPass a b c l) as [[t f] V1] end.
      cbn [fst] in *. eexists; eexists; split; [reflexivity|]. rewrite X, combine_length. lia. }
    destruct E as (tau & taus & E & L). exists tau, taus. split; [exact E|split; [exact L|]].
    apply (C91_forward_dynamics st G j tau js taus (qdd :: qdds) Hs HG L); [simpl; lia|].
    rewrite <- (C91_inverse_dynamics st' j qdd js qdds Hs' HP HL). exact E.
Qed.

(** ** Gravity and velocity terms add up to the joint forces that keep the joints from accelerating. *)
Definition still (js : list joint) : list (joint * R) := map (fun j => (j, 0)) js.
Lemma terms_sum js : List.Forall (fun j => jf j = fun _ => 0) js -> forall v a V aG aC V', okV V -> okV V' ->
  (forall i, (i < 6)%nat -> a i = aG i + aC i) ->
  fst (fst (idPass v a V (still js))) = map (fun p => fst p + snd p) (combine (fst (gPass aG js)) (fst (fst (cPass v aC V' js)))) /\
  (forall i, (i < 6)%nat -> snd (fst (idPass v a V (still js))) i = snd (gPass aG js) i + snd (fst (cPass v aC V' js)) i).
Proof.
  induction js as [|j js IH]; intros HF v a V aG aC V' HV HV' Ha.
  - split; [reflexivity|]. intros i Hi. cbn. ring.
  - inversion HF as [|? ? Fj HF']; subst. cbn [still map idPass gPass cPass]. fold (still js).
    set (v1 := rset (rmv 6 (jX j) v) 2 (rmv 6 (jX j) v 2%nat + jqd j)).
    set (V1 := motionCross v1 V). set (V1' := motionCross v1 V').
    set (a1 := rset (fun i => rmv 6 (jX j) a i + V1 i 2%nat * jqd j) 2 (rmv 6 (jX j) a 2%nat + V1 2%nat 2%nat * jqd j + 0)).
    set (g1 := rmv 6 (jX j) aG). set (c1 := fun i => rmv 6 (jX j) aC i + V1' i 2%nat * jqd j).
    assert (H1 : forall i, (i < 6)%nat -> a1 i = g1 i + c1 i).
    { intros i Hi. unfold a1, g1, c1. rewrite (rset_add (fun i => rmv 6 (jX j) a i + V1 i 2%nat * jqd j) 2 0 i).
      unfold V1, V1'. rewrite !vcol by assumption. rewrite (rmv_agree _ a (fun k => aG k + aC k) i Ha), rmv_plus.
      destruct (i =? 2)%nat; ring. }
    specialize (IH HF' v1 a1 V1 g1 c1 V1' (okV_step _ _ HV) (okV_step _ _ HV') H1).
    destruct (idPass v1 a1 V1 (still js)) as [[t f] V2]. destruct (gPass g1 js) as [tG fG]. destruct (cPass v1 c1 V1' js) as [[tC fC] V3].
    cbn [fst snd] in *. destruct IH as [-> IHf].
    assert (F : forall i, (i < 6)%nat -> rmv 6 (jI j) a1 i + vxIv v1 (jI j) i - jf j i + f i
        = (rmv 6 (jI j) g1 i + fG i) + (rmv 6 (jI j) c1 i + vxIv v1 (jI j) i + fC i)).
    { intros i Hi. rewrite (rmv_agree _ a1 (fun k => g1 k + c1 k) i H1), rmv_plus, (IHf i Hi), Fj. ring. }
    split.
    + cbn [combine map fst snd]. apply (f_equal2 (@cons R)); [apply F; lia|reflexivity].
    + intros i Hi. rewrite <- rmv_plus. apply rmv_agree. intros k Hk. apply F; exact Hk.
Qed.

Theorem C91_gravity_and_velocity_terms : forall st st' j js, idReach st -> idReach st' ->
  List.Forall (fun j => jf j = fun _ => 0) (j :: js) ->
  fst (id st j 0 (still js)) = map (fun p => fst p + snd p) (combine (G_terms j js) (fst (C_terms st' j js))).
Proof.
  intros st st' j js Hs Hs' HF. destruct (idReach_ok st Hs) as [IV I1]. destruct (idReach_ok st' Hs') as [IV' I1'].
  inversion HF as [|? ? Fj HF']; subst. unfold id, G_terms, C_terms. rewrite (rset_zero _ _ I1), (rset_zero _ _ I1').
  set (a0 := fun i => jX j i 5%nat * g). set (a1 := rset a0 2 (jX j 2%nat 5%nat * g + 0)).
  assert (H1 : forall i, (i < 6)%nat -> a1 i = a0 i + 0).
  { intros i Hi. unfold a1. change (jX j 2%nat 5%nat * g) with (a0 2%nat). rewrite rset_add. destruct (i =? 2)%nat; ring. }
  destruct (terms_sum js HF' (aboutZ (jqd j)) a1 (idV st) a0 (fun _ => 0) (idV st') IV IV' H1) as [K1 K2].
  destruct (idPass (aboutZ (jqd j)) a1 (idV st) (still js)) as [[t f] V2]. destruct (gPass a0 js) as [tG fG].
  destruct (cPass (aboutZ (jqd j)) (fun _ => 0) (idV st') js) as [[tC fC] V3]. cbn [fst snd] in *.
  cbn [combine map fst snd]. apply (f_equal2 (@cons R)); [|exact K1].
  rewrite (K2 2%nat) by lia. rewrite Fj.
  rewrite (rmv_agree _ a1 (fun k => a0 k + 0) 2%nat H1), (rmv_plus (jI j) a0 (fun _ => 0)).
  replace (rmv 6 (jI j) (fun _ => 0) 2%nat) with 0 by (ev; ring). ring.
Qed.
Print Assumptions C91_inverse_dynamics.
Print Assumptions C91_forward_dynamics.
Print Assumptions C91_each_undoes_the_other.
Print Assumptions C91_gravity_and_velocity_terms.
