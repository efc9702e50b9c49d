(** Lemmas for C91. *)
From Coq Require Import Reals List Bool Arith Lia Lra FunctionalExtensionality.
From Verif Require Import Base.RVec Rbd.SpatialModel Rbd.SpatialProofs Rbd.SpatialProps Rbd.ArticulatedProps Rbd.InertiaProps Rbd.ChainModel.
Import ListNotations.
Local Open Scope R_scope.

Definition agree (a b : rvec) : Prop := forall i, (i < 6)%nat -> a i = b i.
Lemma rmv_agree M a b i : agree a b -> rmv 6 M a i = rmv 6 M b i.
Proof. intros H. apply rsum_ext. intros k Hk. rewrite H by exact Hk. reflexivity. Qed.
Lemma rdot_agree u a b : agree a b -> rdot 6 u a = rdot 6 u b.
Proof. intros H. apply rsum_ext. intros k Hk. rewrite H by exact Hk. reflexivity. Qed.
Lemma rset_agree a b k x y : agree a b -> x = y -> agree (rset a k x) (rset b k y).
Proof. intros H E i Hi. unfold rset. destruct (i =? k)%nat; [exact E|apply H; exact Hi]. Qed.
Lemma rset_add a k x i : rset a k (a k + x) i = a i + (if (i =? k)%nat then x else 0).
Proof. unfold rset. destruct (Nat.eqb_spec i k) as [->|]; ring. Qed.
Lemma rmv_rset M a k x i : (k < 6)%nat -> rmv 6 M (rset a k (a k + x)) i = rmv 6 M a i + M i k * x.
Proof.
  intros Hk. unfold rmv. rewrite (rsum_ext _ _ (fun j => M i j * a j + (if (j =? k)%nat then M i j * x else 0))).
  - rewrite rsum_plus, (rsum_delta 6 k (fun j => M i j * x) Hk). reflexivity.
  - intros j _. rewrite rset_add. destruct (j =? k)%nat; ring.
Qed.
Lemma rmv_plus M a b i : rmv 6 M (fun k => a k + b k) i = rmv 6 M a i + rmv 6 M b i.
Proof. unfold rmv. rewrite <- rsum_plus. apply rsum_ext. intros. ring. Qed.
Lemma rmv_madd A B a i : rmv 6 (fun i j => A i j + B i j) a i = rmv 6 A a i + rmv 6 B a i.
Proof. unfold rmv. rewrite <- rsum_plus. apply rsum_ext. intros. ring. Qed.
Lemma rmv_mext A B a i : (forall j, (j < 6)%nat -> A i j = B i j) -> rmv 6 A a i = rmv 6 B a i.
Proof. intros H. apply rsum_ext. intros j Hj. rewrite H by exact Hj. reflexivity. Qed.
Lemma rmv_mm A B a i : rmv 6 (mm A B) a i = rmv 6 A (rmv 6 B a) i.
Proof.
  unfold rmv, mm. rewrite (rsum_ext _ _ (fun j => rsum 6 (fun k => A i k * (B k j * a j)))).
  - rewrite rsum_swap. apply rsum_ext. intros k _. rewrite <- rsum_scal. reflexivity.
  - intros j _. rewrite <- rsum_scal_r. apply rsum_ext. intros. ring.
Qed.
Lemma row_col A k a : sym6 A -> (k < 6)%nat -> rdot 6 (fun i => A i k) a = rmv 6 A a k.
Proof. intros S Hk. apply rsum_ext. intros i Hi. rewrite (S i k Hi Hk). reflexivity. Qed.
Lemma dot_mv_sym A u w : sym6 A -> rdot 6 u (rmv 6 A w) = rdot 6 w (rmv 6 A u).
Proof.
  intros S. unfold rdot, rmv.
  rewrite (rsum_ext _ _ (fun i => rsum 6 (fun j => u i * (A i j * w j)))) by (intros; rewrite rsum_scal; reflexivity).
  rewrite rsum_swap. apply rsum_ext. intros j Hj. rewrite <- rsum_scal. apply rsum_ext. intros i Hi.
  rewrite (S i j Hi Hj). ring.
Qed.
Lemma dot_tr X u w : rdot 6 u (rmv 6 (trans X) w) = rdot 6 (rmv 6 X u) w.
Proof.
  unfold rdot, rmv, trans.
  rewrite (rsum_ext _ _ (fun i => rsum 6 (fun j => X j i * u i * w j))).
  - rewrite rsum_swap. apply rsum_ext. intros j Hj. rewrite rsum_scal_r. reflexivity.
  - intros i _. rewrite <- rsum_scal. apply rsum_ext. intros. ring.
Qed.
Lemma rdot_minus_unit k a x w : (k < 6)%nat -> rdot 6 (fun j => a j - if (j =? k)%nat then x else 0) w = rdot 6 a w - x * w k.
Proof.
  intros Hk. unfold rdot. rewrite (rsum_ext _ _ (fun j => a j * w j - (if (j =? k)%nat then x * w j else 0))).
  - rewrite rsum_minus, (rsum_delta 6 k (fun j => x * w j) Hk). reflexivity.
  - intros j _. destruct (j =? k)%nat; ring.
Qed.
Lemma psd_diag M k : (k < 6)%nat -> psd6 M -> 0 <= M k k.
Proof.
  intros Hk P. specialize (P (runit k)). unfold rquad, rdot in P.
  rewrite (rsum_ext _ _ (fun i => if (i =? k)%nat then M i k else 0)) in P.
  - rewrite (rsum_delta 6 k (fun i => M i k) Hk) in P. exact P.
  - intros i _. rewrite rmv_unit by exact Hk. unfold runit. destruct (i =? k)%nat; ring.
Qed.
Lemma seen_psd k IA : (k < 6)%nat -> sym6 IA -> psd6 IA -> 0 < IA k k -> forall v, 0 <= rdot 6 v (seenThrough k IA v).
Proof.
  intros Hk S P D v. set (s := rmv 6 IA v k / IA k k). set (w := fun j => v j - if (j =? k)%nat then s else 0).
  assert (Z : rmv 6 IA w k = 0).
  { unfold w. rewrite (sum_minus_unit 6 k IA v s k Hk). unfold s. field. lra. }
  assert (E : rdot 6 v (seenThrough k IA v) = rquad 6 IA w w).
  { unfold rquad. change (seenThrough k IA v) with (rmv 6 IA w).
    transitivity (rdot 6 w (rmv 6 IA w) + s * rmv 6 IA w k); [|rewrite Z; ring].
    unfold w at 2. rewrite rdot_minus_unit by exact Hk. ring. }
  rewrite E. apply P.
Qed.

(** The bias terms only look at the first six entries, and the stored cross product matrix only matters in two. *)
Lemma vxIv_agree v w I i : agree v w -> vxIv v I i = vxIv w I i.
Proof. intros H. unfold vxIv. rewrite !(H 0%nat), !(H 1%nat), !(H 2%nat), !(H 3%nat), !(H 4%nat), !(H 5%nat) by lia. reflexivity. Qed.
Definition okV (V : mat) : Prop := V 2%nat 2%nat = 0 /\ V 5%nat 2%nat = 0.
Lemma okV_step v V : okV V -> okV (motionCross v V).
Proof. intros [A B]. split; [exact A|exact B]. Qed.
Lemma vcol v V i : okV V -> (i < 6)%nat -> motionCross v V i 2%nat = crossMotion v (runit 2) i.
Proof. intros [A B] Hi. idx i; ev; rewrite ?A, ?B; ring. Qed.
Lemma crossMotion_agree v w u i : agree v w -> (i < 6)%nat -> crossMotion v u i = crossMotion w u i.
Proof.
  intros H Hi. assert (H0 := H 0%nat ltac:(lia)). assert (H1 := H 1%nat ltac:(lia)). assert (H2 := H 2%nat ltac:(lia)).
  assert (H3 := H 3%nat ltac:(lia)). assert (H4 := H 4%nat ltac:(lia)). assert (H5 := H 5%nat ltac:(lia)).
  idx i; ev; rewrite ?H0, ?H1, ?H2, ?H3, ?H4, ?H5; reflexivity.
Qed.
Definition okIa (Ia : mat) : Prop := forall i, (i < 6)%nat -> Ia i 2%nat = 0 /\ Ia 2%nat i = 0.

Definition goodX (X : mat) : Prop := exists E r, rotation E /\ motionTransformBack E r X.
Definition physical (I : mat) : Prop := exists m c T, 0 < m /\ Body I m c T /\ sym3 T /\ psd6 I /\ 0 < T 2%nat 2%nat.
Definition goodLink (j : joint) : Prop := goodX (jX j) /\ physical (jI j).
Lemma physical_facts I : physical I -> sym6 I /\ psd6 I /\ 0 < I 2%nat 2%nat.
Proof.
  intros (m & c & T & Hm & B & S & P & H). pose proof (Body_entry _ _ _ _ B) as E.
  split; [|split; [exact P|]].
  - pose proof (S 1%nat 0%nat ltac:(lia) ltac:(lia)) as S1. pose proof (S 2%nat 0%nat ltac:(lia) ltac:(lia)) as S2.
    pose proof (S 2%nat 1%nat ltac:(lia) ltac:(lia)) as S3.
    intros i j Hi Hj. rewrite !E by assumption. idx i; idx j; ev; rewrite ?S1, ?S2, ?S3; ring.
  - rewrite E by lia. replace (inertia m c T 2%nat 2%nat) with (T 2%nat 2%nat) by (ev; ring). exact H.
Qed.

Lemma fdPass3_agree l : forall a b, agree a b -> fdPass3 a l = fdPass3 b l.
Proof.
  induction l as [|y l IH]; intros a b H; [reflexivity|]. cbn [fdPass3].
  assert (A : agree (fun i => rmv 6 (qX y) a i + qc y i) (fun i => rmv 6 (qX y) b i + qc y i)).
  { intros i Hi. rewrite (rmv_agree _ a b i H). reflexivity. }
  rewrite (rdot_agree (qU y) _ _ A). f_equal. apply IH. apply rset_agree; [exact A|].
  rewrite (A 2%nat) by lia. reflexivity.
Qed.

(** One joint of the second pass. *)
Lemma joint_step AI Ia1 X G : goodX X -> sym6 AI -> psd6 AI -> 0 < AI 2%nat 2%nat -> okIa Ia1 ->
  let U := fun i => AI i 2%nat in
  let Ia2 := compute_Ia_revolute AI U (U 2%nat) Ia1 in
  let IaB := ctransform_Ia_revolute Ia2 X G in
  okIa Ia2 /\ (forall w i, (i < 6)%nat -> rmv 6 Ia2 w i = rmv 6 AI w i - AI i 2%nat * (rmv 6 AI w 2%nat / AI 2%nat 2%nat)) /\
  (forall a i, (i < 6)%nat -> rmv 6 IaB a i = rmv 6 (trans X) (rmv 6 Ia2 (rmv 6 X a)) i) /\ sym6 IaB /\ psd6 IaB.
Proof.
  intros (E & r & RE & HX) S P D OK U Ia2 IaB.
  assert (C : forall w, (forall i, (i < 6)%nat -> rmv 6 Ia2 w i = seenThrough 2 AI w i) /\ rmv 6 Ia2 w 2%nat = 0 /\ sym6 Ia2 /\ deadRow 2 Ia2).
  { intros w. apply (proj1 C90_compute_Ia AI U (U 2%nat) Ia1 w S).
    - intros; reflexivity.
    - reflexivity.
    - unfold U. lra.
    - exact OK. }
  destruct (C (fun _ => 0)) as (_ & _ & SY & DR).
  assert (T : forall a i, (i < 6)%nat -> rmv 6 IaB a i = rmv 6 (trans X) (rmv 6 Ia2 (rmv 6 X a)) i).
  { intros a i Hi. rewrite (rmv_mext IaB (mm (tr X) (mm Ia2 X))).
    - rewrite rmv_mm. apply rmv_agree. intros k Hk. apply rmv_mm.
    - intros j Hj. apply (C90_ctransform_revolute E r Ia2 X G RE HX SY DR i j Hi Hj). }
  split; [|split; [|split; [exact T|split]]].
  - intros i Hi. split; [apply DR; exact Hi|]. rewrite (SY 2%nat i) by lia. apply DR; exact Hi.
  - intros w i Hi. rewrite (proj1 (C w) i Hi). unfold seenThrough. rewrite (sum_minus_unit 6 2 AI w _ i) by lia. reflexivity.
  - intros i j Hi Hj. unfold IaB. rewrite !(C90_ctransform_revolute E r Ia2 X G RE HX SY DR) by assumption.
    unfold mm, tr.
    rewrite (rsum_ext 6 (fun k => X k i * _) (fun k => rsum 6 (fun l => X k i * (Ia2 k l * X l j)))) by (intros; rewrite rsum_scal; reflexivity).
    rewrite (rsum_ext 6 (fun k => X k j * _) (fun k => rsum 6 (fun l => X k j * (Ia2 k l * X l i)))) by (intros; rewrite rsum_scal; reflexivity).
    rewrite rsum_swap. apply rsum_ext. intros k Hk. apply rsum_ext. intros l Hl. rewrite (SY l k Hl Hk). ring.
  - intros v. unfold rquad. rewrite (rdot_agree v _ (rmv 6 (trans X) (rmv 6 Ia2 (rmv 6 X v)))) by (intros i Hi; apply T; exact Hi).
    rewrite dot_tr.
    rewrite (rdot_agree _ _ (seenThrough 2 AI (rmv 6 X v))) by (intros i Hi; apply (proj1 (C _)); exact Hi).
    apply seen_psd; try assumption; lia.
Qed.

Lemma zero_mat_psd : sym6 (fun _ _ => 0) /\ psd6 (fun _ _ => 0).
Proof.
  split; [intros i j _ _; reflexivity|]. intros v. right. unfold rquad, rdot, rmv.
  rewrite (rsum_ext _ _ (fun _ => 0)); [rewrite RVec.rsum_zero; reflexivity|].
  intros i _. rewrite (rsum_ext _ _ (fun _ => 0)); [rewrite RVec.rsum_zero; ring|]. intros; ring.
Qed.

Definition pairUp (js : list joint) (x : list R) : list (joint * R) := combine js x.

(** Forward and inverse dynamics of a subtree. *)
Lemma chain_iff js : List.Forall goodLink js -> forall taus v V Ia G, length taus = length js -> okV V -> okIa Ia ->
  let '(l1, V1) := fdPass1 v V (combine js taus) in
  let '(l2, (A, p), Ia1) := fdPass2 l1 Ia G in
  okV V1 /\ okIa Ia1 /\ sym6 A /\ psd6 A /\
  forall a qdds v' V', agree v v' -> okV V' -> length qdds = length js ->
  let '(t, f, V2) := idPass v' a V' (combine js qdds) in
  okV V2 /\ (t = taus <-> qdds = fdPass3 a l2) /\ (t = taus -> forall i, (i < 6)%nat -> f i = rmv 6 A a i + p i).
Proof.
  induction js as [|j js IH]; intros HG taus v V Ia G HL HV HIa.
  - destruct taus; [|discriminate]. cbn [combine fdPass1 fdPass2]. destruct zero_mat_psd as [Z1 Z2].
    split; [exact HV|split; [exact HIa|split; [exact Z1|split; [exact Z2|]]]].
    intros a qdds v' V' _ HV' HL'. destruct qdds; [|discriminate]. cbn [combine idPass fdPass3].
    split; [exact HV'|split; [tauto|]]. intros _ i Hi. unfold rmv. rewrite (rsum_ext _ _ (fun _ => 0)); [rewrite RVec.rsum_zero; ring|]. intros; ring.
  - destruct taus as [|tau taus]; [discriminate|]. cbn [combine fdPass1].
    set (v1 := rset (rmv 6 (jX j) v) 2 (rmv 6 (jX j) v 2%nat + jqd j)). set (V1 := motionCross v1 V).
    pose proof (okV_step v1 V HV : okV V1) as HV1.
    inversion HG as [|? ? Hj HG']; subst. destruct Hj as [HX HP].
    specialize (IH HG' taus v1 V1 Ia G ltac:(simpl in HL; lia) HV1 HIa).
    destruct (fdPass1 v1 V1 (combine js taus)) as [l1 V2].
    cbn [fdPass2 pX pI ptau pc pp].
    destruct (fdPass2 l1 Ia G) as [[l2 [A p]] Ia1].
    destruct IH as (HV2 & HIa1 & SA & PA & IH).
    destruct (physical_facts _ HP) as (SI & PI & DI).
    set (AI := fun i k => jI j i k + A i k).
    assert (SAI : sym6 AI) by (intros i k Hi Hk; unfold AI; rewrite (SI i k Hi Hk), (SA i k Hi Hk); reflexivity).
    assert (PAI : psd6 AI).
    { intros w. unfold rquad. rewrite (rdot_agree w _ (fun i => rmv 6 (jI j) w i + rmv 6 A w i)) by (intros i Hi; apply rmv_madd).
      unfold rdot. rewrite (rsum_ext _ _ (fun i => w i * rmv 6 (jI j) w i + w i * rmv 6 A w i)) by (intros; ring).
      rewrite rsum_plus. pose proof (PI w). pose proof (PA w). unfold rquad, rdot in *. lra. }
    assert (DAI : 0 < AI 2%nat 2%nat) by (unfold AI; pose proof (psd_diag A 2 ltac:(lia) PA); lra).
    pose proof (joint_step AI Ia1 (jX j) G HX SAI PAI DAI HIa1) as JS. cbv zeta in JS.
    set (Ia2 := compute_Ia_revolute AI (fun i => AI i 2%nat) (AI 2%nat 2%nat) Ia1) in *.
    destruct JS as (HIa2 & RI & RB & SB & PB).
    match goal with |- context [compute_Ia_revolute ?a ?b ?c Ia1] => change (compute_Ia_revolute a b c Ia1) with Ia2 end.
    set (c := fun i => V1 i 2%nat * jqd j).
    set (pt := fun i => - jf j i + vxIv v1 (jI j) i + p i).
    set (u := tau - pt 2%nat).
    split; [exact HV2|split; [exact HIa2|split; [exact SB|split; [exact PB|]]]].
    intros a qdds v' V' Hv HV' HL'. destruct qdds as [|qdd qdds]; [discriminate|]. cbn [combine idPass].
    set (v1' := rset (rmv 6 (jX j) v') 2 (rmv 6 (jX j) v' 2%nat + jqd j)). set (V1' := motionCross v1' V').
    pose proof (okV_step v1' V' HV' : okV V1') as HV1'.
    assert (Hv1 : agree v1 v1').
    { apply rset_agree; [intros i Hi; apply rmv_agree; exact Hv|]. rewrite (rmv_agree _ v v' _ Hv). reflexivity. }
    set (a0 := fun i => rmv 6 (jX j) a i + c i).
    set (a0' := fun i => rmv 6 (jX j) a i + V1' i 2%nat * jqd j).
    assert (Ha0 : agree a0' a0).
    { intros i Hi. unfold a0, a0', c, V1, V1'. rewrite !vcol by assumption. rewrite (crossMotion_agree _ _ _ i Hv1 Hi). reflexivity. }
    set (an := rset a0' 2 (a0' 2%nat + qdd)).
    change (rset a0' 2 (rmv 6 (jX j) a 2%nat + V1' 2%nat 2%nat * jqd j + qdd)) with an.
    specialize (IH an qdds v1' V1' Hv1 HV1' ltac:(simpl in HL'; lia)).
    destruct (idPass v1' an V1' (combine js qdds)) as [[t f] V2'].
    destruct IH as (HV2' & IFF & FO).
    split; [exact HV2'|].
    set (fi := fun i => rmv 6 (jI j) an i + vxIv v1' (jI j) i - jf j i + f i).
    assert (F : t = taus -> forall i, (i < 6)%nat -> fi i = rmv 6 AI a0 i + AI i 2%nat * qdd + pt i).
    { intros Ht i Hi. unfold fi. rewrite (FO Ht i Hi). unfold an. rewrite !rmv_rset by lia.
      rewrite (rmv_agree (jI j) a0' a0 i Ha0), (rmv_agree A a0' a0 i Ha0). rewrite <- (vxIv_agree _ _ _ i Hv1).
      unfold AI. rewrite rmv_madd. unfold pt. ring. }
    assert (Q : t = taus -> (fi 2%nat = tau <-> qdd = (u - rdot 6 (fun i => AI i 2%nat) a0) / AI 2%nat 2%nat)).
    { intros Ht. rewrite (F Ht 2%nat) by lia. rewrite row_col by (assumption || lia). unfold u. split; intros K.
      - rewrite <- K. field. lra.
      - rewrite K. field. lra. }
    assert (AN : forall q, agree an (rset a0 2 (a0 2%nat + q)) \/ q <> qdd).
    { intros q. destruct (Req_dec q qdd) as [->|N]; [left|right; exact N]. unfold an. apply rset_agree; [exact Ha0|]. rewrite (Ha0 2%nat) by lia. reflexivity. }
    match goal with |- context [fdPass3 a ?L] => change L with (mk2 (jX j) c (fun i => AI i 2%nat) (AI 2%nat 2%nat) u :: l2) end.
    match goal with |- context [?x :: t = _] => change x with (fi 2%nat) end.
    cbn [fdPass3 qX qc qU qD qu]. change (fun i => rmv 6 (jX j) a i + c i) with a0.
    change (rmv 6 (jX j) a 2%nat + c 2%nat) with (a0 2%nat).
    split.
    + split.
      * intros K. assert (K1 : fi 2%nat = tau) by (exact (f_equal (hd 0) K)). assert (K2 : t = taus) by (exact (f_equal (@tl R) K)).
        apply (Q K2) in K1. apply (f_equal2 (@cons R)); [exact K1|].
        apply IFF in K2. rewrite K2. apply fdPass3_agree. rewrite <- K1.
        destruct (AN qdd) as [Y|Y]; [exact Y|elim Y; reflexivity].
      * intros K.
        assert (K1 : qdd = (u - rdot 6 (fun i => AI i 2%nat) a0) / AI 2%nat 2%nat) by (exact (f_equal (hd 0) K)).
        assert (K2 := f_equal (@tl R) K). cbn [tl] in K2. rewrite <- K1 in K2.
        assert (Ht : t = taus).
        { apply IFF. rewrite K2 at 1. apply fdPass3_agree. destruct (AN qdd) as [Y|Y]; [|elim Y; reflexivity].
          intros i Hi. symmetry. apply Y; exact Hi. }
        apply (f_equal2 (@cons R)); [apply (Q Ht); exact K1|exact Ht].
    + intros K i Hi. assert (K1 : fi 2%nat = tau) by (exact (f_equal (hd 0) K)). assert (K2 : t = taus) by (exact (f_equal (@tl R) K)).
      apply (Q K2) in K1. rewrite (RB a i Hi). rewrite <- rmv_plus. apply rmv_agree. intros k Hk.
      change (fi k = rmv 6 Ia2 (rmv 6 (jX j) a) k + (pt k + rmv 6 Ia2 c k + AI k 2%nat * u / AI 2%nat 2%nat)).
      rewrite (F K2 k Hk). rewrite K1. rewrite row_col by (assumption || lia).
      transitivity (rmv 6 Ia2 a0 k + (pt k + AI k 2%nat * u / AI 2%nat 2%nat)).
      * rewrite (RI a0 k Hk). field. lra.
      * unfold a0. rewrite rmv_plus. ring.
Qed.
