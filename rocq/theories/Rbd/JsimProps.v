(** C93: the joint space inertia matrix, its factor and its inverse. *)
From Coq Require Import Reals List Bool Arith Lia Lra.
From Verif Require Import Base.RVec Rbd.SpatialModel Rbd.SpatialProofs Rbd.SpatialProps Rbd.ArticulatedProps Rbd.InertiaProps
  Rbd.ChainModel Rbd.ChainProofs Rbd.ChainProps Rbd.PendulumModel Rbd.PendulumProps Rbd.JsimModel Rbd.JsimFactor Rbd.JsimProofs.
Import ListNotations.
Local Open Scope R_scope.

(** ** Specification *)
(** [XF] carries forces from a link to the one before and [X] motions the other way, for one rotation and displacement. *)
Definition matched (XF : mat) (j : joint) : Prop :=
  exists E r, rotation E /\ forceTransform E r XF /\ motionTransformBack E r (jX j).
(** Twice the kinetic energy of links moving with their joint velocities on a link that moves with [v]. *)
Fixpoint twiceKinetic (v : rvec) (js : list joint) : R :=
  match js with
  | [] => 0
  | j :: js' => let v' := fun i => rmv 6 (jX j) v i + aboutZ (jqd j) i in rquad 6 (jI j) v' v' + twiceKinetic v' js'
  end.
(** The states of a JSIM object: constructed, then updated any number of times. *)
Inductive jsReach : jsim -> Prop :=
| js_new Gs G : jsReach (newJsim Gs G)
| js_update I rest s : jsReach s -> goodBody I -> List.Forall (fun p => goodXF (fst p) /\ goodBody (snd p)) rest -> jsReach (update I rest s).

Lemma jsReach_zero s : jsReach s -> List.Forall fixedZero (jsMem s) /\ fixedZero (jsSpare s).
Proof.
  induction 1 as [Gs G|I rest s H [IH1 IH2] GI GR].
  - split; [|apply fixedZero_new]. cbn [newJsim jsMem]. induction Gs; constructor; [apply fixedZero_new|assumption].
  - unfold update. pose proof (sweep_ok (fun _ => 0) rest 0 [] I (jsMem s) (jsSpare s) (jsH s) GI GR IH1 IH2 eq_refl) as K.
    destruct (sweep 0 [] I rest (jsMem s) (jsSpare s) (jsH s)) as [[[Ic sp] mem] HH]. destruct K as (_ & K1 & K2 & _). split; assumption.
Qed.
Lemma matched_tr XF j : matched XF j -> forall i k, (i < 6)%nat -> (k < 6)%nat -> XF i k = jX j k i.
Proof.
  intros (E & r & _ & HF & HM) i k Hi Hk. rewrite (ft_entry _ _ _ HF), (mt_entry _ _ _ HM) by assumption. idx i; idx k; ev; ring.
Qed.
Lemma physical_good I : physical I -> goodBody I.
Proof. intros (m & c & T & Hm & B & S & _). exists m, c, T. split; [exact Hm|split; [exact B|exact S]]. Qed.

Definition sum2 (l1 l2 : list R) : list R := map (fun p => fst p + snd p) (combine l1 l2).

Lemma jf_cons v a j q l : jointForces v a ((j, q) :: l) =
  (let v' := fun i => rmv 6 (jX j) v i + aboutZ (jqd j) i in
   let a' := fun i => rmv 6 (jX j) a i + crossMotion v' (aboutZ (jqd j)) i + aboutZ q i in
   let '(taus, fnext) := jointForces v' a' l in
   let f := fun i => rmv 6 (jI j) a' i + crossForce v' (rmv 6 (jI j) v') i - jf j i + fnext i in
   (f 2%nat :: taus, rmv 6 (tr (jX j)) f)).
Proof. reflexivity. Qed.

(** ** Accelerations enter linearly. *)
Lemma forces_linear Q : forall js XFs, Forall2 matched XFs js -> forall j k v a b d d',
  agree a (fun i => b i + d i) -> agree d' (fun i => rmv 6 (jX j) d i + aboutZ (Q k) i) ->
  let A := jointForces v a (combine (j :: js) (map Q (seq k (S (length js))))) in
  let B := jointForces v b (combine (j :: js) (map (fun _ => 0) (seq k (S (length js))))) in
  let L := linF Q k d' (jI j) (combine XFs (map jI js)) in
  fst A = sum2 (fst B) (fst L) /\ agree (snd A) (fun i => snd B i + rmv 6 (tr (jX j)) (snd L) i).
Proof.
  induction js as [|j2 js IH]; intros XFs HM j k v a b d d' Ha Hd.
  - inversion HM; subst. cbn [length seq map combine jointForces linF fst snd].
    set (v1 := fun i => rmv 6 (jX j) v i + aboutZ (jqd j) i).
    set (a1 := fun i => rmv 6 (jX j) a i + crossMotion v1 (aboutZ (jqd j)) i + aboutZ (Q k) i).
    set (b1 := fun i => rmv 6 (jX j) b i + crossMotion v1 (aboutZ (jqd j)) i + aboutZ 0 i).
    assert (E : agree a1 (fun i => b1 i + d' i)).
    { intros i Hi. rewrite (Hd i Hi). unfold a1, b1. rewrite (rmv_agree (jX j) a _ i Ha), rmv_plus.
      replace (aboutZ 0 i) with 0 by (unfold aboutZ; destruct (i =? 2)%nat; reflexivity). ring. }
    assert (F : agree (fun i => rmv 6 (jI j) a1 i + crossForce v1 (rmv 6 (jI j) v1) i - jf j i + 0)
       (fun i => (rmv 6 (jI j) b1 i + crossForce v1 (rmv 6 (jI j) v1) i - jf j i + 0) + rmv 6 (jI j) d' i)).
    { intros i Hi. rewrite (rmv_agree (jI j) a1 _ i E), rmv_plus. ring. }
    split.
    + cbn [sum2 combine map fst snd]. unfold sum2. cbn [combine map fst snd]. f_equal. apply F; lia.
    + intros i Hi. rewrite <- rmv_plus. apply rmv_agree. exact F.
  - inversion HM as [|XF ? XFs' ? M1 M2]; subst. cbn [length seq map combine].
    specialize (IH XFs' M2 j2 (S k)). cbn [linF]. rewrite (jf_cons v a j (Q k)), (jf_cons v b j 0). cbv zeta.
    set (v1 := fun i => rmv 6 (jX j) v i + aboutZ (jqd j) i).
    set (a1 := fun i => rmv 6 (jX j) a i + crossMotion v1 (aboutZ (jqd j)) i + aboutZ (Q k) i).
    set (b1 := fun i => rmv 6 (jX j) b i + crossMotion v1 (aboutZ (jqd j)) i + aboutZ 0 i).
    assert (E : agree a1 (fun i => b1 i + d' i)).
    { intros i Hi. rewrite (Hd i Hi). unfold a1, b1. rewrite (rmv_agree (jX j) a _ i Ha), rmv_plus.
      replace (aboutZ 0 i) with 0 by (unfold aboutZ; destruct (i =? 2)%nat; reflexivity). ring. }
    specialize (IH v1 a1 b1 d' (fun i => rmv 6 (tr XF) d' i + aboutZ (Q (S k)) i) E).
    assert (TR : forall w i, (i < 6)%nat -> rmv 6 (tr XF) w i = rmv 6 (jX j2) w i).
    { intros w i Hi. apply rmv_mext. intros x Hx. apply (matched_tr XF j2 M1); assumption. }
    specialize (IH ltac:(intros i Hi; rewrite TR by exact Hi; reflexivity)).
    cbn [length seq map combine] in IH. cbv zeta in IH.
    match type of IH with fst ?A = sum2 (fst ?B) (fst ?L) /\ _ => destruct A as [tA fA]; destruct B as [tB fB]; destruct L as [tL fL] end.
    cbn [fst snd] in *. destruct IH as [-> IHf].
    assert (F : agree (fun i => rmv 6 (jI j) a1 i + crossForce v1 (rmv 6 (jI j) v1) i - jf j i + fA i)
       (fun i => (rmv 6 (jI j) b1 i + crossForce v1 (rmv 6 (jI j) v1) i - jf j i + fB i) + (rmv 6 (jI j) d' i + rmv 6 XF fL i))).
    { intros i Hi. rewrite (rmv_agree (jI j) a1 _ i E), rmv_plus, (IHf i Hi).
      rewrite (rmv_mext (tr (jX j2)) XF) by (intros x Hx; symmetry; apply (matched_tr XF j2 M1); assumption). ring. }
    split.
    + unfold sum2. cbn [combine map fst snd]. f_equal. apply F; lia.
    + intros i Hi. rewrite <- rmv_plus. apply rmv_agree. exact F.
Qed.

Lemma good_rest js XFs : Forall2 matched XFs js -> List.Forall (fun j => physical (jI j)) js ->
  List.Forall (fun p => goodXF (fst p) /\ goodBody (snd p)) (combine XFs (map jI js)).
Proof.
  induction 1 as [|XF j XFs js M H IH]; intros P; [constructor|]. inversion P; subst. cbn [map combine]. constructor; [|apply IH; assumption].
  cbn [fst snd]. split; [|apply physical_good; assumption]. destruct M as (E & r & HE & HF & _). exists E, r. split; assumption.
Qed.
Lemma matched_length XFs js : Forall2 matched XFs js -> length (combine XFs (map jI js)) = length js.
Proof. induction 1; cbn; [reflexivity|f_equal; assumption]. Qed.

(** ** The matrix an update leaves *)
Definition inertiaMatrix (s : jsim) (j : joint) (js : list joint) (XFs : list mat) : mat := jsH (update (jI j) (combine XFs (map jI js)) s).
Definition at_ (l : list R) (i : nat) : R := nth i l 0.

Lemma forces_length : forall js qs v a, length qs = length js -> length (fst (jointForces v a (combine js qs))) = length js.
Proof.
  induction js as [|j js IH]; intros qs v a HL; [reflexivity|]. destruct qs as [|q qs]; [discriminate|]. cbn [combine]. rewrite jf_cons. cbv zeta.
  match goal with |- context [jointForces ?x ?y (combine js qs)] => specialize (IH qs x y ltac:(cbn in HL; lia)); destruct (jointForces x y (combine js qs)) as [t f] end.
  cbn [fst length] in *. f_equal. exact IH.
Qed.
Lemma nth_map_seq (f : nat -> R) n i : (i < n)%nat -> nth i (map f (seq 0 n)) 0 = f i.
Proof. intros Hi. rewrite (nth_indep _ 0 (f 0%nat)) by (rewrite map_length, seq_length; exact Hi). rewrite map_nth, seq_nth by exact Hi. reflexivity. Qed.
Lemma nth_sum2 : forall a b i, length a = length b -> nth i (sum2 a b) 0 = nth i a 0 + nth i b 0.
Proof.
  unfold sum2. induction a as [|x a IH]; intros [|y b] i HL; try discriminate; [destruct i; cbn; ring|].
  destruct i as [|i]; cbn [combine map nth fst snd]; [reflexivity|]. apply IH. cbn in HL; lia.
Qed.
Section Mx.
Variables (s : jsim) (j : joint) (js : list joint) (XFs : list mat).
Hypothesis HR : jsReach s.
Hypothesis HP : List.Forall (fun j => physical (jI j)) (j :: js).
Hypothesis HM : Forall2 matched XFs js.
Let H := inertiaMatrix s j js XFs.
Let n := S (length js).

Lemma sweep_fact Q : (forall i k, (i < n)%nat -> (k < n)%nat -> H i k = H k i) /\
  fst (linF Q 0 (aboutZ (Q 0%nat)) (jI j) (combine XFs (map jI js))) = map (fun m => rsum n (fun k => H m k * Q k)) (seq 0 n).
Proof.
  destruct (jsReach_zero s HR) as [Z1 Z2]. inversion HP as [|? ? P1 P2]; subst.
  pose proof (sweep_ok Q (combine XFs (map jI js)) 0 [] (jI j) (jsMem s) (jsSpare s) (jsH s) (physical_good _ P1) (good_rest js XFs HM P2) Z1 Z2 eq_refl) as K.
  unfold H, inertiaMatrix, update. destruct (sweep 0 [] (jI j) (combine XFs (map jI js)) (jsMem s) (jsSpare s) (jsH s)) as [[[Ic sp] mem] HH].
  cbn [jsH]. destruct K as (_ & _ & _ & _ & K1 & _ & K2). rewrite (matched_length XFs js HM) in K1, K2. fold n in K1, K2. cbn [Nat.add acc] in K1, K2.
  split; [intros i k Hi Hk; apply K1; lia|exact K2].
Qed.
Lemma H_forces (Q : nat -> R) i : (i < n)%nat ->
  at_ (required (combine (j :: js) (map Q (seq 0 n)))) i = at_ (required (combine (j :: js) (map (fun _ => 0) (seq 0 n)))) i + rsum n (fun k => H i k * Q k).
Proof.
  intros Hi. destruct (sweep_fact Q) as [_ K]. unfold required.
  destruct (forces_linear Q js XFs HM j 0 (fun _ => 0) (fun i => if (i =? 5)%nat then 981 / 100 else 0) (fun i => if (i =? 5)%nat then 981 / 100 else 0)
     (fun _ => 0) (aboutZ (Q 0%nat))) as [F _].
  - intros x Hx. ring.
  - intros x Hx. replace (rmv 6 (jX j) (fun _ => 0) x) with 0 by (ev; ring). ring.
  - fold n in F. rewrite F, K. unfold at_.
    pose proof forces_length as LB.
    match goal with |- context [sum2 ?l1 ?l2] => set (B := l1); set (M := l2) end.
    assert (L1 : length B = n) by (unfold B; rewrite LB; [reflexivity|rewrite map_length, seq_length; reflexivity]).
    assert (L2 : length M = n) by (unfold M; rewrite map_length, seq_length; reflexivity).
    rewrite nth_sum2 by congruence. f_equal.
    unfold M. apply (nth_map_seq (fun m => rsum n (fun k => H m k * Q k)) n i Hi).
Qed.
End Mx.

(** ** Energy *)
Lemma linF_energy Q : forall js XFs, Forall2 matched XFs js -> forall k a I, 
  (forall m, (m < length js)%nat -> jqd (nth m js (mkJ (fun _ _ => 0) (fun _ _ => 0) 0 (fun _ => 0))) = Q (S k + m)%nat) ->
  let L := linF Q k a I (combine XFs (map jI js)) in
  rdot 6 (snd L) a + rsum (length js) (fun m => Q (S k + m)%nat * nth (S m) (fst L) 0) = rquad 6 I a a + twiceKinetic a js /\ nth 0 (fst L) 0 = snd L 2%nat.
Proof.
  induction js as [|j js IH]; intros XFs HM k a I HQ.
  - inversion HM; subst. cbn [map combine linF fst snd length rsum twiceKinetic nth]. split; [|reflexivity]. unfold rquad. rewrite rdot_comm. ring.
  - inversion HM as [|XF ? XFs' ? M1 M2]; subst. cbn [map combine linF].
    specialize (IH XFs' M2 (S k) (fun i => rmv 6 (tr XF) a i + aboutZ (Q (S k)) i) (jI j)).
    specialize (IH ltac:(intros m Hm; specialize (HQ (S m) ltac:(cbn [length]; lia)); cbn [nth] in HQ; rewrite HQ; f_equal; lia)). cbv zeta in IH.
    set (a' := fun i => rmv 6 (tr XF) a i + aboutZ (Q (S k)) i) in *.
    destruct (linF Q (S k) a' (jI j) (combine XFs' (map jI js))) as [t f]. cbn [fst snd] in *. destruct IH as [IH1 IH2].
    split; [|reflexivity]. cbn [length]. rewrite rsum_shift. cbn [nth]. rewrite Nat.add_0_r.
    assert (TK : twiceKinetic a (j :: js) = rquad 6 (jI j) a' a' + twiceKinetic a' js).
    { cbn [twiceKinetic]. assert (AG : agree (fun i => rmv 6 (jX j) a i + aboutZ (jqd j) i) a').
      { intros i Hi. unfold a'. specialize (HQ 0%nat ltac:(cbn [length]; lia)). cbn [nth] in HQ. rewrite Nat.add_0_r in HQ. rewrite HQ. f_equal.
        apply rmv_mext. intros x Hx. symmetry. apply (matched_tr XF j M1); assumption. }
      f_equal; [apply rquad_ext; intros i Hi; apply AG; exact Hi|].
      clear -AG. revert AG. set (u := fun i => rmv 6 (jX j) a i + aboutZ (jqd j) i). clearbody u. clearbody a'. revert u a'.
      induction js as [|x js IH]; intros u w AG; [reflexivity|]. cbn [twiceKinetic].
      assert (AG' : agree (fun i => rmv 6 (jX x) u i + aboutZ (jqd x) i) (fun i => rmv 6 (jX x) w i + aboutZ (jqd x) i)) by (intros i Hi; rewrite (rmv_agree (jX x) u w i AG); reflexivity).
      f_equal; [apply rquad_ext; intros i Hi; apply AG'; exact Hi|apply IH; exact AG']. }
    rewrite TK, <- IH1.
    rewrite (rsum_ext (length js) (fun i => Q (S k + S i)%nat * nth (S i) t 0) (fun m => Q (S (S k) + m)%nat * nth (S m) t 0)) by (intros; do 2 f_equal; lia).
    rewrite IH2. unfold a'.
    change (rdot 6 f (fun i => rmv 6 (tr XF) a i + aboutZ (Q (S k)) i)) with (rdot 6 f (radd (rmv 6 (tr XF) a) (aboutZ (Q (S k))))).
    rewrite rdot_add_r, rdot_aboutZ, rdot_tr.
    rewrite (rdot_comm 6 (fun i => rmv 6 I a i + rmv 6 XF f i) a).
    change (rdot 6 a (fun i => rmv 6 I a i + rmv 6 XF f i)) with (rdot 6 a (radd (rmv 6 I a) (rmv 6 XF f))). rewrite rdot_add_r.
    unfold rquad. rewrite (rdot_comm 6 a (rmv 6 XF f)). ring.
Qed.
Lemma kinetic_nonneg js : List.Forall (fun j => physical (jI j)) js -> forall v, 0 <= twiceKinetic v js.
Proof.
  induction 1 as [|j js (m & c & T & _ & _ & _ & P & _) H IH]; intros v; [cbn; lra|]. cbn [twiceKinetic]. apply Rplus_le_le_0_compat; [apply P|apply IH].
Qed.
Lemma kinetic_ext js : forall u w, agree u w -> twiceKinetic u js = twiceKinetic w js.
Proof.
  induction js as [|x js IH]; intros u w AG; [reflexivity|]. cbn [twiceKinetic].
  assert (AG' : agree (fun i => rmv 6 (jX x) u i + aboutZ (jqd x) i) (fun i => rmv 6 (jX x) w i + aboutZ (jqd x) i)) by (intros i Hi; rewrite (rmv_agree (jX x) u w i AG); reflexivity).
  f_equal; [apply rquad_ext; intros i Hi; apply AG'; exact Hi|apply IH; exact AG'].
Qed.
Lemma kinetic_pos js : List.Forall (fun j => physical (jI j)) js -> (exists x, In x js /\ jqd x <> 0) -> 0 < twiceKinetic (fun _ => 0) js.
Proof.
  induction 1 as [|j js PJ H IH]; intros (x & Hx & Nx); [destruct Hx|]. cbn [twiceKinetic].
  set (v' := fun i => rmv 6 (jX j) (fun _ => 0) i + aboutZ (jqd j) i).
  assert (AG : agree v' (aboutZ (jqd j))) by (intros i Hi; unfold v'; replace (rmv 6 (jX j) (fun _ => 0) i) with 0 by (ev; ring); ring).
  assert (E : rquad 6 (jI j) v' v' = jI j 2%nat 2%nat * (jqd j * jqd j)).
  { rewrite (rquad_ext 6 (jI j) v' (aboutZ (jqd j)) v' (aboutZ (jqd j))) by (intros i Hi; apply AG; exact Hi). ev. ring. }
  destruct (physical_facts _ PJ) as (_ & _ & DI).
  destruct (Req_dec (jqd j) 0) as [Z|N].
  - destruct Hx as [->|Hx]; [contradiction|]. rewrite (kinetic_ext js v' (fun _ => 0)).
    + rewrite E, Z. assert (K : 0 < twiceKinetic (fun _ => 0) js) by (apply IH; exists x; split; assumption). lra.
    + intros i Hi. rewrite (AG i Hi), Z. unfold aboutZ. destruct (i =? 2)%nat; reflexivity.
  - rewrite E. pose proof (kinetic_nonneg js H v'). assert (0 < jqd j * jqd j) by (apply Rsqr_pos_lt in N; exact N).
    assert (0 < jI j 2%nat 2%nat * (jqd j * jqd j)) by (apply Rmult_lt_0_compat; assumption). lra.
Qed.

(** ** Properties *)
Definition moving (js : list joint) (qd : nat -> R) : list joint :=
  map (fun p => mkJ (jX (fst p)) (jI (fst p)) (qd (snd p)) (jf (fst p))) (combine js (seq 0 (length js))).

Lemma moving_cons j js qd : moving (j :: js) qd = mkJ (jX j) (jI j) (qd 0%nat) (jf j) :: moving js (fun i => qd (S i)).
Proof.
  unfold moving. cbn [length seq combine map fst snd]. f_equal. rewrite <- seq_shift.
  generalize (seq 0 (length js)). induction js as [|x js IH]; intros l; [reflexivity|]. destruct l as [|a l]; [reflexivity|]. cbn [map combine fst snd]. f_equal. apply IH.
Qed.
Lemma moving_length js qd : length (moving js qd) = length js.
Proof. unfold moving. rewrite map_length, combine_length, seq_length. lia. Qed.
Lemma moving_I js : forall qd, map jI (moving js qd) = map jI js.
Proof. induction js as [|j js IH]; intros qd; [reflexivity|]. rewrite moving_cons. cbn [map jI]. f_equal. apply IH. Qed.
Lemma moving_matched XFs js : Forall2 matched XFs js -> forall qd, Forall2 matched XFs (moving js qd).
Proof. induction 1 as [|XF j XFs js M H IH]; intros qd; [constructor|]. rewrite moving_cons. constructor; [exact M|apply IH]. Qed.
Lemma moving_qd js : forall qd m, (m < length js)%nat -> jqd (nth m (moving js qd) (mkJ (fun _ _ => 0) (fun _ _ => 0) 0 (fun _ => 0))) = qd m.
Proof.
  induction js as [|j js IH]; intros qd m Hm; [cbn in Hm; lia|]. rewrite moving_cons. destruct m as [|m]; [reflexivity|]. cbn [nth]. rewrite IH by (cbn in Hm; lia). reflexivity.
Qed.
Lemma moving_physical js : List.Forall (fun j => physical (jI j)) js -> forall qd, List.Forall (fun j => physical (jI j)) (moving js qd).
Proof. induction 1 as [|j js P H IH]; intros qd; [constructor|]. rewrite moving_cons. constructor; [exact P|apply IH]. Qed.
Lemma moving_pos js qd : List.Forall (fun j => physical (jI j)) js -> (exists i, (i < length js)%nat /\ qd i <> 0) -> 0 < twiceKinetic (fun _ => 0) (moving js qd).
Proof.
  intros HP (i & Hi & Ni). apply kinetic_pos; [apply moving_physical; exact HP|].
  exists (nth i (moving js qd) (mkJ (fun _ _ => 0) (fun _ _ => 0) 0 (fun _ => 0))). split; [apply nth_In; rewrite moving_length; exact Hi|].
  rewrite moving_qd by exact Hi. exact Ni.
Qed.
Lemma quad_energy s j js XFs : jsReach s -> List.Forall (fun j => physical (jI j)) (j :: js) -> Forall2 matched XFs js -> forall qd,
  rquad (S (length js)) (inertiaMatrix s j js XFs) qd qd = twiceKinetic (fun _ => 0) (moving (j :: js) qd).
Proof.
  intros HR HP HM qd. destruct (sweep_fact s j js XFs HR HP HM qd) as [_ K].
  set (H := inertiaMatrix s j js XFs) in *. set (n := S (length js)) in *.
  rewrite moving_cons. cbn [twiceKinetic jX jI jqd].
  set (v' := fun i => rmv 6 (jX j) (fun _ => 0) i + aboutZ (qd 0%nat) i).
  assert (AG : agree v' (aboutZ (qd 0%nat))) by (intros i Hi; unfold v'; replace (rmv 6 (jX j) (fun _ => 0) i) with 0 by (ev; ring); ring).
  rewrite (rquad_ext 6 (jI j) v' (aboutZ (qd 0%nat)) v' (aboutZ (qd 0%nat))) by (intros i Hi; apply AG; exact Hi).
  rewrite (kinetic_ext _ _ _ AG).
  destruct (linF_energy qd (moving js (fun i => qd (S i))) XFs (moving_matched XFs js HM _) 0 (aboutZ (qd 0%nat)) (jI j)) as [E E0].
  - intros m Hm. rewrite moving_length in Hm. rewrite moving_qd by exact Hm. reflexivity.
  - cbv zeta in E, E0. rewrite moving_I, moving_length in *. rewrite K in E, E0. rewrite <- E.
    match goal with |- context [snd ?L] => set (F := snd L) in * end. rewrite rdot_comm.
    assert (D : rdot 6 (aboutZ (qd 0%nat)) F = F 2%nat * qd 0%nat) by (rewrite rdot_comm; apply rdot_aboutZ). rewrite D, <- E0.
    unfold rquad, rdot, n. rewrite rsum_shift. f_equal.
    + cbn [seq map nth]. unfold rmv. ring.
    + apply rsum_ext. intros m Hm. cbn [Nat.add]. f_equal. fold n.
      rewrite nth_map_seq by (unfold n; lia). reflexivity.
Qed.

Theorem C93_inertia_matrix : forall s j js XFs, jsReach s -> List.Forall (fun j => physical (jI j)) (j :: js) -> Forall2 matched XFs js ->
  let n := S (length js) in
  let H := inertiaMatrix s j js XFs in
  (forall qdds, length qdds = n -> forall i, (i < n)%nat ->
     at_ (required (combine (j :: js) qdds)) i = at_ (required (combine (j :: js) (repeat 0 n))) i + rsum n (fun k => H i k * at_ qdds k)) /\
  (forall i k, (i < n)%nat -> (k < n)%nat -> H i k = H k i) /\
  (forall qd, rquad n H qd qd = twiceKinetic (fun _ => 0) (moving (j :: js) qd)) /\
  (forall qd, (exists i, (i < n)%nat /\ qd i <> 0) -> 0 < rquad n H qd qd).
Proof.
  intros s j js XFs HR HP HM n H. split; [|split; [|split]].
  - intros qdds HL i Hi. pose proof (H_forces s j js XFs HR HP HM (at_ qdds) i Hi) as K. fold n H in K.
    replace (map (at_ qdds) (seq 0 n)) with qdds in K.
    + replace (map (fun _ => 0) (seq 0 n)) with (repeat 0 n) in K; [exact K|]. clear. generalize 0%nat. induction n as [|m IH]; intros a; [reflexivity|]. cbn. f_equal. apply IH.
    + rewrite <- HL. clear. unfold at_. induction qdds as [|q l IH]; [reflexivity|]. cbn [length seq map nth]. f_equal. rewrite <- seq_shift, map_map. exact IH.
  - exact (proj1 (sweep_fact s j js XFs HR HP HM (fun _ => 0))).
  - intros qd. apply (quad_energy s j js XFs HR HP HM qd).
  - intros qd Hqd. unfold H, n. rewrite (quad_energy s j js XFs HR HP HM qd). apply moving_pos; assumption.
Qed.

(** The factor and the inverse, whatever L, Linv and inverse held before. *)
Theorem C93_factor_and_inverse : forall s j js XFs, jsReach s -> List.Forall (fun j => physical (jI j)) (j :: js) -> Forall2 matched XFs js ->
  let n := S (length js) in
  let H := inertiaMatrix s j js XFs in
  let L := computeL n H in
  let inverse := computeInverse L in
  (forall i k, (i < k)%nat -> L i k = 0) /\ (forall i, (i < n)%nat -> 0 < L i i) /\
  (forall i k, (i < n)%nat -> (k < n)%nat -> rsum n (fun a => L a i * L a k) = H i k) /\
  (forall i k, (i < n)%nat -> (k < n)%nat -> rsum n (fun a => inverse i a * H a k) = if (i =? k)%nat then 1 else 0) /\
  (forall i k, (i < n)%nat -> (k < n)%nat -> rsum n (fun a => H i a * inverse a k) = if (i =? k)%nat then 1 else 0).
Proof.
  intros s j js XFs HR HP HM n H L inverse. destruct (C93_inertia_matrix s j js XFs HR HP HM) as (_ & S & _ & P).
  destruct (factor_both n H S P) as [F1 F2].
  split; [apply factor_upper|split; [exact F1|split; [exact F2|split; [apply inverse_left; assumption|apply inverse_right; assumption]]]].
Qed.

(** The forward dynamics is the inverse applied to the joint forces beyond those of rest. *)
Theorem C93_forward_dynamics : forall s st G j js XFs tau taus, jsReach s -> fdReach st -> List.Forall goodLink (j :: js) -> Forall2 matched XFs js ->
  length taus = length js ->
  let n := S (length js) in
  let inverse := computeInverse (computeL n (inertiaMatrix s j js XFs)) in
  forall i, (i < n)%nat -> at_ (fst (fd st G j tau (combine js taus))) i =
    rsum n (fun k => inverse i k * (at_ (tau :: taus) k - at_ (required (combine (j :: js) (repeat 0 n))) k)).
Proof.
  intros s st G j js XFs tau taus HR HF HG HM HL n inverse i Hi.
  assert (HP : List.Forall (fun j => physical (jI j)) (j :: js)) by (revert HG; apply List.Forall_impl; intros x [_ K]; exact K).
  destruct (C93_inertia_matrix s j js XFs HR HP HM) as (K & _). fold n in K.
  destruct (C93_factor_and_inverse s j js XFs HR HP HM) as (_ & _ & _ & INV & _). fold n inverse in INV.
  destruct (C91_each_undoes_the_other st newId G j js HF id_new HG) as [U _].
  destruct (U tau taus HL) as (qdd & qdds & E1 & E2 & _). rewrite E1.
  assert (E3 : required (combine (j :: js) (qdd :: qdds)) = tau :: taus).
  { apply (C91_forward_dynamics st G j tau js taus (qdd :: qdds) HF HG HL); [cbn; lia|exact E1]. }
  rewrite (rsum_ext n _ (fun k => rsum n (fun m => inverse i k * inertiaMatrix s j js XFs k m * at_ (qdd :: qdds) m))).
  - rewrite rsum_swap. rewrite (rsum_ext n _ (fun m => if (m =? i)%nat then at_ (qdd :: qdds) m else 0)).
    + rewrite rsum_delta by exact Hi. reflexivity.
    + intros m Hm. rewrite rsum_scal_r, INV by assumption. rewrite (Nat.eqb_sym i m). destruct (m =? i)%nat; ring.
  - intros k Hk. rewrite <- E3, (K (qdd :: qdds)) by (cbn [length]; unfold n in *; lia).
    rewrite (rsum_ext n (fun m => inverse i k * inertiaMatrix s j js XFs k m * at_ (qdd :: qdds) m) (fun m => inverse i k * (inertiaMatrix s j js XFs k m * at_ (qdd :: qdds) m))) by (intros; ring).
    rewrite rsum_scal. f_equal. ring.
Qed.

(** ** The double pendulum *)
Lemma matched_dip XF M G q w : live newXF2 updXF2 XF -> live newX2 updX2 M -> matched (updXF2 q XF) (dip2 M G q w).
Proof.
  intros H1 H2. pose proof (trig1 q) as T.
  exists (rows3 (cos q) (- sin q) 0 (sin q) (cos q) 0 0 0 1), (vec3 (- cos q) (sin q) 0). split; [split|split].
  - intros i k Hi Hk. idx i; idx k; ev; lra.
  - ev. lra.
  - intros f i Hi. rewrite (rmv_same _ _ f f i (live_XF2 XF H1 q) (fun _ _ => eq_refl) Hi). idx i; ev; try ring.
    replace (f 5%nat) with (f 5%nat * (sin q * sin q + cos q * cos q)) at 1 by (rewrite T; ring). ring.
  - intros v i Hi. cbn [dip2 jX]. rewrite (rmv_same _ _ v v i (live_X2 M H2 q) (fun _ _ => eq_refl) Hi). idx i; ev; try ring.
    replace (v 1%nat) with (v 1%nat * (sin q * sin q + cos q * cos q)) at 1 by (rewrite T; ring). ring.
Qed.
(** The matrix of the double pendulum is the mass matrix of its Lagrangian (C92), whatever its objects did before. *)
Theorem C93_double_pendulum : forall s XF M M' G G' q1 q2 w1 w2, jsReach s -> live newXF2 updXF2 XF -> live newX1 updX1 M -> live newX2 updX2 M' ->
  let H := inertiaMatrix s (dip1 M G q1 w1) [dip2 M' G' q2 w2] [updXF2 q2 XF] in
  H 0%nat 0%nat = 15015 / 10000 + cos q2 /\ H 0%nat 1%nat = 251 / 1000 + cos q2 / 2 /\
  H 1%nat 0%nat = 251 / 1000 + cos q2 / 2 /\ H 1%nat 1%nat = 251 / 1000.
Proof.
  intros s XF M M' G G' q1 q2 w1 w2 HR L0 L1 L2 H.
  assert (HP : List.Forall (fun j => physical (jI j)) [dip1 M G q1 w1; dip2 M' G' q2 w2]).
  { destruct (C92_hypotheses_of_C91 M M' G G' q1 q2 w1 w2 L1 L2) as [_ K]. revert K. apply List.Forall_impl. intros x [_ K]; exact K. }
  destruct (C93_inertia_matrix s (dip1 M G q1 w1) [dip2 M' G' q2 w2] [updXF2 q2 XF] HR HP) as (K & _).
  { constructor; [apply matched_dip; assumption|constructor]. }
  cbn [length] in K. fold H in K.
  pose proof (K [1; 0] eq_refl 0%nat ltac:(lia)) as K1. pose proof (K [1; 0] eq_refl 1%nat ltac:(lia)) as K2.
  pose proof (K [0; 1] eq_refl 0%nat ltac:(lia)) as K3. pose proof (K [0; 1] eq_refl 1%nat ltac:(lia)) as K4.
  change (repeat 0 2) with [0; 0] in *. rewrite !dip_closed in K1, K2, K3, K4 by assumption.
  unfold at_ in *. cbn [rsum nth] in *. repeat split; lra.
Qed.
Example jsim_case : exists s s' st XF M M' G q1 q2,
  jsReach s /\ s' = update (tensorLink1 G) [(updXF2 q2 XF, tensorLink2 G)] s /\ jsReach s' /\ fdReach st /\
  List.Forall goodLink [dip1 M G q1 3; dip2 M' G q2 4] /\ Forall2 matched [updXF2 q2 XF] [dip2 M' G q2 4] /\
  inertiaMatrix s' (dip1 M G q1 3) [dip2 M' G q2 4] [updXF2 q2 XF] 0%nat 0%nat <> inertiaMatrix s' (dip1 M G q1 3) [dip2 M' G q2 4] [updXF2 q2 XF] 1%nat 1%nat.
Proof.
  set (G := fun i j => INR (i + j)). set (XF := updXF2 1 (newXF2 G)).
  assert (L0 : live newXF2 updXF2 XF) by (apply live_upd, live_new).
  assert (L1 : live newX1 updX1 (updX1 3 (newX1 (fun i j => INR i)))) by (apply live_upd, live_new).
  assert (L2 : live newX2 updX2 (updX2 4 (newX2 (fun i j => 7)))) by (apply live_upd, live_new).
  set (s := newJsim [G] G). set (s' := update (tensorLink1 G) [(updXF2 0 XF, tensorLink2 G)] s).
  exists s, s', newFd, XF, (updX1 3 (newX1 (fun i j => INR i))), (updX2 4 (newX2 (fun i j => 7))), G, 2, 0.
  destruct (C92_hypotheses_of_C91 _ _ G G 2 0 3 4 L1 L2) as [_ K].
  assert (MM := matched_dip XF _ G 0 4 L0 L2).
  assert (R' : jsReach s').
  { apply js_update; [apply js_new|apply physical_good, physical1|]. constructor; [|constructor]. cbn [fst snd]. split; [|apply physical_good, physical2].
    destruct MM as (E & r & ME & MF & _). exists E, r. split; assumption. }
  split; [apply js_new|split; [reflexivity|split; [exact R'|split; [apply fd_new|split; [exact K|split; [constructor; [exact MM|constructor]|]]]]]].
  destruct (C93_double_pendulum s' XF _ _ G G 2 0 3 4 R' L0 L1 L2) as (E1 & _ & _ & E4). rewrite E1, E4, cos_0. lra.
Qed.

Print Assumptions C93_inertia_matrix.
Print Assumptions C93_factor_and_inverse.
Print Assumptions C93_forward_dynamics.
Print Assumptions C93_double_pendulum.
