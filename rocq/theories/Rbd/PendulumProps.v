(** C92: the generated pendulums obey the equations of motion of pendulums. *)
From Coq Require Import Reals List Bool Arith Lia Lra Psatz FunctionalExtensionality.
From Coquelicot Require Import Coquelicot.
From Verif Require Import Base.RVec Rbd.SpatialModel Rbd.SpatialProofs Rbd.SpatialProps Rbd.ArticulatedProps Rbd.InertiaProps
  Rbd.ChainModel Rbd.ChainProofs Rbd.ChainProps Rbd.PendulumModel.
Import ListNotations.
Local Open Scope R_scope.

(** ** Transform objects: constructed in memory with any contents, updated any number of times. *)
Inductive live (mk : mat -> mat) (upd : R -> mat -> mat) : mat -> Prop :=
| live_new G : live mk upd (mk G)
| live_upd q M : live mk upd M -> live mk upd (upd q M).

Definition X1 (q : R) : mat := fun i j =>
  nth j (nth i [ [0; - sin q; cos q; 0; 0; 0]; [0; - cos q; - sin q; 0; 0; 0]; [1; 0; 0; 0; 0; 0];
                 [0; 0; 0; 0; - sin q; cos q]; [0; 0; 0; 0; - cos q; - sin q]; [0; 0; 0; 1; 0; 0] ] []) 0.
Definition X2 (q : R) : mat := fun i j =>
  nth j (nth i [ [cos q; sin q; 0; 0; 0; 0]; [- sin q; cos q; 0; 0; 0; 0]; [0; 0; 1; 0; 0; 0];
                 [0; 0; sin q; cos q; sin q; 0]; [0; 0; cos q; - sin q; cos q; 0]; [0; - (1); 0; 0; 0; 1] ] []) 0.
Definition same6 (A B : mat) : Prop := forall i j, (i < 6)%nat -> (j < 6)%nat -> A i j = B i j.

Lemma live_X1 M : live newX1 updX1 M -> forall q, same6 (updX1 q M) (X1 q).
Proof.
  induction 1 as [G|p M H IH]; intros q i j Hi Hj; [|rewrite <- (IH q i j Hi Hj)]; idx i; idx j; reflexivity.
Qed.
Lemma live_X2 M : live newX2 updX2 M -> forall q, same6 (updX2 q M) (X2 q).
Proof.
  induction 1 as [G|p M H IH]; intros q i j Hi Hj; [|rewrite <- (IH q i j Hi Hj)]; idx i; idx j; reflexivity.
Qed.
Lemma live_XF2 M : live newXF2 updXF2 M -> forall q, same6 (updXF2 q M) (tr (X2 q)).
Proof.
  induction 1 as [G|p M H IH]; intros q i j Hi Hj; [|rewrite <- (IH q i j Hi Hj)]; idx i; idx j; reflexivity.
Qed.

(** The entries outside 6x6 are not read. *)
Definition sameLink (j k : joint) : Prop := same6 (jX j) (jX k) /\ same6 (jI j) (jI k) /\ jqd j = jqd k /\ agree (jf j) (jf k).
Lemma rmv_same A B v w i : same6 A B -> agree v w -> (i < 6)%nat -> rmv 6 A v i = rmv 6 B w i.
Proof. intros H HV Hi. rewrite (rmv_agree A v w i HV). apply rmv_mext. intros j Hj. apply H; assumption. Qed.
Lemma rmv_same_tr A B v w i : same6 A B -> agree v w -> (i < 6)%nat -> rmv 6 (tr A) v i = rmv 6 (tr B) w i.
Proof. intros H HV Hi. rewrite (rmv_agree (tr A) v w i HV). apply rmv_mext. intros j Hj. apply H; assumption. Qed.
Lemma jointForces_same js ks : Forall2 sameLink js ks -> forall qdds v a w b, agree v w -> agree a b ->
  fst (jointForces v a (combine js qdds)) = fst (jointForces w b (combine ks qdds)) /\
  agree (snd (jointForces v a (combine js qdds))) (snd (jointForces w b (combine ks qdds))).
Proof.
  induction 1 as [|j k js ks (HX & HI & HQ & HF) H IH]; intros qdds v a w b Hv Ha; [split; [reflexivity|intros i Hi; reflexivity]|].
  destruct qdds as [|q qdds]; [split; [reflexivity|intros i Hi; reflexivity]|]. cbn [combine jointForces].
  set (v1 := fun i => rmv 6 (jX j) v i + aboutZ (jqd j) i). set (w1 := fun i => rmv 6 (jX k) w i + aboutZ (jqd k) i).
  assert (Hv1 : agree v1 w1) by (intros i Hi; unfold v1, w1; rewrite (rmv_same _ _ _ _ i HX Hv Hi), HQ; reflexivity).
  set (a1 := fun i => rmv 6 (jX j) a i + crossMotion v1 (aboutZ (jqd j)) i + aboutZ q i).
  set (b1 := fun i => rmv 6 (jX k) b i + crossMotion w1 (aboutZ (jqd k)) i + aboutZ q i).
  assert (Ha1 : agree a1 b1).
  { intros i Hi; unfold a1, b1. rewrite (rmv_same _ _ _ _ i HX Ha Hi), HQ, (crossMotion_agree _ _ _ i Hv1 Hi). reflexivity. }
  destruct (IH qdds v1 a1 w1 b1 Hv1 Ha1) as [I1 I2].
  destruct (jointForces v1 a1 (combine js qdds)) as [t f]. destruct (jointForces w1 b1 (combine ks qdds)) as [t' f'].
  cbn [fst snd] in *. subst t'.
  assert (F : agree (fun i => rmv 6 (jI j) a1 i + crossForce v1 (rmv 6 (jI j) v1) i - jf j i + f i)
                    (fun i => rmv 6 (jI k) b1 i + crossForce w1 (rmv 6 (jI k) w1) i - jf k i + f' i)).
  { intros i Hi. rewrite (rmv_same _ _ _ _ i HI Ha1 Hi), (I2 i Hi), (HF i Hi).
    rewrite (crossForce_agree v1 w1 _ (rmv 6 (jI k) w1) i Hv1 (fun x Hx => rmv_same _ _ _ _ x HI Hv1 Hx) Hi). reflexivity. }
  split.
  - apply (f_equal2 (@cons R)); [apply (F 2%nat); lia|reflexivity].
  - intros i Hi. apply rmv_same_tr; assumption.
Qed.
Lemma required_same js ks qdds : Forall2 sameLink js ks -> required (combine js qdds) = required (combine ks qdds).
Proof. intros H. unfold required. apply (jointForces_same js ks H qdds); intros i Hi; reflexivity. Qed.

(** ** The links satisfy the hypotheses of C91. *)
Definition rows3 (a b c d e f g h i : R) : mat := fun x y => nth y (nth x [[a; b; c]; [d; e; f]; [g; h; i]] []) 0.
Lemma goodX_same A B : same6 A B -> goodX B -> goodX A.
Proof.
  intros H (E & r & HE & HB). exists E, r. split; [exact HE|]. intros v i Hi.
  rewrite <- (HB v i Hi). apply rmv_same; [exact H|intros k Hk; reflexivity|exact Hi].
Qed.
Lemma trig1 q : sin q * sin q + cos q * cos q = 1.
Proof. pose proof (sin2_cos2 q) as H. unfold Rsqr in H. exact H. Qed.
Lemma goodX1 q : goodX (X1 q).
Proof.
  pose proof (trig1 q) as H.
  exists (rows3 0 0 1 (- sin q) (- cos q) 0 (cos q) (- sin q) 0), (fun _ => 0). split; [split|].
  - intros i j Hi Hj. idx i; idx j; ev; lra.
  - ev. lra.
  - intros v i Hi. idx i; ev; ring.
Qed.
Lemma goodX2 q : goodX (X2 q).
Proof.
  pose proof (trig1 q) as H.
  exists (rows3 (cos q) (- sin q) 0 (sin q) (cos q) 0 0 0 1), (vec3 (- cos q) (sin q) 0). split; [split|].
  - intros i j Hi Hj. idx i; idx j; ev; lra.
  - ev. lra.
  - intros v i Hi. idx i; ev; try ring.
    replace (v 1%nat) with (v 1%nat * (sin q * sin q + cos q * cos q)) at 1 by (rewrite H; ring). ring.
Qed.
Lemma physical_of G m c T : 0 < m -> sym3 T -> 0 < T 2%nat 2%nat ->
  (forall x y z, 0 <= rquad 3 (fun i j => T i j - steiner m c i j) (vec3 x y z) (vec3 x y z)) -> physical (fill m c T (newInertia0 G)).
Proof.
  intros Hm HS HT HP. exists m, c, T.
  assert (B : Body (fill m c T (newInertia0 G)) m c T) by (apply entry_Body; intros i j Hi Hj; idx i; idx j; ev; ring).
  split; [exact Hm|split; [exact B|split; [exact HS|split; [|exact HT]]]].
  intros v. rewrite (C90_energy _ _ _ _ v B). specialize (HP (v 0%nat) (v 1%nat) (v 2%nat)).
  apply Rplus_le_le_0_compat.
  - apply Rmult_le_pos; [lra|]. unfold rdot. cbn [rsum]. rewrite Rplus_0_l. repeat apply Rplus_le_le_0_compat; apply Rle_0_sqr.
  - revert HP. ev. intros HP. exact HP.
Qed.
Lemma physical1 G : physical (tensorLink1 G).
Proof.
  unfold tensorLink1. apply physical_of; [lra|intros i j Hi Hj; idx i; idx j; reflexivity|ev; lra|]. intros x y z. ev.
  pose proof (Rle_0_sqr x). pose proof (Rle_0_sqr (y + z)). pose proof (Rle_0_sqr (y - z)). pose proof (Rle_0_sqr y). pose proof (Rle_0_sqr z). unfold Rsqr in *. lra.
Qed.
Lemma physical2 G : physical (tensorLink2 G).
Proof.
  unfold tensorLink2. apply physical_of; [lra|intros i j Hi Hj; idx i; idx j; reflexivity|ev; lra|]. intros x y z. ev.
  pose proof (Rle_0_sqr x). pose proof (Rle_0_sqr y). pose proof (Rle_0_sqr z). unfold Rsqr in *. lra.
Qed.
Lemma physicalIP G : physical (tensorIP G).
Proof.
  unfold tensorIP. apply physical_of; [lra|intros i j Hi Hj; idx i; idx j; reflexivity|ev; lra|]. intros x y z. ev.
  pose proof (Rle_0_sqr x). pose proof (Rle_0_sqr y). pose proof (Rle_0_sqr z). unfold Rsqr in *. lra.
Qed.

(** ** The two arms, for any contents of their transforms, at angles q and velocities qd, no external forces. *)
Definition ip (M G : mat) (q qd : R) : joint := mkJ (updX1 q M) (tensorIP G) qd (fun _ => 0).
Definition dip1 (M G : mat) (q1 w1 : R) : joint := mkJ (updX1 q1 M) (tensorLink1 G) w1 (fun _ => 0).
Definition dip2 (M G : mat) (q2 w2 : R) : joint := mkJ (updX2 q2 M) (tensorLink2 G) w2 (fun _ => 0).

Theorem C92_hypotheses_of_C91 : forall M M' G G' q1 q2 w1 w2, live newX1 updX1 M -> live newX2 updX2 M' ->
  goodLink (ip M G q1 w1) /\ List.Forall goodLink [dip1 M G q1 w1; dip2 M' G' q2 w2].
Proof.
  intros M M' G G' q1 q2 w1 w2 H H'.
  assert (A : goodX (updX1 q1 M)) by (eapply goodX_same; [apply live_X1; exact H|apply goodX1]).
  assert (B : goodX (updX2 q2 M')) by (eapply goodX_same; [apply live_X2; exact H'|apply goodX2]).
  split; [split; [exact A|apply physicalIP]|].
  constructor; [split; [exact A|apply physical1]|constructor; [split; [exact B|apply physical2]|constructor]].
Qed.

(** ** Closed forms *)
Definition v6 (a b c d e f : R) : rvec := fun i => nth i [a; b; c; d; e; f] 0.
Lemma same_refl js : Forall2 sameLink js js.
Proof. induction js; constructor; [split; [|split; [|split]]; try reflexivity; intros ? **; reflexivity|assumption]. Qed.
Lemma step (X I : mat) (qd qdd : R) v a v' a' F l t fn :
  agree (fun i => rmv 6 X v i + aboutZ qd i) v' ->
  agree (fun i => rmv 6 X a i + crossMotion v' (aboutZ qd) i + aboutZ qdd i) a' ->
  fst (jointForces v' a' l) = t -> agree (snd (jointForces v' a' l)) fn ->
  agree (fun i => rmv 6 I a' i + crossForce v' (rmv 6 I v') i + fn i) F ->
  forall js qdds, l = combine js qdds ->
  fst (jointForces v a ((mkJ X I qd (fun _ => 0), qdd) :: l)) = F 2%nat :: t /\
  agree (snd (jointForces v a ((mkJ X I qd (fun _ => 0), qdd) :: l))) (rmv 6 (tr X) F).
Proof.
  intros Hv Ha Ht Hf HF js qdds ->. cbn [jointForces jX jI jqd jf].
  set (v1 := fun i => rmv 6 X v i + aboutZ qd i) in *. set (a1 := fun i => rmv 6 X a i + crossMotion v1 (aboutZ qd) i + aboutZ qdd i).
  assert (Ha1 : agree a1 a').
  { intros i Hi. rewrite <- (Ha i Hi). unfold a1. rewrite (crossMotion_agree v1 v' _ i Hv Hi). reflexivity. }
  assert (R2 : Forall2 sameLink js js) by apply same_refl.
  destruct (jointForces_same js js R2 qdds v1 a1 v' a' Hv Ha1) as [K1 K2].
  destruct (jointForces v1 a1 (combine js qdds)) as [t1 f1]. destruct (jointForces v' a' (combine js qdds)) as [t2 f2]. cbn [fst snd] in *. subst.
  assert (FF : agree (fun i => rmv 6 I a1 i + crossForce v1 (rmv 6 I v1) i - 0 + f1 i) F).
  { intros i Hi. rewrite <- (HF i Hi), (rmv_agree I a1 a' i Ha1), (K2 i Hi), (Hf i Hi).
    rewrite (crossForce_agree v1 v' _ (rmv 6 I v') i Hv (fun x Hx => rmv_agree I v1 v' x Hv) Hi). ring. }
  split.
  - apply (f_equal2 (@cons R)); [apply (FF 2%nat); lia|reflexivity].
  - intros i Hi. apply rmv_agree. exact FF.
Qed.

Lemma dip_closed M M' G G' q1 q2 w1 w2 a1 a2 : live newX1 updX1 M -> live newX2 updX2 M' ->
  required (combine [dip1 M G q1 w1; dip2 M' G' q2 w2] [a1; a2]) =
  [ (2505/10000 + 251/1000 + 1 + cos q2) * a1 + (251/1000 + cos q2 / 2) * a2 - sin q2 / 2 * (2 * w1 * w2 + w2 * w2)
      + 981/100 * (- (3/2) * sin q1 - sin (q1 + q2) / 2);
    (251/1000 + cos q2 / 2) * a1 + 251/1000 * a2 + sin q2 / 2 * (w1 * w1) - 981/100 * (sin (q1 + q2) / 2) ].
Proof.
  intros H H'.
  rewrite (required_same _ [mkJ (X1 q1) (tensorLink1 G) w1 (fun _ => 0); mkJ (X2 q2) (tensorLink2 G') w2 (fun _ => 0)]).
  2:{ repeat constructor; cbn [jX jI jqd jf dip1 dip2]; try (intros i j; reflexivity); try (intros i; reflexivity);
      try (apply live_X1; exact H); apply live_X2; exact H'. }
  rewrite sin_plus. pose proof (trig1 q2) as T. unfold required. cbn [combine].
  set (s1 := sin q1) in *. set (c1 := cos q1) in *. set (s2 := sin q2) in *. set (c2 := cos q2) in *.
  set (g0 := 981/100).
  set (l2 := [(mkJ (X2 q2) (tensorLink2 G') w2 (fun _ => 0), a2)]).
  set (ax := s2 * a1 + g0 * (c1 * c2 - s1 * s2) + c2 * w1 * w2). set (ay := c2 * a1 - g0 * (s1 * c2 + c1 * s2) - s2 * w1 * w2).
  set (ww := w1 + w2).
  destruct (step (X2 q2) (tensorLink2 G') w2 a2 (v6 0 0 w1 0 0 0) (v6 0 0 a1 (g0 * c1) (- (g0 * s1)) 0)
    (v6 0 0 (w1 + w2) (s2 * w1) (c2 * w1) 0) (v6 0 0 (a1 + a2) ax ay 0)
    (v6 0 0 (251/1000 * (a1 + a2) + (ay + ww * (s2 * w1)) / 2)
       (ax - ww * (c2 * w1) - ww * ww / 2) ((a1 + a2) / 2 + ay + ww * (s2 * w1)) 0) [] [] (fun _ => 0)) with (js := @nil joint) (qdds := @nil R) as [A2 B2].
  - intros i Hi. idx i; ev; fold s2 c2; ring.
  - intros i Hi. idx i; ev; fold s2 c2; unfold ax, ay; ring.
  - reflexivity.
  - intros i Hi. reflexivity.
  - intros i Hi. unfold ww. idx i; ev; fold s2 c2 ax ay; try field.
  - reflexivity.
  - fold l2 in A2, B2. set (F2 := v6 0 0 (251/1000 * (a1 + a2) + (ay + ww * (s2 * w1)) / 2)
       (ax - ww * (c2 * w1) - ww * ww / 2) ((a1 + a2) / 2 + ay + ww * (s2 * w1)) 0) in *.
    destruct (step (X1 q1) (tensorLink1 G) w1 a1 (fun _ => 0) (fun i => if (i =? 5)%nat then g0 else 0)
      (v6 0 0 w1 0 0 0) (v6 0 0 a1 (g0 * c1) (- (g0 * s1)) 0) (fun i => rmv 6 (tensorLink1 G) (v6 0 0 a1 (g0 * c1) (- (g0 * s1)) 0) i +
         crossForce (v6 0 0 w1 0 0 0) (rmv 6 (tensorLink1 G) (v6 0 0 w1 0 0 0)) i + rmv 6 (tr (X2 q2)) F2 i)
      l2 [F2 2%nat] (rmv 6 (tr (X2 q2)) F2)) with (js := [mkJ (X2 q2) (tensorLink2 G') w2 (fun _ => 0)]) (qdds := [a2]) as [A1 _].
    + intros i Hi. idx i; ev; ring.
    + intros i Hi. idx i; ev; fold s1 c1; try ring.
    + exact A2.
    + exact B2.
    + intros i Hi. reflexivity.
    + reflexivity.
    + rewrite A1. apply (f_equal2 (@cons R)); [|apply (f_equal2 (@cons R)); [|reflexivity]].
      * unfold F2, ax, ay, ww, g0. ev. fold s1 c1 s2 c2.
        assert (S2 : s2 * s2 = 1 - c2 * c2) by lra. clear T. clearbody s1 c1 s2 c2. clear - S2.
        match goal with |- ?l = ?r => transitivity (r + (s2 * s2 + c2 * c2 - 1) * (a1 - 981/100 * s1)) end; [field|].
        rewrite S2. ring.
      * unfold F2, ax, ay, ww, g0. ev. fold s1 c1 s2 c2. clearbody s1 c1 s2 c2. field.
Qed.
Lemma ip_closed M G q w a : live newX1 updX1 M ->
  required (combine [ip M G q w] [a]) = [ 16452757/100000000 * a - 1811/1000 * (981/100) * (293/1000 * sin q) ].
Proof.
  intros H. rewrite (required_same _ [mkJ (X1 q) (tensorIP G) w (fun _ => 0)]).
  2:{ repeat constructor; cbn [jX jI jqd jf ip]; try (intros i j; reflexivity); try (intros i; reflexivity); apply live_X1; exact H. }
  unfold required. cbn [combine].
  destruct (step (X1 q) (tensorIP G) w a (fun _ => 0) (fun i => if (i =? 5)%nat then 981/100 else 0)
      (v6 0 0 w 0 0 0) (v6 0 0 a (981/100 * cos q) (- (981/100 * sin q)) 0)
      (fun i => rmv 6 (tensorIP G) (v6 0 0 a (981/100 * cos q) (- (981/100 * sin q)) 0) i +
         crossForce (v6 0 0 w 0 0 0) (rmv 6 (tensorIP G) (v6 0 0 w 0 0 0)) i + 0) [] [] (fun _ => 0)) with (js := @nil joint) (qdds := @nil R) as [A _].
  - intros i Hi. idx i; ev; ring.
  - intros i Hi. idx i; ev; ring.
  - reflexivity.
  - intros i Hi; reflexivity.
  - intros i Hi; reflexivity.
  - reflexivity.
  - rewrite A. apply (f_equal2 (@cons R)); [|reflexivity]. ev. field.
Qed.

(** ** Specification: Lagrange's equations.
    A link turned by the angle p from the vertical, its centre of mass at (y, z) with z upwards. *)
Record planar := { massP : R; spinP : R; yP : R; zP : R; vyP : R; vzP : R; rateP : R }.
Definition kinetic (b : planar) : R := massP b / 2 * (vyP b * vyP b + vzP b * vzP b) + spinP b / 2 * (rateP b * rateP b).
Definition potential (b : planar) : R := massP b * (981 / 100) * zP b.
(** The inverted pendulum: mass 1.811 with its centre 0.293 away from the joint. *)
Definition bodyIP (q w : R) : planar :=
  {| massP := 1811/1000; spinP := 16452757/100000000 - 1811/1000 * (293/1000) * (293/1000);
     yP := 293/1000 * sin q; zP := 293/1000 * cos q; vyP := 293/1000 * (cos q * w); vzP := 293/1000 * (- sin q * w); rateP := w |}.
(** The double pendulum: two links of mass 1, the second joint at distance 1 from the first, centres halfway. *)
Definition body1 (q1 w1 : R) : planar :=
  {| massP := 1; spinP := 5/10000; yP := sin q1 / 2; zP := cos q1 / 2; vyP := cos q1 * w1 / 2; vzP := - sin q1 * w1 / 2; rateP := w1 |}.
Definition body2 (q1 q2 w1 w2 : R) : planar :=
  {| massP := 1; spinP := 1/1000; yP := sin q1 + sin (q1 + q2) / 2; zP := cos q1 + cos (q1 + q2) / 2;
     vyP := cos q1 * w1 + cos (q1 + q2) * (w1 + w2) / 2; vzP := - sin q1 * w1 - sin (q1 + q2) * (w1 + w2) / 2; rateP := w1 + w2 |}.
Definition lagrangeIP (q w : R) : R := kinetic (bodyIP q w) - potential (bodyIP q w).
Definition lagrangeDIP (q1 q2 w1 w2 : R) : R :=
  kinetic (body1 q1 w1) + kinetic (body2 q1 q2 w1 w2) - potential (body1 q1 w1) - potential (body2 q1 q2 w1 w2).

(** The velocities above are those of the positions. *)
Lemma velocities_right : forall (q1 q2 w1 w2 : R -> R) t,
  is_derive q1 t (w1 t) -> is_derive q2 t (w2 t) ->
  is_derive (fun t => yP (bodyIP (q1 t) (w1 t))) t (vyP (bodyIP (q1 t) (w1 t))) /\
  is_derive (fun t => zP (bodyIP (q1 t) (w1 t))) t (vzP (bodyIP (q1 t) (w1 t))) /\
  is_derive (fun t => yP (body1 (q1 t) (w1 t))) t (vyP (body1 (q1 t) (w1 t))) /\
  is_derive (fun t => zP (body1 (q1 t) (w1 t))) t (vzP (body1 (q1 t) (w1 t))) /\
  is_derive (fun t => yP (body2 (q1 t) (q2 t) (w1 t) (w2 t))) t (vyP (body2 (q1 t) (q2 t) (w1 t) (w2 t))) /\
  is_derive (fun t => zP (body2 (q1 t) (q2 t) (w1 t) (w2 t))) t (vzP (body2 (q1 t) (q2 t) (w1 t) (w2 t))).
Proof.
  intros q1 q2 w1 w2 t H1 H2. cbn [yP zP vyP vzP bodyIP body1 body2].
  assert (E1 : ex_derive q1 t) by (eexists; exact H1). assert (E2 : ex_derive q2 t) by (eexists; exact H2).
  assert (D1 : Derive (fun x : R => q1 x) t = w1 t) by exact (is_derive_unique _ _ _ H1).
  assert (D2 : Derive (fun x : R => q2 x) t = w2 t) by exact (is_derive_unique _ _ _ H2).
  refine (conj _ (conj _ (conj _ (conj _ (conj _ _))))); auto_derive; repeat split; trivial; rewrite ?D1, ?D2; field.
Qed.

Ltac dvals := unfold lagrangeDIP, lagrangeIP, kinetic, potential; cbn [massP spinP yP zP vyP vzP rateP bodyIP body1 body2].

Theorem C92_inverted_pendulum : forall st st' Gf M G (q w a : R -> R) t, idReach st -> fdReach st' -> live newX1 updX1 M ->
  is_derive q t (w t) -> is_derive w t (a t) ->
  let p := fun s => Derive (fun x => lagrangeIP (q s) x) (w s) in
  exists tau,
    fst (id st (ip M G (q t) (w t)) (a t) []) = [tau] /\
    fst (fd st' Gf (ip M G (q t) (w t)) tau []) = [a t] /\
    is_derive p t (tau + Derive (fun x => lagrangeIP x (w t)) (q t)).
Proof.
  intros st st' Gf M G q w a t Hst Hst' HM Hq Hw p.
  destruct (C92_hypotheses_of_C91 M (newX2 G) G G (q t) 0 (w t) 0 HM (live_new _ _ _)) as [HG _].
  assert (HP : List.Forall (fun j => physical (jI j)) [ip M G (q t) (w t)]) by (constructor; [apply HG|constructor]).
  eexists. split; [|split].
  - rewrite (C91_inverse_dynamics st (ip M G (q t) (w t)) (a t) [] [] Hst HP eq_refl : fst (id st (ip M G (q t) (w t)) (a t) []) = _).
    apply ip_closed; exact HM.
  - apply (C91_forward_dynamics st' Gf (ip M G (q t) (w t)) _ [] [] [a t] Hst' (List.Forall_cons _ HG (List.Forall_nil _)) eq_refl eq_refl).
    apply ip_closed; exact HM.
  - unfold p. apply (is_derive_ext (fun s => 16452757/100000000 * w s)).
    + intros s. symmetry. apply is_derive_unique. dvals. auto_derive; [trivial|]. pose proof (trig1 (q s)) as T.
      set (s1 := sin (q s)) in *. set (c1 := cos (q s)) in *. clearbody s1 c1.
      assert (S : s1 * s1 = 1 - c1 * c1) by lra.
      match goal with |- ?l = ?r => transitivity (r + (s1 * s1 + c1 * c1 - 1) * (1811/1000 * (293/1000) * (293/1000) * w s)) end; [field|rewrite S; ring].
    + replace (Derive (fun x => lagrangeIP x (w t)) (q t)) with (1811/1000 * (981/100) * (293/1000 * sin (q t))).
      * assert (E2 : ex_derive w t) by (eexists; exact Hw). assert (D2 : Derive (fun x : R => w x) t = a t) by exact (is_derive_unique _ _ _ Hw).
        auto_derive; [exact E2|]. rewrite D2. ring.
      * symmetry. apply is_derive_unique. dvals. auto_derive; [trivial|]. field.
Qed.

Lemma lagrange_closed q1 q2 w1 w2 : lagrangeDIP q1 q2 w1 w2 =
  (2505/10000 + 251/1000 + 1 + cos q2) / 2 * (w1 * w1) + (251/1000 + cos q2 / 2) * (w1 * w2) + 251/1000 / 2 * (w2 * w2)
  - 981/100 * (3/2 * cos q1 + cos (q1 + q2) / 2).
Proof.
  dvals. set (u := q1 + q2). pose proof (trig1 q1) as T1. pose proof (trig1 u) as Tu.
  replace (cos q2) with (cos u * cos q1 + sin u * sin q1) by (rewrite <- cos_minus; f_equal; unfold u; ring).
  set (su := sin u) in *. set (cu := cos u) in *. set (s1 := sin q1) in *. set (c1 := cos q1) in *. clearbody su cu s1 c1.
  match goal with |- ?l = ?r => transitivity (r + (s1 * s1 + c1 * c1 - 1) * (w1 * w1 * (5/8)) + (su * su + cu * cu - 1) * ((w1 + w2) * (w1 + w2) / 8)) end;
    [field|rewrite T1, Tu; ring].
Qed.

Theorem C92_double_pendulum : forall st st' Gf M M' G G' (q1 q2 w1 w2 a1 a2 : R -> R) t,
  idReach st -> fdReach st' -> live newX1 updX1 M -> live newX2 updX2 M' ->
  is_derive q1 t (w1 t) -> is_derive q2 t (w2 t) -> is_derive w1 t (a1 t) -> is_derive w2 t (a2 t) ->
  let p1 := fun s => Derive (fun x => lagrangeDIP (q1 s) (q2 s) x (w2 s)) (w1 s) in
  let p2 := fun s => Derive (fun x => lagrangeDIP (q1 s) (q2 s) (w1 s) x) (w2 s) in
  let link1 := dip1 M G (q1 t) (w1 t) in let link2 := dip2 M' G' (q2 t) (w2 t) in
  exists tau1 tau2,
    fst (id st link1 (a1 t) [(link2, a2 t)]) = [tau1; tau2] /\
    fst (fd st' Gf link1 tau1 [(link2, tau2)]) = [a1 t; a2 t] /\
    is_derive p1 t (tau1 + Derive (fun x => lagrangeDIP x (q2 t) (w1 t) (w2 t)) (q1 t)) /\
    is_derive p2 t (tau2 + Derive (fun x => lagrangeDIP (q1 t) x (w1 t) (w2 t)) (q2 t)).
Proof.
  intros st st' Gf M M' G G' q1 q2 w1 w2 a1 a2 t Hst Hst' HM HM' Hq1 Hq2 Hw1 Hw2 p1 p2 link1 link2.
  destruct (C92_hypotheses_of_C91 M M' G G' (q1 t) (q2 t) (w1 t) (w2 t) HM HM') as [_ HG]. fold link1 link2 in HG.
  assert (HP : List.Forall (fun j => physical (jI j)) [link1; link2]) by (revert HG; apply List.Forall_impl; intros x [_ H]; exact H).
  assert (E1 : ex_derive q1 t) by (eexists; exact Hq1). assert (E2 : ex_derive q2 t) by (eexists; exact Hq2).
  assert (E3 : ex_derive w1 t) by (eexists; exact Hw1). assert (E4 : ex_derive w2 t) by (eexists; exact Hw2).
  assert (D1 : Derive (fun x : R => q1 x) t = w1 t) by exact (is_derive_unique _ _ _ Hq1).
  assert (D2 : Derive (fun x : R => q2 x) t = w2 t) by exact (is_derive_unique _ _ _ Hq2).
  assert (D3 : Derive (fun x : R => w1 x) t = a1 t) by exact (is_derive_unique _ _ _ Hw1).
  assert (D4 : Derive (fun x : R => w2 x) t = a2 t) by exact (is_derive_unique _ _ _ Hw2).
  eexists; eexists. split; [|split; [|split]].
  - rewrite (C91_inverse_dynamics st link1 (a1 t) [link2] [a2 t] Hst HP eq_refl : fst (id st link1 (a1 t) [(link2, a2 t)]) = _).
    apply dip_closed; assumption.
  - apply (C91_forward_dynamics st' Gf link1 _ [link2] [_] [a1 t; a2 t] Hst' HG eq_refl eq_refl). apply dip_closed; assumption.
  - unfold p1. apply (is_derive_ext (fun s => (2505/10000 + 251/1000 + 1 + cos (q2 s)) * w1 s + (251/1000 + cos (q2 s) / 2) * w2 s)).
    + intros s. rewrite (Derive_ext _ _ _ (fun x => lagrange_closed (q1 s) (q2 s) x (w2 s))).
      symmetry. apply is_derive_unique. auto_derive; [trivial|]. field.
    + rewrite (Derive_ext _ _ _ (fun x => lagrange_closed x (q2 t) (w1 t) (w2 t))).
      replace (Derive _ (q1 t)) with (981/100 * (3/2 * sin (q1 t) + sin (q1 t + q2 t) / 2)).
      * auto_derive; [repeat split; assumption|]. rewrite D2, D3, D4. field.
      * symmetry. apply is_derive_unique. auto_derive; [trivial|]. field.
  - unfold p2. apply (is_derive_ext (fun s => (251/1000 + cos (q2 s) / 2) * w1 s + 251/1000 * w2 s)).
    + intros s. rewrite (Derive_ext _ _ _ (fun x => lagrange_closed (q1 s) (q2 s) (w1 s) x)).
      symmetry. apply is_derive_unique. auto_derive; [trivial|]. field.
    + rewrite (Derive_ext _ _ _ (fun x => lagrange_closed (q1 t) x (w1 t) (w2 t))).
      replace (Derive _ (q2 t)) with (- (sin (q2 t) / 2) * (w1 t * w1 t) - sin (q2 t) / 2 * (w1 t * w2 t) + 981/100 * (sin (q1 t + q2 t) / 2)).
      * auto_derive; [repeat split; assumption|]. rewrite D2, D3, D4. field.
      * symmetry. apply is_derive_unique. auto_derive; [trivial|]. field.
Qed.

(** The joints put in exactly the power by which the mechanical energy grows; without joint forces it is conserved. *)
Definition energyDIP (q1 q2 w1 w2 : R) : R :=
  kinetic (body1 q1 w1) + kinetic (body2 q1 q2 w1 w2) + potential (body1 q1 w1) + potential (body2 q1 q2 w1 w2).
Theorem C92_energy : forall st M M' G G' (q1 q2 w1 w2 a1 a2 : R -> R) t tau1 tau2,
  idReach st -> live newX1 updX1 M -> live newX2 updX2 M' ->
  is_derive q1 t (w1 t) -> is_derive q2 t (w2 t) -> is_derive w1 t (a1 t) -> is_derive w2 t (a2 t) ->
  fst (id st (dip1 M G (q1 t) (w1 t)) (a1 t) [(dip2 M' G' (q2 t) (w2 t), a2 t)]) = [tau1; tau2] ->
  is_derive (fun s => energyDIP (q1 s) (q2 s) (w1 s) (w2 s)) t (tau1 * w1 t + tau2 * w2 t).
Proof.
  intros st M M' G G' q1 q2 w1 w2 a1 a2 t tau1 tau2 Hst HM HM' Hq1 Hq2 Hw1 Hw2 HT.
  set (link1 := dip1 M G (q1 t) (w1 t)) in *. set (link2 := dip2 M' G' (q2 t) (w2 t)) in *.
  destruct (C92_hypotheses_of_C91 M M' G G' (q1 t) (q2 t) (w1 t) (w2 t) HM HM') as [_ HG]. fold link1 link2 in HG.
  assert (HP : List.Forall (fun j => physical (jI j)) [link1; link2]) by (revert HG; apply List.Forall_impl; intros x [_ H]; exact H).
  assert (E1 : ex_derive q1 t) by (eexists; exact Hq1). assert (E2 : ex_derive q2 t) by (eexists; exact Hq2).
  assert (E3 : ex_derive w1 t) by (eexists; exact Hw1). assert (E4 : ex_derive w2 t) by (eexists; exact Hw2).
  assert (D1 : Derive (fun x : R => q1 x) t = w1 t) by exact (is_derive_unique _ _ _ Hq1).
  assert (D2 : Derive (fun x : R => q2 x) t = w2 t) by exact (is_derive_unique _ _ _ Hq2).
  assert (D3 : Derive (fun x : R => w1 x) t = a1 t) by exact (is_derive_unique _ _ _ Hw1).
  assert (D4 : Derive (fun x : R => w2 x) t = a2 t) by exact (is_derive_unique _ _ _ Hw2).
  pose proof (C91_inverse_dynamics st link1 (a1 t) [link2] [a2 t] Hst HP eq_refl : fst (id st link1 (a1 t) [(link2, a2 t)]) = _) as K.
  rewrite HT in K. pose proof (eq_trans K (dip_closed M M' G G' _ _ _ _ _ _ HM HM')) as K'. clear K. rename K' into K.
  assert (K1 := f_equal (hd 0) K). assert (K2 := f_equal (fun l => hd 0 (tl l)) K). cbn [hd tl] in K1, K2. rewrite K1, K2.
  apply (is_derive_ext (fun s => (2505/10000 + 251/1000 + 1 + cos (q2 s)) / 2 * (w1 s * w1 s) + (251/1000 + cos (q2 s) / 2) * (w1 s * w2 s)
    + 251/1000 / 2 * (w2 s * w2 s) + 981/100 * (3/2 * cos (q1 s) + cos (q1 s + q2 s) / 2))).
  - intros s. pose proof (lagrange_closed (q1 s) (q2 s) (w1 s) (w2 s)) as L. unfold lagrangeDIP in L. unfold energyDIP.
    assert (P : potential (body1 (q1 s) (w1 s)) + potential (body2 (q1 s) (q2 s) (w1 s) (w2 s)) = 981/100 * (3/2 * cos (q1 s) + cos (q1 s + q2 s) / 2)).
    { unfold potential. cbn [massP zP body1 body2]. field. }
    lra.
  - auto_derive; [repeat split; assumption|]. rewrite D1, D2, D3, D4. field.
Qed.

(** The hypotheses hold: objects as constructed and updated once before, the first joint turning steadily and the second speeding up. *)
Example pendulum_case : exists G M M' (q1 q2 w1 w2 a1 a2 : R -> R) t,
  idReach newId /\ fdReach newFd /\ live newX1 updX1 M /\ live newX2 updX2 M' /\
  is_derive q1 t (w1 t) /\ is_derive q2 t (w2 t) /\ is_derive w1 t (a1 t) /\ is_derive w2 t (a2 t) /\
  List.Forall goodLink [dip1 M G (q1 t) (w1 t); dip2 M' G (q2 t) (w2 t)] /\ w1 t <> 0 /\ w2 t <> 0 /\ a2 t <> 0.
Proof.
  exists (fun i j => INR (i + j)), (updX1 3 (newX1 (fun i j => INR i))), (updX2 4 (newX2 (fun i j => 7))),
    (fun t => 2 * t), (fun t => t * t), (fun _ => 2), (fun t => 2 * t), (fun _ => 0), (fun _ => 2), 1.
  assert (L1 : live newX1 updX1 (updX1 3 (newX1 (fun i j => INR i)))) by (apply live_upd, live_new).
  assert (L2 : live newX2 updX2 (updX2 4 (newX2 (fun i j => 7)))) by (apply live_upd, live_new).
  refine (conj id_new (conj fd_new (conj L1 (conj L2 (conj _ (conj _ (conj _ (conj _ (conj _ (conj _ (conj _ _))))))))))).
  1-4: auto_derive; trivial; ring.
  - apply (C92_hypotheses_of_C91 _ _ _ _ _ _ _ _ L1 L2).
  - lra.
  - lra.
  - lra.
Qed.

Print Assumptions C92_hypotheses_of_C91.
Print Assumptions C92_inverted_pendulum.
Print Assumptions C92_double_pendulum.
Print Assumptions C92_energy.
