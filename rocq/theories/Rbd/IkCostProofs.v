(** Rotation matrices, quaternions and rotation vectors: lemmas for C82. *)
From Coq Require Import Reals List Lra Lia.
From Coquelicot Require Import Coquelicot.
From Verif Require Import Base.Outcome Rbd.ContactModel Rbd.KinModel Rbd.KinProps Rbd.IkCostModel.
Import ListNotations.
Local Open Scope R_scope.

(** ** Matrix to quaternion *)
Definition i3 : m3 := ((1, 0, 0), (0, 1, 0), (0, 0, 1)).
Definition vee (m : m3) : vec3 :=
  let '((m00, m01, m02), (m10, m11, m12), (m20, m21, m22)) := m in (m21 - m12, m02 - m20, m10 - m01).
Lemma pair3 (a b c d e f : R) : (a, b, c) = (d, e, f) -> a = d /\ b = e /\ c = f.
Proof. intros H. injection H. auto. Qed.
Lemma proper_eqs a b c d e f g h i : proper ((a, b, c), (d, e, f), (g, h, i)) ->
  (a * a + b * b + c * c = 1 /\ d * d + e * e + f * f = 1 /\ g * g + h * h + i * i = 1 /\
   a * d + b * e + c * f = 0 /\ a * g + b * h + c * i = 0 /\ d * g + e * h + f * i = 0) /\
  (a * a + d * d + g * g = 1 /\ b * b + e * e + h * h = 1 /\ c * c + f * f + i * i = 1 /\
   a * b + d * e + g * h = 0 /\ a * c + d * f + g * i = 0 /\ b * c + e * f + h * i = 0) /\
  (a = e * i - f * h /\ b = f * g - d * i /\ c = d * h - e * g /\
   d = c * h - b * i /\ e = a * i - c * g /\ f = b * g - a * h /\
   g = b * f - c * e /\ h = c * d - a * f /\ i = a * e - b * d).
Proof.
  intros (P1 & P2 & P3 & P4).
  pose proof (P1 (1, 0, 0)) as A1. pose proof (P1 (0, 1, 0)) as A2. pose proof (P1 (0, 0, 1)) as A3.
  pose proof (P2 (1, 0, 0)) as B1. pose proof (P2 (0, 1, 0)) as B2. pose proof (P2 (0, 0, 1)) as B3.
  pose proof (P4 (1, 0, 0) (0, 1, 0)) as C1. pose proof (P4 (0, 1, 0) (0, 0, 1)) as C2. pose proof (P4 (0, 0, 1) (1, 0, 0)) as C3.
  clear P1 P2 P3 P4. unf.
  apply pair3 in A1, A2, A3, B1, B2, B3, C1, C2, C3. repeat split; lra.
Qed.
Lemma sqrt_pos_sq x : 0 < x -> exists t, sqrt x = t /\ 0 < t /\ t * t = x.
Proof. intros H. exists (sqrt x). split; [reflexivity|]. split; [now apply sqrt_lt_R0|apply sqrt_sqrt; lra]. Qed.

Lemma quatOfMat_ok m : proper m -> unit_quat (quatOfMat m) /\ qmat (quatOfMat m) = m.
Proof.
  destruct m as [[[[a b] c] [[d e] f]] [[g h] i]]. intros P.
  destruct (proper_eqs _ _ _ _ _ _ _ _ _ P) as ((O1 & O2 & O3 & O4 & O5 & O6) & (C1 & C2 & C3 & C4 & C5 & C6) & (D1 & D2 & D3 & D4 & D5 & D6 & D7 & D8 & D9)).
  clear P.
  assert (Fin : forall w x y z s, w * w = s -> x * x = (1 + a - e - i) / 4 -> y * y = (1 + e - i - a) / 4 -> z * z = (1 + i - a - e) / 4 ->
    s = (1 + a + e + i) / 4 ->
    w * x = (h - f) / 4 -> w * y = (c - g) / 4 -> w * z = (d - b) / 4 -> x * y = (b + d) / 4 -> x * z = (c + g) / 4 -> y * z = (f + h) / 4 ->
    unit_quat (w, x, y, z) /\ qmat (w, x, y, z) = ((a, b, c), (d, e, f), (g, h, i))).
  { intros w x y z s W X Y Z S WX WY WZ XY XZ YZ. unf. split; [lra|]. eq9; lra. }

  assert (Sq : forall (u v t N : R), 0 < t -> t * t = N -> u * u = v * N -> (u * (/ 2 / t)) * (u * (/ 2 / t)) = v / 4).
  { intros u v t N T0 TT H. replace (u * (/ 2 / t) * (u * (/ 2 / t))) with (u * u / (4 * (t * t))) by (field; lra). rewrite H, TT. field. nra. }
  assert (Mi : forall (u v w t N : R), 0 < t -> t * t = N -> u * v = w * N -> (u * (/ 2 / t)) * (v * (/ 2 / t)) = w / 4).
  { intros u v w t N T0 TT H. replace (u * (/ 2 / t) * (v * (/ 2 / t))) with (u * v / (4 * (t * t))) by (field; lra). rewrite H, TT. field. nra. }
  assert (La : forall (u t : R), 0 < t -> / 2 * t * (u * (/ 2 / t)) = u / 4) by (intros u t T0; field; lra).
  assert (Lb : forall (u t : R), 0 < t -> u * (/ 2 / t) * (/ 2 * t) = u / 4) by (intros u t T0; field; lra).
  assert (Le : forall (t N : R), t * t = N -> / 2 * t * (/ 2 * t) = N / 4) by (intros t N <-; field).
  unfold quatOfMat. destruct (Rlt_dec 0 (trace3 _)) as [T|T]; unfold trace3 in *; unf.
  - destruct (sqrt_pos_sq (a + e + i + 1) ltac:(lra)) as (t & -> & T0 & TT).
    eapply Fin; [reflexivity|eapply Sq|eapply Sq|eapply Sq|rewrite (Le _ _ TT); lra|apply La|apply La|apply La|eapply Mi|eapply Mi|eapply Mi]; try eassumption; lra.
  - destruct (Rlt_dec a e) as [H1|H1].
    + destruct (Rlt_dec e i) as [H2|H2].
      * destruct (sqrt_pos_sq (i - a - e + 1) ltac:(lra)) as (t & -> & T0 & TT).
        eapply Fin; [eapply Sq|eapply Sq|eapply Sq|rewrite (Le _ _ TT)| |eapply Mi|eapply Mi|apply Lb|eapply Mi|apply Lb|apply Lb]; try eassumption; try reflexivity; lra.
      * destruct (sqrt_pos_sq (e - i - a + 1) ltac:(lra)) as (t & -> & T0 & TT).
        eapply Fin; [eapply Sq|eapply Sq|rewrite (Le _ _ TT)|eapply Sq| |eapply Mi|apply Lb|eapply Mi|apply Lb|eapply Mi|rewrite La]; try eassumption; try reflexivity; lra.
    + destruct (Rlt_dec a i) as [H2|H2].
      * destruct (sqrt_pos_sq (i - a - e + 1) ltac:(lra)) as (t & -> & T0 & TT).
        eapply Fin; [eapply Sq|eapply Sq|eapply Sq|rewrite (Le _ _ TT)| |eapply Mi|eapply Mi|apply Lb|eapply Mi|apply Lb|apply Lb]; try eassumption; try reflexivity; lra.
      * destruct (sqrt_pos_sq (a - e - i + 1) ltac:(lra)) as (t & -> & T0 & TT).
        eapply Fin; [eapply Sq|rewrite (Le _ _ TT)|eapply Sq|eapply Sq| |apply Lb|eapply Mi|eapply Mi|rewrite La|rewrite La|eapply Mi]; try eassumption; try reflexivity; lra.
Qed.

(** ** Rotation vectors *)
Definition rotvec (q : quat) : vec3 := scale3 (fst (angleAxis q)) (snd (angleAxis q)).

Lemma atan2pos_spec y x : 0 < y -> 0 <= x -> y * y + x * x = 1 -> 0 < atan2pos y x <= PI / 2 /\ sin (atan2pos y x) = y /\ cos (atan2pos y x) = x.
Proof.
  intros Y X U. unfold atan2pos. destruct (Rlt_dec 0 x) as [H|H].
  - pose proof (atan_bound (y / x)) as [_ B]. assert (P : 0 < y / x) by (apply Rdiv_lt_0_compat; lra).
    pose proof (atan_increasing 0 (y / x) P) as A. rewrite atan_0 in A.
    split; [lra|]. rewrite sin_atan, cos_atan.
    assert (E : sqrt (1 + (y / x)²) = / x).
    { replace (1 + (y / x)²) with (Rsqr (/ x)). apply sqrt_Rsqr. left. now apply Rinv_0_lt_compat.
      unfold Rsqr. apply (Rmult_eq_reg_r (x * x)); [|nra]. field_simplify; [|lra..]. lra. }
    rewrite E. split; field; lra.
  - assert (x = 0) by lra. subst. assert (y = 1) by nra. subst. rewrite sin_PI2, cos_PI2. pose proof PI_RGT_0. lra.
Qed.

(** Rodrigues' formula: v rotated about the unit axis k by the angle a. *)
Definition rodrigues (a : R) (k v : vec3) : vec3 :=
  add3 (add3 (scale3 (cos a) v) (scale3 (sin a) (cross3 k v))) (scale3 ((1 - cos a) * dot3 k v) k).
(** The angle of a unit quaternion lies between 0 and pi, the axis has length one, and turning about it is the rotation of the quaternion. *)
Lemma angleAxis_spec q v : unit_quat q -> 0 <= fst (angleAxis q) <= PI /\ dot3 (snd (angleAxis q)) (snd (angleAxis q)) = 1 /\
  rodrigues (fst (angleAxis q)) (snd (angleAxis q)) v = mulv (qmat q) v.
Proof.
  destruct q as [[[w x] y] z]. unfold unit_quat. intros U. unfold angleAxis.
  set (n := sqrt (x * x + y * y + z * z)).
  assert (N : n * n = x * x + y * y + z * z) by (apply sqrt_sqrt; nra). assert (N0 : 0 <= n) by apply sqrt_pos.
  destruct (Req_EM_T n 0) as [E|E].
  - rewrite E in N. assert (x = 0 /\ y = 0 /\ z = 0) as (-> & -> & ->) by (repeat split; nra).
    cbn [fst snd]. pose proof PI_RGT_0. split; [lra|]. split; [unf; ring|]. unfold rodrigues. rewrite sin_0, cos_0.
    destruct v as [[v0 v1] v2]. unf. eq3; ring.
  - destruct (atan2pos_spec n (Rabs w)) as ((A0 & A1) & S & C).
    { lra. } { apply Rabs_pos. } { rewrite <- Rabs_mult, Rabs_right by nra. lra. }
    set (al := atan2pos n (Rabs w)) in *. cbn [fst snd].
    assert (C2 : cos (2 * al) = w * w - n * n).
    { rewrite cos_2a, S, C. rewrite <- Rabs_mult, Rabs_right by nra. ring. }
    assert (S2 : sin (2 * al) = 2 * n * Rabs w) by (rewrite sin_2a, S, C; ring).
    split; [lra|]. set (n' := if Rlt_dec w 0 then - n else n).
    assert (Sn : Rabs w * n = w * n' /\ n' * n' = n * n /\ n' <> 0).
    { unfold n'. destruct (Rlt_dec w 0); [rewrite Rabs_left by lra|rewrite Rabs_right by lra]; repeat split; try ring; lra. }
    destruct Sn as (Sa & Sb & Sc).
    assert (NN : n' * n' = x * x + y * y + z * z) by lra. clearbody n'.
    split. { unf. replace (x / n' * (x / n') + y / n' * (y / n') + z / n' * (z / n')) with ((x * x + y * y + z * z) / (n' * n')) by (field; auto). rewrite <- NN. field. auto. }
    unfold rodrigues. rewrite C2, S2. destruct v as [[v0 v1] v2]. replace (2 * n * Rabs w) with (2 * w * n') by lra.
    assert (W : w * w = 1 - n * n) by lra. rewrite W.
    replace (1 - (1 - n * n - n * n)) with (2 * (n' * n')) by lra. replace (1 - n * n - n * n) with (1 - 2 * (n' * n')) by lra.
    unf. eq3; field_simplify; auto; replace (n' ^ 2) with (x * x + y * y + z * z) by (rewrite <- NN; ring); ring.
Qed.

(** In terms of the matrix: with s = (1 + trace) / 4 the squared scalar part. *)
Definition angleOf (s : R) : R := 2 * atan (sqrt ((1 - s) / s)).
Definition factor (s : R) : R := if Rlt_dec s 1 then atan (sqrt ((1 - s) / s)) / (2 * s * sqrt ((1 - s) / s)) else / 2.
Definition scalarOf (m : m3) : R := (1 + trace3 m) / 4.
Lemma scalar_bounds q : unit_quat q -> 0 <= scalarOf (qmat q) <= 1.
Proof. destruct q as [[[w x] y] z]. unfold scalarOf, trace3. unf. nra. Qed.
Lemma rotvec_matrix q : unit_quat q -> trace3 (qmat q) <> -1 ->
  rotvec q = scale3 (factor (scalarOf (qmat q))) (vee (qmat q)) /\
  dot3 (rotvec q) (rotvec q) = angleOf (scalarOf (qmat q)) * angleOf (scalarOf (qmat q)).
Proof.
  destruct q as [[[w x] y] z]. intros U T. assert (Sw : scalarOf (qmat (w, x, y, z)) = w * w).
  { unfold scalarOf, trace3. unf. nra. }
  assert (W : w <> 0). { intros ->. apply T. unfold trace3. unf. nra. } rewrite Sw.
  unfold unit_quat in U. assert (Wp : 0 < w * w) by nra.
  unfold rotvec, angleAxis. set (n := sqrt (x * x + y * y + z * z)).
  assert (N : n * n = x * x + y * y + z * z) by (apply sqrt_sqrt; nra). assert (N0 : 0 <= n) by apply sqrt_pos.
  unfold factor, angleOf. destruct (Req_EM_T n 0) as [E|E].
  - rewrite E in N. assert (x = 0 /\ y = 0 /\ z = 0) as (-> & -> & ->) by (repeat split; nra).
    cbn [fst snd]. replace (w * w) with 1 by lra. replace ((1 - 1) / 1) with 0 by field. rewrite sqrt_0, atan_0.
    split. destruct (Rlt_dec 1 1); [lra|]. unfold vee. unf. eq3; ring. unf. ring.
  - assert (Ra : 0 < Rabs w) by now apply Rabs_pos_lt. assert (RR : Rabs w * Rabs w = w * w) by (rewrite <- Rabs_mult; apply Rabs_right; nra).
    assert (Q : sqrt ((1 - w * w) / (w * w)) = n / Rabs w).
    { replace ((1 - w * w) / (w * w)) with (Rsqr (n / Rabs w)). apply sqrt_Rsqr. apply Rmult_le_pos; [lra|]. left. now apply Rinv_0_lt_compat.
      unfold Rsqr. replace (n / Rabs w * (n / Rabs w)) with (n * n / (Rabs w * Rabs w)) by (field; lra). rewrite RR. f_equal. lra. }
    rewrite Q. destruct (Rlt_dec (w * w) 1) as [H1|H1]; [|exfalso; nra].
    unfold atan2pos. destruct (Rlt_dec 0 (Rabs w)); [|lra]. cbn [fst snd].
    set (at' := atan (n / Rabs w)). set (n' := if Rlt_dec w 0 then - n else n).
    assert (Sn : Rabs w * n = w * n' /\ n' * n' = n * n /\ n' <> 0).
    { unfold n'. destruct (Rlt_dec w 0); [rewrite Rabs_left by lra|rewrite Rabs_right by lra]; repeat split; try ring; lra. }
    destruct Sn as (Sa & Sb & Sc). split.
    + assert (F : at' / (2 * (w * w) * (n / Rabs w)) = at' / (2 * w * n')).
      { replace (2 * (w * w) * (n / Rabs w)) with (2 * (w * w) * (Rabs w * n) / (Rabs w * Rabs w)) by (field; lra).
        rewrite Sa, RR. f_equal. field. auto. }
      rewrite F. unfold vee. unf. eq3; field; auto.
    + unf. match goal with |- ?l = _ => replace l with (4 * (at' * at') * ((x * x + y * y + z * z) / (n' * n'))) by (field; auto) end.
      rewrite Sb, <- N. field. auto.
Qed.

(** ** Derivatives *)
Lemma dplus f g t a b : is_derive f t a -> is_derive g t b -> is_derive (fun s : R => f s + g s : R) t (a + b).
Proof. intros A B. exact (is_derive_plus f g t a b A B). Qed.
Lemma dminus f g t a b : is_derive f t a -> is_derive g t b -> is_derive (fun s : R => f s - g s : R) t (a - b).
Proof. intros A B. exact (is_derive_minus f g t a b A B). Qed.
Lemma dmult f g t a b : is_derive f t a -> is_derive g t b -> is_derive (fun s : R => f s * g s : R) t (a * g t + f t * b).
Proof. intros A B. exact (is_derive_mult f g t a b A B Rmult_comm). Qed.
Lemma dscal c f t a : is_derive f t a -> is_derive (fun s : R => c * f s : R) t (c * a).
Proof. intros A. exact (is_derive_scal f t c a A). Qed.
Lemma dval (f : R -> R) (t d d' : R) : is_derive f t d -> d = d' -> is_derive f t d'.
Proof. now intros H <-. Qed.
Lemma dext (f g : R -> R) (t d : R) : (forall s, f s = g s) -> is_derive f t d -> is_derive g t d.
Proof. intros E H. exact (is_derive_ext f g t d E H). Qed.
Lemma dconst (c t : R) : is_derive (fun _ : R => c) t 0.
Proof. exact (is_derive_const c t). Qed.
Lemma dcont f t a : is_derive f t a -> continuous (fun s : R => f s : R) t.
Proof. intros H. apply (ex_derive_continuous f). now exists a. Qed.
(** A product with a factor that vanishes: continuity of the other factor is enough. *)
Lemma dvanish (f g : R -> R) (t b : R) : continuous f t -> is_derive g t b -> g t = 0 -> is_derive (fun s : R => f s * g s) t (f t * b).
Proof.
  intros Cf Dg G0. apply is_derive_Reals. apply is_derive_Reals in Dg. apply continuity_pt_filterlim in Cf.
  unfold derivable_pt_lim in *. intros eps He.
  set (K := Rabs (f t) + 1). assert (HK : 0 < K) by (unfold K; pose proof (Rabs_pos (f t)); lra).
  destruct (Dg (eps / (2 * K))) as (d1 & H1). { apply Rdiv_lt_0_compat; lra. }
  set (B := Rabs b + 1). assert (HB : 0 < B) by (unfold B; pose proof (Rabs_pos b); lra).
  set (e2 := Rmin 1 (eps / (2 * B))). assert (He2 : 0 < e2). { unfold e2. apply Rmin_pos; [lra|]. apply Rdiv_lt_0_compat; lra. }
  destruct (Cf e2 He2) as (d2 & D2 & H2).
  assert (Hm : 0 < Rmin d1 d2) by (apply Rmin_pos; [apply cond_pos|exact D2]).
  exists (mkposreal _ Hm). intros h Hh Hl. cbn in Hl.
  assert (L1 : Rabs h < d1) by (eapply Rlt_le_trans; [exact Hl|apply Rmin_l]). assert (L2 : Rabs h < d2) by (eapply Rlt_le_trans; [exact Hl|apply Rmin_r]).
  specialize (H1 h Hh L1). rewrite G0 in *. rewrite Rminus_0_r in H1.
  assert (H3 : Rabs (f (t + h) - f t) < e2).
  { apply (H2 (t + h)). split. split; [exact I|]. intros E. apply Hh. lra. cbn. unfold R_dist. replace (t + h - t) with h by ring. exact L2. }
  replace ((f (t + h) * g (t + h) - f t * 0) / h - f t * b) with (f (t + h) * (g (t + h) / h - b) + (f (t + h) - f t) * b) by (field; auto).
  eapply Rle_lt_trans; [apply Rabs_triang|]. rewrite !Rabs_mult.
  assert (F : Rabs (f (t + h)) < K). { unfold K. assert (e2 <= 1) by apply Rmin_l. replace (f (t + h)) with (f t + (f (t + h) - f t)) by ring. eapply Rle_lt_trans; [apply Rabs_triang|]. lra. }
  assert (P1 : Rabs (f (t + h)) * Rabs (g (t + h) / h - b) <= K * (eps / (2 * K))).
  { apply Rmult_le_compat; try apply Rabs_pos; lra. }
  assert (P2 : Rabs (f (t + h) - f t) * Rabs b < eps / (2 * B) * B).
  { assert (e2 <= eps / (2 * B)) by apply Rmin_r. apply Rle_lt_trans with (eps / (2 * B) * Rabs b).
    apply Rmult_le_compat_r; [apply Rabs_pos|lra]. apply Rmult_lt_compat_l; [apply Rdiv_lt_0_compat; lra|unfold B; lra]. }
  replace (K * (eps / (2 * K))) with (eps / 2) in P1 by (field; lra). replace (eps / (2 * B) * B) with (eps / 2) in P2 by (field; lra). lra.
Qed.
Lemma dangle s : 0 < s < 1 -> is_derive angleOf s (- / (s * sqrt ((1 - s) / s))).
Proof.
  intros H. unfold angleOf. assert (P : 0 < (1 - s) / s) by (apply Rdiv_lt_0_compat; lra).
  auto_derive. { repeat split; try lra. }
  unfold Rdiv, Rminus in P. replace (sqrt ((1 - s) / s)) with (sqrt ((1 + - s) * / s)) by reflexivity. 
  set (u := sqrt ((1 + - s) * / s)). assert (U : u * u = (1 - s) / s) by (unfold u; rewrite sqrt_sqrt; [reflexivity|lra]).
  assert (U0 : 0 < u) by (now apply sqrt_lt_R0). unfold Rsqr. rewrite ?Rmult_1_r.
  match goal with |- context [1 + ?v] => idtac end.
  replace (1 + u * u) with (/ s) by (rewrite U; field; lra). field. lra.
Qed.
Lemma atan_between u : 0 < u -> u / (1 + u * u) <= atan u <= u.
Proof.
  intros H. destruct (MVT_gen atan 0 u (fun x => / (1 + x * x))) as (c & (C1 & C2) & E).
  - intros x _. apply is_derive_Reals. pose proof (derivable_pt_lim_atan x) as D. replace (x * x) with (x ^ 2) by ring. exact D.
  - intros x _. apply derivable_continuous_pt. apply derivable_pt_atan.
  - rewrite Rmin_left in C1 by lra. rewrite Rmax_right in C2 by lra. rewrite atan_0 in E. rewrite !Rminus_0_r in E. rewrite E.
    assert (0 < 1 + c * c) by nra. assert (0 < 1 + u * u) by nra.
    assert (A : / (1 + u * u) <= / (1 + c * c)) by (apply Rinv_le_contravar; nra).
    assert (B : / (1 + c * c) <= / 1) by (apply Rinv_le_contravar; nra). rewrite Rinv_1 in B. unfold Rdiv. split; nra.
Qed.
Lemma factor_bounds s : 0 < s <= 1 -> / 2 <= factor s <= / (2 * s).
Proof.
  intros H. unfold factor. destruct (Rlt_dec s 1) as [L|L].
  - set (u := sqrt ((1 - s) / s)). assert (P : 0 < (1 - s) / s) by (apply Rdiv_lt_0_compat; lra).
    assert (U0 : 0 < u) by now apply sqrt_lt_R0. assert (U : u * u = (1 - s) / s) by (apply sqrt_sqrt; lra).
    destruct (atan_between u U0) as (A & B). replace (1 + u * u) with (/ s) in A by (rewrite U; field; lra).
    replace (u / / s) with (u * s) in A by (field; lra).
    assert (Z : 0 < / (2 * s * u)) by (apply Rinv_0_lt_compat; nra). unfold Rdiv. split.
    + replace (/ 2) with (u * s * / (2 * s * u)) by (field; lra). nra.
    + replace (/ (2 * s)) with (u * / (2 * s * u)) by (field; lra). nra.
  - replace s with 1 by lra. lra.
Qed.
Lemma factor_continuous (f : R -> R) t : continuous f t -> (forall s, 0 <= f s <= 1) -> f t = 1 -> continuous (fun s => factor (f s)) t.
Proof.
  intros C B F. apply continuity_pt_filterlim in C. apply continuity_pt_filterlim. unfold continuity_pt, continue_in, limit1_in, limit_in in *.
  rewrite F in *. intros eps He. destruct (C (Rmin (/ 2) (eps / 2))) as (d & D & H). { apply Rmin_pos; lra. }
  exists d. split; [exact D|]. intros x Hx. specialize (H x Hx). cbn in *. unfold R_dist in *. replace (factor 1) with (/ 2).
  2: { unfold factor. destruct (Rlt_dec 1 1); [lra|reflexivity]. }
  specialize (B x). assert (L1 : Rmin (/ 2) (eps / 2) <= / 2) by apply Rmin_l. assert (L2 : Rmin (/ 2) (eps / 2) <= eps / 2) by apply Rmin_r.
  rewrite Rabs_left1 in H by lra. assert (S : / 2 < f x) by lra.
  destruct (factor_bounds (f x)) as (A1 & A2); [lra|]. rewrite Rabs_right by lra.
  assert (E : / (2 * f x) - / 2 = (1 - f x) / (2 * f x)) by (field; lra).
  assert ((1 - f x) / (2 * f x) <= (1 - f x)). { unfold Rdiv. rewrite <- (Rmult_1_r (1 - f x)) at 2. apply Rmult_le_compat_l; [lra|]. rewrite <- Rinv_1. apply Rinv_le_contravar; lra. }
  lra.
Qed.

(** A body that turns with angular velocity omega, in the frame in which its rotation M is given. *)
Definition turns (M : R -> m3) (t : R) (omega : vec3) : Prop := forall v, derive3 (fun s => mulv (M s) v) t (cross3 omega (mulv (M t) v)).
Lemma turns_mul M t omega N : turns M t omega -> turns (fun s => mulm (M s) N) t omega.
Proof.
  intros H v. specialize (H (mulv N v)). rewrite mulv_mulm. destruct H as (A & B & C).
  split; [|split]; (eapply dext; [|eassumption]); intros s; cbn beta; now rewrite mulv_mulm.
Qed.
Lemma turns_trace M t omega : turns M t omega -> is_derive (fun s => trace3 (M s)) t (- dot3 omega (vee (M t))).
Proof.
  intros H. destruct (H (1, 0, 0)) as (A & _). destruct (H (0, 1, 0)) as (_ & B & _). destruct (H (0, 0, 1)) as (_ & _ & C).
  eapply dval. eapply dext; [|exact (dplus _ _ _ _ _ (dplus _ _ _ _ _ A B) C)].
  - intros s. cbn beta. destruct (M s) as [[[[? ?] ?] [[? ?] ?]] [[? ?] ?]]. unfold trace3. unf. ring.
  - destruct (M t) as [[[[? ?] ?] [[? ?] ?]] [[? ?] ?]], omega as [[? ?] ?]. unfold vee. unf. ring.
Qed.
Lemma turns_vee M t omega : turns M t omega -> M t = i3 -> derive3 (fun s => vee (M s)) t (scale3 2 omega).
Proof.
  intros H E. destruct (H (1, 0, 0)) as (A0 & A1 & A2). destruct (H (0, 1, 0)) as (B0 & B1 & B2). destruct (H (0, 0, 1)) as (C0 & C1 & C2).
  rewrite E in *. split; [|split].
  - eapply dval. eapply dext; [|exact (dminus _ _ _ _ _ B2 C1)].
    + intros s. cbn beta. destruct (M s) as [[[[? ?] ?] [[? ?] ?]] [[? ?] ?]]. unfold vee. unf. ring.
    + destruct omega as [[? ?] ?]. unfold i3. unf. ring.
  - eapply dval. eapply dext; [|exact (dminus _ _ _ _ _ C0 A2)].
    + intros s. cbn beta. destruct (M s) as [[[[? ?] ?] [[? ?] ?]] [[? ?] ?]]. unfold vee. unf. ring.
    + destruct omega as [[? ?] ?]. unfold i3. unf. ring.
  - eapply dval. eapply dext; [|exact (dminus _ _ _ _ _ A1 B0)].
    + intros s. cbn beta. destruct (M s) as [[[[? ?] ?] [[? ?] ?]] [[? ?] ?]]. unfold vee. unf. ring.
    + destruct omega as [[? ?] ?]. unfold i3. unf. ring.
Qed.
Lemma trace_neighbourhood M t omega : turns M t omega -> trace3 (M t) <> -1 -> locally t (fun s => trace3 (M s) <> -1).
Proof.
  intros H T. pose proof (dcont _ _ _ (turns_trace M t omega H)) as C.
  assert (O : open (fun y : R => y <> -1)) by apply open_neq. apply (C (fun y => y <> -1)). apply O. exact T.
Qed.

Section Motion.
Variables (q : R -> quat) (t : R) (omega : vec3).
Hypothesis Uq : forall s, unit_quat (q s).
Hypothesis Hturn : turns (fun s => qmat (q s)) t omega.
Hypothesis Htr : trace3 (qmat (q t)) <> -1.

Lemma scalar_derive : is_derive (fun s => scalarOf (qmat (q s))) t (- dot3 omega (vee (qmat (q t))) / 4).
Proof.
  unfold scalarOf. pose proof (turns_trace _ _ _ Hturn) as D. cbn beta in D.
  eapply dval. eapply dext; [|exact (dscal (/ 4) _ _ _ (dplus _ _ _ _ _ (dconst 1 t) D))]. intros s; cbn beta; field. field.
Qed.
(** Half the squared angle changes at the rate omega . phi. *)
Lemma rotvec_sq_interior : scalarOf (qmat (q t)) < 1 ->
  is_derive (fun s => / 2 * dot3 (rotvec (q s)) (rotvec (q s))) t (dot3 omega (rotvec (q t))).
Proof.
  intros Hs. assert (S0 : 0 < scalarOf (qmat (q t)) < 1).
  { pose proof (scalar_bounds (q t) (Uq t)). split; [|lra]. destruct (Req_EM_T (scalarOf (qmat (q t))) 0) as [E|E]; [|lra]. exfalso. apply Htr. unfold scalarOf in E. lra. }
  apply (is_derive_ext_loc (fun s => / 2 * (angleOf (scalarOf (qmat (q s))) * angleOf (scalarOf (qmat (q s)))))).
  { generalize (trace_neighbourhood _ _ _ Hturn Htr). apply filter_imp. intros s Hx. now rewrite (proj2 (rotvec_matrix (q s) (Uq s) Hx)). }
  pose proof (is_derive_comp angleOf (fun s => scalarOf (qmat (q s))) t _ _ (dangle _ S0) scalar_derive) as D.
  eapply dval. apply dscal. apply (dmult _ _ _ _ _ D D).
  rewrite (proj1 (rotvec_matrix (q t) (Uq t) Htr)). unfold factor. destruct (Rlt_dec _ 1) as [_|?]; [|lra].
  set (s := scalarOf (qmat (q t))) in *. unfold angleOf. set (u := sqrt ((1 - s) / s)).
  assert (U0 : 0 < u). { apply sqrt_lt_R0. apply Rdiv_lt_0_compat; lra. }
  unfold scal. cbn. unfold mult. cbn. set (V := vee _). replace (dot3 omega (scale3 (atan u / (2 * s * u)) V)) with (atan u / (2 * s * u) * dot3 omega V).
  2: { destruct V as [[? ?] ?], omega as [[? ?] ?]. unf. ring. }
  field. lra.
Qed.
(** At the identity the rotation vector changes with omega. *)
Lemma identity_of_scalar p : unit_quat p -> scalarOf (qmat p) = 1 -> qmat p = i3 /\ rotvec p = zero3.
Proof.
  destruct p as [[[w x] y] z]. unfold unit_quat. intros U H.
  assert (W : w * w = 1) by (unfold scalarOf, trace3 in H; unf; nra). assert (x = 0 /\ y = 0 /\ z = 0) as (-> & -> & ->) by (repeat split; nra).
  split. unfold i3. unf. eq9; ring. unfold rotvec, angleAxis. replace (0 * 0 + 0 * 0 + 0 * 0) with 0 by ring. rewrite sqrt_0. destruct (Req_EM_T 0 0); [|lra]. unf. eq3; ring.
Qed.
Lemma rotvec_identity : scalarOf (qmat (q t)) = 1 -> derive3 (fun s => rotvec (q s)) t omega.
Proof.
  intros Hs. destruct (identity_of_scalar _ (Uq t) Hs) as (Hi & Hz).
  pose proof (turns_vee _ _ _ Hturn Hi) as (V0 & V1 & V2).
  assert (F1 : factor 1 = / 2) by (unfold factor; destruct (Rlt_dec 1 1); [lra|reflexivity]).
  pose proof (factor_continuous _ _ (dcont _ _ _ scalar_derive) (fun s => scalar_bounds (q s) (Uq s)) Hs) as CF.
  assert (Loc : forall part : vec3 -> R, (forall c v, part (scale3 c v) = c * part v) ->
    is_derive (fun s => part (vee (qmat (q s)))) t (part (scale3 2 omega)) -> part (vee (qmat (q t))) = 0 -> is_derive (fun s => part (rotvec (q s))) t (part omega)).
  { intros part Hp D Z.
    apply (is_derive_ext_loc (fun s => factor (scalarOf (qmat (q s))) * part (vee (qmat (q s))))).
    { generalize (trace_neighbourhood _ _ _ Hturn Htr). apply filter_imp. intros s Hx. now rewrite (proj1 (rotvec_matrix (q s) (Uq s) Hx)), Hp. }
    eapply dval. apply (dvanish (fun s => factor (scalarOf (qmat (q s)))) _ _ _ CF D Z). rewrite Hs, F1, Hp. field. }
  rewrite Hi in Loc. split; [|split]; (apply (Loc _); [intros c [[? ?] ?]; reflexivity|assumption|unfold vee, i3, vx, vy, vz; cbn; ring]).
Qed.
Lemma rotvec_sq : is_derive (fun s => / 2 * dot3 (rotvec (q s)) (rotvec (q s))) t (dot3 omega (rotvec (q t))).
Proof.
  pose proof (scalar_bounds (q t) (Uq t)) as B. destruct (Req_EM_T (scalarOf (qmat (q t))) 1) as [E|E]; [|apply rotvec_sq_interior; lra].
  destruct (rotvec_identity E) as (A & B' & C). destruct (identity_of_scalar _ (Uq t) E) as (_ & Z).
  eapply dval. unfold dot3. apply dscal. apply dplus; [apply dplus|]; (apply dmult; eassumption). cbn beta. rewrite Z. unf. destruct omega as [[? ?] ?]. unf. ring.
Qed.
End Motion.
