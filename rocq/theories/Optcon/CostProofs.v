From Coq Require Import Reals String List Bool Arith Lia Lra FunctionalExtensionality.
From Coquelicot Require Import Coquelicot.
From Verif Require Import Base.Outcome Base.RVec Core.ActivationModel
  Optcon.CostModel Optcon.CostSpec.
Import ListNotations.
Local Open Scope R_scope.

Lemma derive_poly (f : R -> R) a b c :
  (forall s, f s = a + s * b + s * s * c) -> is_derive f 0 b.
Proof.
  intros H. apply (is_derive_ext (fun s => a + s * b + s * s * c)).
  - intros s. now rewrite H.
  - auto_derive; [trivial|ring].
Qed.

Lemma derive_const (f : R -> R) a b : (forall s, f s = a) -> b = 0 -> is_derive f 0 b.
Proof. intros H ->. apply (derive_poly f a 0 0). intros s; rewrite H; ring. Qed.

Lemma derive_rsum n (f : nat -> R -> R) (v : nat -> R) s0 :
  (forall i, (i < n)%nat -> is_derive (f i) s0 (v i)) ->
  is_derive (fun s => rsum n (fun i => f i s)) s0 (rsum n v).
Proof.
  induction n as [|n IH]; intros H; simpl.
  - apply (is_derive_const 0 s0).
  - apply (is_derive_plus (fun s => rsum n (fun i => f i s)) (f n)); auto.
Qed.

Lemma rquad_rvm n A x y : rquad n A x y = rdot n (rvm n x A) y.
Proof.
  unfold rquad, rdot, rmv, rvm.
  rewrite (rsum_ext n _ (fun i => rsum n (fun j => x i * A i j * y j))).
  - rewrite rsum_swap. apply rsum_ext; intros j _. now rewrite rsum_scal_r.
  - intros i _. rewrite <- rsum_scal. apply rsum_ext; intros; ring.
Qed.

Lemma rdot_add_l n a b c : rdot n (radd a b) c = rdot n a c + rdot n b c.
Proof. rewrite !(rdot_comm n _ c). apply rdot_add_r. Qed.

Definition sgrad (n : nat) (Q : rmat) (d : rvec) : rvec := radd (rvm n d (rtr Q)) (rvm n d Q).

Lemma sgrad_dot n Q x d : rquad n Q x d + rquad n Q d x = rdot n (sgrad n Q x) d.
Proof.
  unfold sgrad. rewrite rdot_add_l, <- !rquad_rvm, (rquad_tr n Q d x). ring.
Qed.

(** Along a line, with the reference subtracted. *)
Lemma quad_line n Q x r d s :
  rquad n Q (rsubv (fun i => x i + s * d i) r) (rsubv (fun i => x i + s * d i) r) =
  rquad n Q (rsubv x r) (rsubv x r) + s * rdot n (sgrad n Q (rsubv x r)) d
  + s * s * rquad n Q d d.
Proof.
  rewrite <- sgrad_dot, <- (rquad_line n Q (rsubv x r) d s).
  apply rquad_ext; intros i _; unfold rsubv, radd, rscal; ring.
Qed.

Lemma quad_line0 n Q x d s :
  rquad n Q (fun i => x i + s * d i) (fun i => x i + s * d i) =
  rquad n Q x x + s * rdot n (sgrad n Q x) d + s * s * rquad n Q d d.
Proof.
  rewrite <- sgrad_dot, <- (rquad_line n Q x d s).
  apply rquad_ext; intros i _; unfold radd, rscal; ring.
Qed.

Lemma sgrad_line n Q x r d s i :
  sgrad n Q (rsubv (fun i => x i + s * d i) r) i =
  sgrad n Q (rsubv x r) i + s * rdot n (raddm Q (rtr Q) i) d.
Proof.
  unfold sgrad, radd, rvm, rdot, raddm, rtr, rsubv.
  rewrite <- rsum_scal, <- !rsum_plus.
  apply rsum_ext; intros j _. ring.
Qed.

Lemma sgrad_line0 n Q x d s i :
  sgrad n Q (fun i => x i + s * d i) i = sgrad n Q x i + s * rdot n (raddm Q (rtr Q) i) d.
Proof.
  unfold sgrad, radd, rvm, rdot, raddm, rtr.
  rewrite <- rsum_scal, <- !rsum_plus.
  apply rsum_ext; intros j _. ring.
Qed.

Lemma dot_line n a x d s : rdot n a (fun i => x i + s * d i) = rdot n a x + s * rdot n a d.
Proof.
  unfold rdot. rewrite <- rsum_scal, <- rsum_plus. apply rsum_ext; intros; ring.
Qed.

Lemma dot_line_ref n a x r d s :
  rdot n a (rsubv (fun i => x i + s * d i) r) = rdot n a (rsubv x r) + s * rdot n a d.
Proof.
  unfold rdot. rewrite <- rsum_scal, <- rsum_plus. apply rsum_ext; intros; unfold rsubv; ring.
Qed.

Lemma dot_zero n d : rsum n (fun i => mzero i i * d i) = 0.
Proof. rewrite <- (rsum_zero n). apply rsum_ext; intros; unfold mzero; ring. Qed.

Lemma row_zero n j d : rsum n (fun i => mzero j i * d i) = 0.
Proof. rewrite <- (rsum_zero n). apply rsum_ext; intros; unfold mzero; ring. Qed.

Lemma rdot_scaled n a r d : rdot n (fun i => a i * r) d = r * rdot n a d.
Proof. unfold rdot. rewrite <- rsum_scal. apply rsum_ext; intros; ring. Qed.

(** (P u)'s transpose: (P' v).d = v'(P d), m rows, n columns. *)
Lemma mixed_tr m n P v d : rdot n (rmv m (rtr P) v) d = rdot m v (rmv n P d).
Proof.
  unfold rdot, rmv, rtr.
  rewrite (rsum_ext n _ (fun i => rsum m (fun j => P j i * v j * d i)))
    by (intros; rewrite <- rsum_scal_r; reflexivity).
  rewrite rsum_swap. apply rsum_ext; intros j _.
  rewrite <- rsum_scal. apply rsum_ext; intros; ring.
Qed.

Lemma rmv_line n P x r d s j :
  rmv n P (rsubv (fun i => x i + s * d i) r) j = rmv n P (rsubv x r) j + s * rdot n (P j) d.
Proof. exact (dot_line_ref n (P j) x r d s). Qed.

Lemma rmv_line_dot m n P v x r d s :
  rdot m v (rmv n P (rsubv (fun i => x i + s * d i) r)) =
  rdot m v (rmv n P (rsubv x r)) + s * rdot m v (rmv n P d).
Proof.
  unfold rdot at 1 2 3. rewrite <- rsum_scal, <- rsum_plus.
  apply rsum_ext; intros j _. rewrite rmv_line. unfold rmv, rdot. ring.
Qed.

Lemma diag_row n v d i : (i < n)%nat -> rsum n (fun j => diag v i j * d j) = v i * d i.
Proof.
  intros Hi. unfold diag.
  rewrite <- (rsum_delta n i (fun j => v j * d j) Hi).
  apply rsum_ext; intros j _. rewrite Nat.eqb_sym.
  destruct (Nat.eqb_spec j i) as [->|]; ring.
Qed.

(** The smoothed absolute value and its two derivatives. *)
Lemma sabs_pos al v : 0 < al -> 0 < v * v + al.
Proof. intros H. pose proof (Rle_0_sqr v). unfold Rsqr in *. lra. Qed.

Lemma sabs_derive al c r x d :
  0 < al ->
  is_derive (fun s => c * sqrt ((x + s * d - r) * (x + s * d - r) + al)) 0
    (c * (x - r) * / sqrt ((x - r) * (x - r) + al) * d).
Proof.
  intros Ha. pose proof (sabs_pos al (x - r) Ha) as Hp.
  auto_derive; replace (x + 0 * d + - r) with (x - r) by ring.
  - exact Hp.
  - field. apply Rgt_not_eq, sqrt_lt_R0, Hp.
Qed.

Lemma rpower_32 y : 0 < y -> Rpower y (- 3 / 2) = / (y * sqrt y).
Proof.
  intros Hy. replace (- 3 / 2) with (- (1 + / 2)) by field.
  rewrite Rpower_Ropp, Rpower_plus, Rpower_1, Rpower_sqrt by assumption. reflexivity.
Qed.

Lemma sabs_derive2 al c r x d :
  0 < al ->
  is_derive
    (fun s => c * (x + s * d - r) * / sqrt ((x + s * d - r) * (x + s * d - r) + al)) 0
    (c * al * Rpower (al + (x - r) * (x - r)) (- 3 / 2) * d).
Proof.
  intros Ha. pose proof (sabs_pos al (x - r) Ha) as Hp.
  rewrite rpower_32 by lra.
  assert (Hs : 0 < sqrt ((x - r) * (x - r) + al)) by (apply sqrt_lt_R0, Hp).
  auto_derive; replace (x + 0 * d + - r) with (x - r) by ring.
  - split; [exact Hp|]. split; [apply Rgt_not_eq, Hs|trivial].
  - rewrite (Rplus_comm al).
    pose proof (sqrt_sqrt _ (Rlt_le _ _ Hp)) as E.
    set (q := sqrt ((x - r) * (x - r) + al)) in *.
    set (y := (x - r) * (x - r) + al) in *.
    assert (Ey : (x - r) * (x - r) = y - al) by (unfold y; ring).
    rewrite <- E. rewrite <- E in Ey.
    set (v := x - r) in *. clearbody v. clear E. clearbody q.
    clearbody y. field_simplify_eq; [|lra].
    replace (v ^ 2) with (q * q - al) by (rewrite <- Ey; ring). ring.
Qed.

(** ** Derivatives of each term *)

(** The value of a term, 0 where evaluation does not succeed. *)
Definition value_of (n m : nat) (k : kind) (t : R) (x u : rvec) : R :=
  match evaluate n m k x u t with Ok v => v | _ => 0 end.

(** The smoothed absolute value is differentiable for a non-zero smoothing parameter. *)
Definition smooth (k : kind) : Prop :=
  match k with SmoothAbs _ _ _ _ al => 0 < al | _ => True end.

Ltac inv_ok := repeat match goal with
  | H : Ok ?a = Ok ?b |- _ => let E := fresh in
      assert (E : a = b) by (now injection H); clear H; subst b
  end.

Lemma kind_derivatives n m k x u t gx Hxx gu Huu Hux :
  smooth k ->
  stateDerivative n m k x u t = Ok gx -> stateSecondDerivative m k x u t = Ok Hxx ->
  controlDerivative n m k x u t = Ok gu -> controlSecondDerivative n k x u t = Ok Huu ->
  stateControlDerivative n m k x u t = Ok Hux ->
  derivatives n m (value_of n m k t) x u gx Hxx gu Huu Hux.
Proof.
  intros Hs E1 E2 E3 E4 E5.
  exists (fun x u => match stateDerivative n m k x u t with Ok g => g | _ => rzero end).
  exists (fun x u => match controlDerivative n m k x u t with Ok g => g | _ => rzero end).
  unfold value_of.
  destruct k as [Q W xr ur|Q W xr ur|P xr ur|a b c|a xr b ur al|Q W xt ut tr|ub lb al bs];
    cbn [evaluate stateDerivative stateSecondDerivative controlDerivative
         controlSecondDerivative stateControlDerivative smooth] in *; cbv zeta in *;
    try discriminate E1; inv_ok.
  - (* Quadratic *)
    split; [|split; [|split; [|split; [|split; [|split]]]]]; try reflexivity.
    + intros x0 u0 d. eapply derive_poly; intros s. rewrite quad_line.
      fold (sgrad n Q (rsubv x0 xr)). fold (rdot n (sgrad n Q (rsubv x0 xr)) d).
      instantiate (1 := rquad n Q d d).
      instantiate (1 := rquad n Q (rsubv x0 xr) (rsubv x0 xr) +
                        rquad m W (rsubv u0 ur) (rsubv u0 ur)). ring.
    + intros x0 u0 d. eapply derive_poly; intros s. rewrite quad_line.
      fold (sgrad m W (rsubv u0 ur)). fold (rdot m (sgrad m W (rsubv u0 ur)) d).
      instantiate (1 := rquad m W d d).
      instantiate (1 := rquad n Q (rsubv x0 xr) (rsubv x0 xr) +
                        rquad m W (rsubv u0 ur) (rsubv u0 ur)). ring.
    + intros i Hi d. apply (derive_poly _ (sgrad n Q (rsubv x xr) i) _ 0); intros s.
      fold (sgrad n Q (rsubv (fun i => x i + s * d i) xr)). rewrite sgrad_line.
      unfold rdot. ring.
    + intros i Hi d. apply (derive_poly _ (sgrad m W (rsubv u ur) i) _ 0); intros s.
      fold (sgrad m W (rsubv (fun i => u i + s * d i) ur)). rewrite sgrad_line.
      unfold rdot. ring.
    + intros i Hi d. eapply derive_const; [intros; reflexivity|apply row_zero].
  - (* QuadMult *)
    split; [|split; [|split; [|split; [|split; [|split]]]]]; try reflexivity.
    + intros x0 u0 d. eapply derive_poly; intros s. rewrite quad_line.
      fold (sgrad n Q (rsubv x0 xr)).
      fold (rdot n (fun i => sgrad n Q (rsubv x0 xr) i *
                             rquad m W (rsubv u0 ur) (rsubv u0 ur)) d).
      rewrite rdot_scaled.
      instantiate (1 := rquad n Q d d * rquad m W (rsubv u0 ur) (rsubv u0 ur)).
      instantiate (1 := rquad n Q (rsubv x0 xr) (rsubv x0 xr) *
                        rquad m W (rsubv u0 ur) (rsubv u0 ur)). ring.
    + intros x0 u0 d. eapply derive_poly; intros s. rewrite quad_line.
      fold (sgrad m W (rsubv u0 ur)).
      fold (rdot m (fun i => sgrad m W (rsubv u0 ur) i *
                             rquad n Q (rsubv x0 xr) (rsubv x0 xr)) d).
      rewrite rdot_scaled.
      instantiate (1 := rquad n Q (rsubv x0 xr) (rsubv x0 xr) * rquad m W d d).
      instantiate (1 := rquad n Q (rsubv x0 xr) (rsubv x0 xr) *
                        rquad m W (rsubv u0 ur) (rsubv u0 ur)). ring.
    + intros i Hi d.
      apply (derive_poly _ (sgrad n Q (rsubv x xr) i * rquad m W (rsubv u ur) (rsubv u ur)) _ 0);
        intros s.
      fold (sgrad n Q (rsubv (fun i => x i + s * d i) xr)). rewrite sgrad_line.
      fold (rdot n (fun j => raddm Q (rtr Q) i j * rquad m W (rsubv u ur) (rsubv u ur)) d).
      rewrite rdot_scaled. ring.
    + intros i Hi d.
      apply (derive_poly _ (sgrad m W (rsubv u ur) i * rquad n Q (rsubv x xr) (rsubv x xr)) _ 0);
        intros s.
      fold (sgrad m W (rsubv (fun i => u i + s * d i) ur)). rewrite sgrad_line.
      fold (rdot m (fun j => raddm W (rtr W) i j * rquad n Q (rsubv x xr) (rsubv x xr)) d).
      rewrite rdot_scaled. ring.
    + intros i Hi d. eapply derive_poly; intros s. rewrite quad_line.
      fold (sgrad m W (rsubv u ur)). fold (sgrad n Q (rsubv x xr)).
      rewrite (rsum_ext n (fun j => sgrad m W (rsubv u ur) i * sgrad n Q (rsubv x xr) j * d j)
                (fun j => sgrad m W (rsubv u ur) i * (sgrad n Q (rsubv x xr) j * d j)))
        by (intros; ring).
      rewrite rsum_scal. fold (rdot n (sgrad n Q (rsubv x xr)) d).
      instantiate (1 := sgrad m W (rsubv u ur) i * rquad n Q d d).
      instantiate (1 := sgrad m W (rsubv u ur) i * rquad n Q (rsubv x xr) (rsubv x xr)). ring.
  - (* Mixed *)
    split; [|split; [|split; [|split; [|split; [|split]]]]]; try reflexivity.
    + intros x0 u0 d. apply (derive_poly _ (rdot m (rsubv u0 ur) (rmv n P (rsubv x0 xr))) _ 0);
        intros s.
      rewrite rmv_line_dot. fold (rdot n (rmv m (rtr P) (rsubv u0 ur)) d).
      rewrite mixed_tr. ring.
    + intros x0 u0 d. apply (derive_poly _ (rdot m (rsubv u0 ur) (rmv n P (rsubv x0 xr))) _ 0);
        intros s.
      fold (rdot m (rmv n P (rsubv x0 xr)) d).
      rewrite !(rdot_comm m (rsubv _ ur)), dot_line_ref. ring.
    + intros i Hi d. eapply derive_const; [intros; reflexivity|apply row_zero].
    + intros i Hi d. eapply derive_const; [intros; reflexivity|apply row_zero].
    + intros i Hi d. apply (derive_poly _ (rmv n P (rsubv x xr) i) _ 0); intros s.
      rewrite rmv_line. unfold rdot. ring.
  - (* Linear *)
    split; [|split; [|split; [|split; [|split; [|split]]]]]; try reflexivity.
    + intros x0 u0 d. apply (derive_poly _ (rdot n a x0 + rdot m b u0 + c) _ 0); intros s.
      rewrite dot_line. unfold rdot. ring.
    + intros x0 u0 d. apply (derive_poly _ (rdot n a x0 + rdot m b u0 + c) _ 0); intros s.
      rewrite dot_line. unfold rdot. ring.
    + intros i Hi d. eapply derive_const; [intros; reflexivity|apply row_zero].
    + intros i Hi d. eapply derive_const; [intros; reflexivity|apply row_zero].
    + intros i Hi d. eapply derive_const; [intros; reflexivity|apply row_zero].
  - (* SmoothAbs *)
    split; [|split; [|split; [|split; [|split; [|split]]]]]; try reflexivity.
    + intros x0 u0 d.
      apply (is_derive_ext (fun s =>
        rdot m b (fun i => sqrt ((u0 i - ur i) * (u0 i - ur i) + al)) +
        rsum n (fun i => a i * sqrt ((x0 i + s * d i - xr i) * (x0 i + s * d i - xr i) + al)))).
      { intros s. unfold rdot. rewrite Rplus_comm. reflexivity. }
      match goal with |- is_derive _ _ ?v => replace v with (0 + v) by ring end.
      refine (is_derive_plus (fun _ => _) (fun s => rsum n _) _ _ _ _ _).
      * apply (is_derive_const (V := R_NormedModule)).
      * apply derive_rsum. intros i _. apply sabs_derive, Hs.
    + intros x0 u0 d.
      match goal with |- is_derive _ _ ?v => replace v with (0 + v) by ring end.
      refine (is_derive_plus (fun _ => _)
        (fun s => rsum m (fun i => b i * sqrt ((u0 i + s * d i - ur i) *
                                               (u0 i + s * d i - ur i) + al))) _ _ _ _ _).
      * apply (is_derive_const (V := R_NormedModule)).
      * apply derive_rsum. intros i _. apply sabs_derive, Hs.
    + intros i Hi d. rewrite (diag_row n _ d i Hi). apply sabs_derive2, Hs.
    + intros i Hi d. rewrite (diag_row m _ d i Hi). apply sabs_derive2, Hs.
    + intros i Hi d. eapply derive_const; [intros; reflexivity|apply row_zero].
  - (* Tracking *)
    split; [|split; [|split; [|split; [|split; [|split]]]]]; try reflexivity.
    + intros x0 u0 d. eapply derive_poly; intros s. rewrite quad_line.
      fold (sgrad n Q (rsubv x0 (xt t))). fold (rdot n (sgrad n Q (rsubv x0 (xt t))) d).
      instantiate (1 := rquad n Q d d).
      instantiate (1 := rquad n Q (rsubv x0 (xt t)) (rsubv x0 (xt t)) +
                        (if tr then rquad m W (rsubv u0 (ut t)) (rsubv u0 (ut t))
                         else rquad m W u0 u0)). destruct tr; ring.
    + intros x0 u0 d. destruct tr; eapply derive_poly; intros s.
      * rewrite quad_line.
        fold (sgrad m W (rsubv u0 (ut t))). fold (rdot m (sgrad m W (rsubv u0 (ut t))) d).
        instantiate (1 := rquad m W d d).
        instantiate (1 := rquad n Q (rsubv x0 (xt t)) (rsubv x0 (xt t)) +
                          rquad m W (rsubv u0 (ut t)) (rsubv u0 (ut t))). ring.
      * rewrite quad_line0. fold (sgrad m W u0). fold (rdot m (sgrad m W u0) d).
        instantiate (1 := rquad m W d d).
        instantiate (1 := rquad n Q (rsubv x0 (xt t)) (rsubv x0 (xt t)) + rquad m W u0 u0). ring.
    + intros i Hi d. apply (derive_poly _ (sgrad n Q (rsubv x (xt t)) i) _ 0); intros s.
      fold (sgrad n Q (rsubv (fun i => x i + s * d i) (xt t))). rewrite sgrad_line.
      unfold rdot. ring.
    + intros i Hi d. destruct tr.
      * apply (derive_poly _ (sgrad m W (rsubv u (ut t)) i) _ 0); intros s.
        fold (sgrad m W (rsubv (fun i => u i + s * d i) (ut t))). rewrite sgrad_line.
        unfold rdot. ring.
      * apply (derive_poly _ (sgrad m W u i) _ 0); intros s.
        fold (sgrad m W (fun i => u i + s * d i)). rewrite sgrad_line0.
        unfold rdot. ring.
    + intros i Hi d. eapply derive_const; [intros; reflexivity|apply row_zero].
Qed.

(** ** Sums of terms *)

Lemma gradient_plus_scal n f g x a b w :
  gradient n f x a -> gradient n g x b ->
  gradient n (fun x => f x + w * g x) x (radd a (scaleV w b)).
Proof.
  intros Hf Hg d.
  rewrite (rsum_ext n _ (fun i => a i * d i + w * (b i * d i)))
    by (intros; unfold radd, scaleV; ring).
  rewrite rsum_plus, rsum_scal.
  refine (is_derive_plus (fun s => f (fun i => x i + s * d i))
            (fun s => w * g (fun i => x i + s * d i)) 0 _ _ (Hf d) _).
  apply (is_derive_scal (fun s => g (fun i => x i + s * d i)) 0 w), Hg.
Qed.

Lemma derivatives_plus_scal n m f g x u w a A b B C a' A' b' B' C' :
  derivatives n m f x u a A b B C -> derivatives n m g x u a' A' b' B' C' ->
  derivatives n m (fun x u => f x u + w * g x u) x u
    (radd a (scaleV w a')) (raddm A (scaleM w A')) (radd b (scaleV w b'))
    (raddm B (scaleM w B')) (raddm C (scaleM w C')).
Proof.
  intros (Gx & Gu & H1 & H2 & H3 & H4 & H5 & H6 & H7)
         (Gx' & Gu' & H1' & H2' & H3' & H4' & H5' & H6' & H7').
  exists (fun x u => radd (Gx x u) (scaleV w (Gx' x u))).
  exists (fun x u => radd (Gu x u) (scaleV w (Gu' x u))).
  split; [|split; [|split; [|split; [|split; [|split]]]]].
  - intros x0 u0. apply (gradient_plus_scal n (fun x => f x u0) (fun x => g x u0)); auto.
  - intros x0 u0. apply (gradient_plus_scal m (fun u => f x0 u) (fun u => g x0 u)); auto.
  - now rewrite H3, H3'.
  - now rewrite H4, H4'.
  - intros i Hi. apply (gradient_plus_scal n (fun x => Gx x u i) (fun x => Gx' x u i)); auto.
  - intros i Hi. apply (gradient_plus_scal m (fun u => Gu x u i) (fun u => Gu' x u i)); auto.
  - intros i Hi. apply (gradient_plus_scal n (fun x => Gu x u i) (fun x => Gu' x u i)); auto.
Qed.

Lemma gradient_zero n x : gradient n (fun _ => 0) x rzero.
Proof.
  intros d. eapply derive_const; [intros; reflexivity|].
  rewrite <- (rsum_zero n). apply rsum_ext; intros; unfold rzero; ring.
Qed.

Lemma derivatives_zero n m x u :
  derivatives n m (fun _ _ => 0) x u rzero mzero rzero mzero mzero.
Proof.
  exists (fun _ _ => rzero), (fun _ _ => rzero).
  split; [|split; [|split; [|split; [|split; [|split]]]]]; try reflexivity; intros;
    intros; try apply gradient_zero; intros ? ?; apply gradient_zero.
Qed.

Lemma derivatives_ext n m f g x u a A b B C :
  (forall x u, f x u = g x u) -> derivatives n m f x u a A b B C ->
  derivatives n m g x u a A b B C.
Proof.
  intros H. replace g with f; [auto|].
  apply functional_extensionality; intros x0. apply functional_extensionality; intros u0. apply H.
Qed.

(** The terms a list of pointers refers to. *)
Definition resolved (h : heap) (ps : list nat) (tms : list term) : Prop :=
  Forall2 (fun p tm => vec_get h p = Ok tm) ps tms.

Fixpoint sumT {A} (add : A -> A -> A) (w : term -> outcome A) (use : term -> bool)
  (y : A) (l : list term) : outcome A :=
  match l with
  | [] => Ok y
  | tm :: r => if use tm then do v <- w tm ;; sumT add w use (add y v) r
               else sumT add w use y r
  end.

Lemma sumTerms_resolved {A} (add : A -> A -> A) h w use ps tms : resolved h ps tms ->
  forall y, sumTerms add h w use y ps = sumT add w use y tms.
Proof.
  induction 1 as [|p tm ps tms Hp Hr IH]; intros y; simpl; [reflexivity|].
  rewrite Hp; simpl. destruct (use tm); [|apply IH].
  destruct (w tm); simpl; [apply IH|reflexivity|reflexivity].
Qed.

(** Sum of weight times value over the active terms. *)
Definition weighted_cost (n m : nat) (t : R) (tms : list term) (x u : rvec) : R :=
  fold_right Rplus 0
    (map (fun tm => computeActivation (t_act tm) t * value_of n m (t_kind tm) t x u)
         (filter (fun tm => isActive (t_act tm) t) tms)).

Definition plain_cost (n m : nat) (t : R) (tms : list term) (x u : rvec) : R :=
  fold_right Rplus 0 (map (fun tm => value_of n m (t_kind tm) t x u) tms).

Lemma bind_ok {A B} (o : outcome A) (f : A -> outcome B) r :
  obind o f = Ok r -> exists v, o = Ok v /\ f v = Ok r.
Proof. destruct o; simpl; intros H; try discriminate. eauto. Qed.

Section Sums.
Variables n m : nat.

Definition wv (D : kind -> rvec -> rvec -> R -> outcome rvec) (x u : rvec) (t : R) (tm : term) :=
  do v <- D (t_kind tm) x u t ;; Ok (scaleV (computeActivation (t_act tm) t) v).
Definition wm (D : kind -> rvec -> rvec -> R -> outcome rmat) (x u : rvec) (t : R) (tm : term) :=
  do v <- D (t_kind tm) x u t ;; Ok (scaleM (computeActivation (t_act tm) t) v).

Lemma weighted_derivatives x u t tms : forall f a A b B C gx Hxx gu Huu Hux,
  List.Forall (fun tm => smooth (t_kind tm)) tms ->
  derivatives n m f x u a A b B C ->
  let use := fun tm => isActive (t_act tm) t in
  sumT radd (wv (stateDerivative n m) x u t) use a tms = Ok gx ->
  sumT raddm (wm (stateSecondDerivative m) x u t) use A tms = Ok Hxx ->
  sumT radd (wv (controlDerivative n m) x u t) use b tms = Ok gu ->
  sumT raddm (wm (controlSecondDerivative n) x u t) use B tms = Ok Huu ->
  sumT raddm (wm (stateControlDerivative n m) x u t) use C tms = Ok Hux ->
  derivatives n m (fun x u => f x u + weighted_cost n m t tms x u) x u gx Hxx gu Huu Hux.
Proof.
  induction tms as [|tm tms IH]; intros f a A b B C gx Hxx gu Huu Hux Hs Hd use E1 E2 E3 E4 E5;
    cbn [sumT] in *.
  - inv_ok. eapply derivatives_ext; [|exact Hd]. intros. unfold weighted_cost; simpl. ring.
  - inversion Hs as [|? ? Hs1 Hs2]; subst. subst use. cbv beta in *.
    unfold weighted_cost. cbn [filter].
    destruct (isActive (t_act tm) t) eqn:Eact; cbn [map fold_right].
    + apply bind_ok in E1; destruct E1 as (v1 & W1 & E1).
      apply bind_ok in E2; destruct E2 as (v2 & W2 & E2).
      apply bind_ok in E3; destruct E3 as (v3 & W3 & E3).
      apply bind_ok in E4; destruct E4 as (v4 & W4 & E4).
      apply bind_ok in E5; destruct E5 as (v5 & W5 & E5).
      unfold wv in W1, W3. unfold wm in W2, W4, W5.
      apply bind_ok in W1; destruct W1 as (d1 & D1 & W1).
      apply bind_ok in W2; destruct W2 as (d2 & D2 & W2).
      apply bind_ok in W3; destruct W3 as (d3 & D3 & W3).
      apply bind_ok in W4; destruct W4 as (d4 & D4 & W4).
      apply bind_ok in W5; destruct W5 as (d5 & D5 & W5).
      inv_ok.
      pose proof (derivatives_plus_scal n m _ _ x u (computeActivation (t_act tm) t)
        _ _ _ _ _ _ _ _ _ _ Hd
        (kind_derivatives n m (t_kind tm) x u t _ _ _ _ _ Hs1 D1 D2 D3 D4 D5)) as Hd'.
      pose proof (IH _ _ _ _ _ _ _ _ _ _ _ Hs2 Hd' E1 E2 E3 E4 E5) as HH.
      eapply derivatives_ext; [|exact HH]. intros x0 u0. cbv beta. unfold weighted_cost. ring.
    + exact (IH _ _ _ _ _ _ _ _ _ _ _ Hs2 Hd E1 E2 E3 E4 E5).
Qed.

Lemma plain_derivatives x u t tms : forall f a A b B C gx Hxx gu Huu Hux,
  List.Forall (fun tm => smooth (t_kind tm)) tms ->
  derivatives n m f x u a A b B C ->
  let use := fun _ : term => true in
  sumT radd (fun tm => stateDerivative n m (t_kind tm) x u t) use a tms = Ok gx ->
  sumT raddm (fun tm => stateSecondDerivative m (t_kind tm) x u t) use A tms = Ok Hxx ->
  sumT radd (fun tm => controlDerivative n m (t_kind tm) x u t) use b tms = Ok gu ->
  sumT raddm (fun tm => controlSecondDerivative n (t_kind tm) x u t) use B tms = Ok Huu ->
  sumT raddm (fun tm => stateControlDerivative n m (t_kind tm) x u t) use C tms = Ok Hux ->
  derivatives n m (fun x u => f x u + plain_cost n m t tms x u) x u gx Hxx gu Huu Hux.
Proof.
  induction tms as [|tm tms IH]; intros f a A b B C gx Hxx gu Huu Hux Hs Hd use E1 E2 E3 E4 E5;
    cbn [sumT] in *.
  - inv_ok. eapply derivatives_ext; [|exact Hd]. intros. unfold plain_cost; simpl. ring.
  - inversion Hs as [|? ? Hs1 Hs2]; subst. subst use. cbv beta iota in *.
    apply bind_ok in E1; destruct E1 as (v1 & W1 & E1).
    apply bind_ok in E2; destruct E2 as (v2 & W2 & E2).
    apply bind_ok in E3; destruct E3 as (v3 & W3 & E3).
    apply bind_ok in E4; destruct E4 as (v4 & W4 & E4).
    apply bind_ok in E5; destruct E5 as (v5 & W5 & E5).
    pose proof (derivatives_plus_scal n m _ _ x u 1
      _ _ _ _ _ _ _ _ _ _ Hd
      (kind_derivatives n m (t_kind tm) x u t _ _ _ _ _ Hs1 W1 W2 W3 W4 W5)) as Hd'.
    assert (Ev : forall v : rvec, scaleV 1 v = v)
      by (intros v; apply functional_extensionality; intros i; unfold scaleV; ring).
    assert (Em : forall v : rmat, scaleM 1 v = v)
      by (intros v; apply functional_extensionality; intros i;
          apply functional_extensionality; intros j; unfold scaleM; ring).
    rewrite !Ev, !Em in Hd'.
    pose proof (IH _ _ _ _ _ _ _ _ _ _ _ Hs2 Hd' E1 E2 E3 E4 E5) as HH.
    eapply derivatives_ext; [|exact HH]. intros x0 u0. cbv beta. unfold plain_cost. simpl. ring.
Qed.

(** Terms with analytical derivatives can be evaluated everywhere. *)
Lemma derivative_evaluates k x u t g : stateDerivative n m k x u t = Ok g ->
  forall x' u', exists v, evaluate n m k x' u' t = Ok v.
Proof. destruct k; simpl; intros H x' u'; try discriminate; eauto. Qed.

Lemma evaluates_everywhere x u t tms : forall a gx,
  let use := fun tm => isActive (t_act tm) t in
  sumT radd (wv (stateDerivative n m) x u t) use a tms = Ok gx ->
  List.Forall (fun tm => isActive (t_act tm) t = true ->
          forall x' u', evaluate n m (t_kind tm) x' u' t = Ok (value_of n m (t_kind tm) t x' u')) tms.
Proof.
  induction tms as [|tm tms IH]; intros a gx use E; cbn [sumT] in E; constructor; subst use;
    cbv beta in *.
  - intros Ha x' u'. rewrite Ha in E. apply bind_ok in E; destruct E as (v & W & E).
    unfold wv in W. apply bind_ok in W; destruct W as (d & D & W).
    destruct (derivative_evaluates _ _ _ _ _ D x' u') as (v' & Ev). unfold value_of. now rewrite Ev.
  - destruct (isActive (t_act tm) t).
    + apply bind_ok in E; destruct E as (v & W & E). eauto.
    + eauto.
Qed.

Lemma evaluates_everywhere_plain x u t tms : forall a gx,
  let use := fun _ : term => true in
  sumT radd (fun tm => stateDerivative n m (t_kind tm) x u t) use a tms = Ok gx ->
  List.Forall (fun tm =>
          forall x' u', evaluate n m (t_kind tm) x' u' t = Ok (value_of n m (t_kind tm) t x' u')) tms.
Proof.
  induction tms as [|tm tms IH]; intros a gx use E; cbn [sumT] in E; constructor; subst use;
    cbv beta in *; apply bind_ok in E; destruct E as (v & D & E); eauto.
  intros x' u'. destruct (derivative_evaluates _ _ _ _ _ D x' u') as (v' & Ev).
  unfold value_of. now rewrite Ev.
Qed.

Lemma sum_value x u t (c : term -> R) tms : forall y,
  List.Forall (fun tm => isActive (t_act tm) t = true ->
          evaluate n m (t_kind tm) x u t = Ok (value_of n m (t_kind tm) t x u)) tms ->
  sumT Rplus
    (fun tm => do v <- eval n m tm x u t ;; Ok (c tm * v))
    (fun tm => isActive (t_act tm) t) y tms =
  Ok (y + fold_right Rplus 0
    (map (fun tm => c tm * (computeActivation (t_act tm) t * value_of n m (t_kind tm) t x u))
         (filter (fun tm => isActive (t_act tm) t) tms))).
Proof.
  induction tms as [|tm tms IH]; intros y H; cbn [sumT filter].
  - simpl. f_equal. ring.
  - inversion H as [|? ? H1 H2]; subst.
    destruct (isActive (t_act tm) t) eqn:Ea; [|auto].
    unfold eval at 1. rewrite (H1 eq_refl). cbn [obind]. rewrite (IH _ H2).
    cbn [map fold_right]. f_equal. ring.
Qed.

Lemma sum_plain x u t tms : forall y,
  List.Forall (fun tm => evaluate n m (t_kind tm) x u t = Ok (value_of n m (t_kind tm) t x u)) tms ->
  sumT Rplus (fun tm => evaluate n m (t_kind tm) x u t) (fun _ => true) y tms =
  Ok (y + plain_cost n m t tms x u).
Proof.
  unfold plain_cost. induction tms as [|tm tms IH]; intros y H; cbn [sumT].
  - simpl. f_equal. ring.
  - inversion H as [|? ? H1 H2]; subst. rewrite H1. cbn [obind]. rewrite (IH _ H2).
    cbn [map fold_right]. f_equal. ring.
Qed.
End Sums.
