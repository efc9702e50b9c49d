(** C32: cost-term derivatives.  C33: cost-function totals and gradients.
    The meaning of "derivatives" is in CostSpec.v. *)
From Coq Require Import Reals String List Bool Arith Lia Lra FunctionalExtensionality.
From Coquelicot Require Import Coquelicot.
From Verif Require Import Base.Outcome Base.RVec Core.ActivationModel
  Optcon.CostModel Optcon.CostSpec Optcon.CostProofs.
Import ListNotations.
Local Open Scope R_scope.

(** ** C32 *)

(** Whenever a term reports its derivatives, it can be evaluated everywhere and they are the
    first and second derivatives of what it evaluates to: any dimensions, weights (symmetric or
    not), references and point; the smoothing parameter of the smoothed absolute value must not
    be 0. *)
Theorem C32_terms n m k x u t gx Hxx gu Huu Hux :
  (forall a xr b ur alphaSquared, k = SmoothAbs a xr b ur alphaSquared -> 0 < alphaSquared) ->
  stateDerivative n m k x u t = Ok gx -> stateSecondDerivative m k x u t = Ok Hxx ->
  controlDerivative n m k x u t = Ok gu -> controlSecondDerivative n k x u t = Ok Huu ->
  stateControlDerivative n m k x u t = Ok Hux ->
  exists f : rvec -> rvec -> R,
    (forall x' u', evaluate n m k x' u' t = Ok (f x' u')) /\
    derivatives n m f x u gx Hxx gu Huu Hux.
Proof.
  intros Hs E1 E2 E3 E4 E5. exists (value_of n m k t). split.
  - intros x' u'. destruct (derivative_evaluates n m k x u t gx E1 x' u') as (v & Ev).
    unfold value_of. now rewrite Ev.
  - apply kind_derivatives; auto.
    destruct k; simpl; auto. eapply Hs. reflexivity.
Qed.

(** The documented values, written out as sums over the components. *)
Theorem C32_values n m Q W P xr ur a b c alpha x u t :
  let dx i := x i - xr i in let du i := u i - ur i in
  evaluate n m (Quadratic Q W xr ur) x u t
    = Ok (rsum n (fun i => rsum n (fun j => dx i * Q i j * dx j)) + rsum m (fun i => rsum m (fun j => du i * W i j * du j))) /\
  evaluate n m (QuadMult Q W xr ur) x u t
    = Ok (rsum n (fun i => rsum n (fun j => dx i * Q i j * dx j)) * rsum m (fun i => rsum m (fun j => du i * W i j * du j))) /\
  evaluate n m (Mixed P xr ur) x u t = Ok (rsum m (fun i => rsum n (fun j => du i * P i j * dx j))) /\
  evaluate n m (Linear a b c) x u t = Ok (rsum n (fun i => a i * x i) + rsum m (fun i => b i * u i) + c) /\
  evaluate n m (t_kind (newSmoothAbs a xr b ur alpha)) x u t
    = Ok (rsum n (fun i => a i * sqrt ((x i - xr i) ^ 2 + alpha ^ 2)) + rsum m (fun i => b i * sqrt ((u i - ur i) ^ 2 + alpha ^ 2))).
Proof.
  assert (S : forall k (M : nat -> nat -> R) k' (v w : nat -> R),
    rdot k v (rmv k' M w) = rsum k (fun i => rsum k' (fun j => v i * M i j * w j))).
  { intros k M k' v w. unfold rdot, rmv. apply rsum_ext. intros i _. rewrite <- rsum_scal. apply rsum_ext. intros j _. ring. }
  intros dx du. cbn [evaluate newSmoothAbs newTerm t_kind]. unfold rquad. rewrite !S. repeat split.
  unfold rdot. f_equal. f_equal; apply rsum_ext; intros i _; f_equal; f_equal; ring.
Qed.

(** All term classes except the state barrier report all five derivatives, at every point. *)
Theorem C32_reported n m k x u t :
  (forall ub lb al bs, k <> StateBarrier ub lb al bs) ->
  (exists g, stateDerivative n m k x u t = Ok g) /\
  (exists H, stateSecondDerivative m k x u t = Ok H) /\
  (exists g, controlDerivative n m k x u t = Ok g) /\
  (exists H, controlSecondDerivative n k x u t = Ok H) /\
  (exists H, stateControlDerivative n m k x u t = Ok H).
Proof.
  intros Hk. destruct k; simpl; repeat split; eauto; exfalso; eapply Hk; reflexivity.
Qed.

(** The state barrier reports no analytical derivative at all. *)
Theorem C32_barrier_refuted n m ub lb al bs x u t :
  stateDerivative n m (StateBarrier ub lb al bs) x u t = Throw /\
  controlDerivative n m (StateBarrier ub lb al bs) x u t = Throw.
Proof. split; reflexivity. Qed.

(** For the quadratic, bilinear and linear terms the expansion to second order is exact for every
    displacement. *)
Theorem C32_expansion n m k x u t gx Hxx gu Huu Hux v v' (dx du : rvec) :
  match k with Quadratic _ _ _ _ | Mixed _ _ _ | Linear _ _ _ | Tracking _ _ _ _ _ => True
             | _ => False end ->
  stateDerivative n m k x u t = Ok gx -> stateSecondDerivative m k x u t = Ok Hxx ->
  controlDerivative n m k x u t = Ok gu -> controlSecondDerivative n k x u t = Ok Huu ->
  stateControlDerivative n m k x u t = Ok Hux ->
  evaluate n m k x u t = Ok v ->
  evaluate n m k (fun i => x i + dx i) (fun i => u i + du i) t = Ok v' ->
  v' = v + rsum n (fun i => gx i * dx i) + rsum m (fun i => gu i * du i)
       + / 2 * rsum n (fun i => dx i * rsum n (fun j => Hxx i j * dx j))
       + / 2 * rsum m (fun i => du i * rsum m (fun j => Huu i j * du j))
       + rsum m (fun i => du i * rsum n (fun j => Hux i j * dx j)).
Proof.
  intros Hk E1 E2 E3 E4 E5 Ev Ev'.
  assert (Hz : forall p q (y z : rvec), rsum p (fun i => y i * rsum q (fun j => mzero i j * z j)) = 0).
  { intros p q y z. rewrite <- (rsum_zero p). apply rsum_ext; intros i _.
    rewrite row_zero. ring. }
  assert (Hq : forall p (A : rmat) (d : rvec),
    rsum p (fun i => d i * rsum p (fun j => raddm A (rtr A) i j * d j)) = 2 * rquad p A d d).
  { intros p A d.
    rewrite (rsum_ext p _ (fun i => d i * rsum p (fun j => A i j * d j) +
                                   d i * rsum p (fun j => rtr A i j * d j))).
    - rewrite rsum_plus.
      change (rquad p A d d + rquad p (rtr A) d d = 2 * rquad p A d d).
      rewrite <- (rquad_tr p A d d). ring.
    - intros i _. rewrite <- Rmult_plus_distr_l, <- rsum_plus. f_equal.
      apply rsum_ext; intros; unfold raddm; ring. }
  assert (L1 : forall p (A : rmat) (y r d : rvec),
    rquad p A (rsubv (fun i => y i + d i) r) (rsubv (fun i => y i + d i) r) =
    rquad p A (rsubv y r) (rsubv y r) + rdot p (sgrad p A (rsubv y r)) d + rquad p A d d).
  { intros p A y r d. transitivity
      (rquad p A (rsubv (fun i => y i + 1 * d i) r) (rsubv (fun i => y i + 1 * d i) r)).
    - apply rquad_ext; intros; unfold rsubv; ring.
    - rewrite quad_line. ring. }
  assert (L0 : forall p (A : rmat) (y d : rvec),
    rquad p A (fun i => y i + d i) (fun i => y i + d i) =
    rquad p A y y + rdot p (sgrad p A y) d + rquad p A d d).
  { intros p A y d. transitivity
      (rquad p A (fun i => y i + 1 * d i) (fun i => y i + 1 * d i)).
    - apply rquad_ext; intros; ring.
    - rewrite quad_line0. ring. }
  destruct k as [Q W xr ur|Q W xr ur|P xr ur|a b c|a xr b ur al|Q W xt ut tr|ub lb al bs];
    try contradiction;
    cbn [evaluate stateDerivative stateSecondDerivative controlDerivative
         controlSecondDerivative stateControlDerivative] in *; cbv zeta in *; inv_ok.
  - rewrite !L1, !Hz, !Hq. unfold rdot, sgrad. lra.
  - rewrite !Hz.
    rewrite (rdot_ext m _ (fun i => rsubv u ur i + du i) _
               (fun i => rmv n P (rsubv x xr) i + rmv n P dx i)).
    + change (rsum m (fun i => (rsubv u ur i + du i) *
                              (rmv n P (rsubv x xr) i + rmv n P dx i)) =
              rdot m (rsubv u ur) (rmv n P (rsubv x xr)) + rdot n (rmv m (rtr P) (rsubv u ur)) dx
              + rdot m (rmv n P (rsubv x xr)) du + / 2 * 0 + / 2 * 0 + rdot m du (rmv n P dx)).
      rewrite mixed_tr. unfold rdot.
      rewrite (rsum_ext m _ (fun i =>
        ((rsubv u ur i * rmv n P (rsubv x xr) i + rsubv u ur i * rmv n P dx i)
         + rmv n P (rsubv x xr) i * du i) + du i * rmv n P dx i)) by (intros; ring).
      rewrite !rsum_plus. lra.
    + intros i _. unfold rsubv. ring.
    + intros i _. transitivity (rmv n P (rsubv (fun j => x j + 1 * dx j) xr) i).
      * unfold rmv. apply rsum_ext; intros; unfold rsubv; ring.
      * rewrite rmv_line. unfold rmv, rdot. ring.
  - rewrite !Hz. unfold rdot.
    rewrite (rsum_ext n (fun i => a i * (x i + dx i)) (fun i => a i * x i + a i * dx i))
      by (intros; ring).
    rewrite (rsum_ext m (fun i => b i * (u i + du i)) (fun i => b i * u i + b i * du i))
      by (intros; ring).
    rewrite !rsum_plus. lra.
  - destruct tr; rewrite !L1, ?L0, !Hz, !Hq; unfold rdot, sgrad; lra.
Qed.

(** The simple quadratic cost function: with symmetric weights the reported derivatives are those
    of the reported costs. *)
Theorem C32_simple n m s x u t :
  (forall i j, s_Q s i j = s_Q s j i) -> (forall i j, s_R s i j = s_R s j i) ->
  (forall i j, s_Qfin s i j = s_Qfin s j i) ->
  let now := simpleSet x u t s in
  derivatives n m (fun x u => simpleIntermediate n m (simpleSet x u t s)) x u
    (simpleStateDerivative n now) (simpleStateSecond now)
    (simpleControlDerivative m now) (simpleControlSecond now) (simpleStateControl now) /\
  gradient n (fun x => simpleTerminal n (simpleSet x u t s)) x
    (simpleStateDerivativeTerminal n now) /\
  jacobian n n (fun x => simpleStateDerivativeTerminal n (simpleSet x u t s)) x
    (simpleStateSecondTerminal now).
Proof.
  intros HQ HR HF now.
  assert (Hg : forall p (A : rmat) (d e : rvec), (forall i j, A i j = A j i) ->
    rdot p (sgrad p A d) e = 2 * rdot p (rmv p A d) e).
  { intros p A d e HA. unfold rdot. rewrite <- rsum_scal. apply rsum_ext; intros i _.
    unfold sgrad, radd, rvm, rtr, rmv. rewrite <- rsum_plus, <- Rmult_assoc, <- rsum_scal.
    f_equal. apply rsum_ext; intros j _. rewrite (HA j i). ring. }
  assert (Hr : forall p (A : rmat) (y r d : rvec) s i,
    rmv p A (rsubv (fun i => y i + s * d i) r) i =
    rmv p A (rsubv y r) i + s * rsum p (fun j => A i j * d j)).
  { intros. apply rmv_line. }
  split; [|split].
  - exists (fun x u => simpleStateDerivative n (simpleSet x u t s)).
    exists (fun x u => simpleControlDerivative m (simpleSet x u t s)).
    split; [|split; [|split; [|split; [|split; [|split]]]]]; try reflexivity.
    + intros x0 u0 d. eapply derive_poly; intros e. unfold simpleIntermediate; simpl.
      rewrite quad_line, Hg by assumption. unfold rdot at 1.
      instantiate (1 := / 2 * rquad n (s_Q s) d d).
      instantiate (1 := / 2 * rquad n (s_Q s) (rsubv x0 (s_xnom s)) (rsubv x0 (s_xnom s)) +
                        / 2 * rquad m (s_R s) (rsubv u0 (s_unom s)) (rsubv u0 (s_unom s))).
      unfold simpleStateDerivative; simpl. field.
    + intros x0 u0 d. eapply derive_poly; intros e. unfold simpleIntermediate; simpl.
      rewrite quad_line, Hg by assumption. unfold rdot at 1.
      instantiate (1 := / 2 * rquad m (s_R s) d d).
      instantiate (1 := / 2 * rquad n (s_Q s) (rsubv x0 (s_xnom s)) (rsubv x0 (s_xnom s)) +
                        / 2 * rquad m (s_R s) (rsubv u0 (s_unom s)) (rsubv u0 (s_unom s))).
      unfold simpleControlDerivative; simpl. field.
    + intros i Hi d. unfold simpleStateDerivative; simpl.
      apply (derive_poly _ (rmv n (s_Q s) (rsubv x (s_xnom s)) i) _ 0); intros e.
      rewrite Hr. unfold simpleStateSecond; simpl. ring.
    + intros i Hi d. unfold simpleControlDerivative; simpl.
      apply (derive_poly _ (rmv m (s_R s) (rsubv u (s_unom s)) i) _ 0); intros e.
      rewrite Hr. unfold simpleControlSecond; simpl. ring.
    + intros i Hi d. unfold simpleControlDerivative; simpl.
      eapply derive_const; [intros; reflexivity|apply row_zero].
  - intros d. eapply derive_poly; intros e. unfold simpleTerminal; simpl.
    rewrite quad_line, Hg by assumption. unfold rdot at 1.
    instantiate (1 := / 2 * rquad n (s_Qfin s) d d).
    instantiate (1 := / 2 * rquad n (s_Qfin s) (rsubv x (s_xfin s)) (rsubv x (s_xfin s))).
    unfold simpleStateDerivativeTerminal; simpl. field.
  - intros i Hi d. unfold simpleStateDerivativeTerminal; simpl.
    apply (derive_poly _ (rmv n (s_Qfin s) (rsubv x (s_xfin s)) i) _ 0); intros e.
    rewrite Hr. unfold simpleStateSecondTerminal; simpl. ring.
Qed.

(** With a weight that is not symmetric they are not. *)
Definition Q_upper : rmat := fun i j => match i, j with O, 1%nat => 1 | _, _ => 0 end.
Theorem C32_simple_refuted :
  let s := newSimple Q_upper mzero rzero rzero rzero mzero in
  let x : rvec := fun i => match i with 1%nat => 1 | _ => 0 end in
  let now := simpleSet x rzero 0 s in
  ~ gradient 2 (fun x => simpleIntermediate 2 1 (simpleSet x rzero 0 s)) x
      (simpleStateDerivative 2 now).
Proof.
  cbv zeta. intros H. specialize (H (fun i => match i with O => 1 | _ => 0 end)).
  pose proof (is_derive_unique _ _ _ H) as E. clear H.
  assert (E' : Derive (fun s => simpleIntermediate 2 1 (simpleSet
     (fun i => (match i with 1%nat => 1 | _ => 0 end) + s * match i with O => 1 | _ => 0 end)
     rzero 0 (newSimple Q_upper mzero rzero rzero rzero mzero))) 0 = / 2).
  { apply is_derive_unique. apply (derive_poly _ 0 _ 0). intros s.
    unfold simpleIntermediate, rquad, rdot, rmv, Q_upper; simpl.
    unfold rsubv, rzero, mzero; simpl. field. }
  apply (eq_trans (eq_sym E')) in E. clear E'.
  unfold simpleStateDerivative, rmv, Q_upper in E; simpl in E. unfold rsubv, rzero in E. lra.
Qed.

(** A concrete case: a non-symmetric quadratic term with two states and one control. *)
Example C32_example :
  let k := Quadratic Q_upper (fun _ _ => 3) (fun _ => 1) rzero in
  let x : rvec := fun i => match i with O => 2 | _ => 5 end in
  let u : rvec := fun _ => 2 in
  evaluate 2 1 k x u 0 = Ok 16 /\
  exists gx gu, stateDerivative 2 1 k x u 0 = Ok gx /\ gx 0%nat = 4 /\ gx 1%nat = 1 /\
                controlDerivative 2 1 k x u 0 = Ok gu /\ gu 0%nat = 12.
Proof.
  cbv zeta. split.
  - unfold evaluate, rquad, rdot, rmv, Q_upper, rsubv, rzero; simpl. f_equal. lra.
  - do 2 eexists. unfold stateDerivative, controlDerivative.
    repeat split; unfold radd, rvm, rtr, Q_upper, rsubv, rzero; simpl; lra.
Qed.

(** ** C33 *)

(** For every cost function and every point: the reported derivatives are those of the sum of the
    active terms, each weighted with its activation at the (shifted) time. *)
Theorem C33_derivatives n m h c tms x u t gx Hxx gu Huu Hux :
  resolved h (cf_inter c) tms ->
  (forall tm a xr b ur al, In tm tms -> t_kind tm = SmoothAbs a xr b ur al -> 0 < al) ->
  let now := setCurrent x u t c in
  stateDerivativeIntermediate n m h now = Ok gx ->
  stateSecondDerivativeIntermediate m h now = Ok Hxx ->
  controlDerivativeIntermediate n m h now = Ok gu ->
  controlSecondDerivativeIntermediate n h now = Ok Huu ->
  stateControlDerivativeIntermediate n m h now = Ok Hux ->
  derivatives n m (weighted_cost n m (t + cf_shift c) tms) x u gx Hxx gu Huu Hux.
Proof.
  intros Hr Hs now E1 E2 E3 E4 E5.
  assert (Hs' : List.Forall (fun tm => smooth (t_kind tm)) tms).
  { apply Forall_forall. intros tm Hin. unfold smooth. specialize (Hs tm).
    destruct (t_kind tm); auto. eapply Hs; eauto. }
  unfold stateDerivativeIntermediate, stateSecondDerivativeIntermediate,
    controlDerivativeIntermediate, controlSecondDerivativeIntermediate,
    stateControlDerivativeIntermediate, sumIntermediateV, sumIntermediateM in *.
  subst now. cbn [cf_inter setCurrent cf_x cf_u cf_t] in *.
  rewrite (sumTerms_resolved _ _ _ _ _ _ Hr) in E1.
  rewrite (sumTerms_resolved _ _ _ _ _ _ Hr) in E2.
  rewrite (sumTerms_resolved _ _ _ _ _ _ Hr) in E3.
  rewrite (sumTerms_resolved _ _ _ _ _ _ Hr) in E4.
  rewrite (sumTerms_resolved _ _ _ _ _ _ Hr) in E5.
  pose proof (weighted_derivatives n m x u (t + cf_shift c) tms (fun _ _ => 0)
    rzero mzero rzero mzero mzero gx Hxx gu Huu Hux Hs' (derivatives_zero n m x u)
    E1 E2 E3 E4 E5) as HD.
  eapply derivatives_ext; [|exact HD]. intros; cbv beta; ring.
Qed.

(** The reported intermediate cost: every active term enters with the square of its activation. *)
Theorem C33_value_actual n m h c tms x u t :
  resolved h (cf_inter c) tms ->
  let T := t + cf_shift c in
  (forall tm, In tm tms -> isActive (t_act tm) T = true ->
     exists v, evaluate n m (t_kind tm) x u T = Ok v) ->
  evaluateIntermediate n m h (setCurrent x u t c) =
  Ok (fold_right Rplus 0
       (map (fun tm => (computeActivation (t_act tm) T) ^ 2 * value_of n m (t_kind tm) T x u)
            (filter (fun tm => isActive (t_act tm) T) tms))).
Proof.
  intros Hr T He. unfold evaluateIntermediate. cbn [cf_inter setCurrent cf_x cf_u cf_t].
  rewrite (sumTerms_resolved _ _ _ _ _ _ Hr). fold T.
  unfold weight, active. cbn [cf_t setCurrent]. fold T.
  rewrite (sum_value n m x u T (fun tm => computeActivation (t_act tm) T)).
  - f_equal. rewrite Rplus_0_l. f_equal. apply map_ext. intros tm. ring.
  - apply Forall_forall. intros tm Hin Ha. destruct (He tm Hin Ha) as (v & Ev).
    unfold value_of. now rewrite Ev.
Qed.

(** If all activations are 0 or 1, the reported cost is the weighted sum, hence the reported
    derivatives are the derivatives of the reported cost.
    Partial: for other activation values see C33_refuted. *)
Theorem C33_consistent_partial n m h c tms x u t gx Hxx gu Huu Hux :
  resolved h (cf_inter c) tms ->
  (forall tm a xr b ur al, In tm tms -> t_kind tm = SmoothAbs a xr b ur al -> 0 < al) ->
  (forall tm, In tm tms -> isActive (t_act tm) (t + cf_shift c) = true ->
     computeActivation (t_act tm) (t + cf_shift c) = 0 \/
     computeActivation (t_act tm) (t + cf_shift c) = 1) ->
  let now := setCurrent x u t c in
  stateDerivativeIntermediate n m h now = Ok gx ->
  stateSecondDerivativeIntermediate m h now = Ok Hxx ->
  controlDerivativeIntermediate n m h now = Ok gu ->
  controlSecondDerivativeIntermediate n h now = Ok Huu ->
  stateControlDerivativeIntermediate n m h now = Ok Hux ->
  (forall x' u', evaluateIntermediate n m h (setCurrent x' u' t c) =
                 Ok (weighted_cost n m (t + cf_shift c) tms x' u')) /\
  derivatives n m (weighted_cost n m (t + cf_shift c) tms) x u gx Hxx gu Huu Hux.
Proof.
  intros Hr Hs Hw now E1 E2 E3 E4 E5. split.
  - intros x' u'. rewrite (C33_value_actual n m h c tms x' u' t Hr).
    + f_equal. unfold weighted_cost. f_equal. apply map_ext_in. intros tm Hin.
      apply filter_In in Hin. destruct Hin as [Hin Ha].
      destruct (Hw tm Hin Ha) as [->| ->]; ring.
    + intros tm Hin Ha.
      assert (HF : List.Forall (fun tm => isActive (t_act tm) (t + cf_shift c) = true ->
        forall x' u', evaluate n m (t_kind tm) x' u' (t + cf_shift c) =
                      Ok (value_of n m (t_kind tm) (t + cf_shift c) x' u')) tms).
      { unfold stateDerivativeIntermediate, sumIntermediateV in E1. subst now.
        cbn [cf_inter setCurrent cf_x cf_u cf_t] in E1.
        rewrite (sumTerms_resolved _ _ _ _ _ _ Hr) in E1.
        exact (evaluates_everywhere n m x u (t + cf_shift c) tms rzero gx E1). }
      rewrite Forall_forall in HF. eexists. apply HF; auto.
  - eapply C33_derivatives; eauto.
Qed.

(** Terminal cost: the plain sum of the final terms; the reported derivatives are its
    derivatives. *)
Theorem C33_terminal n m h c tms x u t gx Hxx gu Huu Hux :
  resolved h (cf_final c) tms ->
  (forall tm a xr b ur al, In tm tms -> t_kind tm = SmoothAbs a xr b ur al -> 0 < al) ->
  let now := setCurrent x u t c in
  stateDerivativeTerminal n m h now = Ok gx ->
  stateSecondDerivativeTerminal m h now = Ok Hxx ->
  controlDerivativeTerminal n m h now = Ok gu ->
  controlSecondDerivativeTerminal n h now = Ok Huu ->
  stateControlDerivativeTerminal n m h now = Ok Hux ->
  (forall x' u', evaluateTerminal n m h (setCurrent x' u' t c) =
                 Ok (plain_cost n m (t + cf_shift c) tms x' u')) /\
  derivatives n m (plain_cost n m (t + cf_shift c) tms) x u gx Hxx gu Huu Hux.
Proof.
  intros Hr Hs now E1 E2 E3 E4 E5.
  assert (Hs' : List.Forall (fun tm => smooth (t_kind tm)) tms).
  { apply Forall_forall. intros tm Hin. unfold smooth. specialize (Hs tm).
    destruct (t_kind tm); auto. eapply Hs; eauto. }
  unfold stateDerivativeTerminal, stateSecondDerivativeTerminal,
    controlDerivativeTerminal, controlSecondDerivativeTerminal,
    stateControlDerivativeTerminal, sumTerminalV, sumTerminalM in *.
  subst now. cbn [cf_final setCurrent cf_x cf_u cf_t] in *.
  rewrite (sumTerms_resolved _ _ _ _ _ _ Hr) in E1.
  rewrite (sumTerms_resolved _ _ _ _ _ _ Hr) in E2.
  rewrite (sumTerms_resolved _ _ _ _ _ _ Hr) in E3.
  rewrite (sumTerms_resolved _ _ _ _ _ _ Hr) in E4.
  rewrite (sumTerms_resolved _ _ _ _ _ _ Hr) in E5.
  split.
  - intros x' u'. unfold evaluateTerminal. cbn [cf_final setCurrent cf_x cf_u cf_t].
    rewrite (sumTerms_resolved _ _ _ _ _ _ Hr).
    rewrite (sum_plain n m x' u' (t + cf_shift c)).
    + f_equal. ring.
    + pose proof (evaluates_everywhere_plain n m x u (t + cf_shift c) tms rzero gx E1) as HF.
      rewrite Forall_forall in *. intros tm Hin. apply HF; auto.
  - pose proof (plain_derivatives n m x u (t + cf_shift c) tms (fun _ _ => 0)
      rzero mzero rzero mzero mzero gx Hxx gu Huu Hux Hs' (derivatives_zero n m x u)
      E1 E2 E3 E4 E5) as HD.
    eapply derivatives_ext; [|exact HD]. intros; cbv beta; ring.
Qed.

(** A linear term x_0 with constant activation 1/2: the reported cost is x_0/4, the reported
    gradient 1/2. *)
Definition half_term : term :=
  mkTerm "half" (mkAct (fun _ => true) (fun _ => / 2)) (Linear (fun _ => 1) rzero 0).
Definition half_cost : costfun := addIntermediateTerm 0 newCost.

Theorem C33_refuted :
  (forall x u t, evaluateIntermediate 1 1 [half_term] (setCurrent x u t half_cost) =
                 Ok (/ 4 * x 0%nat)) /\
  (forall x u t, exists g,
     stateDerivativeIntermediate 1 1 [half_term] (setCurrent x u t half_cost) = Ok g /\
     g 0%nat = / 2 /\ ~ gradient 1 (fun x => / 4 * x 0%nat) x g).
Proof.
  split.
  - intros x u t. unfold evaluateIntermediate, half_cost, half_term; simpl. f_equal.
    unfold weight, rdot, rzero; simpl. field.
  - intros x u t. eexists. split; [reflexivity|].
    assert (E : radd rzero (scaleV (weight (setCurrent x u t half_cost) half_term) (fun _ => 1))
                  0%nat = / 2).
    { unfold radd, rzero, scaleV, weight; simpl. ring. }
    split; [exact E|].
    intros H. specialize (H (fun _ => 1)).
    pose proof (is_derive_unique _ _ _ H) as E1. clear H.
    assert (E2 : Derive (fun s => / 4 * (x 0%nat + s * 1)) 0 = / 4).
    { apply is_derive_unique. apply (derive_poly _ (/ 4 * x 0%nat) _ 0). intros; ring. }
    apply (eq_trans (eq_sym E2)) in E1. cbn [rsum] in E1. rewrite E in E1. lra.
Qed.

(** Terms added for automatic differentiation ignore their time activation, and terms added after
    initialize() do not count. *)
Definition never_term : term :=
  mkTerm "never" (mkAct (fun _ => false) (fun _ => 0)) (Linear rzero rzero 5).
Theorem C33_ad_activation_refuted x u t :
  let c := adSetCurrent x u t (adInitialize (addIntermediateADTerm never_term
             (mkAd newCost [] [] None))) in
  isActive (t_act never_term) t = false /\ adEvaluateIntermediate 1 1 [] c = Ok 5.
Proof.
  cbv zeta. split; [reflexivity|].
  unfold adEvaluateIntermediate; simpl. f_equal. unfold rdot, rzero; simpl. ring.
Qed.

Theorem C33_ad_stale_refuted x u t :
  let c := addIntermediateADTerm never_term (adInitialize (mkAd newCost [] [] None)) in
  adEvaluateIntermediate 1 1 [] (adSetCurrent x u t c) = Ok 0 /\
  adEvaluateIntermediate 1 1 [] (adSetCurrent x u t (adInitialize c)) = Ok 5.
Proof.
  cbv zeta. split; unfold adEvaluateIntermediate; simpl; f_equal;
    unfold rdot, rzero; simpl; ring.
Qed.

(** What an AD cost function with compiled terms evaluates to. *)
Theorem C33_ad_value n m h c tms :
  ad_compiled c = Some (ad_inter c, ad_final c) ->
  resolved h (cf_inter (ad_base c)) tms -> forall x u t,
  (forall tm, In tm tms -> isActive (t_act tm) t = true ->
     exists v, evaluate n m (t_kind tm) x u t = Ok v) ->
  (forall tm, In tm (ad_inter c) -> exists v, evaluate n m (t_kind tm) x u t = Ok v) ->
  adEvaluateIntermediate n m h (adSetCurrent x u t c) =
  Ok (fold_right Rplus 0
       (map (fun tm => (computeActivation (t_act tm) t) ^ 2 * value_of n m (t_kind tm) t x u)
            (filter (fun tm => isActive (t_act tm) t) tms))
      + plain_cost n m t (ad_inter c) x u).
Proof.
  intros Hc Hr x u t He Ha.
  unfold adEvaluateIntermediate, adSetCurrent. cbn [ad_base ad_compiled cf_x cf_u cf_t].
  set (b := mkCf x u t (cf_shift (ad_base c)) (cf_inter (ad_base c)) (cf_final (ad_base c))).
  assert (Eb : b = setCurrent x u (t - cf_shift (ad_base c)) (ad_base c)).
  { unfold b, setCurrent. f_equal. ring. }
  rewrite Eb.
  assert (ET : t - cf_shift (ad_base c) + cf_shift (ad_base c) = t) by ring.
  rewrite (C33_value_actual n m h (ad_base c) tms x u _ Hr).
  - cbn [obind]. rewrite Hc, ET.
    assert (HS : forall l y, (forall tm, In tm l -> exists v, evaluate n m (t_kind tm) x u t = Ok v) ->
      sumAd n m l x u t y = Ok (y + plain_cost n m t l x u)).
    { induction l as [|tm l IH]; intros y Hl; simpl.
      - f_equal. unfold plain_cost; simpl; ring.
      - destruct (Hl tm (or_introl eq_refl)) as (v & Ev). rewrite Ev; simpl.
        rewrite IH by (intros; apply Hl; now right). f_equal.
        unfold plain_cost; simpl. unfold value_of at 2. rewrite Ev. ring. }
    rewrite HS by exact Ha. cbn [obind]. f_equal. f_equal. ring.
  - intros tm Hin Hac. rewrite ET in *. auto.
Qed.

(** A concrete case: two terms, one of them switched off at the shifted time. *)
Example C33_example :
  let on := mkTerm "a" defaultActivation (Linear (fun _ => 2) (fun _ => 1) 3) in
  let late := mkTerm "b" (mkAct (fun t => if Rle_dec 10 t then true else false) (fun _ => 1))
                (Linear (fun _ => 100) rzero 0) in
  let h := [on; late] in
  let c := addIntermediateTerm 1 (addIntermediateTerm 0 newCost) in
  resolved h (cf_inter c) [on; late] /\
  evaluateIntermediate 1 1 h (setCurrent (fun _ => 1) (fun _ => 1) 4 (shiftTime 5 c)) = Ok 6 /\
  evaluateIntermediate 1 1 h (setCurrent (fun _ => 1) (fun _ => 1) 4 (shiftTime 6 c)) = Ok 106.
Proof.
  cbv zeta. split; [|split].
  - repeat constructor.
  - unfold evaluateIntermediate; simpl. unfold active; simpl.
    destruct (Rle_dec 10 (4 + 5)); [exfalso; lra|]. f_equal.
    unfold weight, rdot, rzero; simpl. ring.
  - unfold evaluateIntermediate; simpl. unfold active; simpl.
    destruct (Rle_dec 10 (4 + 6)); [|exfalso; lra]. f_equal.
    unfold weight, rdot, rzero; simpl. ring.
Qed.

Print Assumptions C32_terms.
Print Assumptions C32_reported.
Print Assumptions C32_barrier_refuted.
Print Assumptions C32_expansion.
Print Assumptions C32_simple.
Print Assumptions C32_simple_refuted.
Print Assumptions C33_derivatives.
Print Assumptions C33_value_actual.
Print Assumptions C33_consistent_partial.
Print Assumptions C33_terminal.
Print Assumptions C33_refuted.
Print Assumptions C33_ad_activation_refuted.
Print Assumptions C33_ad_stale_refuted.
Print Assumptions C33_ad_value.
Print Assumptions C32_values.
