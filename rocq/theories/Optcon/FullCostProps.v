(** C88: the integrated cost of direct multiple shooting and its gradient. *)
From Coq Require Import Reals List Bool Arith Lia Lra.
From Coquelicot Require Import Coquelicot.
From Verif Require Import Core.SensModel Core.SensProps Optcon.DmsSplineModel Optcon.FullCostModel.
Import ListNotations.
Local Open Scope R_scope.

(** ** Specification *)
(** The decision vector with one block replaced. *)
Definition with_state {V U : NormedModule R_AbsRing} (w : @dec V U) (j : nat) (v : V) : @dec V U :=
  mkDec (fun k => if (k =? j)%nat then v else d_s w k) (d_q w).
Definition with_control {V U : NormedModule R_AbsRing} (w : @dec V U) (j : nat) (v : U) : @dec V U :=
  mkDec (d_s w) (fun k => if (k =? j)%nat then v else d_q w k).

(** The system extended by the accumulated cost: (x, c)' = (f x u t, L x u t), as one initial value problem. *)
Definition with_cost {V U : NormedModule R_AbsRing} (f : V -> U -> R -> V) (L : V -> U -> R -> R) (ctrl : R -> U)
  (z : V * R) (t : R) (s : unit) : (V * R) * unit := ((f (fst z) (ctrl t) t, L (fst z) (ctrl t) t), s).
Definition integrate_with_cost {V U : NormedModule R_AbsRing} (f : V -> U -> R -> V) (L : V -> U -> R -> R) (ctrl : R -> U)
  (st : stepper) (n : nat) (x : V) (t dt : R) : V * R :=
  fst (loop (fun a b : V * R => (plus (fst a) (fst b), snd a + snd b)) (fun c a => (scal c (fst a), c * snd a))
         (with_cost f L ctrl) st n (x, 0) t dt tt).

Section Lemmas.
Context {V U : NormedModule R_AbsRing}.

Lemma costdot_at (L : V -> U -> R -> R) cache p c t i ok y :
  nth_error cache i = Some p ->
  costdot L cache c t (mkS i ok y) = (L (fst (fst p)) (snd (fst p)) (snd p), mkS (S i) ok y).
Proof.
  intros E. unfold costdot. cbn [s_idx s_ok s_cache]. rewrite (nth_error_nth _ _ _ E).
  rewrite (proj2 (Nat.ltb_lt _ _)) by (apply nth_error_Some; congruence). now rewrite andb_true_r.
Qed.
Lemma nth_off (pre l : list (V * U * R)) i p : nth_error l i = Some p -> nth_error (pre ++ l) (i + length pre) = Some p.
Proof. intros E. rewrite nth_error_app2 by lia. now replace (i + length pre - length pre)%nat with i by lia. Qed.

Lemma loop_S {X St} (add : X -> X -> X) mul (rhs : X -> R -> St -> X * St) st n x t dt s :
  loop add mul rhs st (S n) x t dt s =
  let '(x', s') := do_step add mul rhs st x t dt s in loop add mul rhs st n x' (t + dt) dt s'.
Proof. reflexivity. Qed.

Lemma loop_aug (f : V -> U -> R -> V) (L : V -> U -> R -> R) (ctrl : R -> U) st dt n : forall x c t pre,
  exists xf cf new,
    loop plus scal (xdot f ctrl) st n x t dt pre = (xf, pre ++ new) /\
    (forall suf ok y, loop Rplus Rmult (costdot L (pre ++ new ++ suf)) st n c t dt (mkS (length pre) ok y)
       = (cf, mkS (length pre + length new) ok y)) /\
    loop (fun a b : V * R => (plus (fst a) (fst b), snd a + snd b)) (fun c a => (scal c (fst a), c * snd a))
         (with_cost f L ctrl) st n (x, c) t dt tt = ((xf, cf), tt).
Proof.
  induction n as [|n IH]; intros x c t pre.
  - exists x, c, []. cbn [loop app length]. rewrite app_nil_r. split; [reflexivity|]. split; [|reflexivity].
    intros. now rewrite Nat.add_0_r.
  - destruct st.
    + set (p := (x, ctrl t, t)).
      destruct (IH (plus x (scal dt (f x (ctrl t) t))) (c + dt * L x (ctrl t) t) (t + dt) (pre ++ [p])) as (xf & cf & new & E1 & E2 & E3).
      exists xf, cf, (p :: new). split; [|split].
      * rewrite <- app_assoc in E1. exact E1.
      * intros suf ok y. rewrite loop_S. cbn [do_step]. unfold euler_st at 1. cbn [app].
        specialize (E2 suf ok y). rewrite <- app_assoc in E2. cbn [app] in E2. set (cache := pre ++ p :: new ++ suf) in *.
        rewrite (costdot_at L cache p) by exact (nth_off pre (p :: new ++ suf) 0 _ eq_refl). cbv iota beta. cbn [p fst snd].
        rewrite app_length in E2. cbn [length] in E2. replace (length pre + 1)%nat with (S (length pre)) in E2 by lia.
        rewrite E2. do 2 f_equal. cbn [length]. lia.
      * exact E3.
    + set (hs := / 2 * dt).
      set (u1 := ctrl t). set (k1 := f x u1 t).
      set (u2 := ctrl (t + hs)).
      set (x2 := plus x (scal hs k1)). set (k2 := f x2 u2 (t + hs)).
      set (x3 := plus x (scal hs k2)). set (k3 := f x3 u2 (t + hs)).
      set (u4 := ctrl (t + dt)). set (x4 := plus x (scal dt k3)). set (k4 := f x4 u4 (t + dt)).
      set (l := [(x, u1, t); (x2, u2, t + hs); (x3, u2, t + hs); (x4, u4, t + dt)]).
      destruct (IH (plus x (scal (/ 6 * dt) (plus (plus (plus k1 (scal 2 k2)) (scal 2 k3)) k4)))
                   (c + / 6 * dt * (L x u1 t + 2 * L x2 u2 (t + hs) + 2 * L x3 u2 (t + hs) + L x4 u4 (t + dt))) (t + dt) (pre ++ l))
        as (xf & cf & new & E1 & E2 & E3).
      exists xf, cf, (l ++ new). split; [|split].
      * rewrite loop_S. cbn [do_step]. unfold rk4_st at 1.
        change (xdot f ctrl x t pre) with (k1, pre ++ [(x, u1, t)]). cbv iota beta.
        match goal with |- context [xdot f ctrl ?a ?b ?c] => change (xdot f ctrl a b c) with (k2, c ++ [(x2, u2, t + hs)]) end. cbv iota beta.
        match goal with |- context [xdot f ctrl ?a ?b ?c] => change (xdot f ctrl a b c) with (k3, c ++ [(x3, u2, t + hs)]) end. cbv iota beta.
        match goal with |- context [xdot f ctrl ?a ?b ?c] => change (xdot f ctrl a b c) with (k4, c ++ [(x4, u4, t + dt)]) end. cbv iota beta.
        rewrite <- !app_assoc. rewrite <- app_assoc in E1. exact E1.
      * intros suf ok y. rewrite loop_S. cbn [do_step]. unfold rk4_st at 1. rewrite <- app_assoc.
        specialize (E2 suf ok y). rewrite <- app_assoc in E2. set (cache := pre ++ l ++ new ++ suf) in *.
        rewrite (costdot_at L cache (x, u1, t)) by exact (nth_off pre (l ++ new ++ suf) 0 _ eq_refl). cbv iota beta.
        rewrite (costdot_at L cache (x2, u2, t + hs)) by exact (nth_off pre (l ++ new ++ suf) 1 _ eq_refl). cbv iota beta.
        rewrite (costdot_at L cache (x3, u2, t + hs)) by exact (nth_off pre (l ++ new ++ suf) 2 _ eq_refl). cbv iota beta.
        rewrite (costdot_at L cache (x4, u4, t + dt)) by exact (nth_off pre (l ++ new ++ suf) 3 _ eq_refl). cbv iota beta.
        cbn [fst snd].
        rewrite app_length in E2. cbn [l length] in E2. replace (length pre + 4)%nat with (S (S (S (S (length pre))))) in E2 by lia.
        refine (eq_trans E2 _). do 2 f_equal. cbn [l app length]. lia.
      * exact E3.
Qed.
End Lemmas.

Lemma fold_plus {A : Type} (F : A -> R) l : forall c, fold_left (fun c k => c + F k) l c = c + fold_right Rplus 0 (map F l).
Proof. induction l as [|k l IH]; intros c; cbn [fold_left fold_right map]; [lra|]. rewrite IH. lra. Qed.

(** ** C88.  The value: what one shot contributes is the accumulated cost of integrating dynamics and cost together, with
    the same stepper, and the reported cost is the sum over the shots plus the terminal cost of the last state (at the
    time 0, see [C88_terminal_time_refuted]). *)
Theorem C88_value {V U : NormedModule R_AbsRing} (f : V -> U -> R -> V) L Phi sp st dt N tg tStart nSteps (w : @dec V U) :
  evalFull f L Phi sp st dt N tg tStart nSteps w =
  fold_right Rplus 0 (map (fun k => snd (integrate_with_cost f L (shotCtrl sp tg w k) st (nSteps k) (d_s w k) (tStart k) dt)) (seq 0 N))
  + Phi (d_s w N) zero 0.
Proof.
  unfold evalFull. cbv zeta. rewrite fold_plus, Rplus_0_l. do 2 f_equal. apply map_ext. intros k.
  unfold shotCost, shotCache, integrate_cost, integrate_with_cost, integrate_state.
  destruct (loop_aug f L (shotCtrl sp tg w k) st dt (nSteps k) (d_s w k) 0 (tStart k) []) as (xf & cf & new & E1 & E2 & E3).
  refine (eq_trans _ (eq_sym (f_equal (fun z => snd (fst z)) E3))).
  specialize (E2 [] true []). cbn [app length] in E2. rewrite app_nil_r in E2. refine (eq_trans _ (f_equal fst E2)).
  exact (f_equal (fun c => fst (loop Rplus Rmult (costdot L (snd c)) st (nSteps k) 0 (tStart k) dt (mkS 0 true []))) E1).
Qed.

(** ** C88.  The control applied in shot k: with the zero-order hold the control of node k, with the piecewise linear spline
    the point of the segment between the controls of the nodes k and k+1. *)
Theorem C88_control {V U : NormedModule R_AbsRing} (tg : nat -> R) (w : @dec V U) k l : tg k <> tg (S k) ->
  shotCtrl ZERO_ORDER_HOLD tg w k ((1 - l) * tg k + l * tg (S k)) = d_q w k /\
  shotCtrl PIECEWISE_LINEAR tg w k ((1 - l) * tg k + l * tg (S k)) = plus (scal (1 - l) (d_q w k)) (scal l (d_q w (S k))).
Proof.
  intros H. split; [reflexivity|]. unfold shotCtrl, spl. f_equal; f_equal; field; lra.
Qed.

(** ** C88.  The gradient *)
Section Gradient.
Context {V U : NormedModule R_AbsRing}.
Variable f : V -> U -> R -> V.
Variables (dfx : V -> U -> R -> V -> V) (dfu : V -> U -> R -> U -> V).
Variables (L : V -> U -> R -> R) (dLx : V -> U -> R -> V -> R) (dLu : V -> U -> R -> U -> R).
Variables (Phi : V -> U -> R -> R) (dPhi : V -> U -> R -> V -> R).
Hypothesis Hf : exact_linearisation f dfx dfu.
Hypothesis HL : exact_cost_derivative L dLx dLu.
Hypothesis HPhi : forall x, filterdiff (V := R_NormedModule) (fun y => Phi y zero 0) (locally x) (dPhi x zero 0).
Variables (sp : splineType) (st : stepper) (dt : R) (N : nat).
Variables (tg tStart : nat -> R) (nSteps : nat -> nat).
Notation eval := (evalFull f L Phi sp st dt N tg tStart nSteps).
Notation grad := (gradFull f dfx dfu dLx dLu dPhi sp st dt N tg tStart nSteps).
Local Notation cost_k := (shotCost f L sp st dt tg tStart nSteps).

Lemma D_sum (T : NormedModule R_AbsRing) (F : T -> nat -> R) (D : nat -> T -> R) v l :
  (forall k, In k l -> filterdiff (V := R_NormedModule) (fun x => F x k) (locally v) (D k)) ->
  filterdiff (V := R_NormedModule) (fun x => fold_right Rplus 0 (map (F x) l)) (locally v)
    (fun h => fold_right Rplus 0 (map (fun k => D k h) l)).
Proof.
  induction l as [|k l IH]; intros H; cbn [map fold_right].
  - apply (filterdiff_const (V := R_NormedModule)).
  - apply (filterdiff_plus_fct (V := R_NormedModule) (fun x => F x k)).
    + apply H. now left.
    + apply IH. intros k' Hk. apply H. now right.
Qed.

Lemma addTo_at {X : Type} (g : nat -> X -> R) k v j h : addTo g k v j h = g j h + (if (j =? k)%nat then v h else 0).
Proof. unfold addTo, radd. destruct (j =? k)%nat; lra. Qed.

(** What the shots add to the segments. *)
Lemma steps_at (w : @dec V U) l : forall g j,
  (forall h, g_s (fold_left (gradStep f dfx dfu dLx dLu sp st dt tg tStart nSteps w) l g) j h =
     g_s g j h + fold_right Rplus 0 (map (fun k => if (j =? k)%nat then fst (shotGradS f dfx dfu dLx sp st dt tg tStart nSteps w k) h else 0) l)) /\
  (forall h, g_q (fold_left (gradStep f dfx dfu dLx dLu sp st dt tg tStart nSteps w) l g) j h =
     g_q g j h + fold_right Rplus 0 (map (fun k =>
       (if (j =? k)%nat then fst (shotGradQ f dfx dfu dLx dLu sp st dt tg tStart nSteps w k) h else 0) +
       (if (j =? S k)%nat then fst (shotGradQnext f dfx dfu dLx dLu sp st dt tg tStart nSteps w k) h else 0)) l)).
Proof.
  induction l as [|k l IH]; intros g j; cbn [fold_left map fold_right].
  - split; intros; lra.
  - destruct (IH (gradStep f dfx dfu dLx dLu sp st dt tg tStart nSteps w g k) j) as [E1 E2]. split; intros h.
    + rewrite E1. unfold gradStep. cbv zeta. destruct sp; cbn [g_s]; rewrite addTo_at; lra.
    + rewrite E2. unfold gradStep. cbv zeta. destruct sp; cbn [g_q]; rewrite !addTo_at.
      * change (fst (shotGradQnext f dfx dfu dLx dLu ZERO_ORDER_HOLD st dt tg tStart nSteps w k) h) with 0.
        destruct (j =? S k)%nat; lra.
      * lra.
Qed.

Lemma steps_ok (w : @dec V U) l : forall g,
  (forall k, In k l -> snd (shotGradS f dfx dfu dLx sp st dt tg tStart nSteps w k) = true /\
     snd (shotGradQ f dfx dfu dLx dLu sp st dt tg tStart nSteps w k) = true /\
     snd (shotGradQnext f dfx dfu dLx dLu sp st dt tg tStart nSteps w k) = true) ->
  g_ok (fold_left (gradStep f dfx dfu dLx dLu sp st dt tg tStart nSteps w) l g) = g_ok g.
Proof.
  induction l as [|k l IH]; intros g H; cbn [fold_left]; [reflexivity|].
  destruct (H k (or_introl eq_refl)) as (H1 & H2 & H3).
  rewrite IH by (intros k' Hk; apply H; now right).
  unfold gradStep. cbv zeta. destruct sp; cbn [g_ok]; rewrite ?H1, ?H2, ?H3, !andb_true_r; reflexivity.
Qed.

(** One shot: from C45. *)
Lemma gradS_ok (w : @dec V U) k : let g := shotGradS f dfx dfu dLx sp st dt tg tStart nSteps w k in
  snd g = true /\
  filterdiff (V := R_NormedModule) (fun v => cost_k (with_state w k v) k) (locally (d_s w k)) (fst g).
Proof.
  cbv zeta. unfold shotGradS, shotCost, shotCache, shotCtrl. cbv zeta. cbn [with_state d_s d_q fst snd]. rewrite Nat.eqb_refl.
  set (ctrl := spl sp tg k (d_q w k) (d_q w (S k))).
  destruct (integrate_state f ctrl st (nSteps k) (d_s w k) (tStart k) dt) as [xf cache] eqn:E1. cbn [snd].
  destruct (sens_x0 st (nSteps k) (tStart k) dt (fst (linearize dfx dfu cache))) as [M s] eqn:E2. cbn [snd].
  destruct (cost_sens_x0 dLx st (nSteps k) (tStart k) dt cache (s_cache s)) as [g s'] eqn:E3. cbn [fst snd].
  destruct (C45_initial_state f dfx dfu Hf _ _ _ _ _ _ _ _ _ _ E1 E2) as [O1 _].
  destruct (C45_cost_initial_state f dfx dfu Hf L dLx dLu HL _ _ _ _ _ _ _ _ _ _ 0 _ _ E1 E2 E3) as [O2 D].
  split; [now rewrite O1, O2|exact D].
Qed.

Lemma gradU_ok (w : @dec V U) k (ctrl : U -> R -> U) (dctrl : R -> U -> U) v0 :
  (forall t, filterdiff (fun v => ctrl v t) (locally v0) (dctrl t)) ->
  ctrl v0 = shotCtrl sp tg w k ->
  let g := shotGradU f dfx dfu dLx dLu sp st dt tg tStart nSteps dctrl w k in
  snd g = true /\
  filterdiff (V := R_NormedModule)
    (fun v => fst (integrate_cost L st (nSteps k) 0 (tStart k) dt (snd (integrate_state f (ctrl v) st (nSteps k) (d_s w k) (tStart k) dt))))
    (locally v0) (fst g).
Proof.
  intros Hc E0. cbv zeta. unfold shotGradU, shotCache. cbv zeta. rewrite <- E0. cbn [fst snd].
  destruct (integrate_state f (ctrl v0) st (nSteps k) (d_s w k) (tStart k) dt) as [xf cache] eqn:E1. cbn [snd].
  destruct (sens_u0 dctrl st (nSteps k) (tStart k) dt (fst (linearize dfx dfu cache)) (snd (linearize dfx dfu cache)) cache) as [M s] eqn:E2. cbn [snd].
  destruct (cost_sens_u0 dctrl dLx dLu st (nSteps k) (tStart k) dt cache (s_cache s)) as [g s'] eqn:E3. cbn [fst snd].
  destruct (C45_control f dfx dfu Hf ctrl dctrl v0 _ _ _ _ _ _ _ _ _ Hc E1 E2) as [O1 _].
  destruct (C45_cost_control f dfx dfu Hf L dLx dLu HL ctrl dctrl v0 _ _ _ _ _ _ _ _ _ 0 _ _ Hc E1 E2 E3) as [O2 D].
  split; [now rewrite O1, O2|exact D].
Qed.

Lemma spl_d0 k b a t : filterdiff (fun v => spl sp tg k v b t) (locally a) (dq0 (U := U) sp tg k t).
Proof.
  unfold spl, dq0. destruct sp.
  - apply filterdiff_id.
  - apply (filterdiff_ext_lin _ (fun h => plus (scal ((tg (S k) - t) / (tg (S k) - tg k)) h) zero)).
    + apply (Dp U U (fun v => scal ((tg (S k) - t) / (tg (S k) - tg k)) v) (fun _ => _) a (fun h => scal _ h) (fun _ => zero)).
      * apply (Ds U U _ (fun v => v) a (fun h => h)), filterdiff_id.
      * apply filterdiff_const.
    + intros h. apply plus_zero_r.
Qed.
Lemma spl_d1 k a b t : filterdiff (fun v => spl sp tg k a v t) (locally b) (dq1 (U := U) sp tg k t).
Proof.
  unfold spl, dq1. destruct sp.
  - apply filterdiff_const.
  - apply (filterdiff_ext_lin _ (fun h => plus zero (scal ((t - tg k) / (tg (S k) - tg k)) h))).
    + apply (Dp U U (fun _ => _) (fun v => scal ((t - tg k) / (tg (S k) - tg k)) v) b (fun _ => zero) (fun h => scal _ h)).
      * apply filterdiff_const.
      * apply (Ds U U _ (fun v => v) b (fun h => h)), filterdiff_id.
    + intros h. apply plus_zero_l.
Qed.

Lemma gradQ_ok (w : @dec V U) k : let g := shotGradQ f dfx dfu dLx dLu sp st dt tg tStart nSteps w k in
  snd g = true /\
  filterdiff (V := R_NormedModule) (fun v => cost_k (with_control w k v) k) (locally (d_q w k)) (fst g).
Proof.
  cbv zeta. unfold shotGradQ, shotCost, shotCache, shotCtrl. cbn [with_control d_s d_q]. rewrite Nat.eqb_refl.
  replace (S k =? k)%nat with false by (symmetry; apply Nat.eqb_neq; lia).
  apply (gradU_ok w k (fun v => spl sp tg k v (d_q w (S k))) (dq0 sp tg k) (d_q w k)); [|reflexivity].
  intros t. apply spl_d0.
Qed.
Lemma gradQnext_ok (w : @dec V U) k : let g := shotGradQnext f dfx dfu dLx dLu sp st dt tg tStart nSteps w k in
  snd g = true /\
  filterdiff (V := R_NormedModule) (fun v => cost_k (with_control w (S k) v) k) (locally (d_q w (S k))) (fst g).
Proof.
  cbv zeta. unfold shotGradQnext, shotCost, shotCache, shotCtrl. cbn [with_control d_s d_q]. rewrite Nat.eqb_refl.
  replace (k =? S k)%nat with false by (symmetry; apply Nat.eqb_neq; lia).
  pose proof (gradU_ok w k (fun v => spl sp tg k (d_q w k) v) (dq1 sp tg k) (d_q w (S k)) (fun t => spl_d1 k (d_q w k) _ t) eq_refl) as G.
  destruct sp; [|exact G]. split; [reflexivity|].
  change (filterdiff (V := R_NormedModule) (fun _ : U => shotCost f L ZERO_ORDER_HOLD st dt tg tStart nSteps w k) (locally (d_q w (S k))) (fun _ => zero)).
  apply filterdiff_const.
Qed.

(** No cached entry is read out of bounds, whatever the decision vector. *)
Lemma grad_ok (w : @dec V U) : g_ok (grad w) = true.
Proof.
  unfold gradFull. cbv zeta. cbn [g_ok]. rewrite steps_ok; [reflexivity|]. intros k _.
  split; [apply gradS_ok|]. split; [apply gradQ_ok|apply gradQnext_ok].
Qed.

(** For every decision vector and every shot number j up to N: the segment of the gradient belonging to state j is the
    derivative of the reported cost with respect to state j. *)
Theorem C88_gradient_states (w : @dec V U) j : (j <= N)%nat ->
  g_ok (grad w) = true /\
  filterdiff (V := R_NormedModule) (fun v => eval (with_state w j v)) (locally (d_s w j)) (g_s (grad w) j).
Proof.
  intros _. split; [apply grad_ok|].
  apply (filterdiff_ext (V := R_NormedModule) (fun v => fold_right Rplus 0 (map (fun k => cost_k (with_state w j v) k) (seq 0 N)) + Phi (d_s (with_state w j v) N) zero 0)).
  { intros v. unfold evalFull. cbv zeta. rewrite fold_plus, Rplus_0_l. reflexivity. }
  apply (filterdiff_ext_lin (V := R_NormedModule) _ (fun h =>
     fold_right Rplus 0 (map (fun k => if (j =? k)%nat then fst (shotGradS f dfx dfu dLx sp st dt tg tStart nSteps w k) h else 0) (seq 0 N))
     + (if (j =? N)%nat then dPhi (d_s w N) zero 0 h else 0))).
  - apply (filterdiff_plus_fct (V := R_NormedModule)).
    + apply (D_sum V (fun v k => cost_k (with_state w j v) k) (fun k h => if (j =? k)%nat then fst (shotGradS f dfx dfu dLx sp st dt tg tStart nSteps w k) h else 0)).
      intros k _. destruct (Nat.eqb_spec j k) as [->|NE].
      * apply gradS_ok.
      * apply (filterdiff_ext (V := R_NormedModule) (fun _ => cost_k w k)); [|apply (filterdiff_const (V := R_NormedModule))].
        intros v. unfold shotCost, shotCache, shotCtrl. cbn [with_state d_s d_q].
        replace (k =? j)%nat with false by (symmetry; apply Nat.eqb_neq; lia). reflexivity.
    + cbn [with_state d_s]. rewrite (Nat.eqb_sym N j). destruct (Nat.eqb_spec j N) as [->|NE].
      * apply HPhi.
      * apply (filterdiff_const (V := R_NormedModule)).
  - intros h. unfold gradFull. cbv zeta. cbn [g_s]. rewrite addTo_at.
    rewrite (proj1 (steps_at w (seq 0 N) _ j)). cbn [g_s]. lra.
Qed.

(** The same for the control segments: with the zero-order hold control j acts in shot j, with the piecewise linear spline
    in the shots j-1 and j. *)
Theorem C88_gradient_controls (w : @dec V U) j : (j <= N)%nat ->
  filterdiff (V := R_NormedModule) (fun v => eval (with_control w j v)) (locally (d_q w j)) (g_q (grad w) j).
Proof.
  intros _.
  apply (filterdiff_ext (V := R_NormedModule) (fun v => fold_right Rplus 0 (map (fun k => cost_k (with_control w j v) k) (seq 0 N)) + Phi (d_s w N) zero 0)).
  { intros v. unfold evalFull. cbv zeta. rewrite fold_plus, Rplus_0_l. reflexivity. }
  apply (filterdiff_ext_lin (V := R_NormedModule) _ (fun h =>
     fold_right Rplus 0 (map (fun k =>
       (if (j =? k)%nat then fst (shotGradQ f dfx dfu dLx dLu sp st dt tg tStart nSteps w k) h else 0) +
       (if (j =? S k)%nat then fst (shotGradQnext f dfx dfu dLx dLu sp st dt tg tStart nSteps w k) h else 0)) (seq 0 N)) + 0)).
  - apply (filterdiff_plus_fct (V := R_NormedModule)); [|apply (filterdiff_const (V := R_NormedModule))].
    apply (D_sum U (fun v k => cost_k (with_control w j v) k) (fun k h =>
      (if (j =? k)%nat then fst (shotGradQ f dfx dfu dLx dLu sp st dt tg tStart nSteps w k) h else 0) +
      (if (j =? S k)%nat then fst (shotGradQnext f dfx dfu dLx dLu sp st dt tg tStart nSteps w k) h else 0))).
    intros k _. destruct (Nat.eqb_spec j k) as [->|N1].
    + replace (k =? S k)%nat with false by (symmetry; apply Nat.eqb_neq; lia).
      apply (filterdiff_ext_lin (V := R_NormedModule) _ (fun h => fst (shotGradQ f dfx dfu dLx dLu sp st dt tg tStart nSteps w k) h)).
      * apply gradQ_ok.
      * intros h. symmetry. apply Rplus_0_r.
    + destruct (Nat.eqb_spec j (S k)) as [->|N2].
      * apply (filterdiff_ext_lin (V := R_NormedModule) _ (fun h => fst (shotGradQnext f dfx dfu dLx dLu sp st dt tg tStart nSteps w k) h)).
        -- apply gradQnext_ok.
        -- intros h. symmetry. apply Rplus_0_l.
      * apply (filterdiff_ext (V := R_NormedModule) (fun _ => cost_k w k)).
        -- intros v. unfold shotCost, shotCache, shotCtrl. cbn [with_control d_s d_q].
           replace (k =? j)%nat with false by (symmetry; apply Nat.eqb_neq; lia).
           replace (S k =? j)%nat with false by (symmetry; apply Nat.eqb_neq; lia). reflexivity.
        -- apply (filterdiff_ext_lin (V := R_NormedModule) _ (fun _ => 0)); [apply (filterdiff_const (V := R_NormedModule))|].
           intros h. lra.
  - intros h. unfold gradFull. cbv zeta. cbn [g_q].
    rewrite (proj2 (steps_at w (seq 0 N) _ j)). cbn [g_q]. lra.
Qed.
End Gradient.

(** The hypotheses are met: x' = x u with running cost x u, terminal cost 3 x. *)
Notation RN := R_NormedModule.
Definition C88_f : RN -> RN -> R -> RN := fun x u _ => x * u.
Definition C88_dfx : RN -> RN -> R -> RN -> RN := fun _ u _ h => h * u.
Definition C88_dfu : RN -> RN -> R -> RN -> RN := fun x _ _ k => x * k.
Example C88_example : exact_linearisation C88_f C88_dfx C88_dfu /\ exact_cost_derivative C88_f C88_dfx C88_dfu /\
  (forall x, filterdiff (V := RN) (fun y : RN => 3 * y) (locally x) (fun h => 3 * h)).
Proof.
  split; [exact C45_example|]. split.
  - intros x u t. split.
    + exact (proj1 (C45_example x u t)).
    + apply Rmult_0_r.
  - intros x. exact (Ds RN RN 3 (fun v => v) x (fun h => h) (filterdiff_id _)).
Qed.
(** Two shots of one Euler step of size 1, piecewise linear controls, states 3, 5, 7 and controls 2, 4, 6: the cost is
    3 * 2 + 5 * 4 + 3 * 7 = 47 and its gradient (2, 4, 3) in the states, (3, 5, 0) in the controls. *)
Example C88_example_values :
  let w : @dec RN RN := mkDec (fun k => nth k [3; 5; 7] 0) (fun k => nth k [2; 4; 6] 0) in
  let g := gradFull C88_f C88_dfx C88_dfu C88_dfx C88_dfu (fun _ _ _ h => 3 * h) PIECEWISE_LINEAR Euler 1 2 INR INR (fun _ => 1%nat) w in
  evalFull C88_f C88_f (fun x _ _ => 3 * x) PIECEWISE_LINEAR Euler 1 2 INR INR (fun _ => 1%nat) w = 47 /\
  map (fun j => g_s g j 1) [0; 1; 2]%nat = [2; 4; 3] /\ map (fun j => g_q g j 1) [0; 1; 2]%nat = [3; 5; 0].
Proof.
  cbv -[Rplus Rmult Rminus Rdiv Rinv Ropp IZR].
  split; [|split]; repeat apply (f_equal2 (@cons R)); try reflexivity; match goal with |- @eq _ ?a ?b => change (@eq R a b) end; field.
Qed.

(** Finding: the terminal cost is evaluated with the time left at its default, so a terminal cost that depends on time is
    never evaluated at the end of the horizon: for the terminal cost "time", the reported cost of a problem without
    running cost is 0 whatever the time grid. *)
Theorem C88_terminal_time_refuted sp st dt N tg tStart nSteps (w : @dec RN RN) (T : R) : T <> 0 -> tg N = T ->
  evalFull (fun _ _ _ => zero) (fun _ _ _ => 0) (fun _ _ t => t) sp st dt N tg tStart nSteps w <> tg N.
Proof.
  intros HT ->. unfold evalFull. cbv zeta. rewrite fold_plus.
  assert (Z : forall k, shotCost (V := RN) (U := RN) (fun _ _ _ => zero) (fun _ _ _ => 0) sp st dt tg tStart nSteps w k = 0).
  { intros k. unfold shotCost, integrate_cost. generalize (shotCache (V := RN) (U := RN) (fun _ _ _ => zero) sp st dt tg tStart nSteps w k) as c. intros c.
    generalize (tStart k) as t. generalize (mkS (Y := R) 0 true []) as s.
    induction (nSteps k) as [|n IH]; intros s t; [reflexivity|]. rewrite loop_S. destruct st; cbn [do_step].
    - unfold euler_st at 1. cbn [costdot]. replace (0 + dt * 0) with 0 by ring. apply IH.
    - unfold rk4_st at 1. cbn [costdot]. replace (0 + / 6 * dt * (0 + 2 * 0 + 2 * 0 + 0)) with 0 by ring. apply IH. }
  replace (fold_right Rplus 0 _) with 0; [lra|].
  induction (seq 0 N) as [|k l IH]; cbn [map fold_right]; [reflexivity|]. rewrite Z, <- IH. lra.
Qed.
Print Assumptions C88_value.
Print Assumptions C88_control.
Print Assumptions C88_gradient_states.
Print Assumptions C88_gradient_controls.
Print Assumptions C88_terminal_time_refuted.
