(** C45: integrated sensitivities are the exact derivatives of the integrated states and costs. *)
From Coq Require Import Reals List Bool Arith Lia Lra.
From Coquelicot Require Import Coquelicot.
From Verif.Core Require Import SensModel SensProofs.
Import ListNotations.

(** [dfx], [dfu] are the partial derivatives of [f]: together they give its derivative, everywhere, and they are linear
    (they are matrices in the code). *)
Definition exact_linearisation {V U : NormedModule R_AbsRing} (f : V -> U -> R -> V) (dfx : V -> U -> R -> V -> V) (dfu : V -> U -> R -> U -> V) : Prop :=
  forall x u t, filterdiff (fun z : V * U => f (fst z) (snd z) t) (locally (x, u)) (fun z : V * U => plus (dfx x u t (fst z)) (dfu x u t (snd z)))
    /\ dfu x u t zero = zero.
Definition exact_cost_derivative {V U : NormedModule R_AbsRing} (L : V -> U -> R -> R) (dLx : V -> U -> R -> V -> R) (dLu : V -> U -> R -> U -> R) : Prop :=
  forall x u t, filterdiff (V := R_NormedModule) (fun z : V * U => L (fst z) (snd z) t) (locally (x, u)) (fun z : V * U => (dLx x u t (fst z) + dLu x u t (snd z))%R)
    /\ dLu x u t zero = 0%R.

Section C45.
Context {V U W : NormedModule R_AbsRing}.
Variable f : V -> U -> R -> V.
Variables (dfx : V -> U -> R -> V -> V) (dfu : V -> U -> R -> U -> V).
Variables (L : V -> U -> R -> R) (dLx : V -> U -> R -> V -> R) (dLu : V -> U -> R -> U -> R).
Hypothesis Hf : exact_linearisation f dfx dfu.
Hypothesis HL : exact_cost_derivative L dLx dLu.

(** The chain rule along the stages. *)
Lemma chain (T : NormedModule R_AbsRing) (X : T -> V) (u : T -> U) (t : R) w0 M N :
  filterdiff X (locally w0) M -> filterdiff u (locally w0) N ->
  filterdiff (fun w => f (X w) (u w) t) (locally w0) (fun h => plus (dfx (X w0) (u w0) t (M h)) (dfu (X w0) (u w0) t (N h))).
Proof.
  intros HX Hu. apply (filterdiff_comp'_2 X u (fun x y => f x y t) w0 M N (fun a b => plus (dfx (X w0) (u w0) t a) (dfu (X w0) (u w0) t b))); auto.
  apply (Hf (X w0) (u w0) t).
Qed.
Lemma chainL (T : NormedModule R_AbsRing) (X : T -> V) (u : T -> U) (t : R) w0 M N :
  filterdiff X (locally w0) M -> filterdiff u (locally w0) N ->
  filterdiff (V := R_NormedModule) (fun w => L (X w) (u w) t) (locally w0) (fun h => (dLx (X w0) (u w0) t (M h) + dLu (X w0) (u w0) t (N h))%R).
Proof.
  intros HX Hu. apply (filterdiff_comp'_2 (W := R_NormedModule) X u (fun x y => L x y t) w0 M N (fun a b => (dLx (X w0) (u w0) t a + dLu (X w0) (u w0) t b)%R)); auto.
  apply (HL (X w0) (u w0) t).
Qed.

Lemma nth_map_some {A B} (g : A -> B) l i d a : nth_error l i = Some a -> nth i (map g l) d = g a /\ (i < length (map g l))%nat.
Proof.
  intros H. assert (Hl : (i < length l)%nat) by (apply nth_error_Some; congruence). split; [|now rewrite map_length].
  erewrite nth_indep, map_nth; [|now rewrite map_length]. f_equal. now apply nth_error_nth. Unshelve. exact a.
Qed.

(** The sensitivity with respect to parameters of the controller, and that with respect to the initial state. *)
Lemma u0_ok (ctrl : W -> R -> U) (dctrl : R -> W -> U) w0 (all : list ((W -> V) * R)) :
  (forall t, filterdiff (fun w => ctrl w t) (locally w0) (dctrl t)) ->
  let cache := map (at_ ctrl w0) all in
  forall M t s X ti, nth_error all (s_idx s) = Some (X, ti) -> filterdiff X (locally w0) M ->
  filterdiff (F f ctrl X ti) (locally w0) (fst (du0dot dctrl (fst (linearize dfx dfu cache)) (snd (linearize dfx dfu cache)) cache M t s)) /\
  snd (du0dot dctrl (fst (linearize dfx dfu cache)) (snd (linearize dfx dfu cache)) cache M t s) = mkS (S (s_idx s)) (s_ok s) (s_cache s ++ [M]).
Proof.
  intros Hc cache M t s X ti Hn HX. unfold du0dot, linearize. cbn [fst snd].
  set (i := s_idx s) in *. unfold cache. rewrite !map_map.
  destruct (nth_map_some (at_ ctrl w0) all i (zero, zero, R0) _ Hn) as [E1 B1].
  destruct (nth_map_some (fun q => dfx (fst (fst (at_ ctrl w0 q))) (snd (fst (at_ ctrl w0 q))) (snd (at_ ctrl w0 q))) all i (fun _ => zero) _ Hn) as [E2 B2].
  destruct (nth_map_some (fun q => dfu (fst (fst (at_ ctrl w0 q))) (snd (fst (at_ ctrl w0 q))) (snd (at_ ctrl w0 q))) all i (fun _ => zero) _ Hn) as [E3 B3].
  rewrite E1, E2, E3. cbn [at_ fst snd]. split.
  - apply (chain W X (fun w => ctrl w ti) ti w0 M (dctrl ti)); auto.
  - rewrite !map_length in *. rewrite !(proj2 (Nat.ltb_lt _ _) B1), !andb_true_r. reflexivity.
Qed.
End C45.

Section Main.
Context {V U W : NormedModule R_AbsRing}.
Variable f : V -> U -> R -> V.
Variables (dfx : V -> U -> R -> V -> V) (dfu : V -> U -> R -> U -> V).
Hypothesis Hf : exact_linearisation f dfx dfu.

Lemma x0_ok (ctrl : R -> U) x0 (all : list ((V -> V) * R)) :
  let cache := map (at_ (fun _ : V => ctrl) x0) all in
  forall M t s X ti, nth_error all (s_idx s) = Some (X, ti) -> filterdiff X (locally x0) M ->
  filterdiff (F f (fun _ : V => ctrl) X ti) (locally x0) (fst (dx0dot (fst (linearize dfx dfu cache)) M t s)) /\
  snd (dx0dot (fst (linearize dfx dfu cache)) M t s) = mkS (S (s_idx s)) (s_ok s) (s_cache s ++ [M]).
Proof.
  intros cache M t s X ti Hn HX. unfold dx0dot, linearize. cbn [fst snd].
  set (i := s_idx s) in *. unfold cache. rewrite !map_map.
  destruct (nth_map_some (fun q => dfx (fst (fst (at_ (fun _ : V => ctrl) x0 q))) (snd (fst (at_ (fun _ : V => ctrl) x0 q))) (snd (at_ (fun _ : V => ctrl) x0 q))) all i (fun _ => zero) _ Hn) as [E2 B2].
  rewrite E2. cbn [at_ fst snd]. split.
  - apply (filterdiff_ext_lin _ (fun h => plus (dfx (X x0) (ctrl ti) ti (M h)) (dfu (X x0) (ctrl ti) ti zero))).
    + apply (chain f dfx dfu Hf V X (fun _ => ctrl ti) ti x0 M (fun _ => zero)); auto. apply filterdiff_const.
    + intros h. destruct (Hf (X x0) (ctrl ti) ti) as [_ ->]. apply plus_zero_r.
  - rewrite !map_length in *. rewrite !(proj2 (Nat.ltb_lt _ _) B2), !andb_true_r. reflexivity.
Qed.

(** ** C45.  The sensitivity with respect to the initial state: for every system whose linearisation is exact, every
    stepper, number of steps, step size, start time and initial state, the matrix returned is the derivative of the
    integrated final state with respect to the initial state, and no cache is read out of bounds. *)
Theorem C45_initial_state (ctrl : R -> U) st n x0 t dt xf cache M s :
  integrate_state f ctrl st n x0 t dt = (xf, cache) ->
  sens_x0 st n t dt (fst (linearize dfx dfu cache)) = (M, s) ->
  s_ok s = true /\ filterdiff (fun x => fst (integrate_state f ctrl st n x t dt)) (locally x0) M.
Proof.
  unfold integrate_state, sens_x0. intros Hx HM.
  set (c := fun _ : V => ctrl). set (X := fun x : V => x).
  assert (LX : forall x, loop plus scal (xdot f ctrl) st n x t dt [] = (nxt f c st n X t dt x, map (at_ c x) (stgs f c st n X t dt))) by exact (fun x => loop_x f c st n X t dt x []).
  rewrite (LX x0) in Hx. injection Hx as <- <-.
  destruct (loop_M f c x0 (stgs f c st n X t dt) _ (x0_ok ctrl x0 (stgs f c st n X t dt)) st n X t dt (fun h => h) (mkS 0 true [])) as (M' & Ms & E & HD & _).
  { apply filterdiff_id. }
  { intros i q Hi. exact Hi. }
  assert (E' := eq_trans (eq_sym HM) E). injection E' as -> ->. split; [reflexivity|].
  eapply filterdiff_ext; [|exact HD]. intros x. rewrite LX. reflexivity.
Qed.

(** ** C45.  The sensitivity with respect to controller parameters (the control at the start or end of the shot): the
    derivative of the final state with respect to the parameters, whenever the controller's own derivative is exact. *)
Theorem C45_control (ctrl : W -> R -> U) (dctrl : R -> W -> U) w0 st n x0 t dt xf cache M s :
  (forall t, filterdiff (fun w => ctrl w t) (locally w0) (dctrl t)) ->
  integrate_state f (ctrl w0) st n x0 t dt = (xf, cache) ->
  sens_u0 dctrl st n t dt (fst (linearize dfx dfu cache)) (snd (linearize dfx dfu cache)) cache = (M, s) ->
  s_ok s = true /\ filterdiff (fun w => fst (integrate_state f (ctrl w) st n x0 t dt)) (locally w0) M.
Proof.
  unfold integrate_state, sens_u0. intros Hc Hx HM.
  set (X := fun _ : W => x0).
  assert (LX : forall w, loop plus scal (xdot f (ctrl w)) st n x0 t dt [] = (nxt f ctrl st n X t dt w, map (at_ ctrl w) (stgs f ctrl st n X t dt))) by exact (fun w => loop_x f ctrl st n X t dt w []).
  rewrite (LX w0) in Hx. injection Hx as <- <-.
  destruct (loop_M f ctrl w0 (stgs f ctrl st n X t dt) _ (u0_ok f dfx dfu Hf ctrl dctrl w0 (stgs f ctrl st n X t dt) Hc) st n X t dt (fun _ => zero) (mkS 0 true [])) as (M' & Ms & E & HD & _).
  { apply filterdiff_const. }
  { intros i q Hi. exact Hi. }
  rewrite HM in E. injection E as -> ->. split; [reflexivity|].
  eapply filterdiff_ext; [|exact HD]. intros w. rewrite LX. reflexivity.
Qed.

Variables (L : V -> U -> R -> R) (dLx : V -> U -> R -> V -> R) (dLu : V -> U -> R -> U -> R).
Hypothesis HL : exact_cost_derivative L dLx dLu.

Lemma nth_error_Forall2 {A B} (P : A -> B -> Prop) l m : Forall2 P l m -> forall i a, nth_error l i = Some a -> exists b, nth_error m i = Some b /\ P a b.
Proof. induction 1 as [|a b l m H F IH]; intros [|i] c Hc; try discriminate; cbn in *; [injection Hc as <-; eauto|eauto]. Qed.

(** ** C45.  The cost gradient with respect to the initial state: the gradient returned is the derivative of the
    integrated cost. *)
Theorem C45_cost_initial_state (ctrl : R -> U) st n x0 t dt xf cache M s c0 g s' :
  integrate_state f ctrl st n x0 t dt = (xf, cache) ->
  sens_x0 st n t dt (fst (linearize dfx dfu cache)) = (M, s) ->
  cost_sens_x0 dLx st n t dt cache (s_cache s) = (g, s') ->
  s_ok s' = true /\
  filterdiff (V := R_NormedModule) (fun x => fst (integrate_cost L st n c0 t dt (snd (integrate_state f ctrl st n x t dt)))) (locally x0) g.
Proof.
  unfold integrate_state, sens_x0, cost_sens_x0, integrate_cost. intros Hx HM Hg.
  set (c := fun _ : V => ctrl). set (X := fun x : V => x).
  assert (LX : forall x, loop plus scal (xdot f ctrl) st n x t dt [] = (nxt f c st n X t dt x, map (at_ c x) (stgs f c st n X t dt))) by exact (fun x => loop_x f c st n X t dt x []).
  rewrite (LX x0) in Hx. injection Hx as <- <-.
  destruct (loop_M f c x0 (stgs f c st n X t dt) _ (x0_ok ctrl x0 (stgs f c st n X t dt)) st n X t dt (fun h => h) (mkS 0 true [])) as (M' & Ms & E & HD & HF).
  { apply filterdiff_id. }
  { intros i q Hi. exact Hi. }
  assert (E' := eq_trans (eq_sym HM) E). injection E' as -> ->. cbn [s_cache app] in Hg.
  set (all := stgs f c st n X t dt) in *.
  set (ls := map (fun q : (V -> V) * R => fun x => L (fst q x) (ctrl (snd q)) (snd q)) all).
  destruct (quad_loop (W := V) x0 ls (fun x => costdot L (map (at_ c x) all)) (costdx0dot dLx (map (at_ c x0) all) Ms)) with (st := st) (n := n) (C := fun _ : V => c0) (G := fun _ : V => 0%R) (t := t) (dt := dt) (s := mkS (Y := R) 0 true []) (s' := mkS (Y := V -> R) 0 true [])
    as (C' & G' & EC & EG & DC).
  - intros x cc tt ss l Hl. unfold ls in Hl. rewrite nth_error_map in Hl.
    destruct (nth_error all (s_idx ss)) as [q|] eqn:Eq; [|discriminate]. injection Hl as <-.
    unfold costdot. destruct (nth_map_some (at_ c x) all (s_idx ss) (zero, zero, R0) _ Eq) as [E1 B1]. rewrite E1.
    rewrite (proj2 (Nat.ltb_lt _ _) B1), andb_true_r. reflexivity.
  - intros G tt ss l Hl. unfold ls in Hl. rewrite nth_error_map in Hl.
    destruct (nth_error all (s_idx ss)) as [[Xi ti]|] eqn:Eq; [|discriminate]. injection Hl as <-.
    destruct (nth_error_Forall2 _ _ _ HF _ _ Eq) as (Mi & Em & Di). cbn [fst] in Di.
    unfold costdx0dot. destruct (nth_map_some (at_ c x0) all (s_idx ss) (zero, zero, R0) _ Eq) as [E1 B1]. rewrite E1.
    rewrite (nth_error_nth Ms (s_idx ss) (fun _ => zero) Em). cbn [at_ fst snd]. eexists. split.
    + assert (B2 : (s_idx ss < length Ms)%nat) by (apply nth_error_Some; congruence).
      rewrite !map_length in *. rewrite (proj2 (Nat.ltb_lt _ _) B1), (proj2 (Nat.ltb_lt _ _) B2), !andb_true_r. reflexivity.
    + apply (filterdiff_ext_lin (V := R_NormedModule) _ (fun h => (dLx (Xi x0) (ctrl ti) ti (Mi h) + dLu (Xi x0) (ctrl ti) ti zero)%R)).
      * apply (chainL L dLx dLu HL V Xi (fun _ => ctrl ti) ti x0 Mi (fun _ => zero)); auto. apply filterdiff_const.
      * intros h. destruct (HL (Xi x0) (ctrl ti) ti) as [_ ->]. apply Rplus_0_r.
  - apply (filterdiff_const (V := R_NormedModule)).
  - reflexivity.
  - unfold ls. rewrite map_length. unfold all. rewrite stgs_length. cbn. lia.
  - assert (E' := eq_trans (eq_sym Hg) EG). injection E' as -> ->. split; [reflexivity|].
    eapply filterdiff_ext; [|exact DC]. intros x. rewrite LX. cbn [snd]. fold all.
    rewrite (EC x). reflexivity.
Qed.

(** ** C45.  The cost gradient with respect to controller parameters. *)
Theorem C45_cost_control (ctrl : W -> R -> U) (dctrl : R -> W -> U) w0 st n x0 t dt xf cache M s c0 g s' :
  (forall t, filterdiff (fun w => ctrl w t) (locally w0) (dctrl t)) ->
  integrate_state f (ctrl w0) st n x0 t dt = (xf, cache) ->
  sens_u0 dctrl st n t dt (fst (linearize dfx dfu cache)) (snd (linearize dfx dfu cache)) cache = (M, s) ->
  cost_sens_u0 dctrl dLx dLu st n t dt cache (s_cache s) = (g, s') ->
  s_ok s' = true /\
  filterdiff (V := R_NormedModule) (fun w => fst (integrate_cost L st n c0 t dt (snd (integrate_state f (ctrl w) st n x0 t dt)))) (locally w0) g.
Proof.
  unfold integrate_state, sens_u0, cost_sens_u0, integrate_cost. intros Hc Hx HM Hg.
  set (X := fun _ : W => x0).
  assert (LX : forall w, loop plus scal (xdot f (ctrl w)) st n x0 t dt [] = (nxt f ctrl st n X t dt w, map (at_ ctrl w) (stgs f ctrl st n X t dt))) by exact (fun w => loop_x f ctrl st n X t dt w []).
  rewrite (LX w0) in Hx. injection Hx as <- <-.
  destruct (loop_M f ctrl w0 (stgs f ctrl st n X t dt) _ (u0_ok f dfx dfu Hf ctrl dctrl w0 (stgs f ctrl st n X t dt) Hc) st n X t dt (fun _ => zero) (mkS 0 true [])) as (M' & Ms & E & HD & HF).
  { apply filterdiff_const. }
  { intros i q Hi. exact Hi. }
  rewrite HM in E. injection E as -> ->. cbn [s_cache app] in Hg.
  set (all := stgs f ctrl st n X t dt) in *.
  set (ls := map (fun q : (W -> V) * R => fun w => L (fst q w) (ctrl w (snd q)) (snd q)) all).
  destruct (quad_loop (W := W) w0 ls (fun w => costdot L (map (at_ ctrl w) all)) (costdu0dot dctrl dLx dLu (map (at_ ctrl w0) all) Ms)) with (st := st) (n := n) (C := fun _ : W => c0) (G := fun _ : W => 0%R) (t := t) (dt := dt) (s := mkS (Y := R) 0 true []) (s' := mkS (Y := W -> R) 0 true [])
    as (C' & G' & EC & EG & DC).
  - intros w cc tt ss l Hl. unfold ls in Hl. rewrite nth_error_map in Hl.
    destruct (nth_error all (s_idx ss)) as [q|] eqn:Eq; [|discriminate]. injection Hl as <-.
    unfold costdot. destruct (nth_map_some (at_ ctrl w) all (s_idx ss) (zero, zero, R0) _ Eq) as [E1 B1]. rewrite E1.
    rewrite (proj2 (Nat.ltb_lt _ _) B1), andb_true_r. reflexivity.
  - intros G tt ss l Hl. unfold ls in Hl. rewrite nth_error_map in Hl.
    destruct (nth_error all (s_idx ss)) as [[Xi ti]|] eqn:Eq; [|discriminate]. injection Hl as <-.
    destruct (nth_error_Forall2 _ _ _ HF _ _ Eq) as (Mi & Em & Di). cbn [fst] in Di.
    unfold costdu0dot. destruct (nth_map_some (at_ ctrl w0) all (s_idx ss) (zero, zero, R0) _ Eq) as [E1 B1]. rewrite E1.
    rewrite (nth_error_nth Ms (s_idx ss) (fun _ => zero) Em). cbn [at_ fst snd]. eexists. split.
    + assert (B2 : (s_idx ss < length Ms)%nat) by (apply nth_error_Some; congruence).
      rewrite !map_length in *. rewrite (proj2 (Nat.ltb_lt _ _) B1), (proj2 (Nat.ltb_lt _ _) B2), !andb_true_r. reflexivity.
    + apply (chainL L dLx dLu HL W Xi (fun w => ctrl w ti) ti w0 Mi (dctrl ti)); auto.
  - apply (filterdiff_const (V := R_NormedModule)).
  - reflexivity.
  - unfold ls. rewrite map_length. unfold all. rewrite stgs_length. cbn. lia.
  - rewrite Hg in EG. injection EG as -> ->. split; [reflexivity|].
    eapply filterdiff_ext; [|exact DC]. intros w. rewrite LX. cbn [snd]. fold all.
    rewrite (EC w). reflexivity.
Qed.

(** ** C45, discrete-time linearisation (ct::core::SensitivityIntegrator).  For dynamics that do not depend on time
    explicitly, and a control that is constant over the interval, A and B are the derivatives of the state after the
    interval with respect to state and control, whatever the time index is.
    Partial: see C45_time_refuted for time-varying dynamics. *)
Theorem C45_discrete_state_partial (u : U) st k n x0 t dt xf cache M s :
  (forall x v t1 t2, dfx x v t1 = dfx x v t2) ->
  integrate_state f (fun _ => u) st n x0 t dt = (xf, cache) ->
  ct_sensA dfx st k n dt cache = (M, s) ->
  s_ok s = true /\ filterdiff (fun x => fst (integrate_state f (fun _ => u) st n x t dt)) (locally x0) M.
Proof.
  intros Hti. unfold integrate_state, ct_sensA. intros Hx HM.
  set (c := fun (_ : V) (_ : R) => u). set (X := fun x : V => x).
  assert (LX : forall x, loop plus scal (xdot f (fun _ => u)) st n x t dt [] = (nxt f c st n X t dt x, map (at_ c x) (stgs f c st n X t dt))) by exact (fun x => loop_x f c st n X t dt x []).
  rewrite (LX x0) in Hx. injection Hx as <- <-. set (all := stgs f c st n X t dt) in *.
  destruct (ct_loop_M f c x0 all (ct_rhsA dfx (map (at_ c x0) all))) with (st := st) (n := n) (t' := (INR k * dt)%R) (X := X) (t := t) (dt := dt) (M := fun h : V => h) (s := mkS (Y := V -> V) 0 true []) as (M' & Ms & E & HD & _).
  - intros N t1 s1 Xi ti Hn HX. unfold ct_rhsA. cbn [fst snd].
    destruct (nth_map_some (at_ c x0) all (s_idx s1) (zero, zero, R0) _ Hn) as [E1 B1]. rewrite E1. cbn [at_ fst snd]. split.
    + apply (filterdiff_ext_lin _ (fun h => plus (dfx (Xi x0) u ti (N h)) (dfu (Xi x0) u ti zero))).
      * apply (chain f dfx dfu Hf V Xi (fun _ => u) ti x0 N (fun _ => zero)); auto. apply filterdiff_const.
      * intros h. destruct (Hf (Xi x0) u ti) as [_ ->]. rewrite plus_zero_r. unfold c. now rewrite (Hti (Xi x0) u ti t1).
    + rewrite !map_length in *. rewrite (proj2 (Nat.ltb_lt _ _) B1), andb_true_r. reflexivity.
  - apply filterdiff_id.
  - intros i q Hi. exact Hi.
  - assert (E' := eq_trans (eq_sym HM) E). injection E' as -> ->. split; [reflexivity|].
    eapply filterdiff_ext; [|exact HD]. intros x. rewrite LX. reflexivity.
Qed.
Theorem C45_discrete_control_partial (u0 : U) st k n x0 t dt xf cache M s :
  (forall x v t1 t2, dfx x v t1 = dfx x v t2) -> (forall x v t1 t2, dfu x v t1 = dfu x v t2) ->
  integrate_state f (fun _ => u0) st n x0 t dt = (xf, cache) ->
  ct_sensB dfx dfu (fun (_ : R) (h : U) => h) st k n dt cache = (M, s) ->
  s_ok s = true /\ filterdiff (fun u => fst (integrate_state f (fun _ => u) st n x0 t dt)) (locally u0) M.
Proof.
  intros Hti Htu. unfold integrate_state, ct_sensB. intros Hx HM.
  set (c := fun (u : U) (_ : R) => u). set (X := fun _ : U => x0).
  assert (LX : forall u, loop plus scal (xdot f (fun _ => u)) st n x0 t dt [] = (nxt f c st n X t dt u, map (at_ c u) (stgs f c st n X t dt))) by exact (fun u => loop_x f c st n X t dt u []).
  rewrite (LX u0) in Hx. injection Hx as <- <-. set (all := stgs f c st n X t dt) in *.
  destruct (ct_loop_M f c u0 all (ct_rhsB dfx dfu (fun (_ : R) (h : U) => h) (map (at_ c u0) all))) with (st := st) (n := n) (t' := (INR k * dt)%R) (X := X) (t := t) (dt := dt) (M := fun _ : U => zero : V) (s := mkS (Y := U -> V) 0 true []) as (M' & Ms & E & HD & _).
  - intros N t1 s1 Xi ti Hn HX. unfold ct_rhsB. cbn [fst snd].
    destruct (nth_map_some (at_ c u0) all (s_idx s1) (zero, zero, R0) _ Hn) as [E1 B1]. rewrite E1. cbn [at_ fst snd]. split.
    + apply (filterdiff_ext_lin _ (fun h => plus (dfx (Xi u0) u0 ti (N h)) (dfu (Xi u0) u0 ti h))).
      * apply (chain f dfx dfu Hf U Xi (fun u => u) ti u0 N (fun h => h)); auto. apply filterdiff_id.
      * intros h. unfold c. now rewrite (Hti (Xi u0) u0 ti t1), (Htu (Xi u0) u0 ti t1).
    + rewrite !map_length in *. rewrite (proj2 (Nat.ltb_lt _ _) B1), andb_true_r. reflexivity.
  - apply filterdiff_const.
  - intros i q Hi. exact Hi.
  - assert (E' := eq_trans (eq_sym HM) E). injection E' as -> ->. split; [reflexivity|].
    eapply filterdiff_ext; [|exact HD]. intros u. rewrite LX. reflexivity.
Qed.
End Main.
Print Assumptions C45_initial_state.
Print Assumptions C45_control.
Print Assumptions C45_cost_initial_state.
Print Assumptions C45_cost_control.
Print Assumptions C45_discrete_state_partial.
Print Assumptions C45_discrete_control_partial.

(** The hypotheses are met, for instance, by the nonlinear dynamics x' = x u. *)
Notation RN := R_NormedModule.
Example C45_example : exact_linearisation (V := RN) (U := RN) (fun x u _ => x * u)%R (fun _ u _ h => h * u)%R (fun x _ _ k => x * k)%R.
Proof.
  intros x u t. split.
  - apply (filterdiff_ext_lin _ (fun h : R * R => plus (mult (fst h) u) (mult x (snd h)))).
    + apply (filterdiff_mult (K := R_AbsRing) (x, u) (fun P H => H) Rcomm).
    + intros [a b]. reflexivity.
  - apply Rmult_0_r.
Qed.
(** ... and the result of two Euler steps from x = 3, u = 2, dt = 1 is 27 with derivative 9. *)
Example C45_example_values :
  let f := (fun x u _ => x * u)%R in
  let cache := snd (integrate_state (V := RN) (U := RN) f (fun _ => 2%R) Euler 2 3%R 0%R 1%R) in
  fst (integrate_state (V := RN) (U := RN) f (fun _ => 2%R) Euler 2 3%R 0%R 1%R) = 27%R /\
  fst (sens_x0 (V := RN) Euler 2 0%R 1%R (fst (linearize (V := RN) (U := RN) (fun _ u _ h => h * u)%R (fun x _ _ k => x * k)%R cache))) 1%R = 9%R.
Proof.
  cbn. unfold plus, scal, madd, mmul, mult. cbn. unfold mult, plus, scal. cbn. split; lra.
Qed.

(** Finding: SensitivityIntegrator evaluates the linearisation of every sub-step at the start time of the interval (and
    takes k times the simulation step for it), so for time-varying dynamics the sensitivities are wrong: for
    x' = t x, two Euler steps of size 1 from time 0, the state doubles but the sensitivity is 1. *)
Theorem C45_time_refuted :
  let f := (fun (x : RN) (u : RN) t => t * x)%R : RN -> RN -> R -> RN in
  let dfx := (fun (x : RN) (u : RN) t h => t * h)%R : RN -> RN -> R -> RN -> RN in
  let dfu := (fun (x : RN) (u : RN) (t : R) (k : RN) => 0)%R : RN -> RN -> R -> RN -> RN in
  exact_linearisation f dfx dfu /\
  forall x0, let cache := snd (integrate_state f (fun _ => 0%R : RN) Euler 2 x0 0%R 1%R) in
  fst (integrate_state f (fun _ => 0%R : RN) Euler 2 x0 0%R 1%R) = (2 * x0)%R /\
  fst (ct_sensA dfx Euler 0 2 1%R cache) 1%R = 1%R.
Proof.
  split.
  - intros x u t. split; [|reflexivity].
    apply (filterdiff_ext_lin _ (fun h : R * R => scal t (fst h))).
    + apply (filterdiff_scal_r_fct (V := RN) t (fun z : R * R => fst z)); [apply Rcomm|].
      apply filterdiff_linear, is_linear_fst.
    + intros [a b]. unfold scal, plus; cbn. unfold mult; cbn. ring.
  - intros x0. cbn. unfold plus, scal, madd, mmul, mult. cbn. unfold mult, plus, scal. cbn. split; lra.
Qed.
Print Assumptions C45_time_refuted.

(** ** C48, sensitivities of nonlinear systems.  The matrices A and B of the symplectic setting are the derivatives of the
    symplectic step with respect to state and control, for every system with exact partial derivatives, when the second
    linearisation is taken at the intermediate state. *)
Section C48s.
Context {P V U : NormedModule R_AbsRing}.
Variables (fp : P -> V -> U -> P) (fv : P -> V -> U -> V).
Variables (pp : P -> V -> U -> P -> P) (pv : P -> V -> U -> V -> P) (pu : P -> V -> U -> U -> P).
Variables (vp : P -> V -> U -> P -> V) (vv : P -> V -> U -> V -> V) (vu : P -> V -> U -> U -> V).
Hypothesis Hp : forall p v u, filterdiff (fun z : P * V * U => fp (fst (fst z)) (snd (fst z)) (snd z)) (locally (p, v, u))
  (fun h : P * V * U => plus (plus (pp p v u (fst (fst h))) (pv p v u (snd (fst h)))) (pu p v u (snd h))).
Hypothesis Hv : forall p v u, filterdiff (fun z : P * V * U => fv (fst (fst z)) (snd (fst z)) (snd z)) (locally (p, v, u))
  (fun h : P * V * U => plus (plus (vp p v u (fst (fst h))) (vv p v u (snd (fst h)))) (vu p v u (snd h))).
Hypothesis Lp : forall p v u, is_linear (pu p v u) /\ is_linear (pp p v u) /\ is_linear (pv p v u).
Hypothesis Lv : forall p v u, is_linear (vp p v u) /\ is_linear (vu p v u) /\ is_linear (vv p v u).

Lemma D_pair (T A B : NormedModule R_AbsRing) (a : T -> A) (b : T -> B) w0 M N : filterdiff a (locally w0) M -> filterdiff b (locally w0) N ->
  filterdiff (fun w => (a w, b w)) (locally w0) (fun h => (M h, N h)).
Proof.
  intros Ha Hb. apply (filterdiff_comp'_2 a b (fun x y => (x, y)) w0 M N (fun x y => (x, y))); auto.
  apply (filterdiff_ext (fun z : A * B => z)); [now intros []|].
  apply (filterdiff_ext_lin _ (fun z : A * B => z)); [apply filterdiff_id|now intros []].
Qed.
Lemma chain3 (T Y : NormedModule R_AbsRing) (g : P -> V -> U -> Y) (gp : P -> Y) (gv : V -> Y) (gu : U -> Y) (a : T -> P) (b : T -> V) (c : T -> U) w0 M N O :
  filterdiff (fun z : P * V * U => g (fst (fst z)) (snd (fst z)) (snd z)) (locally (a w0, b w0, c w0))
    (fun h : P * V * U => plus (plus (gp (fst (fst h))) (gv (snd (fst h)))) (gu (snd h))) ->
  filterdiff a (locally w0) M -> filterdiff b (locally w0) N -> filterdiff c (locally w0) O ->
  filterdiff (fun w => g (a w) (b w) (c w)) (locally w0) (fun h => plus (plus (gp (M h)) (gv (N h))) (gu (O h))).
Proof.
  intros Hg Ha Hb Hc.
  apply (filterdiff_comp' (fun w => (a w, b w, c w)) (fun z : P * V * U => g (fst (fst z)) (snd (fst z)) (snd z)) w0 (fun h => (M h, N h, O h))
     (fun h : P * V * U => plus (plus (gp (fst (fst h))) (gv (snd (fst h)))) (gu (snd h)))); [|exact Hg].
  apply (D_pair T (prod_NormedModule R_AbsRing P V) U); [now apply D_pair|exact Hc].
Qed.
Lemma lin0 {A B : NormedModule R_AbsRing} (l : A -> B) : is_linear l -> l zero = zero.
Proof. intros H. now apply linear_zero. Qed.

Lemma Dp (T Y : NormedModule R_AbsRing) (a b : T -> Y) w0 M N : filterdiff a (locally w0) M -> filterdiff b (locally w0) N ->
  filterdiff (fun w => plus (a w) (b w)) (locally w0) (fun h => plus (M h) (N h)).
Proof. apply filterdiff_plus_fct. Qed.
Lemma Ds (T Y : NormedModule R_AbsRing) (c : R) (a : T -> Y) w0 M : filterdiff a (locally w0) M ->
  filterdiff (fun w => scal c (a w)) (locally w0) (fun h => scal c (M h)).
Proof. intros H. exact (filterdiff_scal_r_fct (c : R_AbsRing) a M Rcomm H). Qed.
Lemma sd (Y : NormedModule R_AbsRing) (c : R) (a b : Y) : scal c (plus a b) = plus (scal c a) (scal c b).
Proof. exact (scal_distr_l (c : R_AbsRing) a b). Qed.
Lemma lpl {A B : NormedModule R_AbsRing} (l : A -> B) : is_linear l -> forall a b, l (plus a b) = plus (l a) (l b).
Proof. intros H. now apply linear_plus. Qed.
Lemma lsc {A B : NormedModule R_AbsRing} (l : A -> B) : is_linear l -> forall (c : R) a, l (scal c a) = scal c (l a).
Proof. intros H c a. exact (linear_scal _ H (c : R_AbsRing) a). Qed.
Lemma ac5 (G : AbelianGroup) (b e1 e2 e3 e4 : G) : plus b (plus (plus e1 (plus e2 e3)) e4) = plus (plus e1 e2) (plus b (plus e4 e3)).
Proof.
  rewrite (plus_assoc e1 e2 e3), <- (plus_assoc (plus e1 e2) e3 e4), (plus_comm e3 e4), (plus_assoc b), (plus_comm b), <- plus_assoc. reflexivity.
Qed.

Theorem C48_state_sensitivity (dt : R) (u : U) (p : P) (v : V) :
  let p' := fst (sym_step fp fv dt u (p, v)) in
  filterdiff (sym_step fp fv dt u) (locally (p, v)) (sym_A dt (pp p v u) (pv p v u) (vp p' v u) (vv p' v u)).
Proof.
  cbn [sym_step fst snd]. set (p' := plus p (scal dt (fp p v u))).
  set (T := prod_NormedModule R_AbsRing P V).
  assert (Dfst : filterdiff (fun x : T => fst x) (locally ((p, v) : T)) (fun h => fst h)) by apply filterdiff_linear, is_linear_fst.
  assert (Dsnd : filterdiff (fun x : T => snd x) (locally ((p, v) : T)) (fun h => snd h)) by apply filterdiff_linear, is_linear_snd.
  assert (D0 : filterdiff (fun x : T => fp (fst x) (snd x) u) (locally ((p, v) : T))
     (fun h => plus (plus (pp p v u (fst h)) (pv p v u (snd h))) (pu p v u zero))).
  { apply (chain3 T P fp (pp p v u) (pv p v u) (pu p v u) (fun x => fst x) (fun x => snd x) (fun _ => u) (p, v) (fun h => fst h) (fun h => snd h) (fun _ => zero)).
    - apply Hp.
    - exact Dfst.
    - exact Dsnd.
    - apply filterdiff_const. }
  assert (D1 := Dp T P _ _ _ _ _ Dfst (Ds T P dt _ _ _ D0)).
  assert (D2 : filterdiff (fun x : T => fv (plus (fst x) (scal dt (fp (fst x) (snd x) u))) (snd x) u) (locally ((p, v) : T))
     (fun h => plus (plus (vp p' v u (plus (fst h) (scal dt (plus (plus (pp p v u (fst h)) (pv p v u (snd h))) (pu p v u zero))))) (vv p' v u (snd h))) (vu p' v u zero))).
  { apply (chain3 T V fv (vp p' v u) (vv p' v u) (vu p' v u) (fun x => plus (fst x) (scal dt (fp (fst x) (snd x) u))) (fun x => snd x) (fun _ => u) (p, v) _ (fun h => snd h) (fun _ => zero)).
    - apply Hv.
    - exact D1.
    - exact Dsnd.
    - apply filterdiff_const. }
  assert (D3 := D_pair T P V _ _ _ _ _ D1 (Dp T V _ _ _ _ _ Dsnd (Ds T V dt _ _ _ D2))).
  eapply filterdiff_ext_lin; [exact D3|].
  intros [a b]. destruct (Lp p v u) as (L1 & L2 & L3). destruct (Lv p' v u) as (M1 & M2 & M3).
  cbn [fst snd]. unfold sym_A. cbn [fst snd]. rewrite (lin0 _ L1), (lin0 _ M2), !plus_zero_r. apply (f_equal2 pair).
  - rewrite (sd P), plus_assoc. reflexivity.
  - rewrite !(sd P), !(sd V), !(lpl _ M1), !(lsc _ M1), !(sd V). apply ac5.
Qed.
Theorem C48_control_sensitivity (dt : R) (u : U) (p : P) (v : V) :
  let p' := fst (sym_step fp fv dt u (p, v)) in
  filterdiff (fun w => sym_step fp fv dt w (p, v)) (locally u) (sym_B dt (pu p v u) (vp p' v u) (vu p' v u)).
Proof.
  cbn [sym_step fst snd]. set (p' := plus p (scal dt (fp p v u))).
  assert (D0 : filterdiff (fun w : U => fp p v w) (locally u) (fun h => plus (plus (pp p v u zero) (pv p v u zero)) (pu p v u h))).
  { apply (chain3 U P fp (pp p v u) (pv p v u) (pu p v u) (fun _ => p) (fun _ => v) (fun w => w) u (fun _ => zero) (fun _ => zero) (fun h => h)).
    - apply Hp.
    - apply filterdiff_const.
    - apply filterdiff_const.
    - apply filterdiff_id. }
  assert (D1 := Dp U P (fun _ => p) _ _ (fun _ => zero) _ (filterdiff_const p) (Ds U P dt _ _ _ D0)).
  assert (D2 : filterdiff (fun w : U => fv (plus p (scal dt (fp p v w))) v w) (locally u)
     (fun h => plus (plus (vp p' v u (plus zero (scal dt (plus (plus (pp p v u zero) (pv p v u zero)) (pu p v u h))))) (vv p' v u zero)) (vu p' v u h))).
  { apply (chain3 U V fv (vp p' v u) (vv p' v u) (vu p' v u) (fun w => plus p (scal dt (fp p v w))) (fun _ => v) (fun w => w) u _ (fun _ => zero) (fun h => h)).
    - apply Hv.
    - exact D1.
    - apply filterdiff_const.
    - apply filterdiff_id. }
  assert (D3 := D_pair U P V _ _ _ _ _ D1 (Dp U V (fun _ => v) _ _ (fun _ => zero) _ (filterdiff_const v) (Ds U V dt _ _ _ D2))).
  eapply filterdiff_ext_lin; [exact D3|].
  intros k. destruct (Lp p v u) as (L1 & L2 & L3). destruct (Lv p' v u) as (M1 & M2 & M3).
  unfold sym_B. rewrite (lin0 _ L2), (lin0 _ L3), (lin0 _ M3), !plus_zero_l, !plus_zero_r. apply (f_equal2 pair); [reflexivity|].
  rewrite (lsc _ M1), plus_comm. reflexivity.
Qed.
End C48s.
Print Assumptions C48_state_sensitivity.
Print Assumptions C48_control_sensitivity.
