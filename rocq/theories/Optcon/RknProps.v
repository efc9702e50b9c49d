(** Properties of the sensitivities of a shot computed from its logs. *)
From Coq Require Import Reals.
From Coquelicot Require Import Coquelicot.
From mathcomp Require Import all_ssreflect all_algebra.
From Verif Require Import Base.RField Base.MxDerive Optcon.RknModel.
Set Implicit Arguments. Unset Strict Implicit. Unset Printing Implicit Defensive.
Import GRing.Theory.
Local Open Scope ring_scope.

(** * Specification *)
Section Spec.
Variables (n m : nat) (f : 'cV[R]_n -> 'cV[R]_m -> R -> 'cV[R]_n).
(** A and B are the derivatives of the dynamics at a point: they give the derivative along every curve through it. *)
Definition linearises (A : 'M[R]_n) (B : 'M[R]_(n, m)) (x : 'cV[R]_n) (u : 'cV[R]_m) (tau : R) : Prop :=
  forall (cx : R -> 'cV[R]_n) (cu : R -> 'cV[R]_m) s0 dx du, cx s0 = x -> cu s0 = u -> mderive cx s0 dx -> mderive cu s0 du ->
    mderive (fun s => f (cx s) (cu s) tau) s0 (A *m dx + B *m du).
(** The shot simulated by Euler steps and by classical Runge-Kutta steps over a grid of times, with a control trajectory. *)
Variables (t : nat -> R) (x0 : 'cV[R]_n) (u : R -> 'cV[R]_m).
Fixpoint euler (k : nat) : 'cV[R]_n :=
  if k is k'.+1 then euler k' + (t k'.+1 - t k') *: f (euler k') (u (t k')) (t k') else x0.
(** State and slope at the four stages of step k, evaluated at the logged times 4k, ..., 4k+3. *)
Definition slope (x : 'cV[R]_n) (i : nat) := f x (u (t i)) (t i).
Definition width (k : nat) : R := t (4 * k.+1)%N - t (4 * k)%N.
Definition stage1 (k : nat) (x : 'cV[R]_n) := x.
Definition stage2 (k : nat) (x : 'cV[R]_n) := x + (width k / 2%:R) *: slope (stage1 k x) (4 * k).
Definition stage3 (k : nat) (x : 'cV[R]_n) := x + (width k / 2%:R) *: slope (stage2 k x) (4 * k + 1).
Definition stage4 (k : nat) (x : 'cV[R]_n) := x + width k *: slope (stage3 k x) (4 * k + 2).
Fixpoint rungekutta (k : nat) : 'cV[R]_n :=
  if k is k'.+1 then let x := rungekutta k' in
    x + (width k' / 6%:R) *: (slope (stage1 k' x) (4 * k') + 2%:R *: slope (stage2 k' x) (4 * k' + 1)
                              + 2%:R *: slope (stage3 k' x) (4 * k' + 2) + slope (stage4 k' x) (4 * k' + 3))
  else x0.
(** The linearisation at logged point i was recorded along the simulation. *)
Definition euler_logged (A : seq 'M[R]_n) (B : seq 'M[R]_(n, m)) : Prop :=
  forall k, (k < size A)%N -> linearises (nth 0 A k) (nth 0 B k) (euler k) (u (t k)) (t k).
Definition rungekutta_logged (A : seq 'M[R]_n) (B : seq 'M[R]_(n, m)) : Prop :=
  forall k, (k < size A %/ 4)%N -> let x := rungekutta k in
    let rec i y := linearises (nth 0 A i) (nth 0 B i) y (u (t i)) (t i) in
    [/\ rec (4 * k)%N (stage1 k x), rec (4 * k + 1)%N (stage2 k x), rec (4 * k + 2)%N (stage3 k x) & rec (4 * k + 3)%N (stage4 k x)].
End Spec.
(** The logs are long enough. *)
Definition times n m (l : logs [fieldType of R] n m) : nat -> R := nth 0 (t_log l).
Definition complete n m (l : logs [fieldType of R] n m) : Prop := size (B_log l) = size (A_log l) /\ (size (A_log l) < size (t_log l))%N.
(** A history with K steps whose entries applied to a direction are the derivatives of the simulated states. *)
Definition sensitivities n p (r : result (seq 'M[R]_(n, p))) (K : nat) (state : R -> nat -> 'cV[R]_n) (s0 : R) (dir : 'cV[R]_p) : Prop :=
  exists hs, [/\ r = Done hs, size hs = K.+1 & forall k, (k <= K)%N -> mderive (fun s => state s k) s0 (nth 0 hs k *m dir)].

(** * Lemmas *)
Fixpoint iterates X (g : nat -> X -> X) (x : X) (k : nat) : X := if k is k'.+1 then g k' (iterates g x k') else x.
Lemma loop_done X (step : nat -> X -> result X) (g : nat -> X -> X) d : forall k i x0 x, x = iterates g x0 i ->
  (forall j y, (i <= j < i + k)%N -> step j y = Done (g j y)) ->
  exists r, [/\ loop step i k x = Done r, size r = k & forall j, (j < k)%N -> nth d r j = iterates g x0 (i + j).+1].
Proof.
  elim=> [|k IH] i x0 x Hx H /=; first by exists [::].
  rewrite H ?leqnn ?addnS ?ltnS ?leq_addr //=.
  have [r [-> Hs Hn]] : exists r, [/\ loop step i.+1 k (g i x) = Done r, size r = k & forall j, (j < k)%N -> nth d r j = iterates g x0 (i.+1 + j).+1].
    apply: IH; first by rewrite /= Hx. move=> j y /andP [h1 h2]; apply: H; rewrite addnS; rewrite addSn in h2; by rewrite (ltnW h1).
  exists (g i x :: r); split=> //=; first by rewrite Hs.
  case=> [|j] /= Hj; first by rewrite addn0 -Hx. by rewrite Hn // addSnnS.
Qed.
Lemma history_done X (step : nat -> X -> result X) (g : nat -> X -> X) d k x :
  (forall j y, (j < k)%N -> step j y = Done (g j y)) ->
  exists hs, [/\ history step k x = Done hs, size hs = k.+1 & forall j, (j <= k)%N -> nth d hs j = iterates g x j].
Proof.
  move=> H. case: (@loop_done X step g d k 0%N x x erefl) => [j y /andP [_ Hj]|r [E Hs Hn]]; first by apply: H.
  exists (x :: r); rewrite /history E /=; split=> //; first by rewrite Hs. case=> [|j] Hj //=; by rewrite Hn.
Qed.
Lemma at_nth A (d : A) (l : seq A) i : (i < size l)%N -> at_ l i = Done (nth d l i).
Proof. rewrite /at_; elim: l i => [|a l IH] [|i] //= H. exact: IH. Qed.
Lemma at_out A (l : seq A) i : (size l <= i)%N -> at_ l i = Undefined.
Proof. rewrite /at_; elim: l i => [|a l IH] [|i] //= H. exact: IH. Qed.
Lemma mder_scale n p (c : R) (A : R -> 'M[R]_(n, p)) t D : mderive A t D -> mderive (fun s => c *: A s) t (c *: D).
Proof.
  move=> H. have H1 := mder_mul (mder_const t c%:M) H. apply: mder_val; first (apply: mder_ext; last exact: H1).
  - move=> s /=; by rewrite mul_scalar_mx. - by rewrite mul0mx add0r mul_scalar_mx.
Qed.
Section Curves.
Variables (n m : nat) (f : 'cV[R]_n -> 'cV[R]_m -> R -> 'cV[R]_n) (l : logs [fieldType of R] n m).
Variables (X0 : R -> 'cV[R]_n) (U : R -> R -> 'cV[R]_m) (s0 : R) (dX0 : 'cV[R]_n) (dU : R -> 'cV[R]_m).
Hypothesis HX0 : mderive X0 s0 dX0.
Hypothesis HU : forall tau, mderive (fun s => U s tau) s0 (dU tau).
Let t := times l.
Let A i := nth 0 (A_log l) i.
Let B i := nth 0 (B_log l) i.
Definition stepE (p : nat) (D : R -> 'M[R]_(m, p)) (i : nat) (d : 'M[R]_(n, p)) := d + (t i.+1 - t i) *: (A i *m d + B i *m D (t i)).
Definition k1 p (D : R -> 'M[R]_(m, p)) i (d : 'M[R]_(n, p)) := A (4 * i) *m d + B (4 * i) *m D (t (4 * i)).
Definition k2 p (D : R -> 'M[R]_(m, p)) i (d : 'M[R]_(n, p)) := A (4 * i + 1) *m (d + (width t i / 2%:R) *: k1 D i d) + B (4 * i + 1) *m D (t (4 * i + 1)).
Definition k3 p (D : R -> 'M[R]_(m, p)) i (d : 'M[R]_(n, p)) := A (4 * i + 2) *m (d + (width t i / 2%:R) *: k2 D i d) + B (4 * i + 2) *m D (t (4 * i + 2)).
Definition k4 p (D : R -> 'M[R]_(m, p)) i (d : 'M[R]_(n, p)) := A (4 * i + 3) *m (d + width t i *: k3 D i d) + B (4 * i + 3) *m D (t (4 * i + 3)).
Definition stepR p (D : R -> 'M[R]_(m, p)) i (d : 'M[R]_(n, p)) :=
  d + (width t i / 6%:R) *: (k1 D i d + 2%:R *: k2 D i d + 2%:R *: k3 D i d + k4 D i d).

Lemma euler_der : euler_logged f t (X0 s0) (U s0) (A_log l) (B_log l) -> forall k, (k <= size (A_log l))%N ->
  mderive (fun s => euler f t (X0 s) (U s) k) s0 (iterates (stepE dU) dX0 k).
Proof.
  move=> L; elim=> [|k IH] Hk //=. have Hd := IH (ltnW Hk).
  apply: mder_add=> //. apply: mder_scale. by apply: (L k Hk (fun s => euler f t (X0 s) (U s) k) (fun s => U s (t k))).
Qed.
Lemma rungekutta_der : rungekutta_logged f t (X0 s0) (U s0) (A_log l) (B_log l) -> forall k, (k <= size (A_log l) %/ 4)%N ->
  mderive (fun s => rungekutta f t (X0 s) (U s) k) s0 (iterates (stepR dU) dX0 k).
Proof.
  move=> L; elim=> [|k IH] Hk //=. have Hd := IH (ltnW Hk). have [L1 L2 L3 L4] := L k Hk.
  set x := fun s => rungekutta f t (X0 s) (U s) k. set d := iterates _ _ _ in Hd *.
  have D1 : mderive (fun s => slope f t (U s) (stage1 k (x s)) (4 * k)) s0 (k1 dU k d).
    exact: (L1 x (fun s => U s (t (4 * k)%N))).
  have D2 : mderive (fun s => slope f t (U s) (stage2 f t (U s) k (x s)) (4 * k + 1)) s0 (k2 dU k d).
    apply: (L2 (fun s => stage2 f t (U s) k (x s)) (fun s => U s (t (4 * k + 1)%N)))=> //. apply: mder_add=> //. exact: mder_scale.
  have D3 : mderive (fun s => slope f t (U s) (stage3 f t (U s) k (x s)) (4 * k + 2)) s0 (k3 dU k d).
    apply: (L3 (fun s => stage3 f t (U s) k (x s)) (fun s => U s (t (4 * k + 2)%N)))=> //. apply: mder_add=> //. exact: mder_scale.
  have D4 : mderive (fun s => slope f t (U s) (stage4 f t (U s) k (x s)) (4 * k + 3)) s0 (k4 dU k d).
    apply: (L4 (fun s => stage4 f t (U s) k (x s)) (fun s => U s (t (4 * k + 3)%N)))=> //. apply: mder_add=> //. exact: mder_scale.
  apply: mder_add=> //. apply: mder_scale. apply: mder_add=> //. apply: mder_add; last exact: mder_scale. apply: mder_add=> //. exact: mder_scale.
Qed.
(** Steps applied to a direction. *)
Lemma stepE_dir p (D : R -> 'M[R]_(m, p)) (X : 'M[R]_(n, p)) (w : 'cV[R]_p) i : stepE D i X *m w = stepE (fun tau => D tau *m w) i (X *m w).
Proof. by rewrite /stepE mulmxDl -scalemxAl mulmxDl !mulmxA. Qed.
Lemma stepR_dir p (D : R -> 'M[R]_(m, p)) (X : 'M[R]_(n, p)) (w : 'cV[R]_p) i : stepR D i X *m w = stepR (fun tau => D tau *m w) i (X *m w).
Proof. by rewrite /stepR /k4 /k3 /k2 /k1 !(mulmxDl, =^~ scalemxAl, =^~ mulmxA). Qed.
Lemma iterates_dir p (g : nat -> 'M[R]_(n, p) -> 'M[R]_(n, p)) (h : nat -> 'cV[R]_n -> 'cV[R]_n) (w : 'cV[R]_p) X k :
  (forall i Y, g i Y *m w = h i (Y *m w)) -> iterates g X k *m w = iterates h (X *m w) k.
Proof. move=> H; elim: k => //= k IH. by rewrite H IH. Qed.

(** The steps of the code. *)
Hypothesis HC : complete l.
Lemma lenB : size (B_log l) = size (A_log l). Proof. by case: HC. Qed.
Lemma lenT i : (i <= size (A_log l))%N -> (i < size (t_log l))%N. Proof. move=> H; case: HC => _; exact: leq_ltn_trans. Qed.
Lemma eulerS_step i X : (i < size (A_log l))%N -> eulerS l i X = Done (stepE (fun _ => 0) i X).
Proof.
  move=> H; rewrite /eulerS (at_nth 0) ?lenT ?addn1 //= (at_nth 0) ?lenT 1?ltnW //= (at_nth 0) //=. congr Done.
  by rewrite /stepE mulmx0 addr0 mulmxDl mul1mx -scalemxAl.
Qed.
Lemma eulerQ_step D i X : (i < size (A_log l))%N -> eulerQ D l i X = Done (stepE D i X).
Proof.
  move=> H; by rewrite /eulerQ (at_nth 0) ?lenT 1?ltnW //= (at_nth 0) ?lenT ?addn1 //= (at_nth 0) //= (at_nth 0) ?lenB.
Qed.
Lemma quarter i j : (i < size (A_log l) %/ 4)%N -> (j < 4)%N -> (4 * i + j < size (A_log l))%N.
Proof.
  move=> Hi Hj. apply: (@leq_trans (4 * i.+1)). - by rewrite mulnS addnC ltn_add2r.
  - apply: leq_trans (leq_trunc_div (size (A_log l)) 4). by rewrite mulnC leq_mul2r Hi orbT.
Qed.
Lemma quarter0 i : (i < size (A_log l) %/ 4)%N -> (4 * i < size (A_log l))%N.
Proof. move=> H; by rewrite -(addn0 (4 * i)%N) quarter. Qed.
Lemma quarter_next i : (i < size (A_log l) %/ 4)%N -> (4 * i.+1 <= size (A_log l))%N.
Proof. move=> H. apply: leq_trans (leq_trunc_div (size (A_log l)) 4). by rewrite mulnC leq_mul2r H orbT. Qed.
Lemma weights (h : R) p (K1 K2 K3 K4 : 'M[R]_(n, p)) :
  h *: (b1 _ *: K1 + b2 _ *: K2 + b3 _ *: K3 + b4 _ *: K4) = (h / 6%:R) *: (K1 + 2%:R *: K2 + 2%:R *: K3 + K4) :> 'M[R]_(n, p).
Proof.
  have six : (6%:R : R) != 0 by rewrite Num.Theory.pnatr_eq0.
  have three : (1 / 3%:R : R) = 2%:R / 6%:R.
    rewrite (_ : (6%:R : R) = 2%:R * 3%:R); last by rewrite -natrM. rewrite invfM mulrA mulfV ?mul1r // Num.Theory.pnatr_eq0 //.
  rewrite /b1 /b2 /b3 /b4 three mul1r -[in RHS]scalerA; congr (_ *: _). by rewrite !scalerDr !scalerA ![_^-1 * _]mulrC.
Qed.
Lemma rk4Q_step D i X : (i < size (A_log l) %/ 4)%N -> rk4Q D l i X = Done (stepR D i X).
Proof.
  move=> H; rewrite /rk4Q addn1 ![(_ * 4)%N]mulnC.
  do 13! (rewrite (at_nth 0) ?lenB ?quarter ?quarter0 ?lenT ?quarter_next //; try by apply: ltnW; rewrite ?quarter ?quarter0).
  cbn [bind]. rewrite weights /a_21 /a_32 /a_43 mulr1. done.
Qed.
Lemma rk4S_step i X : (i < size (A_log l) %/ 4)%N -> rk4S l i X = Done (stepR (fun _ => 0) i X).
Proof.
  move=> H; rewrite /rk4S addn1 ![(_ * 4)%N]mulnC.
  do 6! (rewrite (at_nth 0) ?lenB ?quarter ?quarter0 ?lenT ?quarter_next //; try by apply: ltnW; rewrite ?quarter ?quarter0).
  cbn [bind]. rewrite weights /a_21 /a_32 /a_43 mulr1. by rewrite /stepR /k4 /k3 /k2 /k1 !mulmx0 !addr0.
Qed.
End Curves.
Lemma history_sens n p (step : nat -> 'M[R]_(n, p) -> result 'M[R]_(n, p)) g K X (state : R -> nat -> 'cV[R]_n) s0 w :
  (forall j Y, (j < K)%N -> step j Y = Done (g j Y)) ->
  (forall k, (k <= K)%N -> mderive (fun s => state s k) s0 (iterates g X k *m w)) ->
  sensitivities (history step K X) K state s0 w.
Proof. move=> H1 H2. have [hs [E Hs Hn]] := history_done 0 X H1. exists hs; split=> // k Hk. rewrite Hn //; exact: H2. Qed.
Lemma iterates_ext X (g h : nat -> X -> X) x k : (forall i y, g i y = h i y) -> iterates g x k = iterates h x k.
Proof. move=> H; elim: k => //= k ->. exact: H. Qed.

(** * Theorems *)
(** Entry k of the sensitivities with respect to the initial state gives the derivative of the k-th simulated state along every
    change of the initial state, for every dynamics, control, grid of times and number of steps. *)
Theorem C102_start n m (f : 'cV[R]_n -> 'cV[R]_m -> R -> 'cV[R]_n) (l : logs [fieldType of R] n m) (X0 : R -> 'cV[R]_n) (u : R -> 'cV[R]_m) s0 v :
  complete l -> mderive X0 s0 v ->
  (euler_logged f (times l) (X0 s0) u (A_log l) (B_log l) ->
     sensitivities (compute_dXdSi EULER l) (size (A_log l)) (fun s => euler f (times l) (X0 s) u) s0 v) /\
  (rungekutta_logged f (times l) (X0 s0) u (A_log l) (B_log l) ->
     sensitivities (compute_dXdSi RK4 l) (size (A_log l) %/ 4) (fun s => rungekutta f (times l) (X0 s) u) s0 v).
Proof.
  move=> HC HX. have HU : forall tau, mderive (fun _ => u tau) s0 ((fun _ => 0) tau) by move=> tau; exact: mder_const.
  split=> L.
  - rewrite /compute_dXdSi divn1. apply: (@history_sens _ _ _ (stepE l (fun _ => 0))); first by move=> j Y Hj; exact: eulerS_step.
    move=> k Hk. apply: mder_val; first exact: (euler_der HX HU L Hk).
    rewrite (@iterates_dir _ _ _ (stepE l (fun _ => 0))) ?mul1mx // => i Y. rewrite stepE_dir. by rewrite /stepE mul0mx.
  - apply: (@history_sens _ _ _ (stepR l (fun _ => 0))); first by move=> j Y Hj; exact: rk4S_step.
    move=> k Hk. apply: mder_val; first exact: (rungekutta_der HX HU L Hk).
    rewrite (@iterates_dir _ _ _ (stepR l (fun _ => 0))) ?mul1mx // => i Y. rewrite stepR_dir. by rewrite /stepR /k4 /k3 /k2 /k1 mul0mx.
Qed.
Print Assumptions C102_start.

(** Entry k of the sensitivities with respect to the control parameters at either end of the shot gives the derivative of the k-th
    simulated state along every change of that parameter, where D is the derivative of the spline with respect to it. *)
Theorem C102_controls n m (f : 'cV[R]_n -> 'cV[R]_m -> R -> 'cV[R]_n) (l : logs [fieldType of R] n m) (x0 : 'cV[R]_n) (U : R -> R -> 'cV[R]_m)
    (D : R -> 'M[R]_m) s0 (w : 'cV[R]_m) :
  complete l -> (forall tau, mderive (fun s => U s tau) s0 (D tau *m w)) ->
  (euler_logged f (times l) x0 (U s0) (A_log l) (B_log l) ->
     sensitivities (compute_dXdQi D EULER l) (size (A_log l)) (fun s => euler f (times l) x0 (U s)) s0 w /\
     sensitivities (compute_dXdQip1 D EULER l) (size (A_log l)) (fun s => euler f (times l) x0 (U s)) s0 w) /\
  (rungekutta_logged f (times l) x0 (U s0) (A_log l) (B_log l) ->
     sensitivities (compute_dXdQi D RK4 l) (size (A_log l) %/ 4) (fun s => rungekutta f (times l) x0 (U s)) s0 w /\
     sensitivities (compute_dXdQip1 D RK4 l) (size (A_log l) %/ 4) (fun s => rungekutta f (times l) x0 (U s)) s0 w).
Proof.
  move=> HC HU. have HX : mderive (fun _ => x0) s0 0 by exact: mder_const.
  have E : euler_logged f (times l) x0 (U s0) (A_log l) (B_log l) ->
    sensitivities (history (eulerQ D l) (size (A_log l)) 0) (size (A_log l)) (fun s => euler f (times l) x0 (U s)) s0 w.
    move=> L. apply: (@history_sens _ _ _ (stepE l D)); first by move=> j Y Hj; exact: eulerQ_step.
    move=> k Hk. apply: mder_val; first exact: (euler_der HX HU L Hk).
    by rewrite (@iterates_dir _ _ _ (stepE l (fun tau => D tau *m w))) ?mul0mx // => i Y; rewrite stepE_dir.
  have Q : rungekutta_logged f (times l) x0 (U s0) (A_log l) (B_log l) ->
    sensitivities (history (rk4Q D l) (size (A_log l) %/ 4) 0) (size (A_log l) %/ 4) (fun s => rungekutta f (times l) x0 (U s)) s0 w.
    move=> L. apply: (@history_sens _ _ _ (stepR l D)); first by move=> j Y Hj; exact: rk4Q_step.
    move=> k Hk. apply: mder_val; first exact: (rungekutta_der HX HU L Hk).
    by rewrite (@iterates_dir _ _ _ (stepR l (fun tau => D tau *m w))) ?mul0mx // => i Y; rewrite stepR_dir.
  split=> L; split; [exact: E | exact: E | exact: Q | exact: Q].
Qed.
Print Assumptions C102_controls.

Lemma loop_undefined X (step : nat -> X -> result X) : forall k i x j,
  (i <= j < i + k)%N -> (forall y, step j y = Undefined) -> (forall j' y, (i <= j' < j)%N -> exists z, step j' y = Done z) ->
  loop step i k x = Undefined.
Proof.
  elim=> [|k IH] i x j; first by rewrite addn0 => /andP [a b]; have := leq_ltn_trans a b; rewrite ltnn.
  case/andP=> Hij Hj HU HD /=. case: (eqVneq i j) => [->|Hne]; first by rewrite HU.
  have Hlt : (i < j)%N by rewrite ltn_neqAle Hne.
  have [z ->] := HD i x (introT andP (conj (leqnn i) Hlt)). rewrite /= (IH i.+1 z j) //; first by rewrite Hlt addSnnS.
  move=> j' y /andP [h1 h2]; apply: HD; by rewrite (ltnW h1).
Qed.
(** The logs must hold one more time than linearisations: with a shorter log of times, the Euler sensitivities read past its end. *)
Theorem C102_short_log n m (l : logs [fieldType of R] n m) :
  (size (t_log l) <= size (A_log l))%N -> (0 < size (A_log l))%N -> compute_dXdSi EULER l = Undefined.
Proof.
  move=> Ht HA. rewrite /compute_dXdSi divn1 /history (@loop_undefined _ _ _ _ _ (size (t_log l)).-1) //.
  - rewrite add0n leq0n /=. case: (size (t_log l)) Ht => [|k] //=.
  - move=> y. rewrite /eulerS at_out //. by case: (size (t_log l)) => [|k] //=; rewrite addn1.
  - move=> j y /andP [_ Hj]. have Hj1 : (j.+1 < size (t_log l))%N by rewrite -ltn_predRL.
    have HjA : (j < size (A_log l))%N by apply: leq_trans Ht; exact: ltnW.
    rewrite /eulerS addn1 (at_nth 0) //= (at_nth 0) 1?ltnW //= (at_nth 0) //=. by eexists.
Qed.
Print Assumptions C102_short_log.

(** With the fifth order integrator two of the three computations end the whole process, reporting success, and the third throws. *)
Theorem C102_fifth_order_refuted n m (l : logs [fieldType of R] n m) (D : R -> 'M[R]_m) :
  compute_dXdSi RK5 l = Exit /\ compute_dXdQi D RK5 l = Exit /\ compute_dXdQip1 D RK5 l = Thrown.
Proof. by []. Qed.
Print Assumptions C102_fifth_order_refuted.
(** The sensitivities with respect to the duration are always empty, although there is a derivative for each of the states. *)
Theorem C102_duration_refuted n m (l : logs [fieldType of R] n m) : size (getdXdHiTraj l) <> (size (A_log l)).+1.
Proof. by []. Qed.
Print Assumptions C102_duration_refuted.

(** A linear system meets the hypotheses, with any logs that hold its matrices. *)
Example linear_linearises n m (A : 'M[R]_n) (B : 'M[R]_(n, m)) x u tau : linearises (fun x u _ => A *m x + B *m u) A B x u tau.
Proof.
  move=> cx cu s0 dx du _ _ Hx Hu. apply: mder_add.
  - apply: mder_val; first exact: (mder_mul (mder_const s0 A) Hx). by rewrite mul0mx add0r.
  - apply: mder_val; first exact: (mder_mul (mder_const s0 B) Hu). by rewrite mul0mx add0r.
Qed.
Example linear_logs n m (A : 'M[R]_n) (B : 'M[R]_(n, m)) (ts : seq R) N x0 u : (N < size ts)%N ->
  let l := mkLogs ts (nseq N A) (nseq N B) in let f := fun x u (_ : R) => A *m x + B *m u in
  complete l /\ euler_logged f (times l) x0 u (A_log l) (B_log l) /\ rungekutta_logged f (times l) x0 u (A_log l) (B_log l).
Proof.
  move=> H l f. have lin i y v tau : (i < N)%N -> linearises f (nth 0 (A_log l) i) (nth 0 (B_log l) i) y v tau.
    move=> Hi; rewrite !nth_nseq Hi; exact: linear_linearises.
  have HC : complete l by rewrite /complete !size_nseq.
  split=> //; split=> k; rewrite size_nseq => Hk; first exact: lin.
  split; apply: lin; [have := @quarter0 _ _ l k | have := @quarter _ _ l k 1 | have := @quarter _ _ l k 2 | have := @quarter _ _ l k 3];
    rewrite size_nseq => Q; exact: Q.
Qed.
(** Two Euler steps of length h. *)
Example euler_case n m (A : 'M[R]_n) (B : 'M[R]_(n, m)) h :
  compute_dXdSi EULER (mkLogs [:: 0; h; h + h] (nseq 2 A) (nseq 2 B)) =
    Done [:: 1%:M; (1%:M + h *: A) *m 1%:M; (1%:M + h *: A) *m ((1%:M + h *: A) *m 1%:M)].
Proof. rewrite /compute_dXdSi divn1 /history; cbn [size A_log t_log nseq ncons iter loop bind eulerS at_ List.nth_error addn]. by rewrite /loop /eulerS /bind /at_ /= subr0 addrK. Qed.
