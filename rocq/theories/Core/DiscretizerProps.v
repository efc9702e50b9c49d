(** C79: discretization of continuous-time systems; C80: the multi-threaded system interface of the solvers. *)
From Coq Require Import List ZArith Reals Lra Lia.
From Verif Require Import Base.Outcome Core.IntModel Core.IntSpec Core.IntProps Core.DiscretizerModel Core.DiscretizerSpec.
Import ListNotations.
Open Scope R_scope.

Section Props.
Variables (X U : Type) (vadd : X -> X -> X) (vscal : R -> X -> X) (dims : bool).
Notation disc := (disc X U).
Notation csys := (csys X U).
Notation method := (method X vadd vscal).
Notation stages := (stages X vadd vscal).
Notation propagate := (propagate X U vadd vscal dims).
Notation call := (call X U).

(** Running a history of calls. *)
Definition perform (d : disc) (c : call) : outcome disc :=
  match c with
  | CParameters _ _ t K => Ok (setParameters X U d t K)
  | CType _ _ ty => Ok (setIntegrationType X U d ty)
  | CSystem _ _ c => Ok (changeContinuousTimeSystem X U dims d c)
  | CPropagate _ _ x n u => do r <- propagate d x n u ;; Ok (snd r)
  end.
Fixpoint history (d : disc) (l : list call) : outcome disc :=
  match l with [] => Ok d | c :: l => do d' <- perform d c ;; history d' l end.

Definition good (i : intent X U) (d : disc) : Prop :=
  dt X U d = i_dt _ _ i /\ K_sim X U d = i_K _ _ i /\ dt_sim X U d = i_dt _ _ i / IZR (i_K _ _ i) /\
  integratorType X U d = i_type _ _ i /\ system X U d = i_sys _ _ i /\
  (forall c, i_fresh _ _ i = true -> i_sys _ _ i = Some c ->
     (isSym (i_type _ _ i) = false -> integrator X U d = Some (i_type _ _ i, c, gen X U d)) /\
     (symplectic _ _ c = true -> dims = true -> eulerSym X U d = Some (c, gen X U d) /\ rkSym X U d = Some c)).

Lemma recorded_good i d a xs us : good i d -> good i (recorded X U d a xs us).
Proof. exact (fun H => H). Qed.
Lemma propagate_good i d x n u r : good i d -> propagate d x n u = Ok r -> good i (snd r).
Proof.
  intros G H. unfold DiscretizerModel.propagate in H.
  destruct (Z.leb _ _); [discriminate|]. destruct (Rle_dec _ _); [discriminate|].
  destruct (system X U d) as [c|]; [|discriminate].
  destruct (integratorType X U d).
  1, 2: destruct (integrator X U d) as [[[ty c'] g]|]; [|discriminate];
    destruct (explicit _ _ _ _ _ _ _ _ _) as [[xf o] ev]; injection H as <-; cbn [snd]; destruct (Nat.eqb _ _); now apply recorded_good.
  - destruct dims; [|discriminate]. destruct (symplectic _ _ c); [|discriminate]. cbn [negb] in H.
    destruct (eulerSym X U d) as [[c' g]|]; [|discriminate].
    destruct (symLoop _ _ _ _ _) as [xf l]. injection H as <-. cbn [snd]. destruct (Nat.eqb _ _); now apply recorded_good.
  - destruct dims; [|discriminate]. destruct (symplectic _ _ c); [|discriminate]. cbn [negb] in H.
    destruct (rkSym X U d) as [c'|]; [|discriminate].
    destruct (symLoop _ _ _ _ _) as [xf l]. injection H as <-. cbn [snd]. now apply recorded_good.
Qed.
Lemma perform_good i d c d' : good i d -> perform d c = Ok d' -> good (intend X U i c) d'.
Proof.
  intros G H. destruct c as [t K|ty|c|x n u]; cbn [perform] in H.
  - injection H as <-. destruct G as (G1 & G2 & G3 & G4 & G5 & G6). repeat split; cbn; auto; try apply G6; auto.
  - injection H as <-. destruct G as (G1 & G2 & G3 & G4 & G5 & G6). repeat split; cbn; auto; try discriminate.
  - injection H as <-. destruct G as (G1 & G2 & G3 & G4 & G5 & G6). unfold changeContinuousTimeSystem, initialize.
    repeat split; cbn [dt K_sim dt_sim integratorType system integrator eulerSym rkSym gen intend i_dt i_K i_type i_sys i_fresh]; auto.
    + injection H0 as <-. intros Hs. rewrite G4, Hs. reflexivity.
    + injection H0 as <-. rewrite H1, H2. reflexivity.
    + injection H0 as <-. rewrite H1, H2. reflexivity.
  - destruct (propagate d x n u) as [r| |] eqn:E; cbn in H; [|discriminate|discriminate]. injection H as <-. cbn [intend].
    exact (propagate_good _ _ _ _ _ _ G E).
Qed.
Lemma history_good l : forall i d d', good i d -> history d l = Ok d' -> good (fold_left (intend X U) l i) d'.
Proof.
  induction l as [|c l IH]; intros i d d' G H; cbn [history] in H.
  - injection H as <-. exact G.
  - destruct (perform d c) as [d1| |] eqn:E; cbn [obind] in H; [|discriminate|discriminate].
    cbn [fold_left]. eapply IH; [|exact H]. eapply perform_good; [|exact E]. exact G.
Qed.
Lemma new_good t ty K : good (mkIntent X U t K ty None false) (newDisc X U t ty K).
Proof. repeat split; cbn; auto; discriminate. Qed.

Lemma time_after_INR k t h : time_after R Rplus k t h = t + INR k * h.
Proof. induction k as [|k IH]; [cbn; lra|]. cbn [time_after]. rewrite IH, S_INR. lra. Qed.
Lemma state_after_after step k x t h : state_after R X Rplus step k x t h = after X step k x t h.
Proof. induction k as [|k IH]; [reflexivity|]. cbn [state_after after]. now rewrite IH, time_after_INR. Qed.
Lemma flat_map_map_fst {A B C} (g : C -> list (A * B)) l : map fst (flat_map g l) = flat_map (fun k => map fst (g k)) l.
Proof. induction l as [|a l IH]; [reflexivity|]. cbn. now rewrite map_app, IH. Qed.
Lemma explicit_spec ty f k x t h xf obs ev : isSym ty = false -> explicit X vadd vscal ty f k x t h = (xf, obs, ev) ->
  xf = after X (method ty f) k x t h /\
  map fst ev = flat_map (fun j => stages ty f (after X (method ty f) j x t h) (t + INR j * h) h) (seq 0 k).
Proof.
  intros Hty H. destruct ty; try discriminate; cbn [explicit] in H; apply run_spec in H; destruct H as (-> & _ & ->);
    (split; [apply state_after_after|]); rewrite flat_map_map_fst; apply flat_map_ext; intros j;
    rewrite state_after_after, time_after_INR; reflexivity.
Qed.
Lemma explicit_length ty f k x t h xf obs ev : isSym ty = false -> explicit X vadd vscal ty f k x t h = (xf, obs, ev) ->
  length ev = ((match ty with EULERCT => 1 | _ => 4 end) * k)%nat.
Proof.
  intros Hty H. apply explicit_spec in H; [|exact Hty]. destruct H as [_ H]. apply (f_equal (@length _)) in H.
  rewrite map_length in H. rewrite H. clear H.
  assert (G : forall (g : nat -> list X) m, (forall j, length (g j) = m) -> forall a, length (flat_map g (seq a k)) = (m * k)%nat).
  { intros g m Hg. induction k as [|k' IH]; intros a; [cbn; lia|]. cbn [seq flat_map]. rewrite app_length, Hg, IH. lia. }
  apply G. intros j. destruct ty; try discriminate; reflexivity.
Qed.
Lemma symLoop_spec step k : forall x h xf l, symLoop X step k x h = (xf, l) ->
  xf = afterSym X step k x h /\ l = map (fun j => afterSym X step (S j) x h) (seq 0 k).
Proof.
  assert (Sh : forall k x h, afterSym X step k (step x h) h = afterSym X step (S k) x h).
  { induction k0 as [|k0 IH]; intros; [reflexivity|]. cbn [afterSym]. rewrite IH. reflexivity. }
  induction k as [|k IH]; intros x h xf l H; cbn [symLoop] in H.
  - injection H as <- <-. auto.
  - destruct (symLoop X step k (step x h) h) as [xf' l'] eqn:E. injection H as <- <-. apply IH in E. destruct E as [-> ->].
    split; [apply Sh|]. cbn [seq map]. f_equal. rewrite <- seq_shift, map_map. apply map_ext. intros j. apply Sh.
Qed.
Lemma const_map {A B} (b : B) (l : list A) : map (fun _ => b) l = repeat b (length l).
Proof. induction l as [|a l IH]; [reflexivity|]. cbn. now rewrite IH. Qed.

(** ** C79.  Whatever was done before with the discretizer, when the system was set after the integration type, propagating with an explicit
    method takes K steps of size dt/K from time n dt with the latest step size, number of substeps and system under the constant control;
    the recorded substates are the points where the dynamics were evaluated in this call and each recorded control is the applied one. *)
Theorem C79_propagate t0 ty0 K0 l d t K ty c x n u :
  history (newDisc X U t0 ty0 K0) l = Ok d -> intended X U t0 ty0 K0 l = mkIntent X U t K ty (Some c) true ->
  (0 < K)%Z -> 0 < t -> ty = EULERCT \/ ty = RK4CT ->
  let f := fun x s => rhs X U c x s u in let k := Z.to_nat K in let h := t / IZR K in
  exists d', propagate d x n u = Ok (after X (method ty f) k x (IZR n * t) h, d') /\
    substates X U d' = flat_map (fun j => stages ty f (after X (method ty f) j x (IZR n * t) h) (IZR n * t + INR j * h) h) (seq 0 k) /\
    subcontrols X U d' = repeat (Some u) ((match ty with EULERCT => 1 | _ => 4 end) * k) /\
    history (newDisc X U t0 ty0 K0) (l ++ [CPropagate X U x n u]) = Ok d'.
Proof.
  intros H I HK Ht Hty f k h. pose proof (history_good _ _ _ _ (new_good t0 ty0 K0) H) as G.
  fold (intended X U t0 ty0 K0 l) in G. rewrite I in G. destruct G as (G1 & G2 & G3 & G4 & G5 & G6). cbn [i_dt i_K i_type i_sys i_fresh] in *.
  assert (Hs : isSym ty = false) by (destruct Hty as [-> | ->]; reflexivity).
  destruct (G6 c eq_refl eq_refl) as [Gi _]. specialize (Gi Hs).
  assert (P : exists d', propagate d x n u = Ok (after X (method ty f) k x (IZR n * t) h, d') /\
    substates X U d' = flat_map (fun j => stages ty f (after X (method ty f) j x (IZR n * t) h) (IZR n * t + INR j * h) h) (seq 0 k) /\
    subcontrols X U d' = repeat (Some u) ((match ty with EULERCT => 1 | _ => 4 end) * k)).
  { destruct (explicit X vadd vscal ty f k x (IZR n * t) h) as [[xf obs] ev] eqn:E.
    pose proof (explicit_spec _ _ _ _ _ _ _ _ _ Hs E) as [E1 E2]. pose proof (explicit_length _ _ _ _ _ _ _ _ _ Hs E) as E3.
    exists (recorded X U d (Some u) (map fst ev) (map (fun _ => Some u) ev)). split; [|split].
    - unfold DiscretizerModel.propagate. rewrite G1, G2, G3, G4, G5, Gi.
      replace (K <=? 0)%Z with false by (symmetry; apply Z.leb_gt; exact HK).
      destruct (Rle_dec t 0) as [B|_]; [lra|]. fold k h. rewrite PeanoNat.Nat.eqb_refl.
      unfold f in *. destruct Hty as [-> | ->]; rewrite E, <- E1; reflexivity.
    - cbn [substates recorded]. exact E2.
    - cbn [subcontrols recorded]. rewrite const_map, E3. reflexivity. }
  destruct P as (d' & P1 & P2 & P3). exists d'. split; [exact P1|]. split; [exact P2|]. split; [exact P3|].
  assert (A : forall l1 l2 a, history a (l1 ++ l2) = (do b <- history a l1 ;; history b l2)).
  { induction l1 as [|z l1 IH]; intros l2 a; cbn [history app obind]; [reflexivity|].
    destruct (perform a z); cbn [obind]; auto. }
  rewrite A, H. cbn [obind history perform]. rewrite P1. reflexivity.
Qed.

(** ** C79.  With a symplectic type: K steps of the symplectic stepper of the latest system, if it is symplectic and the dimensions allow it;
    otherwise an exception.  Substates are recorded (after each step) for the Euler variant. *)
Theorem C79_symplectic t0 ty0 K0 l d t K ty c x n u :
  history (newDisc X U t0 ty0 K0) l = Ok d -> intended X U t0 ty0 K0 l = mkIntent X U t K ty (Some c) true ->
  (0 < K)%Z -> 0 < t -> ty = EULER_SYM \/ ty = RK_SYM ->
  let step := match ty with EULER_SYM => eulerSymStep X U c u | _ => rkSymStep X U c u end in let k := Z.to_nat K in let h := t / IZR K in
  (symplectic X U c = true -> dims = true -> exists d', propagate d x n u = Ok (afterSym X step k x h, d') /\
     (ty = EULER_SYM -> substates X U d' = map (fun j => afterSym X step (S j) x h) (seq 0 k))) /\
  (symplectic X U c = false \/ dims = false -> propagate d x n u = Throw).
Proof.
  intros H I HK Ht Hty step k h. pose proof (history_good _ _ _ _ (new_good t0 ty0 K0) H) as G.
  fold (intended X U t0 ty0 K0 l) in G. rewrite I in G. destruct G as (G1 & G2 & G3 & G4 & G5 & G6). cbn [i_dt i_K i_type i_sys i_fresh] in *.
  destruct (G6 c eq_refl eq_refl) as [_ Gi].
  unfold DiscretizerModel.propagate. rewrite G1, G2, G3, G4, G5.
  replace (K <=? 0)%Z with false by (symmetry; apply Z.leb_gt; exact HK). destruct (Rle_dec t 0) as [B|_]; [lra|]. fold k h.
  split.
  - intros Hsy Hd. destruct (Gi Hsy Hd) as [Ge Gr]. rewrite Ge, Gr, Hsy, Hd. cbn [negb]. rewrite PeanoNat.Nat.eqb_refl.
    unfold step. destruct Hty as [-> | ->].
    + destruct (symLoop X (eulerSymStep X U c u) k x h) as [xf ll] eqn:E. apply symLoop_spec in E. destruct E as [-> ->].
      eexists. split; [reflexivity|]. intros _. reflexivity.
    + destruct (symLoop X (rkSymStep X U c u) k x h) as [xf ll] eqn:E. apply symLoop_spec in E. destruct E as [-> ->].
      eexists. split; [reflexivity|]. intros A. discriminate A.
  - intros Hb. destruct Hty as [-> | ->]; (destruct dims; cbn [negb]; [|reflexivity]);
      (destruct (symplectic X U c); cbn [negb]; [destruct Hb; discriminate|reflexivity]).
Qed.

(** ** C79.  Propagating over m consecutive intervals is one integration over the whole time with step dt/K. *)
Lemma after_add step k : forall j x t h, after X step k (after X step j x t h) (t + INR j * h) h = after X step (j + k) x t h.
Proof.
  induction k as [|k IH]; intros j x t h; [now rewrite PeanoNat.Nat.add_0_r|].
  rewrite PeanoNat.Nat.add_succ_r. cbn [after]. rewrite IH. rewrite plus_INR. f_equal. lra.
Qed.
Fixpoint propagateMany (d : disc) (x : X) (n : Z) (u : U) (m : nat) : outcome X :=
  match m with O => Ok x | S m => do r <- propagate d x n u ;; propagateMany (snd r) (fst r) (n + 1) u m end.
Theorem C79_consecutive t0 ty0 K0 t K ty c u m : (0 < K)%Z -> 0 < t -> ty = EULERCT \/ ty = RK4CT ->
  forall l d x n,
  history (newDisc X U t0 ty0 K0) l = Ok d -> intended X U t0 ty0 K0 l = mkIntent X U t K ty (Some c) true ->
  propagateMany d x n u m =
    Ok (after X (method ty (fun x s => rhs X U c x s u)) (m * Z.to_nat K) x (IZR n * t) (t / IZR K)).
Proof.
  intros HK Ht Hty. induction m as [|m IH]; intros l d x n H I; [reflexivity|].
  destruct (C79_propagate t0 ty0 K0 l d t K ty c x n u H I HK Ht Hty) as (d' & P & _ & _ & H').
  cbn [propagateMany]. rewrite P. cbn [obind fst snd].
  erewrite IH; [|exact H'|].
  2:{ unfold intended in *. rewrite fold_left_app, I. reflexivity. }
  f_equal. cbn [PeanoNat.Nat.mul Nat.mul]. rewrite <- after_add. f_equal.
  assert (Hk : IZR K <> 0) by (apply not_0_IZR; lia).
  rewrite INR_IZR_INZ, Z2Nat.id by lia. rewrite plus_IZR. field. exact Hk.
Qed.
End Props.
Print Assumptions C79_propagate.
Print Assumptions C79_symplectic.
Print Assumptions C79_consecutive.

(** * Concrete systems: scalar states and controls *)
Definition growth : csys R R := mkCsys R R (fun x _ u => x + u) true (fun u x h => x + h * (x + u)) (fun u x h => x + h * u) None.
Definition decay : csys R R := mkCsys R R (fun x _ u => - x) true (fun u x h => x - h * x) (fun u x h => x - h * x) None.
Notation historyR := (history R R Rplus Rmult true).
Notation propagateR := (propagate R R Rplus Rmult true).

(** The hypotheses of C79_propagate are met: two systems, changed parameters, a propagation in between. *)
Example C79_history_example :
  exists d, historyR (newDisc R R 1 EULERCT 1)
    [CSystem R R decay; CPropagate R R 5 3 1; CType R R RK4CT; CSystem R R growth; CParameters R R 2 4] = Ok d /\
  intended R R 1 EULERCT 1 [CSystem R R decay; CPropagate R R 5 3 1; CType R R RK4CT; CSystem R R growth; CParameters R R 2 4] =
    mkIntent R R 2 4 RK4CT (Some growth) true.
Proof.
  cbn [history perform obind]. unfold propagate. cbn. destruct (Rle_dec 1 0) as [B|_]; [lra|]. cbn. eexists. split; reflexivity.
Qed.

Ltac runR := unfold propagate; cbn -[IZR Rle_dec]; repeat (destruct (Rle_dec _ _); [lra|]); cbn -[IZR Rle_dec].

(** ** C79: the full statement, without the condition that the system is set after the integration type, fails.  (a) A new integration type is
    ignored: the old method goes on integrating. *)
Theorem C79_type_ignored_refuted :
  exists l d xf d', historyR (newDisc R R 1 RK4CT 1) l = Ok d /\
    intended R R 1 RK4CT 1 l = mkIntent R R 1 1 EULERCT (Some growth) false /\
    propagateR d 1 0 0 = Ok (xf, d') /\ xf <> after R (method R Rplus Rmult EULERCT (fun x s => rhs R R growth x s 0)) 1 1 0 1.
Proof.
  exists [CSystem R R growth; CType R R EULERCT]. eexists. eexists. eexists. split; [reflexivity|]. split; [reflexivity|].
  split; [runR; reflexivity|]. cbn. unfold rk4_step, rk4_k4, rk4_x4, rk4_k3, rk4_x3, rk4_k2, rk4_x2, rk4_k1, getSimulationTimestep. lra.
Qed.
(** (b) Changing from a symplectic type to an explicit one leads to undefined behaviour. *)
Theorem C79_type_crash_refuted :
  exists l d, historyR (newDisc R R 1 EULER_SYM 1) l = Ok d /\
    intended R R 1 EULER_SYM 1 l = mkIntent R R 1 1 RK4CT (Some growth) false /\ propagateR d 1 0 0 = UB.
Proof.
  exists [CSystem R R growth; CType R R RK4CT]. eexists. split; [reflexivity|]. split; [reflexivity|]. runR. reflexivity.
Qed.
(** (c) The system set last is not the one that is integrated. *)
Theorem C79_stale_system_refuted :
  exists l d xf d', historyR (newDisc R R 1 EULERCT 1) l = Ok d /\
    intended R R 1 EULERCT 1 l = mkIntent R R 1 1 EULERCT (Some growth) false /\
    propagateR d 1 0 0 = Ok (xf, d') /\ xf = 0 /\
    after R (method R Rplus Rmult EULERCT (fun x s => rhs R R growth x s 0)) 1 1 0 1 = 2 /\
    substates R R d' = [].
Proof.
  exists [CSystem R R decay; CType R R EULER_SYM; CSystem R R growth; CType R R EULERCT]. eexists. eexists. eexists.
  split; [reflexivity|]. split; [reflexivity|].
  split; [runR; reflexivity|]. cbn. unfold euler_step, getSimulationTimestep. split; [lra|]. split; [lra|reflexivity].
Qed.
(** (d) Copying a discretizer is undefined behaviour. *)
Theorem C79_copy_refuted : exists d, historyR (newDisc R R 1 RK4CT 1) [CSystem R R growth] = Ok d /\ copyDisc R R d = UB.
Proof. eexists. split; reflexivity. Qed.
(** (e) With the symplectic Euler type the recorded controls are not the applied one; (f) with the symplectic Runge-Kutta type nothing is recorded. *)
Theorem C79_symplectic_controls_refuted :
  exists l d xf d', historyR (newDisc R R 1 EULER_SYM 2) l = Ok d /\
    intended R R 1 EULER_SYM 2 l = mkIntent R R 1 2 EULER_SYM (Some growth) true /\
    propagateR d 1 0 7 = Ok (xf, d') /\ length (substates R R d') = 2%nat /\ subcontrols R R d' = [None; None].
Proof.
  exists [CSystem R R growth]. eexists. eexists. eexists. split; [reflexivity|]. split; [reflexivity|].
  split; [runR; reflexivity|]. split; reflexivity.
Qed.
Theorem C79_symplectic_substates_refuted :
  exists l d xf d', historyR (newDisc R R 1 RK_SYM 2) l = Ok d /\
    intended R R 1 RK_SYM 2 l = mkIntent R R 1 2 RK_SYM (Some growth) true /\
    propagateR d 1 0 7 = Ok (xf, d') /\ substates R R d' = [] /\ subcontrols R R d' = [].
Proof.
  exists [CSystem R R growth]. eexists. eexists. eexists. split; [reflexivity|]. split; [reflexivity|].
  split; [runR; reflexivity|]. split; reflexivity.
Qed.
Print Assumptions C79_type_ignored_refuted.
Print Assumptions C79_type_crash_refuted.
Print Assumptions C79_stale_system_refuted.
Print Assumptions C79_copy_refuted.
Print Assumptions C79_symplectic_controls_refuted.
Print Assumptions C79_symplectic_substates_refuted.

(** * C80: the interface of the solvers *)
Section Interface.
Variables (X U L : Type) (vadd : X -> X -> X) (vscal : R -> X -> X) (dims : bool).
Notation iface := (iface X U L).
Notation csys := (csys X U).
Notation method := (method X vadd vscal).
Notation stages := (stages X vadd vscal).

Inductive icall := ISystem (c : option csys) | ILinear (l : option L) | IConfigure (s : settings) | IPropagate (i : nat) (x : X) (n : Z) (u : U).
Definition iperform (f : iface) (c : icall) : outcome iface :=
  match c with
  | ISystem c => changeNonlinearSystem X U dims L f c
  | ILinear l => changeLinearSystem X U L f l
  | IConfigure s => configureIface X U L f s
  | IPropagate i x n u => do r <- propagateThread X U vadd vscal dims L f i x n u ;; Ok (snd r)
  end.
Fixpoint ihistory (f : iface) (l : list icall) : outcome iface :=
  match l with [] => Ok f | c :: l => do f' <- iperform f c ;; ihistory f' l end.
(** The settings, system and linear system given last. *)
Definition ilast (a : settings * csys * L) (c : icall) : settings * csys * L :=
  let '(s, c0, l0) := a in
  match c with
  | ISystem (Some c) => (s, c, l0) | ILinear (Some l) => (s, c0, l) | IConfigure s => (s, c0, l0) | _ => a
  end.

Definition igood (a : settings * csys * L) (f : iface) : Prop :=
  let '(s, c, l) := a in
  cfg X U L f = s /\ length (discs X U L f) = S (s_threads s) /\ length (senss X U L f) = S (s_threads s) /\
  (forall d, In d (discs X U L f) -> good X U dims (mkIntent X U (s_dt s) (s_K s) (s_int s) (Some c) true) d) /\
  (forall e, In e (senss X U L f) -> exists h, e = SensIntegrator L h l \/ e = SensApproximation L h l).

Lemma threadDisc_good s c : good X U dims (mkIntent X U (s_dt s) (s_K s) (s_int s) (Some c) true) (threadDisc X U dims s c).
Proof.
  unfold threadDisc, newDiscSystem, changeContinuousTimeSystem, initialize.
  repeat split; cbn; auto.
  - injection H0 as <-. intros Hs. rewrite Hs. reflexivity.
  - injection H0 as <-. rewrite H1, H2. reflexivity.
  - injection H0 as <-. rewrite H1, H2. reflexivity.
Qed.
Lemma vec_set_spec {A} (l : list A) : forall i v, (i < length l)%nat ->
  exists l', vec_set l i v = Ok l' /\ length l' = length l /\ nth_error l' i = Some v /\
    (forall j, j <> i -> nth_error l' j = nth_error l j) /\ (forall a, In a l' -> a = v \/ In a l).
Proof.
  induction l as [|a l IH]; intros i v Hi; [cbn in Hi; lia|].
  destruct i as [|i]; cbn [vec_set].
  - exists (v :: l). repeat split; auto.
    + intros [|j] Hj; [contradiction|reflexivity].
    + intros b [<-|Hb]; [now left|right; now right].
  - cbn in Hi. destruct (IH i v ltac:(lia)) as (l' & -> & H1 & H2 & H3 & H4). exists (a :: l'). cbn. repeat split; auto.
    + intros [|j] Hj; [reflexivity|]. cbn. apply H3. lia.
    + intros b [<-|Hb]; [now right; left|]. destruct (H4 b Hb); auto.
Qed.
Lemma initialize_igood s c l f : initializeIface X U dims L s c l = Ok f -> igood (s, c, l) f.
Proof.
  unfold initializeIface. intros H.
  assert (D : forall d, In d (repeat (threadDisc X U dims s c) (S (s_threads s))) ->
    good X U dims (mkIntent X U (s_dt s) (s_K s) (s_int s) (Some c) true) d).
  { intros d Hd. apply repeat_spec in Hd. subst d. apply threadDisc_good. }
  assert (G : forall e0, (exists h, e0 = SensIntegrator L h l \/ e0 = SensApproximation L h l) ->
    igood (s, c, l) (mkIface X U L s (repeat (threadDisc X U dims s c) (S (s_threads s))) (repeat e0 (S (s_threads s))))).
  { intros e0 He. unfold igood. cbn [cfg discs senss]. rewrite !repeat_length. split; [reflexivity|]. split; [reflexivity|].
    split; [reflexivity|]. split; [exact D|]. intros e Hin. apply repeat_spec in Hin. subst e. exact He. }
  destruct (s_useInt s).
  - destruct (s_int s) eqn:Ei; try discriminate; apply Ok_inj in H; subst f; apply G; eexists; left; reflexivity.
  - apply Ok_inj in H. subst f. apply G. eexists. right. reflexivity.
Qed.
Lemma itype_eqb_eq a b : itype_eqb a b = true <-> a = b.
Proof. destruct a, b; split; intros H; congruence || discriminate H || reflexivity. Qed.
Lemma iperform_igood a f c f' : igood a f -> iperform f c = Ok f' -> igood (ilast a c) f'.
Proof.
  destruct a as [[s c0] l0]. intros (G1 & G2 & G3 & G4 & G5) H. destruct c as [c|l|s'|i x n u]; cbn [iperform] in H.
  - destruct c as [c|]; [|discriminate]. apply Ok_inj in H. subst f'. unfold igood, ilast. cbn [cfg discs senss]. rewrite repeat_length, G1.
    split; [reflexivity|]. split; [reflexivity|]. split; [exact G3|]. split; [|exact G5].
    intros d Hd. apply repeat_spec in Hd. subst d. apply threadDisc_good.
  - destruct l as [l|]; [|discriminate]. apply Ok_inj in H. subst f'. unfold igood, ilast. cbn [cfg discs senss]. rewrite map_length.
    split; [exact G1|]. split; [exact G2|]. split; [exact G3|]. split; [exact G4|].
    intros e He. apply in_map_iff in He. destruct He as (e0 & <- & He0). destruct (G5 _ He0) as (h & [-> | ->]); exists h; [now left|now right].
  - unfold configureIface in H. destruct (Nat.eqb (s_threads s') (s_threads (cfg X U L f))) eqn:E1; [|discriminate].
    destruct (itype_eqb (s_int s') (s_int (cfg X U L f))) eqn:E2; [|discriminate]. cbn [negb] in H. apply Ok_inj in H. subst f'.
    apply PeanoNat.Nat.eqb_eq in E1. apply itype_eqb_eq in E2. rewrite G1 in E1, E2.
    unfold igood, ilast. cbn [cfg discs senss]. rewrite !map_length, E1. split; [reflexivity|]. split; [exact G2|]. split; [exact G3|]. split.
    + intros d Hd. apply in_map_iff in Hd. destruct Hd as (d0 & <- & Hd0). apply G4 in Hd0.
      destruct Hd0 as (D1 & D2 & D3 & D4 & D5 & D6). repeat split; cbn; auto; try (rewrite E2; exact D4); rewrite ?E2; apply D6; auto.
    + intros e He. apply in_map_iff in He. destruct He as (e0 & <- & He0). destruct (G5 _ He0) as (h & [-> | ->]); eexists; [now left|now right].
  - unfold propagateThread in H. destruct (vec_get (discs X U L f) i) as [d| |] eqn:E; cbn [obind] in H; [|discriminate|discriminate].
    destruct (propagate X U vadd vscal dims d x n u) as [r| |] eqn:E1; cbn [obind] in H; [|discriminate|discriminate].
    unfold vec_get in E. destruct (nth_error (discs X U L f) i) as [d0|] eqn:E2; [|discriminate]. injection E as ->.
    destruct (vec_set_spec (discs X U L f) i (snd r)) as (l' & V1 & V2 & V3 & V4 & V5).
    { apply nth_error_Some. congruence. }
    rewrite V1 in H. cbn [obind] in H. apply Ok_inj in H. subst f'. unfold igood, ilast. cbn [snd cfg discs senss].
    split; [exact G1|]. split; [congruence|]. split; [exact G3|]. split; [|exact G5].
    intros b Hb. destruct (V5 _ Hb) as [->|Hb']; [|auto]. eapply propagate_good; [|exact E1]. apply G4. eapply nth_error_In. exact E2.
Qed.
Lemma ihistory_igood l : forall a f f', igood a f -> ihistory f l = Ok f' -> igood (fold_left ilast l a) f'.
Proof.
  induction l as [|c l IH]; intros a f f' G H; cbn [ihistory] in H.
  - injection H as <-. exact G.
  - destruct (iperform f c) as [f1| |] eqn:E; cbn [obind] in H; [|discriminate|discriminate].
    cbn [fold_left]. eapply IH; [|exact H]. eapply iperform_igood; [exact G|exact E].
Qed.

Lemma good_propagate t K ty c d x n u : good X U dims (mkIntent X U t K ty (Some c) true) d ->
  (0 < K)%Z -> 0 < t -> ty = EULERCT \/ ty = RK4CT ->
  let f := fun x s => rhs X U c x s u in let k := Z.to_nat K in let h := t / IZR K in
  exists d', propagate X U vadd vscal dims d x n u = Ok (after X (method ty f) k x (IZR n * t) h, d') /\
    substates X U d' = flat_map (fun j => stages ty f (after X (method ty f) j x (IZR n * t) h) (IZR n * t + INR j * h) h) (seq 0 k) /\
    subcontrols X U d' = repeat (Some u) ((match ty with EULERCT => 1 | _ => 4 end) * k).
Proof.
  intros (G1 & G2 & G3 & G4 & G5 & G6) HK Ht Hty f k h. cbn [i_dt i_K i_type i_sys i_fresh] in *.
  assert (Hs : isSym ty = false) by (destruct Hty as [-> | ->]; reflexivity).
  destruct (G6 c eq_refl eq_refl) as [Gi _]. specialize (Gi Hs).
  destruct (explicit X vadd vscal ty f k x (IZR n * t) h) as [[xf obs] ev] eqn:E.
  pose proof (explicit_spec _ _ _ _ _ _ _ _ _ _ _ _ Hs E) as [E1 E2]. pose proof (explicit_length _ _ _ _ _ _ _ _ _ _ _ _ Hs E) as E3.
  exists (recorded X U d (Some u) (map fst ev) (map (fun _ => Some u) ev)). split; [|split].
  - unfold propagate. rewrite G1, G2, G3, G4, G5, Gi.
    replace (K <=? 0)%Z with false by (symmetry; apply Z.leb_gt; exact HK).
    destruct (Rle_dec t 0) as [B|_]; [lra|]. fold k h. rewrite PeanoNat.Nat.eqb_refl.
    unfold f in *. destruct Hty as [-> | ->]; rewrite E, <- E1; reflexivity.
  - cbn [substates recorded]. exact E2.
  - cbn [subcontrols recorded]. rewrite const_map, E3. reflexivity.
Qed.

(** ** C80.  After any history of changed systems, changed linear systems, new settings and propagations on any threads, every thread propagates
    with the settings and the system given last: the same result on each of the nThreads + 1 threads, the recorded substates and
    controls of that thread are those of this call, and those of the other threads stay as they are. *)
Theorem C80_threads s0 c0 l0 f0 h f s c l x n u i : initializeIface X U dims L s0 c0 l0 = Ok f0 ->
  ihistory f0 h = Ok f -> fold_left ilast h (s0, c0, l0) = (s, c, l) ->
  (0 < s_K s)%Z -> 0 < s_dt s -> s_int s = EULERCT \/ s_int s = RK4CT -> (i <= s_threads s)%nat ->
  let g := fun x t => rhs X U c x t u in let k := Z.to_nat (s_K s) in let q := s_dt s / IZR (s_K s) in let t := IZR n * s_dt s in
  exists f', propagateThread X U vadd vscal dims L f i x n u = Ok (after X (method (s_int s) g) k x t q, f') /\
    getSubstates X U L f' i = Ok (flat_map (fun j => stages (s_int s) g (after X (method (s_int s) g) j x t q) (t + INR j * q) q) (seq 0 k)) /\
    getSubcontrols X U L f' i = Ok (repeat (Some u) ((match s_int s with EULERCT => 1 | _ => 4 end) * k)) /\
    forall j, j <> i -> getSubstates X U L f' j = getSubstates X U L f j /\ getSubcontrols X U L f' j = getSubcontrols X U L f j.
Proof.
  intros H0 H1 H2 HK Ht Hty Hi g k q t.
  pose proof (ihistory_igood _ _ _ _ (initialize_igood _ _ _ _ H0) H1) as G. rewrite H2 in G. destruct G as (G1 & G2 & G3 & G4 & G5).
  destruct (nth_error (discs X U L f) i) as [d|] eqn:E.
  2:{ apply nth_error_None in E. lia. }
  destruct (good_propagate _ _ _ _ d x n u (G4 d (nth_error_In _ _ E)) HK Ht Hty) as (d' & P1 & P2 & P3).
  destruct (vec_set_spec (discs X U L f) i d') as (l' & V1 & V2 & V3 & V4 & V5); [lia|].
  exists (mkIface X U L (cfg X U L f) l' (senss X U L f)).
  unfold propagateThread, getSubstates, getSubcontrols, vec_get at 1. rewrite E. cbn [obind]. rewrite P1. cbn [obind fst snd]. rewrite V1.
  cbn [obind discs]. split; [reflexivity|]. unfold vec_get. rewrite V3. cbn [obind].
  split; [now rewrite P2|]. split; [now rewrite P3|].
  intros j Hj. now rewrite (V4 j Hj).
Qed.

(** ** C80.  A changed linear system reaches the sensitivities of all threads. *)
Theorem C80_linear s0 c0 l0 f0 h f s c l : initializeIface X U dims L s0 c0 l0 = Ok f0 ->
  ihistory f0 h = Ok f -> fold_left ilast h (s0, c0, l0) = (s, c, l) ->
  length (senss X U L f) = S (s_threads s) /\
  forall e, In e (senss X U L f) -> exists q, e = SensIntegrator L q l \/ e = SensApproximation L q l.
Proof.
  intros H0 H1 H2. pose proof (ihistory_igood _ _ _ _ (initialize_igood _ _ _ _ H0) H1) as G. rewrite H2 in G.
  destruct G as (G1 & G2 & G3 & G4 & G5). auto.
Qed.

(** ** C80.  Null pointers are refused; settings with another number of threads or another integrator are refused; nothing else is. *)
Theorem C80_refused (f : iface) : changeNonlinearSystem X U dims L f None = Throw /\ changeLinearSystem X U L f None = Throw /\
  (forall c, is_ok (changeNonlinearSystem X U dims L f (Some c))) /\ (forall l, is_ok (changeLinearSystem X U L f (Some l))) /\
  forall s, (s_threads s = s_threads (cfg X U L f) /\ s_int s = s_int (cfg X U L f) -> is_ok (configureIface X U L f s)) /\
            (s_threads s <> s_threads (cfg X U L f) \/ s_int s <> s_int (cfg X U L f) -> configureIface X U L f s = Throw).
Proof.
  split; [reflexivity|]. split; [reflexivity|]. split; [intros; eexists; reflexivity|]. split; [intros; eexists; reflexivity|].
  intros s. unfold configureIface. split.
  - intros [-> ->]. rewrite PeanoNat.Nat.eqb_refl. replace (itype_eqb _ _) with true; [eexists; reflexivity|].
    symmetry. now apply itype_eqb_eq.
  - intros H. destruct (Nat.eqb _ _) eqn:E1; [|reflexivity]. destruct (itype_eqb _ _) eqn:E2; [|reflexivity].
    apply PeanoNat.Nat.eqb_eq in E1. apply itype_eqb_eq in E2. destruct H; contradiction.
Qed.

(** ** C80 (part).  As long as the choice between the two kinds of sensitivities stays the same, every thread's sensitivity is of the chosen kind,
    with the time step that belongs to it: the simulation step dt/K for the integrator, dt for the approximation. *)
Definition sensGood (s : settings) (e : sens L) : Prop :=
  match e with
  | SensIntegrator _ q _ => s_useInt s = true /\ q = s_dt s / IZR (s_K s)
  | SensApproximation _ q _ => s_useInt s = false /\ q = s_dt s
  end.
Definition sameKind (b : bool) (c : icall) : Prop := match c with IConfigure s => s_useInt s = b | _ => True end.
(** The combination that has no implementation is refused when the interface is set up, and only that one. *)
Theorem C80_setup s0 c0 l0 : (exists f0, initializeIface X U dims L s0 c0 l0 = Ok f0) \/
  (s_useInt s0 = true /\ s_int s0 = RK_SYM /\ initializeIface X U dims L s0 c0 l0 = Throw).
Proof.
  unfold initializeIface. destruct (s_useInt s0); [|left; eexists; reflexivity].
  destruct (s_int s0); [left; eexists; reflexivity..|right; auto].
Qed.
Theorem C80_sensitivity_partial s0 c0 l0 f0 h f : initializeIface X U dims L s0 c0 l0 = Ok f0 -> ihistory f0 h = Ok f ->
  List.Forall (sameKind (s_useInt s0)) h -> List.Forall (sensGood (cfg X U L f)) (senss X U L f).
Proof.
  intros H0 H1 Hk.
  assert (I : s_useInt (cfg X U L f0) = s_useInt s0 /\ List.Forall (sensGood (cfg X U L f0)) (senss X U L f0)).
  { unfold initializeIface in H0. destruct (s_useInt s0) eqn:E.
    - destruct (s_int s0); try discriminate; apply Ok_inj in H0; subst f0; (split; [exact E|]); apply Forall_forall; intros e He;
        apply repeat_spec in He; subst e; split; [exact E|reflexivity|exact E|reflexivity|exact E|reflexivity].
    - apply Ok_inj in H0; subst f0. split; [exact E|]. apply Forall_forall. intros e He. apply repeat_spec in He. subst e. split; [exact E|reflexivity]. }
  clear H0. destruct I as [I1 I2]. revert f0 H1 I1 I2. induction Hk as [|c h Hc Hh IH]; intros f0 H1 I1 I2; cbn [ihistory] in H1.
  - injection H1 as <-. exact I2.
  - destruct (iperform f0 c) as [f1| |] eqn:E; cbn [obind] in H1; [|discriminate|discriminate].
    apply (IH f1 H1); clear IH H1.
    + destruct c as [c|lc|s|i x n u]; cbn [iperform] in E.
      * destruct c; [|discriminate]. apply Ok_inj in E; subst f1. exact I1.
      * destruct lc; [|discriminate]. apply Ok_inj in E; subst f1. exact I1.
      * unfold configureIface in E. destruct (Nat.eqb _ _); [|discriminate]. destruct (itype_eqb _ _); [|discriminate]. apply Ok_inj in E; subst f1. exact Hc.
      * unfold propagateThread in E. destruct (vec_get _ _); [|discriminate|discriminate]. cbn [obind] in E.
        destruct (propagate _ _ _ _ _ _ _ _ _); [|discriminate|discriminate]. cbn [obind] in E. destruct (vec_set _ _ _); [|discriminate|discriminate].
        apply Ok_inj in E; subst f1. exact I1.
    + destruct c as [c|lc|s|i x n u]; cbn [iperform] in E.
      * destruct c; [|discriminate]. apply Ok_inj in E; subst f1. exact I2.
      * destruct lc; [|discriminate]. apply Ok_inj in E; subst f1. cbn [cfg senss]. apply Forall_forall. intros e He. apply in_map_iff in He.
        destruct He as (e0 & <- & He0). rewrite Forall_forall in I2. specialize (I2 _ He0). destruct e0; exact I2.
      * unfold configureIface in E. destruct (Nat.eqb _ _); [|discriminate]. destruct (itype_eqb _ _); [|discriminate]. apply Ok_inj in E; subst f1.
        cbn [cfg senss]. apply Forall_forall. intros e He. apply in_map_iff in He. destruct He as (e0 & <- & He0).
        rewrite Forall_forall in I2. specialize (I2 _ He0). cbn [sameKind] in Hc.
        destruct e0 as [q lq|q lq]; destruct I2 as [Ik _]; rewrite I1 in Ik; rewrite Ik in Hc; rewrite Hc; cbn; auto.
      * unfold propagateThread in E. destruct (vec_get _ _); [|discriminate|discriminate]. cbn [obind] in E.
        destruct (propagate _ _ _ _ _ _ _ _ _); [|discriminate|discriminate]. cbn [obind] in E. destruct (vec_set _ _ _); [|discriminate|discriminate].
        apply Ok_inj in E; subst f1. exact I2.
Qed.
End Interface.
Print Assumptions C80_threads.
Print Assumptions C80_setup.
Print Assumptions C80_linear.
Print Assumptions C80_refused.
Print Assumptions C80_sensitivity_partial.

(** A history that meets the hypotheses: three threads, new settings, a new system, propagations on two threads. *)
Example C80_history_example :
  exists f0 f, initializeIface R R true unit (mkSettings 1 1 RK4CT 2 true) decay tt = Ok f0 /\
  ihistory R R unit Rplus Rmult true f0
    [IPropagate R R unit 1 5 0 1; ISystem R R unit (Some growth); IConfigure R R unit (mkSettings 2 3 RK4CT 2 true); IPropagate R R unit 2 5 0 1] = Ok f.
Proof.
  eexists. eexists. split; [reflexivity|]. cbn -[IZR Rle_dec].
  destruct (Rle_dec 1 0) as [B|_]; [lra|]. change (Pos.to_nat 1) with 1%nat. cbn -[IZR Rle_dec].
  destruct (Rle_dec 2 0) as [B|_]; [lra|]. change (Pos.to_nat 3) with 3%nat. reflexivity.
Qed.

(** ** C80: settings that switch between sensitivity integrator and approximation are accepted, but the kind of the sensitivities stays what it was
    and only its time step is set to that of the other kind. *)
Theorem C80_sensitivity_refuted :
  exists f0 f, initializeIface R R true unit (mkSettings 1 4 RK4CT 1 false) growth tt = Ok f0 /\
  ihistory R R unit Rplus Rmult true f0 [IConfigure R R unit (mkSettings 1 4 RK4CT 1 true)] = Ok f /\
  senss R R unit f = [SensApproximation unit (1 / 4) tt; SensApproximation unit (1 / 4) tt] /\
  ~ List.Forall (sensGood unit (cfg R R unit f)) (senss R R unit f).
Proof.
  eexists. eexists. split; [reflexivity|]. split; [reflexivity|]. split; [reflexivity|].
  intros H. inversion_clear H as [|? ? H1 _]. destruct H1 as [H1 _]. discriminate.
Qed.
Print Assumptions C80_sensitivity_refuted.
