(** C06: bookkeeping of fixed-step integration; C15: the control period of the simulator. *)
From Coq Require Import List ZArith QArith Qround Qabs Lqa Arith Lia.
From Coq Require Import SpecFloat.
From Verif.Base Require Import Scalar.
From Verif.Core Require Import IntModel IntSpec.
Import ListNotations.

Section C06.
Variables (S V : Type).
Variable sadd : S -> S -> S.
Variable step : V -> S -> S -> V.
Variable evals : V -> S -> S -> list (V * S).
Notation state_after := (state_after S V sadd step).
Notation time_after := (time_after S sadd).
Notation run := (integrate sadd step evals).

Lemma time_shift k t dt : time_after k (sadd t dt) dt = time_after (Datatypes.S k) t dt.
Proof. induction k as [|k IH]; [reflexivity|]. cbn [IntSpec.time_after] in *. now rewrite IH. Qed.
Lemma state_shift k x t dt : state_after k (step x t dt) (sadd t dt) dt = state_after (Datatypes.S k) x t dt.
Proof. induction k as [|k IH]; [reflexivity|]. cbn [IntSpec.state_after] in *. rewrite IH, time_shift. reflexivity. Qed.

Lemma run_spec n : forall x t dt xf obs ev, run n x t dt = (xf, obs, ev) ->
  xf = state_after n x t dt /\
  obs = map (fun k => (state_after (Datatypes.S k) x t dt, time_after (Datatypes.S k) t dt)) (seq 0 n) /\
  ev = flat_map (fun k => evals (state_after k x t dt) (time_after k t dt) dt) (seq 0 n).
Proof.
  induction n as [|n IH]; intros x t dt xf obs ev H; cbn [integrate] in H.
  - injection H as <- <- <-. auto.
  - destruct (run n (step x t dt) (sadd t dt) dt) as [[xf' obs'] ev'] eqn:E. injection H as <- <- <-.
    apply IH in E. destruct E as (-> & -> & ->). split; [apply state_shift|].
    split.
    + cbn [seq map]. f_equal. rewrite <- seq_shift, map_map. apply map_ext. intros k.
      rewrite state_shift, time_shift. reflexivity.
    + cbn [seq flat_map]. f_equal. rewrite <- seq_shift. clear IH.
      induction (seq 0 n) as [|k l IHl]; [reflexivity|]. cbn [map flat_map]. rewrite state_shift, time_shift. f_equal. exact IHl.
Qed.

(** ** C06.  integrate_n_steps takes exactly [n] steps; the k-th reported pair is the state and the time after k+1
    steps; nothing of an earlier call is reported; the final state is that after [n] steps. *)
Theorem C06_report old n x t dt xf obs : integrate_n_steps sadd step evals old n x t dt = (xf, obs) ->
  xf = state_after n x t dt /\ length obs = n /\
  forall k, (k < n)%nat -> nth_error obs k = Some (state_after (Datatypes.S k) x t dt, time_after (Datatypes.S k) t dt).
Proof.
  unfold integrate_n_steps. destruct (run n x t dt) as [[xf' obs'] ev'] eqn:E. intros H. injection H as <- <-.
  apply run_spec in E. destruct E as (-> & -> & _). split; [reflexivity|]. split; [now rewrite map_length, seq_length|].
  intros k Hk. rewrite nth_error_map, nth_error_nth' with (d := 0%nat) by now rewrite seq_length.
  now rewrite seq_nth.
Qed.

Lemma state_add n m x t dt : state_after m (state_after n x t dt) (time_after n t dt) dt = state_after (n + m) x t dt.
Proof.
  assert (Ht : forall m, time_after m (time_after n t dt) dt = time_after (n + m) t dt).
  { intros k. induction k as [|k IH]; [now rewrite Nat.add_0_r|]. rewrite Nat.add_succ_r. cbn [IntSpec.time_after]. now rewrite IH. }
  induction m as [|m IH]; [now rewrite Nat.add_0_r|]. rewrite Nat.add_succ_r. cbn [IntSpec.state_after]. now rewrite IH, Ht.
Qed.
Lemma time_add n m t dt : time_after m (time_after n t dt) dt = time_after (n + m) t dt.
Proof. induction m as [|k IH]; [now rewrite Nat.add_0_r|]. rewrite Nat.add_succ_r. cbn [IntSpec.time_after]. now rewrite IH. Qed.

(** ** C06.  Integrating n steps and then m steps from where the first call ended is integrating n + m steps: same final
    state, and the reports put together are the report. *)
Theorem C06_composition old1 old2 old3 n m x t dt x1 o1 x2 o2 x3 o3 :
  integrate_n_steps sadd step evals old1 n x t dt = (x1, o1) ->
  integrate_n_steps sadd step evals old2 m x1 (time_after n t dt) dt = (x2, o2) ->
  integrate_n_steps sadd step evals old3 (n + m) x t dt = (x3, o3) -> x2 = x3 /\ o1 ++ o2 = o3.
Proof.
  unfold integrate_n_steps.
  destruct (run n x t dt) as [[a1 b1] c1] eqn:E1. intros H1. injection H1 as <- <-.
  destruct (run m a1 (time_after n t dt) dt) as [[a2 b2] c2] eqn:E2. intros H2. injection H2 as <- <-.
  destruct (run (n + m) x t dt) as [[a3 b3] c3] eqn:E3. intros H3. injection H3 as <- <-.
  apply run_spec in E1. apply run_spec in E2. apply run_spec in E3.
  destruct E1 as (-> & -> & _). destruct E2 as (-> & -> & _). destruct E3 as (-> & -> & _).
  split; [apply state_add|]. rewrite seq_app, map_app. f_equal.
  cbn [Nat.add]. clear.
  assert (H : forall l d, map (fun k => (state_after (Datatypes.S k) (state_after n x t dt) (time_after n t dt) dt, time_after (Datatypes.S k) (time_after n t dt) dt)) (seq d l) =
    map (fun k => (state_after (Datatypes.S k) x t dt, time_after (Datatypes.S k) t dt)) (seq (n + d) l)).
  { induction l as [|l IH]; intros d; [reflexivity|]. cbn [seq map]. rewrite state_add, time_add, !Nat.add_succ_r. f_equal.
    rewrite <- Nat.add_succ_r. apply IH. }
  specialize (H m 0%nat). rewrite Nat.add_0_r in H. exact H.
Qed.

(** ** C06.  The right-hand side is evaluated, and sub-step handlers are called, at the points of step 0, 1, 2, ... in
    order, each step starting from its own state and time. *)
Theorem C06_evaluations n x t dt xf obs ev : integrate sadd step evals n x t dt = (xf, obs, ev) ->
  ev = flat_map (fun k => evals (state_after k x t dt) (time_after k t dt) dt) (seq 0 n).
Proof. intros H. now apply run_spec in H. Qed.

(** ** C06.  Handlers: a handler that asks for sub-steps is called at the evaluation points of the right-hand side, any
    other handler at the step ends, each only where its check holds; the calls come in the order of the steps, and a
    handler never sees points of the other kind. *)
Lemma notify_only i (hs : list (handler S V)) : forall base b x t,
  filter (fun c => Nat.eqb (fst (fst c)) i) (notify_from hs b x t base) =
  match nth_error hs (i - base) with
  | Some h => if (base <=? i)%nat && Bool.eqb (h_substeps h) b && h_check h x t then [(i, x, t)] else []
  | None => [] end.
Proof.
  induction hs as [|h hs IH]; intros base b x t.
  - cbn. now destruct (i - base)%nat.
  - cbn [notify_from]. rewrite filter_app, IH. destruct (le_lt_dec base i) as [Hb|Hb].
    + destruct (Nat.eq_dec base i) as [->|Hne].
      * rewrite Nat.sub_diag. cbn [nth_error]. rewrite (proj2 (Nat.leb_le i i) (le_n i)).
        assert (E : (Datatypes.S i <=? i)%nat = false) by (apply Nat.leb_gt; lia). rewrite E.
        cbn [andb]. assert (E2 : match nth_error hs (i - Datatypes.S i) with Some h0 => [] | None => @nil (nat * V * S) end = []) by now destruct (nth_error hs _).
        rewrite E2, app_nil_r. destruct (Bool.eqb (h_substeps h) b && h_check h x t); [|reflexivity].
        cbn. now rewrite Nat.eqb_refl.
      * replace (i - base)%nat with (Datatypes.S (i - Datatypes.S base)) by lia. cbn [nth_error].
        rewrite (proj2 (Nat.leb_le base i) Hb), (proj2 (Nat.leb_le (Datatypes.S base) i)) by lia.
        destruct (Bool.eqb (h_substeps h) b && h_check h x t); [|reflexivity].
        cbn. now rewrite (proj2 (Nat.eqb_neq base i) Hne).
    + assert (E : (base <=? i)%nat = false) by (apply Nat.leb_gt; lia).
      assert (E' : (Datatypes.S base <=? i)%nat = false) by (apply Nat.leb_gt; lia). rewrite E, E'. cbn [andb].
      replace (i - base)%nat with 0%nat by lia. cbn [nth_error].
      assert (E2 : match nth_error hs (i - Datatypes.S base) with Some h0 => [] | None => @nil (nat * V * S) end = []) by now destruct (nth_error hs _).
      rewrite E2, app_nil_r. destruct (Bool.eqb (h_substeps h) b && h_check h x t); [|reflexivity].
      cbn. now rewrite (proj2 (Nat.eqb_neq base i) ltac:(lia)).
Qed.

Lemma filter_flat_map {A B} (p : B -> bool) (f : A -> list B) l : filter p (flat_map f l) = flat_map (fun a => filter p (f a)) l.
Proof. induction l as [|a l IH]; [reflexivity|]. cbn. now rewrite filter_app, IH. Qed.
Lemma flat_map_flat_map {A B C} (g : B -> list C) (f : A -> list B) l : flat_map g (flat_map f l) = flat_map (fun a => flat_map g (f a)) l.
Proof. induction l as [|a l IH]; [reflexivity|]. cbn. now rewrite flat_map_app, IH. Qed.
Lemma flat_map_map {A B C} (g : B -> list C) (f : A -> B) l : flat_map g (map f l) = flat_map (fun a => g (f a)) l.
Proof. induction l as [|a l IH]; [reflexivity|]. cbn. now rewrite IH. Qed.
Lemma flat_map_opt {A B} (p : A -> bool) (f : A -> B) l : flat_map (fun a => if p a then [f a] else []) l = map f (filter p l).
Proof. induction l as [|a l IH]; [reflexivity|]. cbn. destruct (p a); cbn; now rewrite IH. Qed.
Lemma flat_map_nil {A B} (l : list A) : flat_map (fun _ => @nil B) l = [].
Proof. now induction l. Qed.

Lemma calls_spec (hs : list (handler S V)) n : forall x t dt,
  handler_calls sadd step evals hs n x t dt =
  flat_map (fun k => flat_map (fun p => notify_from hs true (fst p) (snd p) 0) (evals (state_after k x t dt) (time_after k t dt) dt)
     ++ notify_from hs false (state_after (Datatypes.S k) x t dt) (time_after (Datatypes.S k) t dt) 0) (seq 0 n).
Proof.
  induction n as [|n IH]; intros x t dt; [reflexivity|]. cbn [handler_calls seq flat_map]. rewrite IH. apply (f_equal2 (@app _)); [reflexivity|].
  rewrite <- seq_shift, flat_map_map. apply flat_map_ext. intros k.
  now rewrite !state_shift, !time_shift.
Qed.

Theorem C06_handlers (hs : list (handler S V)) n x t dt xf obs ev i h : integrate sadd step evals n x t dt = (xf, obs, ev) ->
  nth_error hs i = Some h ->
  map (fun c => (snd (fst c), snd c)) (filter (fun c => Nat.eqb (fst (fst c)) i) (handler_calls sadd step evals hs n x t dt)) =
  filter (fun p => h_check h (fst p) (snd p)) (if h_substeps h then ev else obs).
Proof.
  intros H Hi. apply run_spec in H. destruct H as (_ & -> & ->).
  rewrite calls_spec, filter_flat_map.
  set (p := fun q : V * S => h_check h (fst q) (snd q)).
  assert (E : forall k, filter (fun c => Nat.eqb (fst (fst c)) i) (flat_map (fun q => notify_from hs true (fst q) (snd q) 0) (evals (state_after k x t dt) (time_after k t dt) dt)
     ++ notify_from hs false (state_after (Datatypes.S k) x t dt) (time_after (Datatypes.S k) t dt) 0) =
     map (fun q => (i, fst q, snd q)) (filter p (if h_substeps h then evals (state_after k x t dt) (time_after k t dt) dt else [(state_after (Datatypes.S k) x t dt, time_after (Datatypes.S k) t dt)]))).
  { intros k. rewrite filter_app, filter_flat_map.
    rewrite (flat_map_ext _ (fun q => if Bool.eqb (h_substeps h) true && p q then [(i, fst q, snd q)] else [])).
    2:{ intros [y s]. rewrite notify_only, Nat.sub_0_r, Hi. reflexivity. }
    rewrite notify_only, Nat.sub_0_r, Hi. destruct (h_substeps h); cbn [Bool.eqb andb Nat.leb].
    - rewrite app_nil_r. apply flat_map_opt.
    - rewrite flat_map_nil. cbn [app filter]. unfold p. cbn [fst snd]. now destruct (h_check h _ _). }
  rewrite (flat_map_ext _ _ E).
  assert (G : forall l (g : nat -> list (V * S)),
     map (fun c : nat * V * S => (snd (fst c), snd c)) (flat_map (fun k => map (fun q => (i, fst q, snd q)) (filter p (g k))) l) = filter p (flat_map g l)).
  { induction l as [|k l IHl]; intros g; [reflexivity|]. cbn [flat_map]. rewrite map_app, filter_app, IHl. f_equal.
    rewrite map_map. erewrite map_ext; [apply map_id|]. now intros []. }
  rewrite G. f_equal. destruct (h_substeps h); [reflexivity|].
  induction (seq 0 n) as [|k l IHl]; [reflexivity|]. cbn [flat_map map app]. f_equal.
Qed.
End C06.
Print Assumptions C06_report.
Print Assumptions C06_composition.
Print Assumptions C06_evaluations.
Print Assumptions C06_handlers.

(** ** C06.  In exact arithmetic the k-th reported time is t0 + (k+1) dt. *)
Theorem C06_exact_times k t dt : IntSpec.time_after Q Qplus k t dt == t + inject_Z (Z.of_nat k) * dt.
Proof.
  induction k as [|k IH]; [cbn; ring|]. cbn [IntSpec.time_after]. rewrite IH, Nat2Z.inj_succ, <- Z.add_1_r, inject_Z_plus. ring.
Qed.
Print Assumptions C06_exact_times.

(** ** C06.  Times at which the steppers evaluate: Euler at the start; RK4 at the start, twice in the middle, at the
    end. *)
Theorem C06_evaluation_times S V (sadd smul : S -> S -> S) half vadd vscal (rhs : V -> S -> V) x t dt :
  map snd (euler_evals x t dt) = [t] /\
  map snd (rk4_evals sadd smul half vadd vscal rhs x t dt) = [t; sadd t (smul half dt); sadd t (smul half dt); sadd t dt].
Proof. split; reflexivity. Qed.

Example C06_example :
  integrate_n_steps Z.add (fun x t dt => x + dt * t)%Z (fun x t dt => [(x, t)]) [(7, 7)%Z] 3 1%Z 10%Z 2%Z = (73, [(21, 12); (45, 14); (73, 16)])%Z.
Proof. reflexivity. Qed.

Example C06_handlers_example :
  handler_calls Z.add (fun x t dt => x + dt * t)%Z (fun x t dt => [(x, t)])
    [mkHandler true (fun _ _ => true); mkHandler false (fun x _ => (30 <? x)%Z)] 2 1%Z 10%Z 2%Z =
  [(0%nat, 1, 10); (0%nat, 21, 12); (1%nat, 45, 14)]%Z.
Proof. reflexivity. Qed.

(** Finding: an Integrator can be copied, but the copy's observer callbacks still point into the original: the copy
    reports an empty trajectory and the points land in the log of the original. *)
Theorem C06_copy_refuted S V (sadd : S -> S -> S) step (evals : V -> S -> S -> list (V * S)) n x t dt : n <> 0%nat ->
  let w := copy_integrator (fresh_integrators S V) 0 in
  forall w' xf obs, integrate_obj sadd step evals w 1 n x t dt = (w', xf, obs) -> obs = [] /\
  length (log_of w' 0) = n.
Proof.
  intros Hn w w' xf obs H. unfold integrate_obj in H.
  destruct (integrate sadd step evals n x t dt) as [[xf' o] ev] eqn:E. cbn in H. injection H as <- <- <-.
  split; [reflexivity|]. apply run_spec in E. destruct E as (_ & -> & _). cbn. now rewrite map_length, seq_length.
Qed.
Print Assumptions C06_copy_refuted.
(** An integrator that was constructed, not copied, reports what it integrated. *)
Theorem C06_constructed S V (sadd : S -> S -> S) step (evals : V -> S -> S -> list (V * S)) n x t dt :
  forall w' xf obs, integrate_obj sadd step evals (fresh_integrators S V) 0 n x t dt = (w', xf, obs) ->
  integrate_n_steps sadd step evals [] n x t dt = (xf, obs).
Proof.
  intros w' xf obs H. unfold integrate_obj in H. unfold integrate_n_steps.
  destruct (integrate sadd step evals n x t dt) as [[xf' o] ev] eqn:E. cbn in H. injection H as <- <- <-. reflexivity.
Qed.
Print Assumptions C06_constructed.

(** ** C15.  A cycle of the simulator advances the system by one control period if the control period is a multiple of
    the simulation step.
    Partial: see C15_period_refuted for the general case. *)
Theorem C15_multiple_partial control_dt sim_dt (n : Z) : 0 < sim_dt -> 0 < control_dt -> control_dt == inject_Z n * sim_dt ->
  advanced (cycle control_dt sim_dt) == control_dt.
Proof.
  intros Hs Hc E. assert (Eq : control_dt / sim_dt == inject_Z n) by (rewrite E; field; intros E0; lra).
  assert (W : whole_steps control_dt sim_dt = n) by (unfold whole_steps; rewrite Eq; apply Qfloor_Z).
  assert (R : residue control_dt sim_dt == 0) by (unfold residue; rewrite W, Eq; ring).
  unfold cycle. rewrite W. destruct (Qle_bool (residue control_dt sim_dt) (1 # 1000000)) eqn:Eb.
  - cbn. rewrite E. ring.
  - exfalso. assert (Hn : ~ (residue control_dt sim_dt <= 1 # 1000000)) by (intros H; apply Qle_bool_iff in H; congruence). apply Hn. rewrite R. discriminate.
Qed.
Print Assumptions C15_multiple_partial.

(** Finding: the remainder is computed as a number of steps (control_dt / sim_dt minus its integer part) but passed to
    the integrator as a step size.  The advanced time is exactly this: *)
Theorem C15_advanced_time control_dt sim_dt : 0 < sim_dt -> 0 < control_dt ->
  let r := residue control_dt sim_dt in 1 # 1000000 < r ->
  advanced (cycle control_dt sim_dt) == control_dt + r * (1 - sim_dt).
Proof.
  intros Hs Hc r Hr. unfold cycle. fold r. destruct (Qle_bool r (1 # 1000000)) eqn:Eb.
  - apply Qle_bool_iff in Eb. exfalso; lra.
  - cbn [advanced negb]. unfold r, residue. set (w := inject_Z (whole_steps control_dt sim_dt)). change (inject_Z 1) with 1.
    clearbody w. assert (E : control_dt == control_dt / sim_dt * sim_dt) by (field; intros E0; lra).
    set (q := control_dt / sim_dt) in *. clearbody q. rewrite E. ring.
Qed.
Print Assumptions C15_advanced_time.
(** ... so the period is missed whenever it is not a multiple of the step and the step is not 1 s: a controller at
    100 Hz over a simulation step of 4 ms advances 0.508 s instead of 0.01 s. *)
Theorem C15_period_refuted : exists control_dt sim_dt, 0 < sim_dt /\ sim_dt < control_dt /\
  ~ advanced (cycle control_dt sim_dt) == control_dt /\ advanced (cycle control_dt sim_dt) == 508 # 1000.
Proof. exists (1 # 100), (4 # 1000). repeat split; try reflexivity. discriminate. Qed.
Print Assumptions C15_period_refuted.

Example C15_example : cycle (1 # 100) (2 # 1000) = [(5%Z, 2 # 1000)].
Proof. reflexivity. Qed.

(** Finding: in double precision the period can be missed also when it is a multiple of the step: 0.3/0.1 rounds to a
    number below 3, so two steps are taken, and the remainder, close to 1, becomes a step of almost one second. *)
Theorem C15_rounding_refuted :
  let c := SFdiv prec64 emax64 (SFnum 3 0) (SFnum 10 0) in      (* the double 0.3 *)
  let s := SFdiv prec64 emax64 (SFnum 1 0) (SFnum 10 0) in      (* the double 0.1 *)
  let q := s_div Fops c s in
  s_ltb Fops q (SFnum 3 0) = true /\ s_ltb Fops (SFnum 2 0) q = true /\
  s_ltb Fops (SFdiv prec64 emax64 (SFnum 99 0) (SFnum 100 0)) (s_sub Fops q (SFnum 2 0)) = true.
Proof. vm_compute. auto. Qed.
Print Assumptions C15_rounding_refuted.
