(** C73: actuators follow their documented dynamics, and the state computed for a desired output gives that output. *)
From Coq Require Import Reals List Lia Lra.
From Coquelicot Require Import Coquelicot.
From Verif Require Import Base.Outcome Base.RVec Core.SecondOrderModel Rbd.ActuatorModel.
Import ListNotations.
Local Open Scope R_scope.

(** * Specification *)

(** An oscillator with natural frequency w, damping ratio z and steady amplification g:
    p'' = w^2 (g u - p) - 2 z w p'. *)
Definition oscillator (w z g p v u : R) : R := w * w * (g * u - p) - 2 * z * w * v.

(** The state of joint i of a robot with n joints: torque state i and its rate i + n.  All actuators at rest: *)
Definition at_rest (n : nat) (d : rvec) : Prop := forall i, (i < 2 * n)%nat -> d i = 0.

(** * Proofs *)

Lemma loop_other n osc state control : forall l d k,
  (forall i, List.In i l -> k <> i /\ k <> (i + n)%nat) -> fold_left (soStep n osc state control) l d k = d k.
Proof.
  induction l as [|a l IH]; intros d k H; [reflexivity|]. cbn [fold_left]. rewrite IH.
  - destruct (H a (or_introl eq_refl)). unfold soStep. now rewrite !rset_other by lia.
  - intros i Hi. apply H. now right.
Qed.
Lemma loop_at n osc state control : forall l d i, NoDup l -> (forall j, List.In j l -> (j < n)%nat) -> List.In i l ->
  fold_left (soStep n osc state control) l d i = state (i + n)%nat /\
  fold_left (soStep n osc state control) l d (i + n)%nat =
    snd (sos_dynamics (nth i osc (sos_frequency 0 0 0)) (state i) (state (i + n)%nat) (control i)).
Proof.
  induction l as [|a l IH]; intros d i ND B H; [destruct H|]. cbn [fold_left]. inversion ND as [|? ? Na Nl]; subst.
  pose proof (B a (or_introl eq_refl)) as Ba.
  destruct H as [->|H].
  - assert (Ha : forall j, List.In j l -> j <> i) by (intros j Hj ->; auto).
    split; rewrite loop_other.
    + unfold soStep. rewrite rset_other by lia. now rewrite rset_eq.
    + intros j Hj. pose proof (Ha j Hj). pose proof (B j (or_intror Hj)). lia.
    + unfold soStep. now rewrite rset_eq.
    + intros j Hj. pose proof (Ha j Hj). pose proof (B j (or_intror Hj)). lia.
  - apply IH; auto. intros j Hj. apply B. now right.
Qed.
Lemma so_at n osc state control d i : (i < n)%nat ->
  soDynamics n osc state control d i = state (i + n)%nat /\
  soDynamics n osc state control d (i + n)%nat =
    snd (sos_dynamics (nth i osc (sos_frequency 0 0 0)) (state i) (state (i + n)%nat) (control i)).
Proof.
  intros Hi. unfold soDynamics. apply loop_at; [apply seq_NoDup| |]; intros; try rewrite in_seq in *; lia.
Qed.
Lemma soVec_nth n (f : nat -> sos) i : (i < n)%nat -> nth i (map f (seq 0 n)) (sos_frequency 0 0 0) = f i.
Proof. intros Hi. rewrite (nth_indep _ _ (f 0%nat)) by (now rewrite map_length, seq_length). now rewrite map_nth, seq_nth. Qed.

(** * C73 *)

(** Every joint of the second order actuators is driven by its own oscillator, whatever the derivative vector held before, and
    nothing beyond the actuator states is written. *)
Theorem C73_second_order (n : nat) (ws zs gs : list R) (osc : list sos) (state control d : rvec) :
  soVecGain n ws zs gs = Ok osc ->
  (forall i, (i < n)%nat ->
    soDynamics n osc state control d i = state (i + n)%nat /\
    soDynamics n osc state control d (i + n)%nat =
      oscillator (nth i ws 0) (nth i zs 0) (nth i gs 0) (state i) (state (i + n)%nat) (control i)) /\
  (forall k, (2 * n <= k)%nat -> soDynamics n osc state control d k = d k).
Proof.
  unfold soVecGain. destruct (_ && _ && _)%bool; [|discriminate]. intros E. apply Ok_inj in E. subst osc. split.
  - intros i Hi. split; [now apply so_at|]. rewrite (proj2 (so_at _ _ _ _ _ _ Hi)), soVec_nth by auto.
    unfold sos_dynamics, sos_frequency, oscillator. cbn. ring.
  - intros k Hk. apply loop_other. intros i Hi. rewrite in_seq in Hi. lia.
Qed.
(** The vector constructors accept exactly one entry per joint; the constructors with one value for all joints are the vector
    constructors with equal entries. *)
Theorem C73_constructors (n : nat) (ws zs gs : list R) (w z g : R) :
  (is_ok (soVecGain n ws zs gs) <-> length ws = n /\ length zs = n /\ length gs = n) /\
  (is_ok (soVec n ws zs) <-> length ws = n /\ length zs = n) /\
  soVecGain n (repeat w n) (repeat z n) (repeat g n) = Ok (soSameGain n w z g) /\
  soVec n (repeat w n) (repeat z n) = Ok (soSame n w z).
Proof.
  assert (NR : forall (x : R) i m, (i < m)%nat -> nth i (repeat x m) 0 = x).
  { intros x i m. revert i. induction m as [|m IH]; intros i Hi; [lia|]. destruct i; [reflexivity|]. simpl. apply IH. lia. }
  assert (MS : forall (A : Type) (f : nat -> A) (a : A) m s, (forall i, (s <= i < s + m)%nat -> f i = a) -> map f (seq s m) = repeat a m).
  { intros A f a m. induction m as [|m IH]; intros s H; [reflexivity|]. cbn [seq map repeat]. f_equal; [apply H; lia|]. apply IH. intros i Hi. apply H. lia. }
  split; [|split; [|split]].
  - unfold soVecGain, is_ok. destruct (Nat.eqb_spec (length ws) n), (Nat.eqb_spec (length zs) n), (Nat.eqb_spec (length gs) n); cbn;
      (split; [intros [v Hv]; try discriminate; auto|intros (? & ? & ?); try congruence; eauto]).
  - unfold soVec, is_ok. destruct (Nat.eqb_spec (length ws) n), (Nat.eqb_spec (length zs) n); cbn;
      (split; [intros [v Hv]; try discriminate; auto|intros (? & ?); try congruence; eauto]).
  - unfold soVecGain, soSameGain. rewrite !repeat_length, Nat.eqb_refl. cbn [andb]. f_equal. apply MS.
    intros i Hi. now rewrite !NR by lia.
  - unfold soVec, soSame. rewrite !repeat_length, Nat.eqb_refl. cbn [andb]. f_equal. apply MS.
    intros i Hi. now rewrite !NR by lia.
Qed.

(** The state computed for a desired output gives that output, for both actuators and every joint state. *)
Theorem C73_state_from_output (n : nat) (s : sea) (q control : rvec) (i : nat) : (i < n)%nat -> k_ s <> 0 ->
  seaOutput s q (seaStateFromOutput s q control) i = control i /\
  soOutput n (soStateFromOutput n control) i = control i.
Proof.
  intros Hi Hk. split.
  - unfold seaOutput, seaStateFromOutput. field. exact Hk.
  - unfold soOutput, soStateFromOutput. now destruct (Nat.ltb_spec i n); [|lia].
Qed.
(** For the series elastic actuator it is the only one. *)
Theorem C73_state_unique (s : sea) (q act control : rvec) (i : nat) : k_ s <> 0 -> seaOutput s q act i = control i ->
  act i = seaStateFromOutput s q control i.
Proof. unfold seaOutput, seaStateFromOutput. intros Hk <-. field. exact Hk. Qed.
(** Along every motion the torque of a series elastic actuator changes with the difference of the velocities of gear and
    joint. *)
Theorem C73_series_elastic (s : sea) (q qd act control : R -> rvec) (t : R) (i : nat) :
  is_derive (fun x => q x i) t (qd t i) -> is_derive (fun x => act x i) t (seaDynamics s (control t) i) ->
  is_derive (fun x => seaOutput s (q x) (act x) i) t (k_ s * (control t i / r_ s - qd t i)).
Proof.
  intros Dq Da. unfold seaOutput, seaDynamics in *.
  apply (is_derive_ext (fun x => scal (k_ s) (minus (act x i) (q x i)))).
  { intros x. unfold scal, minus, plus, opp. cbn. unfold mult. cbn. ring. }
  replace (k_ s * (control t i / r_ s - qd t i)) with (scal (k_ s) (minus (control t i / r_ s) (qd t i))).
  - apply @is_derive_scal. apply @is_derive_minus; auto.
  - unfold scal, minus, plus, opp. cbn. unfold mult. cbn. ring.
Qed.

(** Full claim: a second order actuator constructed for unit amplification rests at the commanded output.  Proved for the
    constructors with an explicit gain of 1; the constructors documented as "assuming unit amplification" are refuted below. *)
Theorem C73_rest_partial (n : nat) (w z : R) (control d : rvec) :
  at_rest n (soDynamics n (soSameGain n w z 1) (soStateFromOutput n control) control d).
Proof.
  intros k Hk. destruct (Nat.lt_ge_cases k n) as [L|L].
  - rewrite (proj1 (so_at _ _ _ _ _ _ L)). unfold soStateFromOutput. destruct (Nat.ltb_spec (k + n) n); [lia|reflexivity].
  - replace k with ((k - n) + n)%nat by lia. rewrite (proj2 (so_at n _ _ _ _ (k - n) ltac:(lia))).
    unfold soStateFromOutput, soSameGain. destruct (Nat.ltb_spec (k - n + n) n); [lia|].
    destruct (Nat.ltb_spec (k - n) n); [|lia].
    rewrite (nth_indep _ _ (sos_frequency w z 1)) by (rewrite repeat_length; lia). rewrite nth_repeat.
    unfold sos_dynamics, sos_frequency. cbn. ring.
Qed.
(** REFUTED: the two constructors "assuming unit amplification" store the gain w^2.  The actuator rests at w^2 times the
    command: at the state that gives the commanded output it stays exactly when that output is zero or w = 1 (or w = 0). *)
Theorem C73_unit_amplification_refuted (n : nat) (w z : R) (control d state : rvec) : 0 < w ->
  (at_rest n (soDynamics n (soSame n w z) state control d) <->
   forall i, (i < n)%nat -> state (i + n)%nat = 0 /\ soOutput n state i = w * w * control i) /\
  (at_rest n (soDynamics n (soSame n w z) (soStateFromOutput n control) control d) <->
   w = 1 \/ forall i, (i < n)%nat -> control i = 0).
Proof.
  intros Hw.
  assert (G : forall st, at_rest n (soDynamics n (soSame n w z) st control d) <->
    forall i, (i < n)%nat -> st (i + n)%nat = 0 /\ soOutput n st i = w * w * control i).
  { intros st. unfold soOutput, soSame.
    assert (Hn : forall i, (i < n)%nat -> nth i (repeat (sos_frequency w z (w * w)) n) (sos_frequency 0 0 0) = sos_frequency w z (w * w)).
    { intros i Hi. rewrite (nth_indep _ _ (sos_frequency w z (w * w))) by (now rewrite repeat_length). apply nth_repeat. }
    split.
    - intros H i Hi. pose proof (H i ltac:(lia)) as H1. pose proof (H (i + n)%nat ltac:(lia)) as H2.
      rewrite (proj1 (so_at _ _ _ _ _ _ Hi)) in H1. rewrite (proj2 (so_at _ _ _ _ _ _ Hi)), Hn in H2 by auto.
      split; [exact H1|]. unfold sos_dynamics, sos_frequency in H2. cbn in H2. rewrite H1 in H2.
      apply Rmult_eq_reg_l with (w * w); [|nra]. nra.
    - intros H k Hk. destruct (Nat.lt_ge_cases k n) as [L|L].
      + rewrite (proj1 (so_at _ _ _ _ _ _ L)). now apply H.
      + replace k with ((k - n) + n)%nat by lia. rewrite (proj2 (so_at n _ _ _ _ (k - n) ltac:(lia))), Hn by lia.
        destruct (H (k - n)%nat ltac:(lia)) as (E1 & E2). unfold sos_dynamics, sos_frequency. cbn. rewrite E1, E2. ring. }
  split; [apply G|]. rewrite G. unfold soOutput, soStateFromOutput. split.
  - intros H. destruct (Req_dec w 1) as [E|E]; [now left|right]. intros i Hi. destruct (H i Hi) as (_ & H2).
    destruct (Nat.ltb_spec i n); [|lia]. assert ((w - 1) * (w + 1) * control i = 0) by lra.
    apply Rmult_integral in H1. destruct H1 as [H1|H1]; [|exact H1]. apply Rmult_integral in H1. destruct H1; exfalso; lra.
  - intros H i Hi. destruct (Nat.ltb_spec (i + n) n); [lia|]. destruct (Nat.ltb_spec i n); [|lia]. split; [reflexivity|].
    destruct H as [->|H]; [ring|rewrite H by auto; ring].
Qed.

(** A concrete case: two joints, frequency 10; commanded 1, the default actuator settles at 100. *)
Example C73_example : let state := fun i => if (i <? 2)%nat then 100 else 0 in
  at_rest 2 (soDynamics 2 (soSame 2 10 1) state (fun _ => 1) (fun _ => 7)) /\
  is_ok (soVecGain 2 [1; 2] [1; 1] [1; 1]) /\ ~ is_ok (soVecGain 2 [1] [1; 1] [1; 1]).
Proof.
  split; [|split].
  - apply (C73_unit_amplification_refuted 2 10 1 (fun _ => 1) (fun _ => 7)); [lra|]. intros i Hi. unfold soOutput.
    destruct (Nat.ltb_spec (i + 2) 2); [lia|]. destruct (Nat.ltb_spec i 2); [|lia]. split; [reflexivity|lra].
  - apply (C73_constructors 2 _ _ _ 0 0 0). auto.
  - intros H. apply (C73_constructors 2 _ _ _ 0 0 0) in H. destruct H as (H & _). discriminate.
Qed.

Print Assumptions C73_second_order.
Print Assumptions C73_constructors.
Print Assumptions C73_state_from_output.
Print Assumptions C73_state_unique.
Print Assumptions C73_series_elastic.
Print Assumptions C73_rest_partial.
Print Assumptions C73_unit_amplification_refuted.
