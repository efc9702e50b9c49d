(** * C86: the process model of a filter predicts with the input it is given, and its
    derivative belongs to its prediction *)
From Coq Require Import Reals List ZArith Lia Lra Arith Floats.SpecFloat.
From Coquelicot Require Import Coquelicot.
From Verif Require Import Base.Outcome Base.Scalar Core.IntModel Optcon.ProcModel.
Import ListNotations.

Section Main.
Context {V U : NormedModule R_AbsRing}.
Variable f : nat -> V -> U -> R -> V.
Variable dfx : nat -> V -> U -> R -> V -> V.

Lemma one_step_ext i (r1 r2 : V -> R -> V) x t dt :
  (forall y s, r1 y s = r2 y s) -> one_step i r1 x t dt = one_step i r2 x t dt.
Proof.
  intros H. destruct i; cbn.
  - unfold euler_step. now rewrite H.
  - unfold rk4_step, rk4_k4, rk4_x4, rk4_k3, rk4_x3, rk4_k2, rk4_x2, rk4_k1. now rewrite !H.
Qed.

Lemma setnth_length {A} i (v : A) l : length (setnth i v l) = length l.
Proof. revert i. induction l; destruct i; cbn; auto. Qed.
Lemma setnth_same {A} i (v d : A) l : (i < length l)%nat -> nth i (setnth i v l) d = v.
Proof. revert i. induction l; destruct i; cbn; intros; try lia; auto. apply IHl. lia. Qed.
Lemma setnth_other {A} i j (v d : A) l : i <> j -> nth j (setnth i v l) d = nth j l d.
Proof. revert i j. induction l; destruct i, j; cbn; intros; try lia; auto. Qed.

Definition touches (s : nat) (c : call V U) : Prop :=
  match c with New s' _ => s' = s | SetController s' _ => s' = s | Predict _ _ _ _ _ => False end.

Definition owns (w : world V U) (k s c : nat) (i : scheme) : Prop :=
  nth_error (models w) k = Some (mkModel s c i) /\ nth s (syss w) None = Some c
  /\ (c < length (ctls w))%nat.

Lemma syss_length w c : length (syss (exec f w c)) = length (syss w).
Proof.
  destruct c; cbn; rewrite ?setnth_length; auto. destruct (nth_error (models w) m); auto.
Qed.
Lemma syss_length_all cs w : length (syss (exec_all f w cs)) = length (syss w).
Proof.
  revert w. induction cs; cbn; auto. intros. unfold exec_all in *. rewrite IHcs. apply syss_length.
Qed.

Lemma owns_exec w k s c i cl : owns w k s c i -> ~ touches s cl -> owns (exec f w cl) k s c i.
Proof.
  intros (M & S & C) NT.
  assert (Hk : (k < length (models w))%nat) by (apply nth_error_Some; congruence).
  unfold owns. destruct cl; cbn in *.
  - split; [rewrite nth_error_app1; auto|]. split; [rewrite setnth_other; auto|].
    cbn. rewrite app_length. lia.
  - split; [auto|]. split; [rewrite setnth_other; auto|]. cbn. rewrite app_length. lia.
  - destruct (nth_error (models w) m); repeat split; auto. cbn. rewrite setnth_length. auto.
Qed.

Lemma owns_all cs w k s c i : owns w k s c i -> List.Forall (fun cl => ~ touches s cl) cs ->
  owns (exec_all f w cs) k s c i.
Proof.
  revert w. induction cs as [|cl r IH]; intros w O F; cbn; auto.
  inversion F; subst. apply IH; auto. now apply owns_exec.
Qed.

Lemma owns_predict w k s c i x u dt t : owns w k s c i ->
  snd (computeDynamics f w (mkModel s c i) x u dt t)
  = one_step i (fun y r => f s y u r) x t dt.
Proof.
  intros (M & S & C). cbn. apply one_step_ext. intros y r. unfold dynamics, control. cbn [syss ctls].
  rewrite S. now rewrite setnth_same.
Qed.

(** ** Prediction

    After any history of predictions with any process models, creations of process models on
    other systems and changes of the controllers of other systems, a prediction is one step of
    the chosen integrator on the system's dynamics with the input given to this call held
    constant: earlier inputs, states, times and the controller the system had do not matter. *)
Theorem C86_prediction w0 before s i after x u dt t :
  (s < length (syss w0))%nat ->
  List.Forall (fun cl => ~ touches s cl) after ->
  let w1 := exec_all f w0 before in
  let w2 := exec_all f (exec f w1 (New s i)) after in
  exists m, nth_error (models w2) (length (models w1)) = Some m
    /\ snd (computeDynamics f w2 m x u dt t) = one_step i (fun y r => f s y u r) x t dt.
Proof.
  intros L F w1 w2.
  assert (O : owns (exec f w1 (New s i)) (length (models w1)) s (length (ctls w1)) i).
  { cbn. split; [|split]; cbn.
    - rewrite nth_error_app2, Nat.sub_diag; auto.
    - apply setnth_same. unfold w1. rewrite syss_length_all. auto.
    - rewrite app_length. cbn. lia. }
  pose proof (owns_all after _ _ _ _ _ O F) as O2. fold w2 in O2.
  exists (mkModel s (length (ctls w1)) i). split; [apply O2|]. eapply owns_predict; eauto.
Qed.

(** ** Derivative *)
Lemma Int_part_IZR n : Int_part (IZR n) = n.
Proof.
  destruct (base_Int_part (IZR n)) as [A B].
  apply le_IZR in A.
  assert (IZR (Int_part (IZR n)) > IZR n - 1)%R by lra.
  rewrite <- minus_IZR in H. apply lt_IZR in H. lia.
Qed.

Lemma trunc_IZR n : trunc (IZR n) = n.
Proof.
  unfold trunc. destruct (Rle_dec 0 (IZR n)).
  - apply Int_part_IZR.
  - rewrite <- opp_IZR, Int_part_IZR. lia.
Qed.

Definition int_range (n : Z) : Prop := (- 2147483648 <= n <= 2147483647)%Z.

Lemma to_int_IZR n : int_range n -> to_int (IZR n) = Ok n.
Proof.
  intros [A B]. unfold to_int. rewrite trunc_IZR.
  rewrite (proj2 (Z.leb_le _ _) A), (proj2 (Z.leb_le _ _) B). reflexivity.
Qed.

(** With the default integrator (Euler) and the forward Euler approximation, at times that
    are whole multiples of the time step, the matrix returned is the derivative of the
    prediction with respect to the state. *)
Theorem C86_derivative_partial w0 before s after x u dt n :
  (s < length (syss w0))%nat ->
  List.Forall (fun cl => ~ touches s cl) after ->
  (forall y v r, filterdiff (fun z => f s z v r) (locally y) (dfx s y v r)) ->
  dt <> 0%R -> int_range n ->
  let w1 := exec_all f w0 before in
  let w2 := exec_all f (exec f w1 (New s Euler)) after in
  exists m A, nth_error (models w2) (length (models w1)) = Some m
    /\ computeDerivativeState dfx m x u dt (IZR n * dt) = Ok A
    /\ filterdiff (fun y => snd (computeDynamics f w2 m y u dt (IZR n * dt)%R)) (locally x) A.
Proof.
  intros L F D Hdt Hn w1 w2.
  assert (O : owns (exec f w1 (New s Euler)) (length (models w1)) s (length (ctls w1)) Euler).
  { cbn. split; [|split]; cbn.
    - rewrite nth_error_app2, Nat.sub_diag; auto.
    - apply setnth_same. unfold w1. rewrite syss_length_all. auto.
    - rewrite app_length. cbn. lia. }
  pose proof (owns_all after _ _ _ _ _ O F) as O2. fold w2 in O2.
  exists (mkModel s (length (ctls w1)) Euler), (forwardEuler dfx s dt x u n).
  split; [apply O2|]. split.
  - unfold computeDerivativeState. replace (IZR n * dt / dt)%R with (IZR n) by (field; auto).
    rewrite to_int_IZR by auto. reflexivity.
  - apply (filterdiff_ext (fun y => plus y (scal dt (f s y u (IZR n * dt)%R)))).
    { intros y. symmetry. rewrite (owns_predict _ _ _ _ _ _ _ _ _ O2). reflexivity. }
    unfold forwardEuler.
    apply (filterdiff_plus_fct (fun y : V => y) (fun y => scal dt (f s y u (IZR n * dt)%R))).
    + apply filterdiff_id.
    + apply (filterdiff_scal_r_fct (K := R_AbsRing) dt (fun y => f s y u (IZR n * dt)%R)).
      * intros a b. apply Rmult_comm.
      * apply D.
Qed.

(** ** Disturbances

    However many steps are integrated, by either integrator, the estimated disturbance stays
    what it was, and the state moves like that of the nominal system with the disturbance
    added to its input. *)
Fixpoint steps (i : scheme) (rhs : V -> R -> V) (n : nat) (x : V) (t dt : R) : V :=
  match n with O => x | S m => steps i rhs m (one_step i rhs x t dt) (t + dt)%R dt end.
Fixpoint steps_aug (i : scheme) (rhs : V * U -> R -> V * U) (n : nat) (z : V * U) (t dt : R) : V * U :=
  match n with O => z | S m => steps_aug i rhs m (one_step_aug i rhs z t dt) (t + dt)%R dt end.

Lemma aug_step i (g : V -> U -> R -> V) u x d t dt :
  one_step_aug i (fun z r => disturbed g z u r) (x, d) t dt
  = (one_step i (fun y r => g y (plus u d) r) x t dt, d).
Proof.
  assert (Z : forall k : R, plus d (scal k zero) = d).
  { intros k. rewrite scal_zero_r. apply plus_zero_r. }
  destruct i; cbn.
  - unfold euler_step, disturbed. cbn [fst snd]. unfold plus at 1, scal at 1. cbn.
    unfold prod_plus, prod_scal. cbn [fst snd]. now rewrite Z.
  - unfold rk4_step, rk4_k4, rk4_x4, rk4_k3, rk4_x3, rk4_k2, rk4_x2, rk4_k1, disturbed.
    cbn. unfold prod_plus, prod_scal. cbn [fst snd]. rewrite !Z.
    f_equal.
    assert (E : plus (plus (plus zero (scal 2%R zero)) (scal 2%R zero)) zero = zero :> U).
    { rewrite plus_zero_r, plus_zero_l.
      transitivity (plus (zero : U) zero); [f_equal; exact (@scal_zero_r R_Ring U 2%R)|apply plus_zero_r]. }
    etransitivity; [|apply (Z (/ 6 * dt)%R)]. f_equal. f_equal. exact E.
Qed.

Theorem C86_disturbance i (g : V -> U -> R -> V) u n x d t dt :
  steps_aug i (fun z r => disturbed g z u r) n (x, d) t dt
  = (steps i (fun y r => g y (plus u d) r) n x t dt, d).
Proof.
  revert x t. induction n as [|n IH]; intros; cbn [steps_aug steps]; auto.
  rewrite aug_step. apply IH.
Qed.

(** ** The controller of a disturbed system *)

Lemma last_cons {A} (l : list A) a b : last (a :: l) b = last l a.
Proof. revert a b. induction l as [|c r IH]; intros; [reflexivity|]. change (last (c :: r) b = last (c :: r) a). now rewrite !IH. Qed.

(** A disturbed system made with a controller uses the nominal part of the state with the
    controller given last. *)
Theorem C86_disturbed_controller (c : option (V -> R -> U)) (laws : list (V -> R -> U)) z t :
  exists a, fold_left (fun o l => obind o (fun d => dsys_setController d l)) laws
              (Ok (new_disturbed c)) = Ok (Some a)
    /\ computeControl a z t = match last (map Some laws) c with
                              | Some law => Ok (law (fst z) t) | None => Throw end.
Proof.
  assert (H : forall c, exists a, fold_left (fun o l => obind o (fun d => dsys_setController d l)) laws
              (Ok (new_disturbed c)) = Ok (Some a) /\ a = Disturbed (last (map Some laws) c)).
  { clear c. induction laws as [|l r IH]; intros c; [eexists; split; reflexivity|].
    destruct (IH (Some l)) as (a & E & ->). exists (Disturbed (last (map Some r) (Some l))).
    split; [exact E|]. f_equal. cbn [map]. symmetry. apply last_cons. }
  destruct (H c) as (a & E & ->). eexists. split; [exact E|].
  destruct (last (map Some laws) c); reflexivity.
Qed.

(** Copying an InputDisturbedSystem is undefined, whatever it holds: the copy constructor
    initialises the base class from the object under construction. *)
Theorem C86_clone_refuted (other : input_disturbed (V := V) (U := U)) : clone other = UB.
Proof. reflexivity. Qed.

(** Setting the controller of a DisturbedSystem through its own interface is undefined when it
    was made without one, or once a CTSystemModel has been made with it. *)
Theorem C86_set_controller_refuted (law : V -> R -> U) (installed : V * U -> R -> U) :
  dsys_setController (V := V) (U := U) new_default law = UB
  /\ dsys_setController (Some (Foreign installed)) law = UB.
Proof. split; reflexivity. Qed.
End Main.

(** ** Examples *)
Notation RN := R_NormedModule.
Definition fx (s : nat) (x : RN) (u : RN) (t : R) : RN := (x * x + u)%R.
Definition dfx1 (s : nat) (x : RN) (u : RN) (t : R) (h : RN) : RN := (2 * x * h)%R.

Example C86_example :
  (forall s y v r, filterdiff (fun z => fx s z v r) (locally y) (dfx1 s y v r))
  /\ List.Forall (fun cl => ~ touches 0 cl)
       [New (V := RN) (U := RN) 1 RK4; Predict 0 1%R 2%R 3%R 4%R; SetController 1 (fun x _ => x)]
  /\ one_step Euler (fun y r => fx 0 y 3%R r) 2%R 0%R 1%R = 9%R.
Proof.
  split; [|split].
  - intros s y v r.
    apply (filterdiff_ext_lin (fun z : RN => fx s z v r) (fun h : R => scal h (2 * y)%R : RN)).
    + assert (D : is_derive (fun z : R => (z * z + v)%R) y (2 * y)%R) by (auto_derive; auto; ring).
      exact D.
    + intros h. unfold dfx1, scal. cbn. unfold mult. cbn. ring.
  - repeat constructor; cbn; lia.
  - cbn. unfold euler_step, fx, plus, scal. cbn. unfold mult. cbn. ring.
Qed.

(** ** What does not hold *)

(** Two process models made with the same system (two filters, for instance): the one made
    first predicts with the input given to the other. *)
Theorem C86_shared_system_refuted :
  exists (f : nat -> RN -> RN -> R -> RN) (w0 : world RN RN),
    let w := exec_all f w0 [New 0 Euler; New 0 Euler; Predict 1 0%R 5%R 1%R 0%R] in
    exists m, nth_error (models w) 0 = Some m
      /\ snd (computeDynamics f w m 0%R 1%R 1%R 0%R) = 5%R
      /\ one_step Euler (fun y r => f 0%nat y 1%R r) 0%R 0%R 1%R = 1%R.
Proof.
  exists (fun _ _ u _ => u), (mkWorld [] [None] []). cbn. eexists. split; [reflexivity|].
  cbn. unfold euler_step, dynamics, control, plus, scal. cbn. unfold mult. cbn. split; ring.
Qed.

(** Between multiples of the time step the linearisation is taken at an earlier time than the
    prediction: for x' = t x at time 1/2 with step 1 the prediction is 3/2 x, but its
    derivative is returned as 1. *)
Theorem C86_time_refuted :
  let f := fun (_ : nat) (x : RN) (_ : RN) (t : R) => (t * x)%R : RN in
  let dfx := fun (_ : nat) (x : RN) (_ : RN) (t : R) (h : RN) => (t * h)%R : RN in
  forall (m : model) (x u : RN), m_scheme m = Euler ->
    (exists A, computeDerivativeState dfx m x u 1%R (1 / 2)%R = Ok A /\ forall h, A h = h)
    /\ forall y, one_step Euler (fun z r => f (m_sys m) z u r) y (1 / 2)%R 1%R = (3 / 2 * y)%R.
Proof.
  intros f dfx m x u Hm. split.
  - unfold computeDerivativeState, to_int.
    assert (E : trunc (1 / 2 / 1)%R = 0%Z).
    { unfold trunc. destruct (Rle_dec 0 (1 / 2 / 1)) as [_|H]; [|exfalso; lra].
      destruct (base_Int_part (1 / 2 / 1)%R) as [A B].
      assert (IZR (Int_part (1 / 2 / 1)) < 1)%R by lra. apply lt_IZR in H.
      assert (-1 < IZR (Int_part (1 / 2 / 1)))%R by lra. apply lt_IZR in H0. lia. }
    rewrite E. cbn. eexists. split; [reflexivity|]. intros h. unfold forwardEuler, dfx, plus, scal.
    cbn. unfold mult. cbn. ring.
  - intros y. cbn. unfold euler_step, f, plus, scal. cbn. unfold mult. cbn. field.
Qed.

(** When the time divided by the time step does not fit into an int, the conversion of the step number is
    undefined: with a step of one millisecond this happens after less than 25 days. *)
Theorem C86_step_number_refuted {V U : NormedModule R_AbsRing} (dfx : nat -> V -> U -> R -> V -> V) (m : model) x u dt t :
  (0 < dt)%R -> (2147483648 * dt <= t)%R -> computeDerivativeState dfx m x u dt t = UB.
Proof.
  intros Hd Ht. unfold computeDerivativeState, to_int.
  assert (H : (2147483648 <= t / dt)%R) by (apply Rmult_le_reg_r with dt; [exact Hd|]; unfold Rdiv; rewrite Rmult_assoc, Rinv_l by lra; lra).
  assert (E : (2147483648 <= trunc (t / dt))%Z).
  { unfold trunc. destruct (Rle_dec 0 (t / dt)) as [_|X]; [|lra].
    destruct (base_Int_part (t / dt)%R) as [A B]. assert (2147483647 < IZR (Int_part (t / dt)))%R by lra.
    apply lt_IZR in H0. lia. }
  destruct (trunc (t / dt) <=? 2147483647)%Z eqn:L; [apply Z.leb_le in L; lia|].
  now destruct (-2147483648 <=? trunc (t / dt))%Z.
Qed.
Example C86_step_number_example : (0 < 1 / 1000)%R /\ (2147483648 * (1 / 1000) <= 25 * 24 * 3600)%R.
Proof. lra. Qed.

(** The same happens at multiples of the step in doubles: after eight steps of 0.1 from 0 the
    time divided by the step is cut off to 7. *)
Definition SFtrunc (x : spec_float) : Z :=
  match x with
  | S754_finite s m e =>
      let v := (if Z.leb 0 e then Z.pos m * 2 ^ e else Z.pos m / 2 ^ (- e))%Z in
      if s then (- v)%Z else v
  | _ => 0%Z
  end.
Theorem C86_accumulated_time_refuted :
  let dt := SFdiv prec64 emax64 (SFnum 1 0) (SFnum 10 0) in
  let t := Nat.iter 8 (fun t => SFadd prec64 emax64 t dt) (S754_zero false) in
  SFtrunc (SFdiv prec64 emax64 t dt) = 7%Z.
Proof. vm_compute. reflexivity. Qed.

(** With the RK4 integrator the forward Euler approximation is not the derivative of the
    prediction, and nothing checks that the two belong together. *)
Theorem C86_scheme_refuted :
  let f := fun (_ : nat) (x : RN) (_ : RN) (t : R) => x in
  let dfx := fun (_ : nat) (x : RN) (_ : RN) (t : R) (h : RN) => h in
  forall (m : model) (x u : RN), m_scheme m = RK4 ->
    (exists A, computeDerivativeState dfx m x u 1%R 0%R = Ok A /\ forall h, A h = (2 * h)%R)
    /\ forall y, one_step RK4 (fun z r => f (m_sys m) z u r) y 0%R 1%R = (65 / 24 * y)%R.
Proof.
  intros f dfx m x u Hm. split.
  - unfold computeDerivativeState. replace (0 / 1)%R with (IZR 0) by (cbn; field).
    rewrite to_int_IZR by (split; lia). cbn. eexists. split; [reflexivity|].
    intros h. unfold forwardEuler, dfx, plus, scal. cbn. unfold mult. cbn. ring.
  - intros y. cbn. unfold rk4_step, rk4_k4, rk4_x4, rk4_k3, rk4_x3, rk4_k2, rk4_x2, rk4_k1, f, plus, scal.
    cbn. unfold mult. cbn. field.
Qed.

Print Assumptions C86_prediction.
Print Assumptions C86_derivative_partial.
Print Assumptions C86_disturbance.
Print Assumptions C86_disturbed_controller.
Print Assumptions C86_clone_refuted.
Print Assumptions C86_set_controller_refuted.
Print Assumptions C86_shared_system_refuted.
Print Assumptions C86_step_number_refuted.
Print Assumptions C86_time_refuted.
Print Assumptions C86_accumulated_time_refuted.
Print Assumptions C86_scheme_refuted.
