(** Inverse dynamics controllers (C76). *)
From mathcomp Require Import all_ssreflect all_algebra all_fingroup.
From Coq Require Import Reals Lra.
From Coquelicot Require Import Coquelicot.
From Verif Require Import Base.Outcome Base.RField Base.MxDerive Rbd.IdCtrlModel.
Set Implicit Arguments. Unset Strict Implicit. Unset Printing Implicit Defensive.
Import GRing.Theory.
Local Open Scope ring_scope.

(** ** IDControllerFB *)
Section Base.
Variable eulerUnique : 'M[R]_3 -> 'cV[R]_3.
Notation desired := (computeDesiredAcceleration eulerUnique).

(** At the desired state nothing is to be corrected; joint accelerations are always zero; and the velocity gains act on the
    velocity error in the base frame. *)
Theorem C76_base_target (c : idfb R_fieldType) (n : nat) (b : base R_fieldType) :
  eulerUnique 1%:M = 0 -> (b_R (desState c))^T *m b_R (desState c) = 1%:M ->
  desired c n (desState c) = (0, 0) /\ (desired c n b).2 = 0 /\
  (b_R b = b_R (desState c) -> b_pos b = b_pos (desState c) ->
   forall i, (desired c n b).1 i ord0 = Kd_ c i ord0 * (b_vel (desState c) i ord0 - b_vel b i ord0)).
Proof.
  move=> E O. have cw0 m (a : 'cV[R]_m) : cwise a 0 = 0 by apply/matrixP=> i j; rewrite !mxE mulr0.
  rewrite /computeDesiredAcceleration. split; [|split].
  - by rewrite O E !subrr !cw0 mulmx0 col_mx0 addr0.
  - by [].
  - move=> HR Hp i. rewrite HR Hp O E subrr !cw0 mulmx0 col_mx0 add0r /=. by rewrite !mxE.
Qed.

Definition energy (kp pdes : 'cV[R]_3) (p v : 'cV[R]_3) : R :=
  \sum_i kp i ord0 * ((pdes i ord0 - p i ord0) * (pdes i ord0 - p i ord0)) + \sum_i v i ord0 * v i ord0.

(** Along every motion of the base (with any rotation) whose translational acceleration is the commanded one, with a desired
    state at rest, the energy of the position error weighted with the gains plus the kinetic one is dissipated at the rate
    of the velocity gains; with velocity gains that are not negative it never grows. *)
Theorem C76_base_dissipates (c : idfb R_fieldType) (b : R -> base R_fieldType) :
  b_vel (desState c) = 0 ->
  (forall t, mderive (fun s => b_pos (b s)) t (b_R (b t) *m dsubmx (b_vel (b t)))) ->
  (forall t, mderive (fun s => dsubmx (b_vel (b s))) t (dsubmx (desired c 0 (b t)).1)) ->
  let E t := energy (dsubmx (Kp_ c)) (b_pos (desState c)) (b_pos (b t)) (dsubmx (b_vel (b t))) in
  let v t i := dsubmx (b_vel (b t)) i ord0 in
  (forall t, is_derive E t (- (\sum_i dsubmx (Kd_ c) i ord0 * (v t i * v t i)) *+ 2)) /\
  ((forall i, (0 <= Kd_ c i ord0)%R) -> forall t1 t2, (t1 <= t2)%R -> (E t2 <= E t1)%R).
Proof.
  move=> V0 HP HV E v.
  have D t : is_derive E t (- (\sum_i dsubmx (Kd_ c) i ord0 * (v t i * v t i)) *+ 2).
    set kp := dsubmx (Kp_ c). set kd := dsubmx (Kd_ c). set pd := b_pos (desState c).
    set Rt := b_R (b t). set w := dsubmx (b_vel (b t)). set p := b_pos (b t).
    have DE : is_derive E t
      (\sum_i kp i ord0 * ((- (Rt *m w) i ord0) * (pd i ord0 - p i ord0) + (pd i ord0 - p i ord0) * - (Rt *m w) i ord0) +
       \sum_i ((dsubmx (desired c 0 (b t)).1) i ord0 * w i ord0 + w i ord0 * (dsubmx (desired c 0 (b t)).1) i ord0)).
      apply: der_add.
      - apply: der_sum=> i. have Hd : is_derive (fun s : R => pd i ord0 - b_pos (b s) i ord0) t (- (Rt *m w) i ord0).
          have H := der_add (der_const (pd i ord0) t) (der_opp (HP t i ord0)). apply: der_val H _. by rewrite add0r.
        have H := der_mul (der_const (kp i ord0) t) (der_mul Hd Hd). apply: der_val H _. by rewrite mul0r add0r.
      - apply: der_sum=> i. have Hi := HV t i ord0. exact: (der_mul Hi Hi).
    apply: der_val DE _.
    have A i : (dsubmx (desired c 0 (b t)).1) i ord0 = \sum_j Rt j i * (kp j ord0 * (pd j ord0 - p j ord0)) - kd i ord0 * w i ord0.
      rewrite /computeDesiredAcceleration V0 /= linearD /= col_mxKd !mxE. congr (_ + _).
      - apply: eq_bigr=> j _. by rewrite !mxE.
      - by rewrite sub0r mulrN.
    rewrite (eq_bigr (fun i => - (kp i ord0 * ((pd i ord0 - p i ord0) * (Rt *m w) i ord0)) *+ 2)); last first.
      move=> i _. rewrite mulNr mulrN -opprD mulrN mulNrn [_ * (pd i ord0 - p i ord0)]mulrC -mulr2n mulrnAr. by [].
    rewrite [X in _ + X](eq_bigr (fun i => (w i ord0 * \sum_j Rt j i * (kp j ord0 * (pd j ord0 - p j ord0))) *+ 2 - (kd i ord0 * (w i ord0 * w i ord0)) *+ 2)); last first.
      move=> i _. rewrite A mulrC -mulr2n mulrBr mulrnBl. congr (_ - _ *+ 2). by rewrite mulrCA.
    rewrite sumrB !sumrMnl sumrN mulNrn addrA [X in X - _](_ : _ = 0) ?sub0r ?mulNrn ?[in RHS]mulNrn //.
    rewrite addrC -mulrnBl [X in X *+ 2](_ : _ = 0) ?mul0rn //. apply/eqP. rewrite subr_eq0. apply/eqP.
    rewrite (eq_bigr (fun i => \sum_j w i ord0 * (Rt j i * (kp j ord0 * (pd j ord0 - p j ord0))))); last by move=> i _; rewrite mulr_sumr.
    rewrite exchange_big /=. apply: eq_bigr=> j _. rewrite [(Rt *m w) j ord0]mxE !mulr_sumr. apply: eq_bigr=> i _.
    rewrite [RHS]mulrA [in RHS]mulrC. rewrite [Rt j i * w i ord0]mulrC -mulrA. by [].
  split=> // K t1 t2 Ht.
  have CE t : continuity_pt E t.
    apply/continuity_pt_filterlim. apply: (ex_derive_continuous E t). by eexists; exact: D.
  have [e [_ H3]] := MVT_gen E t1 t2 _ (fun t _ => D t) (fun t _ => CE t).
  have H4 : (0 <= \sum_i dsubmx (Kd_ c) i ord0 * (v e i * v e i))%R.
    elim/big_rec: _=> [|i s _ Hs]; first exact: Rle_refl. apply: Rplus_le_le_0_compat=> //.
    apply: Rmult_le_pos; last exact: Rle_0_sqr. rewrite mxE. exact: K.
  move: H3 H4. move: (\sum_i _ * _)=> s. rewrite mulr2n /GRing.opp /GRing.add /= => H3 H4.
  have : (0 <= s * (t2 - t1))%R by apply: Rmult_le_pos=> //; lra.
  lra.
Qed.

(** The controller after any history of setter calls: what it asks for is given by the desired state and gains set last.  The angular part is the
    first three pose gains times the Euler angles of the desired attitude seen from the current base, the linear part the last three pose gains times
    the position error, turned into the base frame, each plus the velocity gain times the velocity error. *)
Inductive setter := SetDesired (d : base R_fieldType) | SetPose (k : 'cV[R]_(3 + 3)) | SetTwist (k : 'cV[R]_(3 + 3)).
Definition call (c : idfb R_fieldType) (o : setter) : idfb R_fieldType :=
  match o with SetDesired d => setDesiredState c d | SetPose k => setPoseGains c k | SetTwist k => setTwistGains c k end.
Definition lastDesired d0 (l : seq setter) := foldl (fun d o => if o is SetDesired d' then d' else d) d0 l.
Definition lastPose k0 (l : seq setter) := foldl (fun k o => if o is SetPose k' then k' else k) k0 l.
Definition lastTwist k0 (l : seq setter) := foldl (fun k o => if o is SetTwist k' then k' else k) k0 l.
Theorem C76_base_law d0 kp0 kd0 (l : seq setter) (n : nat) (b : base R_fieldType) :
  let c := foldl call (mkIdfb d0 kp0 kd0) l in
  let d := lastDesired d0 l in let kp := lastPose kp0 l in let kd := lastTwist kd0 l in
  (forall i, (desired c n b).1 (lshift 3 i) ord0 =
     kp (lshift 3 i) ord0 * (eulerUnique ((b_R b)^T *m b_R d)) i ord0 + kd (lshift 3 i) ord0 * (b_vel d (lshift 3 i) ord0 - b_vel b (lshift 3 i) ord0)) /\
  (forall i, (desired c n b).1 (rshift 3 i) ord0 =
     \sum_j b_R b j i * (kp (rshift 3 j) ord0 * (b_pos d j ord0 - b_pos b j ord0)) +
     kd (rshift 3 i) ord0 * (b_vel d (rshift 3 i) ord0 - b_vel b (rshift 3 i) ord0)).
Proof.
  move=> c d kp kd. have -> : c = mkIdfb d kp kd.
    rewrite /c /d /kp /kd. elim: l d0 kp0 kd0 {c d kp kd}=> [//|[x|x|x] l IH] d0 kp0 kd0 /=; exact: IH.
  rewrite /computeDesiredAcceleration /=; split=> i.
  - by rewrite [LHS]mxE col_mxEu [X in X + _]mxE [X in _ + X]mxE !mxE.
  - rewrite [LHS]mxE col_mxEd [X in _ + X]mxE [in X in _ + X]mxE. congr (_ + _ * _); last by rewrite !mxE.
    rewrite mxE. apply: eq_bigr=> j _. by rewrite !mxE.
Qed.
(** The torques are those of the inverse dynamics for that acceleration, without the gravity terms when gravity compensation is switched off. *)
Theorem C76_base_torque (state contact control : Type) (n : nat) (ID IDNoGravity : contact -> state -> 'cV[R]_(3 + 3) * 'cV[R]_n -> control)
  (baseOf : state -> base R_fieldType) (c : idfb R_fieldType) (x : state) (e : contact) :
  computeTorque eulerUnique ID IDNoGravity baseOf c x e true = ID e x ((desired c n (baseOf x)).1, 0) /\
  computeTorque eulerUnique ID IDNoGravity baseOf c x e false = IDNoGravity e x ((desired c n (baseOf x)).1, 0).
Proof. by []. Qed.
End Base.

(** ** InfiniteHorizonLQRwithInverseDynamics *)
Section LQR.
Variable n : nat.
Notation state := 'cV[R]_(n + n).
Notation control := 'cV[R]_n.
Notation gain := 'M[R]_(n, n + n).
Variable lqrCompute : 'M[R]_(n + n) -> 'M[R]_n -> 'M[R]_(n + n) -> 'M[R]_(n + n, n) -> gain -> bool * gain.
Notation lqrid := (lqrid R_fieldType n).
Notation design := (designInfiniteHorizonLQR lqrCompute).

(** Calls of the user and what the last design call (set-point, torques, gain) was. *)
Inductive op :=
| Design (x : state) (Q : 'M[R]_(n + n)) (R : 'M[R]_n) (K : gain)
| DesignNoGain (x : state) (Q : 'M[R]_(n + n)) (R : 'M[R]_n)
| SetNonlinear (s : fdSystem R_fieldType n)
| SetLinear (l : linSystem R_fieldType n)
| Copy.
Definition step (c : lqrid) (o : op) : outcome lqrid :=
  match o with
  | Design x Q R K => do r <- design c x Q R K ;; Ok r.2
  | DesignNoGain x Q R => do r <- designNoGain lqrCompute c x Q R ;; Ok r.2
  | SetNonlinear s => Ok (setNonlinearSystem c (Some s))
  | SetLinear l => Ok (setLinearSystem c (Some l))
  | Copy => copy c
  end.
Fixpoint run (c : lqrid) (l : seq op) : outcome lqrid :=
  match l with [::] => Ok c | o :: r => do c' <- step c o ;; run c' r end.
(** The systems in use and the law u = torques - K (x - setpoint) after a history. *)
Record law := mkLaw { l_fd : fdSystem R_fieldType n; l_lin : linSystem R_fieldType n; l_x : state; l_u : control; l_K : gain }.
Definition designed (w : law) (x : state) Q R K : law :=
  let u := FixBaseID (l_fd w) x 0 in
  mkLaw (l_fd w) (l_lin w) x u (lqrCompute Q R (getDerivativeState (l_lin w) x u) (getDerivativeControl (l_lin w) x u) K).2.
Definition law_step (w : law) (o : op) : law :=
  match o with
  | Design x Q R K => designed w x Q R K
  | DesignNoGain x Q R => designed w x Q R 0
  | SetNonlinear s => mkLaw s (l_lin w) (l_x w) (l_u w) (l_K w)
  | SetLinear l => mkLaw (l_fd w) l (l_x w) (l_u w) (l_K w)
  | Copy => w
  end.

(** After every history of designs, system changes and copies the control is the inverse dynamics torque at the last
    set-point minus the last gain times the deviation from it; before the first design it is zero. *)
Theorem C76_lqr_law (s : fdSystem R_fieldType n) (l : linSystem R_fieldType n) (hist : seq op) :
  exists c, run (newLqrid (Some s) (Some l)) hist = Ok c /\
  forall x, let w := foldl law_step (mkLaw s l 0 0 0) hist in computeControl c x = l_u w - l_K w *m (x - l_x w).
Proof.
  rewrite /newLqrid. move: (0 : state) (0 : control) (0 : gain)=> x0 u0 K0.
  elim: hist s l x0 u0 K0=> [|o hist IH] s l x0 u0 K0 /=; first by eexists; split.
  case: o=> [x Q R K|x Q R|s'|l'|] /=; exact: IH.
Qed.

(** The set-point is an equilibrium of the closed loop after a design for a set-point at rest, if forward dynamics inverts
    inverse dynamics: the robot stays there. *)
Definition fixBaseFD (FD : state -> control -> control) (x : state) (u : control) : state := col_mx (dsubmx x) (FD x u).
Theorem C76_lqr_equilibrium (FD : state -> control -> control) (c : lqrid) (fd : fdSystem R_fieldType n) x Q R K b K' c' :
  fdSystem_ c = Some fd -> (forall x a, FD x (FixBaseID fd x a) = a) -> dsubmx x = 0 ->
  design c x Q R K = Ok (b, K', c') ->
  fixBaseFD FD x (computeControl c' x) = 0 /\ K_ c' = K' /\ stateSetpoint_ c' = x /\ id_torques_ c' = FixBaseID fd x 0.
Proof.
  move=> Hf HI H0. rewrite /designInfiniteHorizonLQR Hf. case: (linearSystem_ c)=> [lin|] // [= _ <- <-] /=.
  split=> //. by rewrite /fixBaseFD /computeControl /= subrr mulmx0 subr0 HI H0 col_mx0.
Qed.

(** [A] and [B] are the derivatives of [f] at (x, u): along every curve through it. *)
Definition linearises (f : state -> control -> state) (x : state) (u : control) (A : 'M[R]_(n + n)) (B : 'M[R]_(n + n, n)) : Prop :=
  forall (xs : R -> state) (us : R -> control) (t : R) dx du, xs t = x -> us t = u -> mderive xs t dx -> mderive us t du ->
    mderive (fun s => f (xs s) (us s)) t (A *m dx + B *m du).
(** Near the set-point the closed loop behaves like A - B K, with the matrices given to the Riccati solver and its gain. *)
Theorem C76_lqr_linearisation (f : state -> control -> state) (c : lqrid) fd lin x Q S K b K' c' :
  fdSystem_ c = Some fd -> linearSystem_ c = Some lin -> design c x Q S K = Ok (b, K', c') ->
  let u := FixBaseID fd x 0 in let A := getDerivativeState lin x u in let B := getDerivativeControl lin x u in
  linearises f x u A B ->
  (b, K') = lqrCompute Q S A B K /\
  forall (xs : R -> state) t dx, xs t = x -> mderive xs t dx ->
    mderive (fun s => f (xs s) (computeControl c' (xs s))) t ((A - B *m K') *m dx).
Proof.
  move=> Hf Hl. rewrite /designInfiniteHorizonLQR Hf Hl. case: (lqrCompute _ _ _ _ _)=> [b1 K1] [= <- <- <-] HL.
  set u := FixBaseID fd x 0 in HL *. split=> //. move=> xs t dx Hx HD.
  have HU : mderive (fun s => computeControl (mkLqrid (Some fd) (Some lin) x u K1) (xs s)) t (- K1 *m dx).
    have H1 : mderive (fun s => xs s + - x) t (dx + 0).
      apply: mder_add=> //. apply: mder_ext (mder_const t (- x)). by [].
    have H2 := mder_mul (mder_const t K1) H1. have H3 := mder_add (mder_const t u) (mder_opp H2).
    apply: mder_val H3 _. by rewrite add0r addr0 mul0mx add0r mulNmx.
  have H := HL xs _ t dx _ Hx _ HD HU. apply: mder_val (H _) _.
  - by rewrite /computeControl /= Hx subrr mulmx0 subr0.
  - by rewrite mulmxBl mulNmx mulmxN mulmxA.
Qed.

(** A default constructed controller can neither be copied nor used for a design before both systems are set. *)
Theorem C76_lqr_default jx ju jK : copy (newDefault jx ju jK) = UB /\
  (forall x Q R K, design (newDefault jx ju jK) x Q R K = UB) /\
  forall s l x Q R K, exists r, design (setLinearSystem (setNonlinearSystem (newDefault jx ju jK) (Some s)) (Some l)) x Q R K = Ok r.
Proof. split=> //. split=> // s l x Q R K. by eexists. Qed.
End LQR.

(** A design that fails still replaces set-point, torques and gain: with a solver that leaves the caller's matrix alone on
    failure (LQR::compute) the controller loses its feedback. *)
Theorem C76_failed_design_refuted : exists (lqrCompute : 'M[R]_(1 + 1) -> 'M[R]_1 -> 'M[R]_(1 + 1) -> 'M[R]_(1 + 1, 1) -> 'M[R]_(1, 1 + 1) -> bool * 'M[R]_(1, 1 + 1))
  (c c1 : lqrid R_fieldType 1) (x : 'cV[R]_(1 + 1)) Q S,
  (forall A B K, (lqrCompute 0 S A B K) = (false, K)) /\
  designNoGain lqrCompute c x Q S = Ok (true, c1) /\
  exists c2, designNoGain lqrCompute c1 x 0 S = Ok (false, c2) /\ (forall y, computeControl c2 y = 0) /\
    exists y, computeControl c1 y <> 0.
Proof.
  set lq := fun (Q : 'M[R]_(1 + 1)) (S : 'M[R]_1) (A : 'M[R]_(1 + 1)) (B : 'M[R]_(1 + 1, 1)) (K : 'M[R]_(1, 1 + 1)) =>
    if Q == 0 then (false, K) else (true, const_mx 1).
  set fd := mkFd (fun (_ : 'cV[R]_(1 + 1)) (_ : 'cV[R]_1) => 0 : 'cV[R]_1).
  set li := mkLin (fun (_ : 'cV[R]_(1 + 1)) (_ : 'cV[R]_1) => 0 : 'M[R]_(1 + 1)) (fun _ _ => 0 : 'M[R]_(1 + 1, 1)).
  exists lq, (newLqrid (Some fd) (Some li)), (mkLqrid (Some fd) (Some li) 0 0 (const_mx 1)), 0, 1%:M, 0.
  split; first by move=> A B K; rewrite /lq eqxx. 
  have H1 : (1%:M == 0 :> 'M[R]_(1 + 1)) = false by apply/negbTE; exact: matrix_nonzero1.
  split; first by rewrite /designNoGain /designInfiniteHorizonLQR /= /lq H1 /=.
  exists (mkLqrid (Some fd) (Some li) 0 0 0). split; first by rewrite /designNoGain /designInfiniteHorizonLQR /= /lq eqxx.
  split; first by move=> y; rewrite /computeControl /= mul0mx subr0.
  exists (delta_mx ord0 ord0). rewrite /computeControl /= sub0r subr0 => /matrixP/(_ ord0 ord0).
  rewrite !mxE big_ord_recl big1 => [|i _]; last by rewrite !mxE /= mulr0.
  rewrite !mxE /= mul1r addr0. move/eqP. by rewrite oppr_eq0 oner_eq0.
Qed.

(** The hypotheses can be met: a unit mass (joint torque = acceleration); and a base that is pulled to its target. *)
Example C76_example : let FD (x : 'cV[R]_(1 + 1)) (u : 'cV[R]_1) := u in
  let fd := mkFd (fun (_ : 'cV[R]_(1 + 1)) (a : 'cV[R]_1) => a) in
  let A : 'M[R]_(1 + 1) := block_mx 0 1%:M 0 0 in let B : 'M[R]_(1 + 1, 1) := col_mx 0 1%:M in
  (forall x a, FD x (FixBaseID fd x a) = a) /\ dsubmx (col_mx 1%:M 0 : 'cV[R]_(1 + 1)) = 0 /\
  forall x u, linearises (fixBaseFD FD) x u A B.
Proof.
  move=> FD fd A B. split=> //. split; first by rewrite col_mxKd. move=> x u xs us t dx du _ _ Hx Hu i j.
  have E : A *m dx + B *m du = col_mx (dsubmx dx) du.
    rewrite -{1}[dx]vsubmxK /A /B mul_block_col mul_col_mx !mul0mx !mul1mx add0r add_col_mx addr0 !add0r. by [].
  rewrite E. case: (split_ordP i)=> k ->.
  - rewrite col_mxEu mxE. apply: (@der_ext (fun s => xs s (rshift 1 k) j)); last exact: Hx.
    by move=> s; rewrite /fixBaseFD col_mxEu mxE.
  - rewrite col_mxEd. apply: (@der_ext (fun s => us s k j)); last exact: Hu.
    by move=> s; rewrite /fixBaseFD col_mxEd.
Qed.
Example C76_base_example :
  let c := mkIdfb (mkBase 1%:M 0 0) (const_mx 1) (const_mx 2%:R) : idfb R_fieldType in
  let b t := mkBase 1%:M (const_mx (- exp (- t))%R) (col_mx 0 (const_mx (exp (- t))%R)) : base R_fieldType in
  b_vel (desState c) = 0 /\
  (forall t, mderive (fun s => b_pos (b s)) t (b_R (b t) *m dsubmx (b_vel (b t)))) /\
  (forall t, mderive (fun s => dsubmx (b_vel (b s))) t (dsubmx (computeDesiredAcceleration (fun _ => 0) c 0 (b t)).1)).
Proof.
  move=> c b. split=> //. 
  have D t : is_derive (fun s : R => exp (- s)%R) t (- exp (- t))%R.
    have H := is_derive_comp exp (fun s : R => (- s)%R) t _ _ (is_derive_exp (- t)%R) (is_derive_opp _ t _ (is_derive_id t)).
    apply: der_val H _. rewrite /scal /= /mult /= /opp /= /one /=. lra.
  split=> t i j.
  - rewrite /b /= mul1mx col_mxKd mxE. apply: (@der_ext (fun s : R => - exp (- s)%R)); first by move=> s; rewrite mxE.
    have H := der_opp (D t). apply: der_val H _. exact: Ropp_involutive.
  - rewrite /b /computeDesiredAcceleration /= linearD /= !col_mxKd trmx1 mul1mx !mxE.
    apply: (@der_ext (fun s : R => exp (- s)%R)); first by move=> s; rewrite col_mxKd mxE.
    apply: der_val (D t) _. rewrite (unsplitK (inr i : 'I_3 + 'I_3)) mxE mulr2n mulrDl !mul1r !sub0r opprK addrA subrr add0r. by [].
Qed.
Print Assumptions C76_base_target.
Print Assumptions C76_base_dissipates.
Print Assumptions C76_base_law.
Print Assumptions C76_base_torque.
Print Assumptions C76_lqr_law.
Print Assumptions C76_lqr_equilibrium.
Print Assumptions C76_lqr_linearisation.
Print Assumptions C76_lqr_default.
Print Assumptions C76_failed_design_refuted.
