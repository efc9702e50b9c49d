(** C07: order of the steppers; C10: discretisation of linear systems; C48: symplectic integration. *)
From mathcomp Require Import all_ssreflect all_algebra ring.
From Verif.Core Require Import IntModel IntLinModel.
Set Implicit Arguments. Unset Strict Implicit. Unset Printing Implicit Defensive.
Import GRing.Theory Num.Theory Order.TTheory.
Local Open Scope ring_scope.

Section C07.
Variable F : realFieldType.
Variable n : nat.
Implicit Types (x : 'cV[F]_n) (A : 'M[F]_n).

(** ** C07.  One Euler step of a constant right-hand side is the solution x + dt c. *)
Theorem C07_euler_constant (c : 'cV[F]_n) x (t dt : F) : m_euler (fun _ _ => c) x t dt = x + dt *: c.
Proof. by []. Qed.

Lemma n6 : (6%:R : F) != 0. Proof. by rewrite pnatr_eq0. Qed.
Lemma n2 : (2%:R : F) != 0. Proof. by rewrite pnatr_eq0. Qed.
Lemma n3 : (3%:R : F) != 0. Proof. by rewrite pnatr_eq0. Qed.
Lemma n4 : (4%:R : F) != 0. Proof. by rewrite pnatr_eq0. Qed.

(** The integral of c0 + c1 s + c2 s^2 + c3 s^3 from t to t + dt. *)
Definition cubic_integral (c0 c1 c2 c3 : 'cV[F]_n) (t dt : F) : 'cV[F]_n :=
  dt *: c0 + (((t + dt) ^+ 2 - t ^+ 2) / 2%:R) *: c1 + (((t + dt) ^+ 3 - t ^+ 3) / 3%:R) *: c2 + (((t + dt) ^+ 4 - t ^+ 4) / 4%:R) *: c3.

(** ** C07.  One RK4 step is exact for right-hand sides that are cubic polynomials in time. *)
Theorem C07_rk4_cubic (c0 c1 c2 c3 : 'cV[F]_n) x (t dt : F) :
  m_rk4 (fun _ s => c0 + s *: c1 + s ^+ 2 *: c2 + s ^+ 3 *: c3) x t dt = x + cubic_integral c0 c1 c2 c3 t dt.
Proof.
  rewrite /m_rk4 /rk4_step /rk4_k1 /rk4_k2 /rk4_k3 /rk4_k4 /cubic_integral.
  apply/matrixP=> i j. rewrite !mxE.
  move: (x i j) (c0 i j) (c1 i j) (c2 i j) (c3 i j) => y d0 d1 d2 d3. field. by rewrite ?pnatr_eq0.
Qed.

(** The degree-4 Taylor polynomial of exp(M). *)
Definition taylor4 (M : 'M[F]_n) : 'M[F]_n :=
  1%:M + M + 2%:R^-1 *: (M *m M) + 6%:R^-1 *: (M *m M *m M) + 24%:R^-1 *: (M *m M *m M *m M).

(** ** C07.  One RK4 step of x' = A x multiplies the state by the degree-4 Taylor polynomial of exp(dt A). *)
Theorem C07_rk4_linear A x (t dt : F) : m_rk4 (fun y _ => A *m y) x t dt = taylor4 (dt *: A) *m x.
Proof.
  rewrite /m_rk4 /rk4_step /rk4_k1 /rk4_k2 /rk4_k3 /rk4_k4 /rk4_x2 /rk4_x3 /rk4_x4 /rk4_k1 /rk4_k2 /rk4_k3 /rk4_x2 /rk4_x3 /rk4_k1 /rk4_k2 /rk4_x2 /rk4_k1 /taylor4.
  rewrite !(mulmxDl, mulmxDr, mul1mx, =^~ scalemxAr, =^~ scalemxAl, mulmxA).
  set a := A *m x. set b := A *m A *m x. set c := A *m A *m A *m x. set d := A *m A *m A *m A *m x.
  rewrite !(scalerDr, scalerA).
  apply/matrixP=> i j. rewrite !mxE. have E24 : (24%:R : F) != 0 by rewrite pnatr_eq0.
  move: (x i j) (a i j) (b i j) (c i j) (d i j) => e0 e1 e2 e3 e4. field. by rewrite ?pnatr_eq0.
Qed.

(** ** C07.  Euler on x' = A x is the degree-1 Taylor polynomial. *)
Theorem C07_euler_linear A x (t dt : F) : m_euler (fun y _ => A *m y) x t dt = (1%:M + dt *: A) *m x.
Proof. by rewrite /m_euler /euler_step mulmxDl mul1mx -scalemxAl. Qed.

(** Euler is not exact for a right-hand side that is linear in time: its order is one. *)
Theorem C07_euler_order (c : 'cV[F]_n) x (dt : F) : dt != 0 -> c != 0 -> m_euler (fun _ s => s *: c) x 0 dt <> x + cubic_integral 0 c 0 0 0 dt.
Proof.
  rewrite /m_euler /euler_step /cubic_integral => Hd Hc /addrI /esym /eqP.
  rewrite scale0r !scaler0 !addr0 !add0r.
  have -> : (dt ^+ 2 - 0 ^+ 2) / 2%:R = dt ^+ 2 / 2%:R :> F by rewrite expr0n subr0.
  by rewrite scaler_eq0 (negbTE Hc) orbF mulf_eq0 invr_eq0 (negbTE n2) orbF expf_eq0 /= (negbTE Hd).
Qed.
(** Nor is RK4 for quartics: its order is four. *)
Theorem C07_rk4_order (c : 'cV[F]_n) x (dt : F) : dt != 0 -> c != 0 -> m_rk4 (fun _ s => s ^+ 4 *: c) x 0 dt <> x + (dt ^+ 5 / 5%:R) *: c.
Proof.
  rewrite /m_rk4 /rk4_step /rk4_k1 /rk4_k2 /rk4_k3 /rk4_k4 => Hd Hc /addrI /eqP.
  rewrite !scalerA -!scalerDl scalerA -subr_eq0 -scalerBl scaler_eq0 (negbTE Hc) orbF.
  have E5 : (5%:R : F) != 0 by rewrite pnatr_eq0.
  have E120 : (120%:R : F) != 0 by rewrite pnatr_eq0.
  set e := (X in X == 0). have -> : e = dt ^+ 5 / 120%:R.
    rewrite /e. field. by rewrite ?pnatr_eq0.
  by rewrite mulf_eq0 invr_eq0 (negbTE E120) orbF expf_eq0 /= (negbTE Hd).
Qed.
End C07.
Print Assumptions C07_euler_constant.
Print Assumptions C07_rk4_cubic.
Print Assumptions C07_rk4_linear.
Print Assumptions C07_euler_linear.
Print Assumptions C07_euler_order.
Print Assumptions C07_rk4_order.

Section C10.
Variable F : realFieldType.
Variables n m : nat.
Variables (A : 'M[F]_n) (B : 'M[F]_(n, m)).
Notation lti := (fun (_ : 'cV[F]_n) (_ : 'cV[F]_m) (_ : F) => (A, B)).
Notation rhs u := (fun (y : 'cV[F]_n) (_ : F) => A *m y + B *m u).

(** ** C10.  Forward Euler: the approximation is the Euler step of the system. *)
Theorem C10_forward_euler dt x u k y (w : 'cV[F]_m) t :
  let AB := forward_euler lti dt x u k in AB.1 *m y + AB.2 *m w = m_euler (rhs w) y t dt.
Proof. rewrite /= /m_euler /euler_step mulmxDl mul1mx -!scalemxAl scalerDr addrA. by []. Qed.

(** ** C10.  Backward Euler: the result solves the implicit equation z = y + dt (A z + B w), and is its only
    solution. *)
Theorem C10_backward_euler dt x u k Ad Bd y (w : 'cV[F]_m) z : backward_euler lti dt x u k = Some (Ad, Bd) ->
  (z = Ad *m y + Bd *m w <-> z = y + dt *: (A *m z + B *m w)).
Proof.
  rewrite /backward_euler /=. case: ifP => // U [<- <-].
  have E : forall z : 'cV[F]_n, (1%:M - dt *: A) *m z = z - dt *: (A *m z) by move=> z'; rewrite mulmxBl mul1mx -scalemxAl.
  split=> [->|H].
  - set z' := (X in X = _). have : (1%:M - dt *: A) *m z' = y + dt *: (B *m w).
      by rewrite /z' mulmxDr -scalemxAl -scalemxAr !mulmxA (mulmxV U) !mul1mx.
    by rewrite E => /(canRL (subrK _)) ->; rewrite scalerDr addrAC addrA.
  - have H' : (1%:M - dt *: A) *m z = y + dt *: (B *m w) by rewrite E {1}H scalerDr addrCA addrC addKr.
    by rewrite -[z](mulKmx U) H' mulmxDr -scalemxAr -scalemxAl mulmxA.
Qed.
Theorem C10_backward_euler_defined dt x u k : backward_euler lti dt x u k <> None <-> 1%:M - dt *: A \in unitmx.
Proof. rewrite /backward_euler /=. by case: ifP; split. Qed.

(** ** C10, Tustin.  The documented scheme is the trapezoidal rule z = y + dt/2 (A y + A z) + dt B w.
    Finding: the implementation leaves out the factor 1/2; its result solves
    z = y + dt (A y + A z) + dt B w, a system with twice the drift. *)
Theorem C10_tustin_actual dt x u xn k Ad Bd y (w : 'cV[F]_m) z : tustin lti dt x u xn k = Some (Ad, Bd) ->
  (z = Ad *m y + Bd *m w <-> z = y + dt *: (A *m y + A *m z) + dt *: (B *m w)).
Proof.
  rewrite /tustin /=. case: ifP => // U [<- <-].
  have E : forall z : 'cV[F]_n, (1%:M - dt *: A) *m z = z - dt *: (A *m z) by move=> z'; rewrite mulmxBl mul1mx -scalemxAl.
  have E2 : (1%:M + dt *: A) *m y = y + dt *: (A *m y) by rewrite mulmxDl mul1mx -scalemxAl.
  split=> [->|H].
  - set z' := (X in X = _). have : (1%:M - dt *: A) *m z' = y + dt *: (A *m y) + dt *: (B *m w).
      by rewrite /z' mulmxDr -scalemxAl -scalemxAr !mulmxA (mulmxV U) !mul1mx E2.
    rewrite E => /(canRL (subrK _)) H. rewrite {1}H scalerDr -!addrA. by do 2! congr (_ + _); rewrite addrC.
  - have H' : (1%:M - dt *: A) *m z = y + dt *: (A *m y) + dt *: (B *m w).
      by rewrite E {1}H scalerDr -!addrA [X in _ + (_ + X)]addrC -addrA addNr addr0.
    by rewrite -[z](mulKmx U) H' -E2 mulmxDr -scalemxAr -scalemxAl !mulmxA.
Qed.

(** ** C10, matrix exponential.  For an invertible A the discrete system has the equilibria of the continuous one. *)
Theorem C10_matrix_exponential_equilibrium expm dt x u k Ad Bd xe (ue : 'cV[F]_m) :
  matrix_exponential lti expm dt x u k = Some (Ad, Bd) -> A *m xe + B *m ue = 0 -> Ad = expm (dt *: A) -> 
  A *m Ad = Ad *m A -> Ad *m xe + Bd *m ue = xe.
Proof.
  rewrite /matrix_exponential /=. case: ifP => // U [<- <-] H _ C. set E := expm _ in C *.
  have Hx : B *m ue = - (A *m xe) by apply/eqP; rewrite -addr_eq0 addrC H.
  rewrite -!mulmxA Hx mulmxN mulmxBl mul1mx [E *m (A *m xe)]mulmxA -C -mulmxA -mulmxBr mulmxN mulmxA (mulVmx U) mul1mx opprB addrC subrK.
  by [].
Qed.

(** ** C10, time-varying and nonlinear systems.  At step k the schemes see the system only through its linearisation
    at the given state and input: forward Euler and the matrix exponential at time k dt, backward Euler at time
    (k+1) dt, Tustin at both.  There they treat it as a linear time-invariant system. *)
Theorem C10_time_varying (lin : 'cV[F]_n -> 'cV[F]_m -> F -> 'M[F]_n * 'M[F]_(n, m)) expm dt x u xn k :
  let t := dt *+ k in
  (lin x u t = (A, B) -> forward_euler lin dt x u k = forward_euler lti dt x u k /\
                         matrix_exponential lin expm dt x u k = matrix_exponential lti expm dt x u k) /\
  (lin x u (t + dt) = (A, B) -> backward_euler lin dt x u k = backward_euler lti dt x u k) /\
  (lin x u t = (A, B) -> (lin xn u (t + dt)).1 = A -> tustin lin dt x u xn k = tustin lti dt x u xn k).
Proof.
  move=> t. have E : k%:R * dt = t by rewrite mulr_natl.
  have E' : k.+1%:R * dt = t + dt by rewrite -addn1 natrD mulrDl mul1r E.
  rewrite /forward_euler /matrix_exponential /backward_euler /tustin E E'. split=> [->//|]. split=> [->//|-> -> //].
Qed.
End C10.
Print Assumptions C10_time_varying.
Print Assumptions C10_forward_euler.
Print Assumptions C10_backward_euler.
Print Assumptions C10_backward_euler_defined.
Print Assumptions C10_tustin_actual.
Print Assumptions C10_matrix_exponential_equilibrium.

(** Finding: the Tustin sensitivity is not the trapezoidal rule. *)
Theorem C10_tustin_refuted (F : realFieldType) : exists (A B : 'M[F]_1) (dt : F) (Ad Bd : 'M[F]_1) (y z : 'cV[F]_1),
  tustin (fun _ _ _ => (A, B)) dt (0 : 'cV[F]_1) (0 : 'cV[F]_1) 0 0 = Some (Ad, Bd) /\ z = Ad *m y + Bd *m 0 /\
  z <> y + (dt / 2%:R) *: (A *m y + A *m z) + dt *: (B *m 0).
Proof.
  pose dt : F := 2%:R^-1.
  have D : (1%:M - dt *: (1%:M : 'M[F]_1)) = dt%:M.
    apply/matrixP=> i j; rewrite !ord1 !mxE eqxx /dt. field; rewrite ?pnatr_eq0 //.
  have U : (1%:M - dt *: (1%:M : 'M[F]_1)) \in unitmx.
    by rewrite D unitmxE det_scalar1 unitfE invr_eq0 pnatr_eq0.
  exists 1%:M, 0, dt, (3%:R%:M), 0, 1%:M, (3%:R%:M). split; [|split].
  - rewrite /tustin /= U. congr (Some (_, _)); last by rewrite mulmx0 scaler0.
    apply: (can_inj (mulKmx U)). rewrite mulmxA (mulmxV U) mul1mx D.
    apply/matrixP=> i j; rewrite !ord1 !mxE big_ord_recl big_ord0 !mxE eqxx /= /dt. field; rewrite ?pnatr_eq0 //.
  - by rewrite mulmx1 mulmx0 addr0.
  - rewrite !mul1mx mul0mx scaler0 addr0 => /matrixP/(_ 0 0). rewrite !mxE eqxx /= /dt.
    have E4 : (4%:R : F) != 0 by rewrite pnatr_eq0.
    move/(congr1 (fun q => q - 2%:R)). have -> : (3%:R - 2%:R : F) = 1 by ring.
    have -> : (1%:R + 2%:R^-1 / 2%:R * (1%:R + 3%:R) - 2%:R : F) = 0 by field; rewrite ?pnatr_eq0.
    move/eqP. by rewrite oner_eq0.
Qed.
Print Assumptions C10_tustin_refuted.

(** Finding: with the matrix exponential a system with singular A, such as a double integrator, has no input matrix. *)
Theorem C10_matrix_exponential_refuted (F : realFieldType) expm dt x (u : 'cV[F]_1) k :
  matrix_exponential (fun _ _ _ => (block_mx 0 1%:M 0 0 : 'M[F]_(1 + 1), col_mx 0 1%:M : 'M[F]_(1 + 1, 1))) expm dt x u k = None.
Proof. by rewrite /matrix_exponential /= unitmxE det_ublock !det0 mul0r unitr0. Qed.
Print Assumptions C10_matrix_exponential_refuted.

Example C10_example (F : realFieldType) : 1%:M - (2%:R : F) *: (- 1%:M : 'M[F]_2) \in unitmx.
Proof.
  have -> : 1%:M - (2%:R : F) *: (- 1%:M : 'M[F]_2) = (3%:R)%:M.
    apply/matrixP=> i j; rewrite !mxE. by case: eqP => _ /=; ring.
  by rewrite unitmxE det_scalar unitfE expf_neq0 // pnatr_eq0.
Qed.

Lemma zm7 (V : zmodType) (e1 e2 e3 e4 e5 e6 r : V) :
  e1 + e2 + (r + (e3 + e4)) + (e5 + e6) = r + (e1 + (e2 + e4 + e6) + e3 + e5).
Proof.
  rewrite -!addrA [e2 + (r + _)]addrCA [e1 + (r + _)]addrCA. do 3! congr (_ + _).
  by rewrite addrCA; congr (_ + _); rewrite addrA addrC.
Qed.
Section C48.
Variable F : realFieldType.
Variables p v m : nat.
Implicit Types (A : 'M[F]_(p + v)) (B : 'M[F]_(p + v, m)).

(** ** C10, symplectic.  For a linear system the approximation is the symplectic Euler step of the system. *)
Theorem C10_symplectic_euler A B (dt : F) x u xn k (y : 'cV[F]_(p + v)) (w : 'cV[F]_m) :
  let AB := symplectic_euler_AB (fun _ _ _ => (A, B)) dt x u xn k in
  AB.1 *m y + AB.2 *m w = symplectic_step (fun s => usubmx (A *m s + B *m w)) (fun s => dsubmx (A *m s + B *m w)) dt y.
Proof.
  rewrite /symplectic_euler_AB /symplectic_AB /symplectic_step /=.
  set a11 := ulsubmx A; set a12 := ursubmx A; set a21 := dlsubmx A; set a22 := drsubmx A; set b1 := usubmx B; set b2 := dsubmx B.
  have EA : A = block_mx a11 a12 a21 a22 by rewrite submxK.
  have EB : B = col_mx b1 b2 by rewrite vsubmxK.
  set q := usubmx y; set r := dsubmx y. have Ey : y = col_mx q r by rewrite vsubmxK.
  rewrite Ey EB EA !mul_block_col !mul_col_mx !add_col_mx !col_mxKu !col_mxKd. congr col_mx.
  - rewrite mulmxDl mul1mx -!scalemxAl !scalerDr !addrA. by [].
  - rewrite !(mulmxDl, mulmxDr, mul1mx, =^~ scalemxAl, =^~ scalemxAr, scalerDr, mulmx1, mulmxA, scalerA).
    set e1 := dt *: (a21 *m q). set e2 := (dt * dt) *: (a21 *m a11 *m q). set e3 := dt *: (a22 *m r).
    set e4 := (dt * dt) *: (a21 *m a12 *m r). set e5 := dt *: (b2 *m w). set e6 := (dt * dt) *: (a21 *m b1 *m w).
    exact: zm7.
Qed.

(** ** C10, symplectic, time-varying and nonlinear systems.  At step k the scheme sees the position rates linearised at
    the given state and the velocity rates linearised at the new position and the old velocity, both at time k dt. *)
Theorem C10_symplectic_time_varying (lin : 'cV[F]_(p + v) -> 'cV[F]_m -> F -> 'M[F]_(p + v) * 'M[F]_(p + v, m)) A A' B B' (dt : F)
    (xp xp' : 'cV[F]_p) (xv xv' : 'cV[F]_v) u k :
  usubmx A = usubmx (lin (col_mx xp xv) u (dt *+ k)).1 -> usubmx B = usubmx (lin (col_mx xp xv) u (dt *+ k)).2 ->
  dsubmx A' = dsubmx (lin (col_mx xp' xv) u (dt *+ k)).1 -> dsubmx B' = dsubmx (lin (col_mx xp' xv) u (dt *+ k)).2 ->
  dsubmx A = dsubmx A' -> dsubmx B = dsubmx B' ->
  symplectic_euler_AB lin dt (col_mx xp xv) u (col_mx xp' xv') k =
  symplectic_euler_AB (fun _ _ _ => (A, B)) dt (col_mx xp xv) u (col_mx xp' xv') k.
Proof.
  move=> H1 H2 H3 H4 H5 H6. rewrite /symplectic_euler_AB !mulr_natl col_mxKu col_mxKd /symplectic_AB /=.
  rewrite /ulsubmx /ursubmx /dlsubmx /drsubmx -H1 -H2 -H3 -H4 H5 H6. by [].
Qed.

(** ** C48.  The step updates the positions with the old velocities, then the velocities with the new positions. *)
Theorem C48_step pdot vdot (dt : F) (x : 'cV[F]_(p + v)) :
  let x' := symplectic_step pdot vdot dt x in
  usubmx x' = usubmx x + dt *: pdot x /\
  dsubmx x' = dsubmx x + dt *: vdot (col_mx (usubmx x') (dsubmx x)).
Proof. by rewrite /symplectic_step /= col_mxKu col_mxKd. Qed.

Lemma sym_factor A1 A2 B1 B2 (dt : F) :
  (symplectic_AB dt A1 A2 (B1 : 'M_(_, m)) B2).1 =
  block_mx 1%:M 0 (dt *: dlsubmx A2) (1%:M + dt *: drsubmx A2) *m block_mx (1%:M + dt *: ulsubmx A1) (dt *: ursubmx A1) 0 1%:M.
Proof.
  rewrite /symplectic_AB /= mulmx_block !mul1mx !mulmx0 !mul0mx !addr0 -!scalemxAl -!scalemxAr mulmx1.
  congr block_mx. by rewrite scalerDr scalerA addrCA addrA [RHS]addrC addrA [_ + 1%:M]addrC -addrA [X in _ + X]addrC.
Qed.

(** ** C48.  The determinant of the sensitivity is det(1 + dt A11) det(1 + dt A22): one for a separable system (no
    position dependence of the position rate, no velocity dependence of the velocity rate), for every step size. *)
Theorem C48_determinant A1 A2 B1 B2 (dt : F) :
  \det (symplectic_AB dt A1 A2 (B1 : 'M_(_, m)) B2).1 = \det (1%:M + dt *: ulsubmx A1) * \det (1%:M + dt *: drsubmx A2).
Proof. by rewrite sym_factor det_mulmx det_lblock det_ublock !det1 mul1r mulr1 mulrC. Qed.
Theorem C48_volume A1 A2 B1 B2 (dt : F) : ulsubmx A1 = 0 -> drsubmx A2 = 0 -> \det (symplectic_AB dt A1 A2 (B1 : 'M_(_, m)) B2).1 = 1.
Proof. move=> H1 H2. by rewrite C48_determinant H1 H2 !scaler0 !addr0 !det1 mul1r. Qed.

(** ** C48.  integrate_n_steps appends the start and every step: num + 1 entries, the k-th being the state after k steps
    at time t + k dt; what was in the given trajectories stays in front. *)
Lemma iterS_shift T (f : T -> T) k x : iter k f (f x) = f (iter k f x).
Proof. by elim: k => //= k ->. Qed.
Theorem C48_trajectory pdot vdot num (dt : F) (x : 'cV[F]_(p + v)) t tr xf tr' :
  symplectic_integrate pdot vdot num dt x t tr = (xf, tr') ->
  xf = iter num (symplectic_step pdot vdot dt) x /\ size tr' = (size tr + num.+1)%N /\ take (size tr) tr' = tr /\
  forall k d, (k <= num)%N -> nth d tr' (size tr + k) = (iter k (symplectic_step pdot vdot dt) x, t + k%:R * dt).
Proof.
  rewrite /symplectic_integrate. set f := symplectic_step _ _ _.
  have G : forall num x t tr, symplectic_loop pdot vdot num dt x t tr =
     (iter num f x, tr ++ [seq (iter k.+1 f x, t + k.+1%:R * dt) | k <- iota 0 num]).
    elim=> [|num' IH] x' t' tr0; first by rewrite /= cats0.
    rewrite [LHS]/= IH iterS_shift -[RHS]/((f (iter num' f x'), tr0 ++ ((f x', t' + 1%:R * dt) :: [seq (iter k.+1 f x', t' + k.+1%:R * dt) | k <- iota 1 num']))).
    rewrite -cats1 -catA /= mul1r. congr (_, _ ++ _ :: _). rewrite -[1%N]/(1 + 0)%N iotaDl -map_comp. apply: eq_map => k /=.
    rewrite iterS_shift -addrA. congr (_, _ + _). by rewrite add1n [in RHS]mulrS mulrDl mul1r.
  rewrite G => -[<- <-]. split=> //. split; first by rewrite size_cat size_rcons size_map size_iota addSnnS.
  split; first by rewrite -cats1 -catA take_size_cat.
  move=> k d Hk. rewrite -cats1 -catA nth_cat ltnNge leq_addr /= addKn. case: k Hk => [|k] Hk /=; first by rewrite mul0r addr0.
  by rewrite (nth_map 0%N) ?size_iota // nth_iota.
Qed.
End C48.
Print Assumptions C10_symplectic_euler.
Print Assumptions C10_symplectic_time_varying.
Print Assumptions C48_step.
Print Assumptions C48_determinant.
Print Assumptions C48_volume.
Print Assumptions C48_trajectory.

(** The pair form: for equally many positions and velocities, J is the canonical form. *)
Section C48H.
Variable F : realFieldType.
Variables p m : nat.
Definition Jform : 'M[F]_(p + p) := block_mx 0 1%:M (- 1%:M) 0.
(** ** C48.  For a separable Hamiltonian system (position rate M v, velocity rate -K q, with M and K symmetric) the step
    is symplectic: it preserves the form J. *)
Theorem C48_symplectic (M K : 'M[F]_p) (B : 'M[F]_(p + p, m)) (dt : F) : M^T = M -> K^T = K ->
  let A := block_mx 0 M (- K) 0 in
  let S := (symplectic_AB dt A A B B).1 in S^T *m Jform *m S = Jform.
Proof.
  move=> HM HK A S. have -> : S = block_mx 1%:M 0 (dt *: - K) 1%:M *m block_mx 1%:M (dt *: M) 0 1%:M.
    by rewrite /S sym_factor block_mxKul block_mxKur block_mxKdl block_mxKdr !scaler0 !addr0.
  set L := block_mx _ _ _ _. set U := block_mx 1%:M (dt *: M) _ _.
  have TK : (dt *: - K)^T = dt *: - K by apply/matrixP=> i j; rewrite -[in RHS]HK !mxE.
  have TM : (dt *: M)^T = dt *: M by apply/matrixP=> i j; rewrite -[in RHS]HM !mxE.
  have EL : L^T *m Jform *m L = Jform.
    rewrite /L /Jform tr_block_mx !mulmx_block !trmx1 trmx0 TK.
    rewrite !(mulmx0, mul0mx, mulmx1, mul1mx, addr0, add0r, mulmxN, mulNmx). congr block_mx.
    by rewrite scalerN opprK addrC addNr.
  have EU : U^T *m Jform *m U = Jform.
    rewrite /U /Jform tr_block_mx !mulmx_block !trmx1 trmx0 TM.
    rewrite !(mulmx0, mul0mx, mulmx1, mul1mx, addr0, add0r, mulmxN, mulNmx). congr block_mx.
    by rewrite addNr.
  have -> : (L *m U)^T *m Jform *m (L *m U) = U^T *m (L^T *m Jform *m L) *m U by rewrite trmx_mul !mulmxA.
  by rewrite EL.
Qed.
End C48H.
Print Assumptions C48_symplectic.

Example C48_example (F : realFieldType) :
  symplectic_step (p := 1) (v := 1) (fun s => dsubmx s) (fun s => - usubmx s) (2%:R : F) (col_mx 1%:M 1%:M) = col_mx (3%:R%:M) ((- 5%:R)%:M).
Proof.
  rewrite /symplectic_step !col_mxKu !col_mxKd. congr col_mx; apply/matrixP=> i j; rewrite !ord1 !mxE /=; ring.
Qed.
