(** C09: numerical differentiation.  C47: numerical cost derivatives. *)
From Coq Require Import Reals List Bool Arith Lra Lia.
From Coquelicot Require Import Coquelicot.
From Verif Require Import Base.RVec Core.NumDiffModel.
Local Open Scope R_scope.

(** ** Specification vocabulary *)

(** [partial f x r i d]: d is the partial derivative of component r of f with respect to
    coordinate i at x. *)
Definition partial (f : rvec -> rvec) (x : rvec) (r i : nat) (d : R) : Prop :=
  is_derive (fun v => f (rset x i v) r) (x i) d.

(** The affine and the quadratic functions of n variables. *)
Definition affine (n : nat) (f : rvec -> rvec) : Prop :=
  exists (c : rvec) (A : rmat), forall x r, f x r = c r + rdot n (A r) x.
Definition quadratic (n : nat) (f : rvec -> rvec) : Prop :=
  exists (c : rvec) (A : rmat) (H : nat -> rmat),
    forall x r, f x r = c r + rdot n (A r) x + rquad n (H r) x x.

(** ** Lemmas *)

Lemma pert_pos eps v : 0 < eps -> 0 < pert eps v.
Proof.
  intros H. unfold pert. apply Rmult_lt_0_compat; auto.
  apply Rlt_le_trans with 1; [lra|apply Rmax_r].
Qed.

Lemma rset_same x i j : rset x i (x i) j = x j.
Proof. unfold rset. destruct (Nat.eqb_spec j i) as [->|]; reflexivity. Qed.

Lemma rset_line x i v j : rset x i v j = radd x (rscal (v - x i) (runit i)) j.
Proof. rewrite rset_unit. reflexivity. Qed.

Lemma quad_set n H x i v : (i < n)%nat ->
  rquad n H (rset x i v) (rset x i v) =
  rquad n H x x + (v - x i) * (rquad n H x (runit i) + rquad n H (runit i) x)
  + (v - x i) * (v - x i) * rquad n H (runit i) (runit i).
Proof.
  intros Hi. rewrite <- rquad_line.
  apply rquad_ext; intros j _; apply rset_line.
Qed.

(** A quadratic function along one coordinate. *)
Lemma quadratic_coord n f x i r : (i < n)%nat -> quadratic n f ->
  exists b a, (forall v, f (rset x i v) r = f x r + b * (v - x i) + a * ((v - x i) * (v - x i))).
Proof.
  intros Hi (c & A & H & Hf).
  exists (A r i + (rquad n (H r) x (runit i) + rquad n (H r) (runit i) x)),
         (rquad n (H r) (runit i) (runit i)).
  intros v. rewrite !Hf, rdot_set, quad_set by auto. ring.
Qed.

Lemma affine_coord n f x i r : (i < n)%nat -> affine n f ->
  exists b, (forall v, f (rset x i v) r = f x r + b * (v - x i)).
Proof.
  intros Hi (c & A & Hf). exists (A r i). intros v. rewrite !Hf, rdot_set by auto. ring.
Qed.

Lemma derive_quad (g : R -> R) x c b a :
  (forall v, g v = c + b * (v - x) + a * ((v - x) * (v - x))) -> is_derive g x b.
Proof.
  intros Hg. apply (is_derive_ext (fun v => c + b * (v - x) + a * ((v - x) * (v - x)))).
  - intros v. symmetry. apply Hg.
  - auto_derive; auto. ring.
Qed.

(** ** C09 *)

(** One-sided differences of an affine function are its partial derivatives, also when the
    perturbed coordinate x+h is rounded, as long as the difference x_ph - x is computed
    exactly and is not zero. *)
Theorem C09_forward_affine (fadd fsub : R -> R -> R) eps n f x r i :
  affine n f -> (i < n)%nat ->
  fsub (fadd (x i) (pert eps (x i))) (x i) = fadd (x i) (pert eps (x i)) - x i ->
  fadd (x i) (pert eps (x i)) <> x i ->
  partial f x r i (jacobian fadd fsub eps false f x r i).
Proof.
  intros Hf Hi He Hn. destruct (affine_coord n f x i r Hi Hf) as [b Hb].
  unfold partial.
  assert (E : jacobian fadd fsub eps false f x r i = b).
  { unfold jacobian. rewrite He, Hb. field. lra. }
  rewrite E. apply (derive_quad _ _ (f x r) b 0). intros v. rewrite Hb. ring.
Qed.

(** Two-sided differences of an affine function, with the same freedom in rounding. *)
Theorem C09_central_affine (fadd fsub : R -> R -> R) eps n f x r i :
  affine n f -> (i < n)%nat ->
  let xp := fadd (x i) (pert eps (x i)) in
  let xm := fsub (x i) (pert eps (x i)) in
  fadd (fsub xp (x i)) (fsub (x i) xm) = xp - xm -> xp <> xm ->
  partial f x r i (jacobian fadd fsub eps true f x r i).
Proof.
  intros Hf Hi xp xm He Hn. destruct (affine_coord n f x i r Hi Hf) as [b Hb].
  unfold partial.
  assert (E : jacobian fadd fsub eps true f x r i = b).
  { unfold jacobian. fold xp xm. rewrite He, !Hb. field. lra. }
  rewrite E. apply (derive_quad _ _ (f x r) b 0). intros v. rewrite Hb. ring.
Qed.

(** Two-sided differences of a quadratic function in exact arithmetic. *)
Theorem C09_central_quadratic eps n f x r i :
  0 < eps -> quadratic n f -> (i < n)%nat ->
  partial f x r i (jacobian Rplus Rminus eps true f x r i).
Proof.
  intros Heps Hf Hi. destruct (quadratic_coord n f x i r Hi Hf) as (b & a & Hb).
  unfold partial.
  assert (E : jacobian Rplus Rminus eps true f x r i = b).
  { unfold jacobian. rewrite !Hb. assert (H := pert_pos eps (x i) Heps). field. lra. }
  rewrite E. apply (derive_quad _ _ (f x r) b a). intros v. rewrite Hb. ring.
Qed.

(** One-sided differences of a quadratic function are off by h times the second-order
    coefficient: the one-sided variant is exact to first order only. *)
Theorem C09_forward_quadratic_refuted : exists f x eps,
  quadratic 1 f /\ 0 < eps /\ ~ partial f x 0 0 (jacobian Rplus Rminus eps false f x 0%nat 0%nat).
Proof.
  exists (fun x _ => x 0%nat * x 0%nat), (fun _ => 0), 1.
  split; [|split; [lra|]].
  - exists (fun _ => 0), (fun _ _ => 0), (fun _ _ _ => 1). intros x r.
    unfold rquad, rdot, rmv. simpl. ring.
  - unfold partial. intros H.
    assert (E : jacobian Rplus Rminus 1 false (fun x _ => x 0%nat * x 0%nat) (fun _ => 0) 0%nat 0%nat = 1).
    { unfold jacobian, pert. rewrite !rset_eq.
      replace (Rmax (Rabs 0) 1) with 1; [field|].
      rewrite Rabs_R0. symmetry. apply Rmax_right. lra. }
    apply is_derive_unique in H. pose proof (eq_trans H E) as E'.
    assert (H0 : is_derive (fun v : R => rset (fun _ => 0) 0 v 0%nat * rset (fun _ => 0) 0 v 0%nat) 0 0).
    { apply (is_derive_ext (fun v => v * v)).
      - intros v. now rewrite rset_eq.
      - auto_derive; auto. ring. }
    apply is_derive_unique in H0. pose proof (eq_trans (eq_sym H0) E') as E1. lra.
Qed.

(** Twice differentiable functions: the one-sided error is at most M*h/2 where M bounds the
    second derivative along the coordinate between x and x+h. *)
Theorem C09_forward_error eps f x r i M :
  0 < eps ->
  let g := fun v => f (rset x i v) r in
  let h := pert eps (x i) in
  (forall v, x i <= v <= x i + h -> forall k, (k <= 2)%nat -> ex_derive_n g k v) ->
  (forall v, x i <= v <= x i + h -> Rabs (Derive_n g 2 v) <= M) ->
  (forall r', f (rset x i (x i)) r' = f x r') ->
  exists d, partial f x r i d /\
    Rabs (jacobian Rplus Rminus eps false f x r i - d) <= M * h / 2.
Proof.
  intros Heps g h Hex HM Hext. assert (Hh : 0 < h) by now apply pert_pos.
  assert (Hd : ex_derive g (x i)) by (apply (Hex (x i) ltac:(lra) 1%nat); lia).
  exists (Derive g (x i)). split; [now apply Derive_correct|].
  destruct (Taylor_Lagrange g 1 (x i) (x i + h) ltac:(lra)) as (z & Hz & E).
  { intros v Hv k Hk. apply Hex; auto. }
  assert (Hb := HM z ltac:(lra)).
  cbn [sum_f_R0] in E. change (Derive_n g 0 (x i)) with (g (x i)) in E.
  change (Derive_n g 1 (x i)) with (Derive g (x i)) in E.
  set (d2 := Derive_n g 2 z) in *. clearbody d2.
  set (d1 := Derive g (x i)) in *. clearbody d1.
  assert (EJ : jacobian Rplus Rminus eps false f x r i - d1 = h / 2 * d2).
  { unfold jacobian. fold h. change (f (rset x i (x i + h)) r) with (g (x i + h)).
    rewrite <- (Hext r). change (f (rset x i (x i)) r) with (g (x i)).
    rewrite E. simpl. field. lra. }
  rewrite EJ, Rabs_mult, Rabs_pos_eq by lra.
  apply Rle_trans with (h / 2 * M); [|lra].
  apply Rmult_le_compat_l; lra.
Qed.

Lemma taylor_left (g : R -> R) x h a b :
  0 < h -> a < x - h -> x < b ->
  (forall v, a < v < b -> forall k, (k <= 3)%nat -> ex_derive_n g k v) ->
  exists z, x - h < z < x /\
    g (x - h) = g x - h * Derive g x + h * h / 2 * Derive_n g 2 x - h * h * h / 6 * Derive_n g 3 z.
Proof.
  intros Hh Ha Hb Hex.
  assert (Hloc : forall v, a < - v < b -> locally (- v)
            (fun y : R => forall k, (k <= 3)%nat -> ex_derive_n g k y)).
  { intros v Hv.
    assert (Hp : 0 < Rmin (- v - a) (b - - v)) by (apply Rmin_glb_lt; lra).
    exists (mkposreal _ Hp). intros y Hy. apply Hex.
    unfold ball in Hy; simpl in Hy; unfold AbsRing_ball, abs, minus, plus, opp in Hy; simpl in Hy.
    apply Rabs_def2 in Hy.
    assert (H1 := Rmin_l (- v - a) (b - - v)). assert (H2 := Rmin_r (- v - a) (b - - v)). lra. }
  assert (Hk : forall v k, a < - v < b -> (k <= 3)%nat -> locally (- v)
            (fun y : R => forall j, (j <= k)%nat -> ex_derive_n g j y)).
  { intros v k Hv Hk. generalize (Hloc v Hv). apply filter_imp. intros y Hy j Hj. apply Hy. lia. }
  destruct (Taylor_Lagrange (fun y => g (- y)) 2 (- x) (- x + h) ltac:(lra)) as (z & Hz & E).
  { intros v Hv k Hk'. apply ex_derive_n_comp_opp. apply Hk; [lra|lia]. }
  exists (- z). split; [lra|].
  replace (x - h) with (- (- x + h)) by ring. rewrite E.
  cbn [sum_f_R0]. change (Derive_n (fun y : R => g (- y)) 0 (- x)) with (g (- - x)).
  rewrite (Derive_n_comp_opp g 3 z) by (apply Hk; [lra|lia]).
  rewrite (Derive_n_comp_opp g 1 (- x)) by (apply Hk; [lra|lia]).
  rewrite (Derive_n_comp_opp g 2 (- x)) by (apply Hk; [lra|lia]).
  rewrite !Ropp_involutive. change (Derive_n g 1 x) with (Derive g x).
  generalize (Derive_n g 3 (- z)) (Derive_n g 2 x) (Derive g x). intros d3 d2 d1. simpl. field.
Qed.

(** Three times differentiable functions: the two-sided error is at most M*h^2/6. *)
Theorem C09_central_error eps f x r i M a b :
  0 < eps ->
  let g := fun v => f (rset x i v) r in
  let h := pert eps (x i) in
  a < x i - h -> x i + h < b ->
  (forall v, a < v < b -> forall k, (k <= 3)%nat -> ex_derive_n g k v) ->
  (forall v, a < v < b -> Rabs (Derive_n g 3 v) <= M) ->
  exists d, partial f x r i d /\
    Rabs (jacobian Rplus Rminus eps true f x r i - d) <= M * (h * h) / 6.
Proof.
  intros Heps g h Ha Hb Hex HM. assert (Hh : 0 < h) by now apply pert_pos.
  assert (Hd : ex_derive g (x i)) by (apply (Hex (x i) ltac:(lra) 1%nat); lia).
  exists (Derive g (x i)). split; [now apply Derive_correct|].
  destruct (Taylor_Lagrange g 2 (x i) (x i + h) ltac:(lra)) as (z & Hz & E).
  { intros v Hv k Hk. apply Hex; auto; lra. }
  destruct (taylor_left g (x i) h a b Hh Ha ltac:(lra) Hex) as (z' & Hz' & E').
  assert (H1 := HM z ltac:(lra)). assert (H2 := HM z' ltac:(lra)).
  cbn [sum_f_R0] in E. change (Derive_n g 0 (x i)) with (g (x i)) in E.
  change (Derive_n g 1 (x i)) with (Derive g (x i)) in E.
  set (d3 := Derive_n g 3 z) in *. clearbody d3.
  set (d3' := Derive_n g 3 z') in *. clearbody d3'.
  set (d2 := Derive_n g 2 (x i)) in *. clearbody d2.
  set (d1 := Derive g (x i)) in *. clearbody d1.
  assert (EJ : jacobian Rplus Rminus eps true f x r i - d1 = h * h / 12 * (d3 + d3')).
  { unfold jacobian. fold h. change (f (rset x i (x i + h)) r) with (g (x i + h)).
    change (f (rset x i (x i - h)) r) with (g (x i - h)). rewrite E, E'.
    simpl. field. lra. }
  rewrite EJ, Rabs_mult, Rabs_pos_eq by nra.
  apply Rle_trans with (h * h / 12 * (M + M)); [|lra].
  apply Rmult_le_compat_l; [nra|].
  eapply Rle_trans; [apply Rabs_triang|]. lra.
Qed.

(** A linear system x' = A x + B u + c(t): the linearizer returns A and B at every point, in
    both modes. *)
Theorem C09_linearizer eps ds n m (A B : rmat) (c : R -> rvec) x u t r i : 0 < eps ->
  let dyn := fun x t u => radd (radd (rmv n A x) (rmv m B u)) (c t) in
  ((i < n)%nat -> derivative_state Rplus Rminus eps ds dyn x u t r i = A r i) /\
  ((i < m)%nat -> derivative_control Rplus Rminus eps ds dyn x u t r i = B r i).
Proof.
  intros Heps dyn. split; intros Hi; unfold derivative_state, derivative_control, jacobian, dyn, radd, rmv.
  - assert (H := pert_pos eps (x i) Heps).
    change (rsum n (fun j => A r j * x j)) with (rdot n (A r) x).
    change (rsum n (fun j => A r j * rset x i (x i + pert eps (x i)) j))
      with (rdot n (A r) (rset x i (x i + pert eps (x i)))).
    change (rsum n (fun j => A r j * rset x i (x i - pert eps (x i)) j))
      with (rdot n (A r) (rset x i (x i - pert eps (x i)))).
    rewrite !rdot_set by auto. destruct ds; field; lra.
  - assert (H := pert_pos eps (u i) Heps).
    change (rsum m (fun j => B r j * u j)) with (rdot m (B r) u).
    change (rsum m (fun j => B r j * rset u i (u i + pert eps (u i)) j))
      with (rdot m (B r) (rset u i (u i + pert eps (u i)))).
    change (rsum m (fun j => B r j * rset u i (u i - pert eps (u i)) j))
      with (rdot m (B r) (rset u i (u i - pert eps (u i)))).
    rewrite !rdot_set by auto. destruct ds; field; lra.
Qed.

(** A system declared second order whose first k state derivatives are its last k states (2k
    states): the blocks which the linearizer writes without computing them are the true partial
    derivatives. *)
Theorem C09_second_order fadd fsub eps ds k dyn x u t r i :
  (forall x t u p, (p < k)%nat -> dyn x t u p = x (k + p)%nat) ->
  (r < k)%nat -> (i < 2 * k)%nat ->
  partial (fun x' => dyn x' t u) x r i
    (system_derivative_state fadd fsub eps true (2 * k) ds dyn x u t r i) /\
  (forall j, partial (fun u' => dyn x t u') u r j
    (system_derivative_control fadd fsub eps true (2 * k) ds dyn x u t r j)).
Proof.
  intros Hdyn Hr Hi.
  assert (E2 : (2 * k / 2 = k)%nat) by (rewrite Nat.mul_comm; apply Nat.div_mul; lia).
  split.
  - unfold partial, system_derivative_state. rewrite E2.
    replace (2 * k - k)%nat with k by lia.
    rewrite (proj2 (Nat.ltb_lt r k) Hr). cbn [andb].
    destruct (Nat.leb_spec k i) as [Hk|Hk].
    + destruct (Nat.eqb_spec (i - k) r) as [Er|Er].
      * apply (is_derive_ext (fun v => v)).
        { intros v. rewrite Hdyn by auto. replace (k + r)%nat with i by lia. now rewrite rset_eq. }
        auto_derive; auto.
      * apply (is_derive_ext (fun v => x (k + r)%nat)).
        { intros v. rewrite Hdyn by auto. rewrite rset_other by lia. reflexivity. }
        auto_derive; auto.
    + rewrite (proj2 (Nat.ltb_lt i k) Hk).
      apply (is_derive_ext (fun v => x (k + r)%nat)).
      { intros v. rewrite Hdyn by auto. rewrite rset_other by lia. reflexivity. }
      auto_derive; auto.
  - intros j. unfold partial, system_derivative_control. rewrite E2.
    rewrite (proj2 (Nat.ltb_lt r k) Hr). cbn [andb].
    apply (is_derive_ext (fun v => x (k + r)%nat)).
    { intros v. now rewrite Hdyn. }
    auto_derive; auto.
Qed.

(** For systems not declared second order nothing is overwritten. *)
Theorem C09_first_order fadd fsub eps ds n dyn x u t r i :
  system_derivative_state fadd fsub eps false n ds dyn x u t r i
    = jacobian fadd fsub eps ds (fun x' => dyn x' t u) x r i /\
  system_derivative_control fadd fsub eps false n ds dyn x u t r i
    = jacobian fadd fsub eps ds (fun u' => dyn x t u') u r i.
Proof. split; reflexivity. Qed.

(** The hypotheses hold for concrete functions: the square and the sine. *)
Example C09_example_quadratic :
  partial (fun x _ => x 0%nat * x 1%nat) (fun _ => 3) 0 1
    (jacobian Rplus Rminus (/ 1000) true (fun x _ => x 0%nat * x 1%nat) (fun _ => 3) 0%nat 1%nat).
Proof.
  apply (C09_central_quadratic (/ 1000) 2); [lra| |lia].
  exists (fun _ => 0), (fun _ _ => 0), (fun _ i j => if (i =? 0)%nat && (j =? 1)%nat then 1 else 0).
  intros x r. unfold rquad, rdot, rmv. simpl. ring.
Qed.

Lemma sin_n k v : (k <= 3)%nat -> ex_derive_n sin k v.
Proof.
  intros Hk. destruct k as [|[|[|[|k]]]]; simpl; auto; try lia.
  - exists (cos v). apply is_derive_sin.
  - apply (ex_derive_ext cos). { intros t. symmetry. apply is_derive_unique, is_derive_sin. }
    exists (- sin v). apply is_derive_cos.
  - apply (ex_derive_ext (fun t => - sin t)).
    + intros t. symmetry.
      rewrite (Derive_ext (fun x => Derive sin x) cos).
      * apply is_derive_unique, is_derive_cos.
      * intros s. apply is_derive_unique, is_derive_sin.
    + exists (- cos v). apply (is_derive_opp sin v (cos v)). apply is_derive_sin.
Qed.

Lemma sin3 v : Derive_n sin 3 v = - cos v.
Proof.
  simpl. rewrite (Derive_ext _ (fun t => - sin t)).
  - apply is_derive_unique. apply (is_derive_opp sin v (cos v)). apply is_derive_sin.
  - intros t. rewrite (Derive_ext (fun x => Derive sin x) cos).
    + apply is_derive_unique, is_derive_cos.
    + intros s. apply is_derive_unique, is_derive_sin.
Qed.

Example C09_example_sin : exists d,
  partial (fun x _ => sin (x 0%nat)) (fun _ => 0) 0 0 d /\
  Rabs (jacobian Rplus Rminus (/ 1000) true (fun x _ => sin (x 0%nat)) (fun _ => 0) 0%nat 0%nat - d)
    <= 1 * (pert (/ 1000) 0 * pert (/ 1000) 0) / 6.
Proof.
  assert (Hp : pert (/ 1000) 0 <= 1).
  { unfold pert. rewrite Rabs_R0, Rmax_right by lra. lra. }
  apply (C09_central_error (/ 1000) (fun x _ => sin (x 0%nat)) (fun _ => 0) 0 0 1 (-2) 2); try lra.
  - intros v _ k Hk. apply (ex_derive_n_ext sin); [|now apply sin_n].
    intros t. now rewrite rset_eq.
  - intros v _. rewrite (Derive_n_ext _ sin) by (intros t; now rewrite rset_eq).
    rewrite sin3, Rabs_Ropp. apply Rabs_le. apply COS_bound.
Qed.

(** ** C47 *)

(** What the user expects: entry i is the difference quotient of the cost at the current point
    and time, and the object is as before. *)
Definition expected_gradient (ds : bool) eps (L : rvec -> rvec -> R -> R) (c : cost_obj) : rvec :=
  fun i => jacobian Rplus Rminus eps ds (fun x _ => L x (c_u c) (c_t c)) (c_x c) 0%nat i.
Definition expected_control_gradient (ds : bool) eps (L : rvec -> rvec -> R -> R) (c : cost_obj) : rvec :=
  fun i => jacobian Rplus Rminus eps ds (fun u _ => L (c_x c) u (c_t c)) (c_u c) 0%nat i.

Lemma grad_loop_fst entry : forall k i g c,
  (forall j c, c_shift (snd (entry j c)) = c_shift c) ->
  (forall j c c', c_shift c = c_shift c' -> fst (entry j c) = fst (entry j c')) ->
  forall j, fst (grad_loop entry i k g c) j =
            if (i <=? j)%nat && (j <? i + k)%nat then fst (entry j c) else g j.
Proof.
  induction k as [|k IH]; intros i g c Hs He j; simpl.
  - replace ((i <=? j)%nat && (j <? i + 0)%nat) with false; auto.
    destruct (Nat.leb_spec i j), (Nat.ltb_spec j (i + 0)); auto; lia.
  - destruct (entry i c) as [v c'] eqn:E. rewrite IH; auto.
    assert (Hc' : c_shift c' = c_shift c).
    { change c' with (snd (v, c')). rewrite <- E. apply Hs. }
    destruct (Nat.leb_spec (S i) j) as [Hj|Hj]; cbn [andb].
    + rewrite (proj2 (Nat.leb_le i j)) by lia. cbn [andb].
      replace (j <? i + S k)%nat with (j <? S i + k)%nat by (f_equal; lia).
      destruct (Nat.ltb_spec j (S i + k)).
      * apply He. auto.
      * apply rset_other. lia.
    + destruct (Nat.eq_dec j i) as [->|Hn].
      * rewrite (proj2 (Nat.leb_le i i)), (proj2 (Nat.ltb_lt i (i + S k))) by lia. cbn [andb].
        rewrite rset_eq, E. reflexivity.
      * rewrite (proj2 (Nat.leb_gt i j)) by lia. cbn [andb]. apply rset_other. lia.
Qed.

(** Without time shift the numerical gradients are the difference quotients at the current
    point and time (so C09 applies to them). *)
Theorem C47_gradient_partial eps L ds n c : c_shift c = 0 ->
  (forall i, (i < n)%nat -> fst (state_numdiff eps L ds n c) i = expected_gradient ds eps L c i) /\
  (forall i, (i < n)%nat ->
     fst (control_numdiff eps L ds n c) i = expected_control_gradient ds eps L c i).
Proof.
  intros Hs. split; intros i Hi; unfold state_numdiff, control_numdiff, get_current;
    rewrite grad_loop_fst.
  - cbn [Nat.leb]. rewrite (proj2 (Nat.ltb_lt i (0 + n))) by lia. cbn [andb].
    unfold state_entry, expected_gradient, jacobian, evaluate, set_current.
    destruct ds; cbn [fst snd c_x c_u c_t c_shift]; rewrite Hs, Rplus_0_r; reflexivity.
  - intros j c'. unfold state_entry. destruct ds; reflexivity.
  - intros j c1 c2 E. unfold state_entry, evaluate, set_current.
    destruct ds; cbn [fst snd c_x c_u c_t c_shift]; rewrite E; reflexivity.
  - cbn [Nat.leb]. rewrite (proj2 (Nat.ltb_lt i (0 + n))) by lia. cbn [andb].
    unfold control_entry, expected_control_gradient, jacobian, evaluate, set_current.
    destruct ds; cbn [fst snd c_x c_u c_t c_shift]; rewrite Hs, Rplus_0_r; reflexivity.
  - intros j c'. unfold control_entry. destruct ds; reflexivity.
  - intros j c1 c2 E. unfold control_entry, evaluate, set_current.
    destruct ds; cbn [fst snd c_x c_u c_t c_shift]; rewrite E; reflexivity.
Qed.

Lemma grad_loop_app entry : forall k i g c,
  grad_loop entry i (S k) g c =
  let '(g', c') := grad_loop entry i k g c in
  let '(v, c'') := entry (i + k)%nat c' in (rset g' (i + k) v, c'').
Proof.
  induction k as [|k IH]; intros i g c.
  - simpl. rewrite Nat.add_0_r. destruct (entry i c). reflexivity.
  - cbn [grad_loop]. destruct (entry i c) as [v c1] eqn:E.
    specialize (IH (S i) (rset g i v) c1). cbn [grad_loop] in IH.
    rewrite IH. replace (i + S k)%nat with (S i + k)%nat by lia. reflexivity.
Qed.

(** After the call the object holds a perturbed point: the last coordinate is off by the
    perturbation, and the time is shifted once more. *)
Theorem C47_object_after eps L ds n c :
  let c' := snd (state_numdiff eps L ds (S n) c) in
  let h := pert eps (c_x c n) in
  (forall i, c_x c' i = if Nat.eqb i n then (if ds then c_x c n - h else c_x c n + h) else c_x c i) /\
  c_t c' = c_t c + c_shift c /\ c_shift c' = c_shift c.
Proof.
  unfold state_numdiff, get_current. rewrite grad_loop_app.
  set (e := state_entry _ _ _ _ _ _ _).
  assert (Hsh : forall k g c0, c_shift (snd (grad_loop e 0 k g c0)) = c_shift c0).
  { intros k. induction k as [|k IH]; intros g c0; [reflexivity|].
    rewrite grad_loop_app. specialize (IH g c0).
    destruct (grad_loop e 0 k g c0) as [g' c']. simpl in IH.
    unfold e at 1, state_entry. destruct ds; cbn [snd c_shift set_current]; exact IH. }
  specialize (Hsh n rzero c).
  destruct (grad_loop e 0 n rzero c) as [g' c'] eqn:E. cbn [snd] in Hsh.
  cbn [Nat.add]. unfold e, state_entry.
  destruct ds; cbn [snd c_x c_t c_shift set_current]; rewrite Hsh;
    (split; [intros i; unfold rset; reflexivity|split; reflexivity]).
Qed.

(** Hence the call does not leave the cost function unchanged: evaluating it again gives a
    different value. *)
Theorem C47_unchanged_refuted : forall eps, 0 < eps -> exists L c,
  c_shift c = 0 /\
  evaluate L (snd (state_numdiff eps L true 1 c)) <> evaluate L c.
Proof.
  intros eps He. exists (fun x _ _ => x 0%nat), (mkCost rzero rzero 0 0). split; [reflexivity|].
  destruct (C47_object_after eps (fun x _ _ => x 0%nat) true 0 (mkCost rzero rzero 0 0)) as (Hx & _).
  unfold evaluate. rewrite Hx. cbn [Nat.eqb c_x].
  assert (H := pert_pos eps (rzero 0%nat) He). unfold rzero in *. lra.
Qed.

(** With a time shift the gradient is that of another time: the shift is applied twice.  Here
    the cost is t*x; at shifted time 1 the derivative is 1, the function returns 2. *)
Theorem C47_time_shift_refuted : forall eps, 0 < eps -> exists L c,
  c = set_current (mkCost rzero rzero 0 1) rzero rzero 0 /\
  expected_gradient true eps L c 0%nat = 1 /\
  fst (state_numdiff eps L true 1 c) 0%nat = 2.
Proof.
  intros eps He. exists (fun x _ t => t * x 0%nat), (mkCost rzero rzero (0 + 1) 1).
  split; [reflexivity|].
  assert (H := pert_pos eps (rzero 0%nat) He).
  split.
  - unfold expected_gradient, jacobian. cbn [c_x c_u c_t]. rewrite !rset_eq. field. lra.
  - unfold state_numdiff, get_current, grad_loop, state_entry, evaluate, set_current.
    cbn [c_x c_u c_t c_shift fst]. rewrite !rset_eq. field. lra.
Qed.

(** With a time shift and one-sided differences the reference value and the perturbed value
    belong to different times: a cost that does not depend on the state gets a non-zero
    gradient 1/h. *)
Theorem C47_one_sided_shift_refuted : forall eps, 0 < eps -> exists L c,
  (forall x x' u t, L x u t = L x' u t) /\
  fst (state_numdiff eps L false 1 c) 0%nat = / pert eps 0.
Proof.
  intros eps He. exists (fun _ _ t => t), (mkCost rzero rzero 0 1).
  split; [reflexivity|].
  unfold state_numdiff, get_current, grad_loop, state_entry, evaluate, set_current.
  cbn [c_x c_u c_t c_shift fst]. rewrite !rset_eq. unfold rzero.
  assert (H := pert_pos eps 0 He). field. lra.
Qed.

Example C47_example :
  fst (state_numdiff (/ 1000) (fun x _ t => t * x 0%nat) true 1 (mkCost rzero rzero 3 0)) 0%nat = 3.
Proof.
  destruct (C47_gradient_partial (/ 1000) (fun x _ t => t * x 0%nat) true 1 (mkCost rzero rzero 3 0)
              eq_refl) as [H _].
  rewrite (H 0%nat) by lia. unfold expected_gradient, jacobian. cbn [c_x c_u c_t].
  rewrite !rset_eq. assert (H0 := pert_pos (/ 1000) (rzero 0%nat) ltac:(lra)). field. lra.
Qed.

Print Assumptions C09_forward_affine.
Print Assumptions C09_central_affine.
Print Assumptions C09_central_quadratic.
Print Assumptions C09_forward_quadratic_refuted.
Print Assumptions C09_forward_error.
Print Assumptions C09_central_error.
Print Assumptions C09_linearizer.
Print Assumptions C09_second_order.
Print Assumptions C09_first_order.
Print Assumptions C47_gradient_partial.
Print Assumptions C47_object_after.
Print Assumptions C47_unchanged_refuted.
Print Assumptions C47_time_shift_refuted.
Print Assumptions C47_one_sided_shift_refuted.
