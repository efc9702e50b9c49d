(** * C85: planes, and planes fitted to points *)
From Coq Require Import Reals List Lra Lia Psatz Arith Nsatz.
From Verif Require Import Base.Outcome Core.PlaneModel.
Import ListNotations.
Local Open Scope R_scope.

(** ** Specification *)
Definition px (p : point) := fst (fst p).
Definition py (p : point) := snd (fst p).
Definition pz (p : point) := snd p.
Definition inner (p q : point) : R := px p * px q + py p * py q + pz p * pz q.

(** The points of the plane a x + b y + c z = d. *)
Definition on (p : plane) (q : point) : Prop :=
  pa p * px q + pb p * py q + pc p * pz q = pd p.

(** Sum of the squared residuals of the equation  n . q = 1. *)
Definition residual2 (n : point) (qs : list point) : R :=
  fold_right Rplus 0 (map (fun q => (inner n q - 1) * (inner n q - 1)) qs).

(** Twice the area of the triangle is not zero. *)
Definition not_collinear (a b c : point) : Prop :=
  let ux := px b - px a in let uy := py b - py a in let uz := pz b - pz a in
  let wx := px c - px a in let wy := py c - py a in let wz := pz c - pz a in
  ~ (uy * wz - uz * wy = 0 /\ uz * wx - ux * wz = 0 /\ ux * wy - uy * wx = 0).

(** What a QR solver returns: a solution of the normal equations A' (A n - d) = 0. *)
Definition normal_eq (f : point -> R) (rows : list point) (d : list R) (n : point) : R :=
  fold_right Rplus 0 (map (fun r => (inner n (fst r) - snd r) * f (fst r)) (combine rows d)).
Definition qr_solver (solve : list point -> list R -> point) : Prop :=
  forall rows d, length rows = length d ->
    let n := solve rows d in
    normal_eq px rows d n = 0 /\ normal_eq py rows d n = 0 /\ normal_eq pz rows d n = 0.

(** ** Planes *)
Theorem C85_solve (p : plane) (x y z : R) :
  (pa p <> 0 -> (on p (x, y, z) <-> x = solveX p y z))
  /\ (pb p <> 0 -> (on p (x, y, z) <-> y = solveY p x z))
  /\ (pc p <> 0 -> (on p (x, y, z) <-> z = solveZ p x y)).
Proof.
  unfold on, solveX, solveY, solveZ, px, py, pz; cbn [fst snd].
  repeat split; intros E; subst; try (field; auto; fail).
  - rewrite <- E. field; auto.
  - rewrite <- E. field; auto.
  - rewrite <- E. field; auto.
Qed.

Theorem C85_getCoefficient p i v :
  (getCoefficient p i = Ok v <-> nth_error [pa p; pb p; pc p; pd p] i = Some v) /\
  (getCoefficient p i = Throw <-> (4 <= i)%nat).
Proof.
  do 4 (destruct i as [|i]; [cbn; split; split; try congruence; try discriminate; lia|]).
  cbn. destruct i; cbn; split; split; try discriminate; auto; lia.
Qed.

(** ** Estimation *)
Lemma estimate_inv solve pts p : estimate solve pts = Ok p ->
  (3 <= length pts)%nat /\ pd p = 1
  /\ solve pts (repeat 1 (length pts)) = (pa p, pb p, pc p).
Proof.
  unfold estimate. destruct (Nat.ltb_spec (length pts) 3); try discriminate.
  rewrite map_id. destruct (solve pts (repeat 1 (length pts))) as [[x y] z].
  intros E. injection E as <-. auto.
Qed.

Lemma normal_ones f n pts :
  normal_eq f pts (repeat 1 (length pts)) n
  = fold_right Rplus 0 (map (fun q => (inner n q - 1) * f q) pts).
Proof.
  unfold normal_eq. induction pts as [|q r IH]; cbn; [reflexivity|]. now rewrite IH.
Qed.

Lemma residual_expand n m pts :
  residual2 m pts = residual2 n pts
    + fold_right Rplus 0 (map (fun q => (inner m q - inner n q) * (inner m q - inner n q)) pts)
    + 2 * ((px m - px n) * fold_right Rplus 0 (map (fun q => (inner n q - 1) * px q) pts)
           + (py m - py n) * fold_right Rplus 0 (map (fun q => (inner n q - 1) * py q) pts)
           + (pz m - pz n) * fold_right Rplus 0 (map (fun q => (inner n q - 1) * pz q) pts)).
Proof.
  unfold residual2. induction pts as [|q r IH]; cbn; [ring|]. rewrite IH.
  unfold inner. ring.
Qed.

Lemma squares_pos (f : point -> R) pts : 0 <= fold_right Rplus 0 (map (fun q => f q * f q) pts).
Proof.
  induction pts as [|q r IH]; cbn; [lra|].
  pose proof (Rle_0_sqr (f q)) as Z. unfold Rsqr in Z. lra.
Qed.

Lemma squares_zero (f : point -> R) pts :
  fold_right Rplus 0 (map (fun q => f q * f q) pts) = 0 -> forall q, In q pts -> f q = 0.
Proof.
  induction pts as [|q r IH]; cbn; [tauto|].
  pose proof (Rle_0_sqr (f q)) as Z. unfold Rsqr in Z. pose proof (squares_pos f r) as W.
  intros E s [<-|I].
  - apply Rsqr_eq_0. unfold Rsqr. lra.
  - apply IH; auto. lra.
Qed.

(** An exception exactly for fewer than three points; else a plane, scaled to d = 1, whose
    normal makes the sum of the squared errors in the plane's equation as small as any. *)
Theorem C85_least_squares solve pts :
  qr_solver solve ->
  (estimate solve pts = Throw <-> (length pts < 3)%nat)
  /\ forall p, estimate solve pts = Ok p ->
       pd p = 1 /\ forall n, residual2 (pa p, pb p, pc p) pts <= residual2 n pts.
Proof.
  intros Q. split.
  - unfold estimate. destruct (Nat.ltb_spec (length pts) 3); [split; auto; lia|].
    destruct (solve _ _) as [[x y] z]. split; [discriminate|lia].
  - intros p E. destruct (estimate_inv _ _ _ E) as (L & D & S). split; auto. intros n.
    destruct (Q pts (repeat 1 (length pts))) as (N1 & N2 & N3);
      [now rewrite repeat_length|]. rewrite S in *.
    rewrite normal_ones in N1, N2, N3.
    rewrite (residual_expand (pa p, pb p, pc p) n). rewrite N1, N2, N3.
    pose proof (squares_pos (fun q => inner n q - inner (pa p, pb p, pc p) q) pts). cbn in *. lra.
Qed.

(** Points of a plane that does not contain the origin, not all on a line: the estimated
    plane is that plane. *)
Theorem C85_exact solve pts p q a b c :
  qr_solver solve -> estimate solve pts = Ok p ->
  pd q <> 0 -> (forall r, In r pts -> on q r) ->
  In a pts -> In b pts -> In c pts -> not_collinear a b c ->
  forall r, on p r <-> on q r.
Proof.
  intros Q E D O Ia Ib Ic NC.
  destruct (C85_least_squares solve pts Q) as (_ & LS). destruct (LS p E) as (P1 & Min).
  set (m := (pa q / pd q, pb q / pd q, pc q / pd q)).
  assert (Z : residual2 m pts = 0).
  { unfold residual2. clear -O D. induction pts as [|s r IH]; cbn; [reflexivity|].
    assert (Hs : inner m s = 1).
    { pose proof (O s (or_introl eq_refl)) as H. unfold on in H.
      unfold inner, m, px at 1, py at 1, pz at 1. cbn [fst snd].
      transitivity ((pa q * px s + pb q * py s + pc q * pz s) / pd q); [field; auto|].
      rewrite H. field; auto. }
    rewrite Hs, IH; [ring|]. intros; apply O; now right. }
  pose proof (Min m) as M. rewrite Z in M.
  assert (Z2 : residual2 (pa p, pb p, pc p) pts = 0).
  { pose proof (squares_pos (fun q => inner (pa p, pb p, pc p) q - 1) pts) as W.
    unfold residual2 in *. lra. }
  pose proof (squares_zero (fun q => inner (pa p, pb p, pc p) q - 1) pts Z2) as R.
  pose proof (R a Ia) as Ra. pose proof (R b Ib) as Rb. pose proof (R c Ic) as Rc.
  pose proof (O a Ia) as Oa. pose proof (O b Ib) as Ob. pose proof (O c Ic) as Oc.
  destruct a as [[xa ya] za], b as [[xb yb] zb], c as [[xc yc] zc].
  unfold not_collinear, on, inner, px, py, pz in *. cbn [fst snd] in *.
  clear Min M Z Z2 R LS O E m.
  destruct p as [p1 p2 p3 p4], q as [q1 q2 q3 q4]. cbn [pa pb pc pd] in *. subst p4.
  (* the difference of the normals is orthogonal to the three points *)
  set (e1 := q4 * p1 - q1). set (e2 := q4 * p2 - q2). set (e3 := q4 * p3 - q3).
  assert (Ea : e1 * xa + e2 * ya + e3 * za = 0) by (unfold e1, e2, e3; nra).
  assert (Eb : e1 * xb + e2 * yb + e3 * zb = 0) by (unfold e1, e2, e3; nra).
  assert (Ec : e1 * xc + e2 * yc + e3 * zc = 0) by (unfold e1, e2, e3; nra).
  set (det := xa * (yb * zc - zb * yc) - ya * (xb * zc - zb * xc) + za * (xb * yc - yb * xc)).
  assert (Dn : det <> 0).
  { intros H0. apply NC.
    (* the cross product of the sides is a multiple of the normal, and the multiple is
       det / d *)
    assert (F1 : q4 * ((yb - ya) * (zc - za) - (zb - za) * (yc - ya)) = q1 * det) by
      (unfold det; nsatz).
    assert (F2 : q4 * ((zb - za) * (xc - xa) - (xb - xa) * (zc - za)) = q2 * det) by
      (unfold det; nsatz).
    assert (F3 : q4 * ((xb - xa) * (yc - ya) - (yb - ya) * (xc - xa)) = q3 * det) by
      (unfold det; nsatz).
    rewrite H0 in F1, F2, F3. rewrite Rmult_0_r in F1, F2, F3.
    apply Rmult_integral in F1, F2, F3. tauto. }
  assert (Z1 : e1 * det = 0) by (unfold det; clearbody e1 e2 e3; nsatz).
  assert (Z2 : e2 * det = 0) by (unfold det; clearbody e1 e2 e3; nsatz).
  assert (Z3 : e3 * det = 0) by (unfold det; clearbody e1 e2 e3; nsatz).
  apply Rmult_integral in Z1, Z2, Z3.
  assert (X1 : q1 = q4 * p1) by (unfold e1 in Z1; destruct Z1; [lra|tauto]).
  assert (X2 : q2 = q4 * p2) by (unfold e2 in Z2; destruct Z2; [lra|tauto]).
  assert (X3 : q3 = q4 * p3) by (unfold e3 in Z3; destruct Z3; [lra|tauto]).
  intros [[x y] z]. unfold px, py, pz; cbn [fst snd]. rewrite X1, X2, X3. split; intros H.
  - transitivity (q4 * (p1 * x + p2 * y + p3 * z)); [ring|]. rewrite H. ring.
  - apply (Rmult_eq_reg_l q4); auto. rewrite <- H at 2. ring.
Qed.

(** The hypotheses are met: a solver exists for three points of a plane, and its answer. *)
Definition pts3 : list point := [(1, 0, 0); (0, 2, 0); (0, 0, 4); (1/2, 1/2, 1)].
Example C85_example :
  (forall q, In q pts3 -> on (mkPlane 4 2 1 4) q) /\ pd (mkPlane 4 2 1 4) <> 0
  /\ not_collinear (1, 0, 0) (0, 2, 0) (0, 0, 4)
  /\ normal_eq px pts3 (repeat 1 4) (1, 1/2, 1/4) = 0
  /\ normal_eq py pts3 (repeat 1 4) (1, 1/2, 1/4) = 0
  /\ normal_eq pz pts3 (repeat 1 4) (1, 1/2, 1/4) = 0.
Proof.
  unfold on, not_collinear, normal_eq, inner, px, py, pz, pts3; cbn.
  split; [intros q H; repeat destruct H as [<-|H]; cbn; try lra; tauto|].
  repeat split; lra.
Qed.

(** A plane through the origin is never returned, whatever the solver does, however well
    the points define it. *)
Theorem C85_through_origin_refuted :
  exists pts q, (3 <= length pts)%nat /\ (forall r, In r pts -> on q r)
    /\ (exists a b c, In a pts /\ In b pts /\ In c pts /\ not_collinear a b c)
    /\ forall solve, exists p, estimate solve pts = Ok p
         /\ ~ (forall r, on p r <-> on q r)
         /\ (qr_solver solve -> forall r, In r pts -> ~ on p r).
Proof.
  exists [(1, 0, 0); (0, 1, 0); (-1, -1, 0)], (mkPlane 0 0 1 0).
  split; [cbn; lia|]. split.
  { intros r H. repeat destruct H as [<-|H]; try (unfold on, px, py, pz; cbn; lra). tauto. }
  split.
  { exists (1, 0, 0), (0, 1, 0), (-1, -1, 0). repeat split; cbn; auto.
    unfold not_collinear, px, py, pz; cbn. lra. }
  intros solve. unfold estimate. cbn [length Nat.ltb Nat.leb map].
  destruct (solve _ _) as [[x y] z] eqn:S. eexists. split; [reflexivity|]. split.
  - intros H. destruct (H (0, 0, 0)) as [_ H2]. unfold on, px, py, pz in H2. cbn in H2.
    assert (x * 0 + y * 0 + z * 0 = 1) by (apply H2; lra). lra.
  - intros Q. destruct (Q [(1, 0, 0); (0, 1, 0); (-1, -1, 0)] (repeat 1 3) eq_refl) as (N1 & N2 & N3).
    change (repeat 1 3) with [1; 1; 1] in N1, N2, N3. cbn [repeat] in S. 
    replace (solve [(1, 0, 0); (0, 1, 0); (-1, -1, 0)] [1; 1; 1]) with (x, y, z) in N1, N2, N3 by (symmetry; exact S).
    unfold normal_eq, inner, px, py, pz in N1, N2, N3. cbn in N1, N2, N3.
    intros r H. unfold on, px, py, pz. cbn [pa pb pc pd].
    repeat destruct H as [<-|H]; cbn; try lra; tauto.
Qed.

Print Assumptions C85_solve.
Print Assumptions C85_getCoefficient.
Print Assumptions C85_least_squares.
Print Assumptions C85_exact.
Print Assumptions C85_through_origin_refuted.
