(** Lemmas for C63 and C64. *)
From Coq Require Import Reals Lra Lia List ZArith Psatz.
From Coquelicot Require Import Coquelicot.
From Verif Require Import Base.Outcome Rbd.TrajGenModel.
Import ListNotations.
Local Open Scope R_scope.

(** ** Functions given in two pieces *)
Definition glue (b : R) (f1 f2 : R -> R) (t : R) : R := if Rle_dec t b then f1 t else f2 t.

Lemma glue_derive b (f1 f2 d1 d2 : R -> R) : (forall t, is_derive f1 t (d1 t)) -> (forall t, is_derive f2 t (d2 t)) ->
  f1 b = f2 b -> d1 b = d2 b -> forall t, is_derive (glue b f1 f2) t (glue b d1 d2 t).
Proof.
  intros H1 H2 E D t. unfold glue at 2. destruct (Rle_dec t b) as [L|L].
  - destruct (Rlt_dec t b) as [L'|L'].
    + apply (is_derive_ext_loc f1); [|apply H1]. assert (0 < b - t) by lra.
      exists (mkposreal _ H). intros y Hy. unfold glue.
      unfold ball in Hy; simpl in Hy; unfold AbsRing_ball, abs, minus, plus, opp in Hy; simpl in Hy.
      apply Rabs_def2 in Hy. destruct (Rle_dec y b); [reflexivity|lra].
    + assert (t = b) by lra. subst t. apply is_derive_Reals. intros eps He.
      destruct (proj1 (is_derive_Reals _ _ _) (H1 b) eps He) as [e1 Q1].
      destruct (proj1 (is_derive_Reals _ _ _) (H2 b) eps He) as [e2 Q2].
      assert (P : 0 < Rmin e1 e2) by (apply Rmin_pos; [apply e1|apply e2]).
      exists (mkposreal _ P). intros h Hh Hl. simpl in Hl.
      pose proof (Rmin_l e1 e2). pose proof (Rmin_r e1 e2).
      unfold glue. destruct (Rle_dec b b) as [_|]; [|lra]. destruct (Rle_dec (b + h) b).
      * apply Q1; auto. lra.
      * rewrite E, D. apply Q2; auto. lra.
  - apply (is_derive_ext_loc f2); [|apply H2]. assert (0 < t - b) by lra.
    exists (mkposreal _ H). intros y Hy. unfold glue.
    unfold ball in Hy; simpl in Hy; unfold AbsRing_ball, abs, minus, plus, opp in Hy; simpl in Hy.
    apply Rabs_def2 in Hy. destruct (Rle_dec y b); [lra|reflexivity].
Qed.

Definition lip (K : R) (f : R -> R) : Prop := forall s t, Rabs (f t - f s) <= K * Rabs (t - s).

Lemma glue_lip b K (f1 f2 : R -> R) : lip K f1 -> lip K f2 -> f1 b = f2 b -> lip K (glue b f1 f2).
Proof.
  intros H1 H2 E.
  assert (Q : forall s t, s <= b -> b < t -> Rabs (f2 t - f1 s) <= K * (t - s)).
  { intros s t Hs Ht. replace (f2 t - f1 s) with ((f2 t - f2 b) + (f1 b - f1 s)) by lra.
    eapply Rle_trans; [apply Rabs_triang|]. specialize (H1 s b). specialize (H2 b t).
    rewrite (Rabs_right (b - s)) in H1 by lra. rewrite (Rabs_right (t - b)) in H2 by lra. lra. }
  intros s t. unfold glue. destruct (Rle_dec t b), (Rle_dec s b); auto.
  - rewrite Rabs_minus_sym. rewrite (Rabs_left1 (t - s)) by lra.
    replace (- (t - s)) with (s - t) by ring. apply Q; lra.
  - rewrite (Rabs_right (t - s)) by lra. apply Q; lra.
Qed.

(** ** The motion over a distance d >= 0 *)
Section Profile.
Variables (d v a : R).
Hypothesis Hd : 0 <= d.
Hypothesis Hv : 0 < v.
Hypothesis Ha : 0 < a.

Definition t0 := sqrt (d / a).
Definition tn := v / a.
Definition t1 := d / v.
Definition short : bool := if Rge_dec (v * v / a) d then true else false.
Definition total : R := if short then 2 * t0 else t1 + tn.
Definition P : R -> R :=
  if short then glue t0 (fun t => 1 / 2 * a * t * t)
                  (glue (2 * t0) (fun t => 1 / 2 * d + a * t0 * (t - t0) - 1 / 2 * a * (t - t0) * (t - t0)) (fun _ => d))
  else glue tn (fun t => 1 / 2 * a * t * t)
         (glue t1 (fun t => 1 / 2 * a * tn * tn + v * (t - tn))
           (glue (t1 + tn) (fun t => d - 1 / 2 * a * tn * tn + v * (t - t1) - 1 / 2 * a * ((t - t1) * (t - t1)))
              (fun _ => d))).
Definition V : R -> R :=
  if short then glue t0 (fun t => a * t) (glue (2 * t0) (fun t => a * t0 - a * (t - t0)) (fun _ => 0))
  else glue tn (fun t => a * t)
         (glue t1 (fun _ => v) (glue (t1 + tn) (fun t => v - (t - t1) * a) (fun _ => 0))).

Lemma t0_sq : a * (t0 * t0) = d.
Proof.
  unfold t0. rewrite sqrt_sqrt; [field; lra|].
  apply Rmult_le_pos; [auto|]. left. now apply Rinv_0_lt_compat.
Qed.
Lemma t0_pos : 0 <= t0. Proof. apply sqrt_pos. Qed.
Lemma tn_eq : a * tn = v. Proof. unfold tn. field. lra. Qed.
Lemma tn_pos : 0 < tn.
Proof. unfold tn. apply Rmult_lt_0_compat; [auto|]. now apply Rinv_0_lt_compat. Qed.
Lemma t1_eq : v * t1 = d. Proof. unfold t1. field. lra. Qed.
Lemma short_v : short = true -> a * t0 <= v.
Proof.
  unfold short. destruct (Rge_dec (v * v / a) d) as [H|]; [|discriminate]. intros _.
  assert (S : a * t0 * (a * t0) <= v * v).
  { replace (a * t0 * (a * t0)) with (a * (a * (t0 * t0))) by ring. rewrite t0_sq.
    replace (v * v) with (a * (v * v / a)) by (field; lra). apply Rmult_le_compat_l; lra. }
  pose proof t0_pos. destruct (Rle_dec (a * t0) v); [assumption|].
  exfalso. nra.
Qed.
Lemma long_t1 : short = false -> tn <= t1.
Proof.
  unfold short. destruct (Rge_dec (v * v / a) d) as [|H]; [discriminate|]. intros _.
  apply (Rmult_le_reg_l v); [auto|]. rewrite t1_eq. unfold tn. replace (v * (v / a)) with (v * v / a) by (unfold Rdiv; ring). lra.
Qed.
Lemma total_pos : 0 <= total.
Proof.
  unfold total. destruct short eqn:E; [pose proof t0_pos; lra|].
  pose proof (long_t1 E). pose proof tn_pos. lra.
Qed.

Ltac ad := intros ?; auto_derive; [auto|try ring; try lra].

Lemma profile_derive t : is_derive P t (V t).
Proof.
  unfold P, V. pose proof t0_sq as S. pose proof t1_eq as S1. pose proof tn_eq as Sn.
  pose proof t0_pos as P0. pose proof tn_pos as Pn. destruct short eqn:E.
  - refine (glue_derive _ _ _ _ _ _ _ _ _ t); [ad| |unfold glue|unfold glue].
    + refine (glue_derive _ _ _ _ _ _ _ _ _); [ad|ad|nra|lra].
    + destruct (Rle_dec t0 (2 * t0)) as [_|N]; [nra|lra].
    + destruct (Rle_dec t0 (2 * t0)) as [_|N]; [ring|lra].
  - pose proof (long_t1 E).
    refine (glue_derive _ _ _ _ _ _ _ _ _ t); [ad| |unfold glue|unfold glue].
    + refine (glue_derive _ _ _ _ _ _ _ _ _); [ad| |unfold glue|unfold glue].
      * refine (glue_derive _ _ _ _ _ _ _ _ _); [ad|ad|nra|lra].
      * destruct (Rle_dec t1 (t1 + tn)) as [_|N]; [nra|lra].
      * destruct (Rle_dec t1 (t1 + tn)) as [_|N]; [ring|lra].
    + destruct (Rle_dec tn t1) as [_|N]; [nra|lra].
    + destruct (Rle_dec tn t1) as [_|N]; [nra|lra].
Qed.

Lemma lip_lin (f : R -> R) : (exists p q, (forall t, f t = p * t + q) /\ Rabs p <= a) -> lip a f.
Proof.
  intros (p & q & E & B) s t. rewrite !E. replace (p * t + q - (p * s + q)) with (p * (t - s)) by ring.
  rewrite Rabs_mult. apply Rmult_le_compat_r; [apply Rabs_pos|exact B].
Qed.
Ltac ll p q := apply lip_lin; exists p, q; split; [intros ?; ring|].
Lemma V_lip : lip a V.
Proof.
  pose proof t0_pos as P0. pose proof tn_pos as Pn. pose proof tn_eq as Sn.
  assert (A1 : Rabs a <= a) by (rewrite Rabs_right; lra).
  assert (A2 : Rabs (- a) <= a) by (rewrite Rabs_Ropp; exact A1).
  assert (A3 : Rabs 0 <= a) by (rewrite Rabs_R0; lra).
  unfold V. destruct short eqn:E.
  - apply glue_lip; [ll a 0; exact A1| |unfold glue].
    + apply glue_lip; [ll (- a) (a * t0 + a * t0); exact A2|ll 0 0; exact A3|lra].
    + destruct (Rle_dec t0 (2 * t0)) as [_|N]; [ring|lra].
  - pose proof (long_t1 E).
    apply glue_lip; [ll a 0; exact A1| |unfold glue].
    + apply glue_lip; [ll 0 v; exact A3| |unfold glue].
      * apply glue_lip; [ll (- a) (v + t1 * a); exact A2|ll 0 0; exact A3|lra].
      * destruct (Rle_dec t1 (t1 + tn)) as [_|N]; [ring|lra].
    + destruct (Rle_dec tn t1) as [_|N]; [lra|lra].
Qed.
Lemma V_range t : 0 <= t -> 0 <= V t <= v.
Proof.
  pose proof t0_pos as P0. pose proof tn_pos as Pn. pose proof tn_eq as Sn.
  intros Ht. unfold V. destruct short eqn:E; unfold glue.
  - pose proof (short_v E).
    destruct (Rle_dec t t0); [nra|]. destruct (Rle_dec t (2 * t0)); [nra|lra].
  - pose proof (long_t1 E).
    destruct (Rle_dec t tn); [nra|]. destruct (Rle_dec t t1); [lra|].
    destruct (Rle_dec t (t1 + tn)); [nra|lra].
Qed.
Lemma P_start : P 0 = 0 /\ V 0 = 0.
Proof.
  pose proof t0_pos as P0. pose proof tn_pos as Pn. unfold P, V. destruct short; unfold glue.
  - destruct (Rle_dec 0 t0); [split; ring|lra].
  - destruct (Rle_dec 0 tn); [split; ring|lra].
Qed.
Lemma P_end t : total <= t -> P t = d /\ V t = 0.
Proof.
  pose proof t0_pos as P0. pose proof tn_pos as Pn. pose proof tn_eq as Sn. pose proof t0_sq as S. pose proof t1_eq as S1.
  unfold total, P, V. destruct short eqn:E; unfold glue; intros Ht.
  - destruct (Rle_dec t t0) as [L|L].
    { assert (t0 = 0) by lra. assert (t = 0) by lra. rewrite H in S. subst t. split; nra. }
    destruct (Rle_dec t (2 * t0)) as [L'|L']; [|auto].
    assert (t = 2 * t0) by lra. subst t. split; nra.
  - pose proof (long_t1 E).
    destruct (Rle_dec t tn); [lra|]. destruct (Rle_dec t t1); [lra|].
    destruct (Rle_dec t (t1 + tn)) as [L'|L']; [|auto].
    assert (t = t1 + tn) by lra. subst t. split; nra.
Qed.
(** The position is still short of the end strictly before [total]. *)
Lemma P_before t : 0 <= t < total -> P t < d.
Proof.
  pose proof t0_pos as P0. pose proof tn_pos as Pn. pose proof tn_eq as Sn. pose proof t0_sq as S. pose proof t1_eq as S1.
  unfold total, P. destruct short eqn:E; unfold glue; intros Ht.
  - assert (H : 0 < t0) by lra.
    destruct (Rle_dec t t0) as [L|L].
    { assert (t * t <= t0 * t0) by nra. assert (a * (t * t) <= a * (t0 * t0)) by nra.
      assert (0 < a * (t0 * t0)) by (apply Rmult_lt_0_compat; nra). lra. }
    destruct (Rle_dec t (2 * t0)) as [L'|L']; [|lra].
    assert (0 < a * ((2 * t0 - t) * (2 * t0 - t))) by (apply Rmult_lt_0_compat; nra). nra.
  - pose proof (long_t1 E).
    destruct (Rle_dec t tn); [assert (t * t <= tn * tn) by nra; assert (a * (t * t) <= a * (tn * tn)) by nra; nra|].
    destruct (Rle_dec t t1); [nra|].
    destruct (Rle_dec t (t1 + tn)) as [L'|L']; [|lra].
    assert (0 < a * ((t1 + tn - t) * (t1 + tn - t))) by (apply Rmult_lt_0_compat; nra). nra.
Qed.
Lemma P_mono s t : 0 <= s <= t -> P s <= P t.
Proof.
  intros H. destruct (MVT_gen P s t V) as (c & Hc & E).
  - intros x _. apply profile_derive.
  - intros x _. apply derivable_continuous_pt. exists (V x). apply is_derive_Reals, profile_derive.
  - rewrite Rmin_left, Rmax_right in Hc by lra. assert (0 <= V c) by (apply V_range; lra). nra.
Qed.
End Profile.

(** ** The generator follows the motion, in the direction of the target *)
Definition sgnd (x0 xT : R) : R := if Rlt_dec xT x0 then -1 else 1.
Definition dist (x0 xT : R) : R := Rabs (xT - x0).
Lemma sgnd_dist x0 xT : xT - x0 = sgnd x0 xT * dist x0 xT.
Proof.
  unfold sgnd, dist. destruct (Rlt_dec xT x0).
  - rewrite Rabs_left by lra. ring.
  - rewrite Rabs_right by lra. ring.
Qed.
Lemma sgnd_sq x0 xT : sgnd x0 xT * sgnd x0 xT = 1.
Proof. unfold sgnd. destruct (Rlt_dec xT x0); ring. Qed.
Lemma sgnd_abs x0 xT y : Rabs (sgnd x0 xT * y) = Rabs y.
Proof.
  unfold sgnd. destruct (Rlt_dec xT x0).
  - replace (-1 * y) with (- y) by ring. apply Rabs_Ropp.
  - now rewrite Rmult_1_l.
Qed.

Section Link.
Variables (x0 xT v a : R) (g : gen).
Hypothesis Hv : 0 < v.
Hypothesis Ha : 0 < a.
Let d := dist x0 xT.
Let s := sgnd x0 xT.
Lemma dpos : 0 <= d. Proof. apply Rabs_pos. Qed.

Lemma setup_total : snd (setup x0 xT v a g) = total d v a.
Proof.
  pose proof dpos as Hd. pose proof (sgnd_dist x0 xT) as E. pose proof (sgnd_sq x0 xT) as S2. fold d s in E. fold s in S2.
  assert (Ev : (if Rlt_dec xT x0 then - v else v) = s * v) by (unfold s, sgnd; destruct (Rlt_dec xT x0); ring).
  assert (Ea : (if Rlt_dec xT x0 then - a else a) = s * a) by (unfold s, sgnd; destruct (Rlt_dec xT x0); ring).
  assert (sn : s <> 0) by (intros Z; rewrite Z in S2; lra).
  unfold setup. rewrite Ev, Ea.
  assert (Etn : s * v / (s * a) = tn v a) by (unfold tn; field; split; lra).
  rewrite Etn.
  assert (Edx : 2 * Rabs (1 / 2 * (s * a) * tn v a * tn v a) = v * v / a).
  { replace (1 / 2 * (s * a) * tn v a * tn v a) with (s * (1 / 2 * (v * v / a))) by (unfold tn; field; lra).
    unfold s. rewrite sgnd_abs. rewrite Rabs_right; [lra|].
    assert (0 < v * v / a) by (apply Rmult_lt_0_compat; [nra|now apply Rinv_0_lt_compat]). lra. }
  rewrite Edx. fold (dist x0 xT). fold d. unfold total, short. destruct (Rge_dec (v * v / a) d); simpl.
  - unfold t0. do 2 f_equal. rewrite E. field. split; lra.
  - unfold t1, tn. replace xT with (x0 + s * d) by lra. field. split; [|split]; lra.
Qed.
Lemma setup_query t : 0 <= t ->
  queryTrajectory (fst (setup x0 xT v a g)) t = Ok (x0 + s * P d v a t, s * V d v a t).
Proof.
  intros Ht.
  pose proof dpos as Hd. pose proof (sgnd_dist x0 xT) as E. pose proof (sgnd_sq x0 xT) as S2. fold d s in E. fold s in S2.
  assert (Ev : (if Rlt_dec xT x0 then - v else v) = s * v) by (unfold s, sgnd; destruct (Rlt_dec xT x0); ring).
  assert (Ea : (if Rlt_dec xT x0 then - a else a) = s * a) by (unfold s, sgnd; destruct (Rlt_dec xT x0); ring).
  assert (sn : s <> 0) by (intros Z; rewrite Z in S2; lra).
  unfold setup. rewrite Ev, Ea.
  assert (Etn : s * v / (s * a) = tn v a) by (unfold tn; field; split; lra).
  rewrite Etn.
  assert (Edx : 2 * Rabs (1 / 2 * (s * a) * tn v a * tn v a) = v * v / a).
  { replace (1 / 2 * (s * a) * tn v a * tn v a) with (s * (1 / 2 * (v * v / a))) by (unfold tn; field; lra).
    unfold s. rewrite sgnd_abs. rewrite Rabs_right; [lra|].
    assert (0 < v * v / a) by (apply Rmult_lt_0_compat; [nra|now apply Rinv_0_lt_compat]). lra. }
  rewrite Edx. fold (dist x0 xT). fold d. unfold P, V, short. destruct (Rge_dec (v * v / a) d).
  - unfold queryTrajectory, queryPlanAccADec; simpl. destruct (Rlt_dec t 0); [lra|].
    replace (1 / 2 * (xT - x0) * 2 / (s * a)) with (d / a) by (rewrite E; field; split; lra).
    fold (t0 d a). unfold glue. f_equal.
    destruct (Rle_dec t (t0 d a)); [f_equal; ring|].
    destruct (Rle_dec t (2 * t0 d a)); f_equal; try ring; replace xT with (x0 + s * d) by lra; field.
  - unfold queryTrajectory, queryPlanAccHDec; simpl. destruct (Rlt_dec t 0); [lra|].
    replace (tn v a + (xT - 1 / 2 * (s * a) * tn v a * tn v a - (x0 + 1 / 2 * (s * a) * tn v a * tn v a)) / (s * v))
      with (t1 d v).
    2: { replace xT with (x0 + s * d) by lra. unfold t1, tn. field. split; [|split]; lra. }
    unfold glue. f_equal.
    destruct (Rle_dec t (tn v a)); [f_equal; ring|].
    destruct (Rle_dec t (t1 d v)); [f_equal; ring|].
    destruct (Rle_dec t (t1 d v + tn v a)); f_equal; try ring; replace xT with (x0 + s * d) by lra; field.
Qed.
End Link.

(** ** The arm *)
Definition jT (j : joint) : R := total (dist (j_start j) (j_end j)) (j_v j) (j_a j).
Definition jpos (j : joint) (t : R) : R :=
  j_start j + sgnd (j_start j) (j_end j) * P (dist (j_start j) (j_end j)) (j_v j) (j_a j) t.
Definition jvel (j : joint) (t : R) : R :=
  sgnd (j_start j) (j_end j) * V (dist (j_start j) (j_end j)) (j_v j) (j_a j) t.
Definition jok (j : joint) : Prop := 0 < j_v j /\ 0 < j_a j.

Definition follows (j : joint) (g : gen) : Prop :=
  forall t, 0 <= t -> queryTrajectory g t = Ok (jpos j t, jvel j t).
Lemma setupAll_ok js : forall gs, List.Forall jok js -> (length js <= length gs)%nat ->
  exists gs', setupAll js gs = Ok (gs', map jT js) /\ List.Forall2 follows js gs'.
Proof.
  induction js as [|j js IH]; intros gs Hj Hl.
  { exists []. split; [destruct gs; reflexivity|constructor]. }
  destruct gs as [|g gs]; [simpl in Hl; lia|]. inversion Hj as [|? ? [Hv Ha] Hj']; subst.
  destruct (IH gs Hj') as (gs' & E & F); [simpl in Hl; lia|].
  pose proof (setup_total (j_start j) (j_end j) (j_v j) (j_a j) g Hv Ha) as HT.
  pose proof (setup_query (j_start j) (j_end j) (j_v j) (j_a j) g Hv Ha) as HQ.
  cbn [setupAll]. destruct (setup (j_start j) (j_end j) (j_v j) (j_a j) g) as [g' T]. simpl in HT, HQ.
  rewrite E. cbn. exists (g' :: gs'). split; [now rewrite HT|]. constructor; [exact HQ|exact F].
Qed.
Lemma queryAll_ok js gs t : 0 <= t -> List.Forall2 follows js gs ->
  queryAll gs t = Ok (map (fun j => jpos j t) js, map (fun j => jvel j t) js).
Proof.
  intros Ht H. induction H as [|j g js gs Hf Hr IH]; [reflexivity|].
  cbn. rewrite (Hf t Ht). cbn. rewrite IH. reflexivity.
Qed.
Lemma sampleFrom_ok js gs dt : 0 <= dt -> List.Forall2 follows js gs -> forall k n,
  sampleFrom gs dt k n = Ok (map (fun i => (INR i * dt, map (fun j => jpos j (INR i * dt)) js ++ map (fun j => jvel j (INR i * dt)) js)) (seq n k)).
Proof.
  intros Hdt H. induction k as [|k IH]; intros n; [reflexivity|].
  cbn [sampleFrom]. rewrite (queryAll_ok js) by (auto; (apply Rmult_le_pos; [apply pos_INR|auto])).
  cbn. rewrite IH. reflexivity.
Qed.
Lemma fold_max l x : List.In (fold_left Rmax l x) (x :: l) /\ x <= fold_left Rmax l x /\
  (forall y, List.In y l -> y <= fold_left Rmax l x).
Proof.
  revert x. induction l as [|y l IH]; intros x; simpl; [intuition lra|].
  destruct (IH (Rmax x y)) as (I1 & I2 & I3). pose proof (Rmax_l x y). pose proof (Rmax_r x y).
  split; [|split].
  - destruct I1 as [I1|I1]; [|tauto]. rewrite <- I1. unfold Rmax. destruct (Rle_dec x y); auto.
  - lra.
  - intros z [<-|Hz]; [lra|auto].
Qed.
Definition horizon (js : list joint) : R := match js with [] => 0 | j :: r => fold_left Rmax (map jT r) (jT j) end.
Lemma horizon_spec js : js <> [] -> (exists j, List.In j js /\ horizon js = jT j) /\ (forall j, List.In j js -> jT j <= horizon js).
Proof.
  destruct js as [|j r]; [congruence|]. intros _. simpl.
  destruct (fold_max (map jT r) (jT j)) as (I1 & I2 & I3). split.
  - destruct I1 as [I1|I1]; [exists j; auto|]. apply in_map_iff in I1. destruct I1 as (k & E & Hk). exists k. auto.
  - intros k [<-|Hk]; [exact I2|]. apply I3. now apply in_map.
Qed.
Definition samples (js : list joint) (dt : R) : nat := (Z.to_nat (roundR (horizon js / dt)) + 1)%nat.
Lemma generate_ok js gs dt : js <> [] -> List.Forall jok js -> (length js <= length gs)%nat -> 0 < dt ->
  exists gs', generateTrajectory js gs dt = Ok (gs', map (fun i =>
     (INR i * dt, map (fun j => jpos j (INR i * dt)) js ++ map (fun j => jvel j (INR i * dt)) js)) (seq 0 (samples js dt))).
Proof.
  intros Hn Hj Hl Hdt. destruct (setupAll_ok js gs Hj Hl) as (gs' & E & F). exists gs'.
  unfold generateTrajectory. rewrite E. cbn [obind snd fst].
  destruct js as [|j r]; [congruence|]. cbn [map maxElement obind].
  change (fold_left Rmax (map jT r) (jT j)) with (horizon (j :: r)).
  fold (samples (j :: r) dt). rewrite (sampleFrom_ok (j :: r)) by (auto; lra). reflexivity.
Qed.
Lemma roundR_le x : 0 <= x -> x - 1 / 2 < IZR (roundR x) <= x + 1 / 2 /\ (0 <= roundR x)%Z.
Proof.
  intros H. unfold roundR. destruct (archimed (x + 1 / 2)) as [A1 A2].
  assert (A : (0 < up (x + 1 / 2))%Z) by (apply lt_IZR; lra).
  rewrite minus_IZR. split; [|lia]. lra.
Qed.
