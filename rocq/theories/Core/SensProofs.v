(** Proofs: integrated sensitivities are exact derivatives. *)
From Coq Require Import Reals List Bool Arith Lia.
From Coquelicot Require Import Coquelicot.
From Verif.Core Require Import SensModel.
Import ListNotations.

Lemma Rcomm : forall n m : R_AbsRing, mult n m = mult m n.
Proof. intros n m. apply Rmult_comm. Qed.

Section Gen.
Context {V U W : NormedModule R_AbsRing}.
Variable f : V -> U -> R -> V.
Variable ctrl : W -> R -> U.
Variable w0 : W.
Notation D X M := (filterdiff (U := W) (X : W -> _) (locally w0) M).
Notation stg := ((W -> V) * R)%type.
Definition at_ (w : W) (q : stg) : point (V := V) (U := U) := (fst q w, ctrl w (snd q), snd q).
Definition F (X : W -> V) (t : R) : W -> V := fun w => f (X w) (ctrl w t) t.

Definition st_euler (X : W -> V) (t dt : R) : list stg := [(X, t)].
Definition e_next (X : W -> V) (t dt : R) : W -> V := fun w => plus (X w) (scal dt (F X t w)).
Definition x2 (X : W -> V) t dt := fun w => plus (X w) (scal (/ 2 * dt)%R (F X t w)).
Definition x3 (X : W -> V) t dt := fun w => plus (X w) (scal (/ 2 * dt)%R (F (x2 X t dt) (t + / 2 * dt)%R w)).
Definition x4 (X : W -> V) t dt := fun w => plus (X w) (scal dt (F (x3 X t dt) (t + / 2 * dt)%R w)).
Definition r_next (X : W -> V) t dt := fun w => plus (X w) (scal (/ 6 * dt)%R
  (plus (plus (plus (F X t w) (scal 2%R (F (x2 X t dt) (t + / 2 * dt)%R w))) (scal 2%R (F (x3 X t dt) (t + / 2 * dt)%R w))) (F (x4 X t dt) (t + dt)%R w))).
Definition st_rk4 (X : W -> V) (t dt : R) : list stg :=
  [(X, t); (x2 X t dt, (t + / 2 * dt)%R); (x3 X t dt, (t + / 2 * dt)%R); (x4 X t dt, (t + dt)%R)].
Definition stages w := match w with Euler => st_euler | RK4 => st_rk4 end.
Definition next w := match w with Euler => e_next | RK4 => r_next end.

Lemma step_x st X t dt w c : do_step plus scal (xdot f (ctrl w)) st (X w) t dt c = (next st X t dt w, c ++ map (at_ w) (stages st X t dt)).
Proof.
  destruct st; cbn [do_step next stages]; unfold euler_st, rk4_st, xdot, st_euler, st_rk4, at_; cbn [map fst snd].
  - reflexivity.
  - rewrite <- !app_assoc. reflexivity.
Qed.

Fixpoint nxt st n X t dt := match n with O => X | S n => nxt st n (next st X t dt) (t + dt)%R dt end.
Fixpoint stgs st n X t dt := match n with O => [] | S n => stages st X t dt ++ stgs st n (next st X t dt) (t + dt)%R dt end.

Lemma loop_x st n : forall X t dt w c,
  loop plus scal (xdot f (ctrl w)) st n (X w) t dt c = (nxt st n X t dt w, c ++ map (at_ w) (stgs st n X t dt)).
Proof.
  induction n as [|n IH]; intros X t dt w c; cbn [loop nxt stgs map]; [now rewrite app_nil_r|].
  rewrite step_x, (IH (next st X t dt)), map_app, app_assoc. reflexivity.
Qed.

(** A right-hand side for sensitivities that is right at the stages of the list [all]. *)
Variable all : list stg.
Variable drhs : (W -> V) -> R -> sst (W -> V) -> (W -> V) * sst (W -> V).
Hypothesis Hd : forall M t s X ti, nth_error all (s_idx s) = Some (X, ti) -> D X M ->
  D (F X ti) (fst (drhs M t s)) /\
  snd (drhs M t s) = mkS (S (s_idx s)) (s_ok s) (s_cache s ++ [M]).

Lemma D_plus X Y M N : D X M -> D Y N -> D (fun w => plus (X w) (Y w) : V) (fun h => plus (M h) (N h)).
Proof. apply filterdiff_plus_fct. Qed.
Lemma D_scal c X M : D X M -> D (fun w => scal c (X w) : V) (fun h => scal c (M h)).
Proof. apply filterdiff_scal_r_fct, Rcomm. Qed.

(** One step. *)
Lemma step_M st X t t' dt M s : D X M ->
  (forall i q, nth_error (stages st X t dt) i = Some q -> nth_error all (s_idx s + i) = Some q) ->
  exists M' Ms, do_step madd mmul drhs st M t' dt s = (M', mkS (s_idx s + length (stages st X t dt)) (s_ok s) (s_cache s ++ Ms)) /\
    D (next st X t dt) M' /\ Forall2 (fun q M => D (fst q) M) (stages st X t dt) Ms.
Proof.
  intros HX Ha. destruct st; cbn [do_step stages next] in *.
  - pose proof (Ha 0%nat _ eq_refl) as HA0. rewrite Nat.add_0_r in HA0.
    destruct (Hd M t' s X t HA0 HX) as (D0 & E0). unfold euler_st. destruct (drhs M t' s) as [k1 s1]. cbn [fst snd] in *. subst s1.
    exists (madd M (mmul dt k1)), [M]. split; [|split; [|apply Forall2_cons; [exact HX|constructor]]].
    + cbn. now rewrite Nat.add_1_r.
    + unfold e_next, madd, mmul. apply D_plus; [exact HX|]. now apply D_scal.
  - set (h := (/ 2 * dt)%R). set (th := (t' + h)%R).
    pose proof (Ha 0%nat _ eq_refl) as HA0. rewrite Nat.add_0_r in HA0.
    destruct (Hd M t' s X t HA0 HX) as (D1 & E1). unfold rk4_st. fold h. fold th.
    destruct (drhs M t' s) as [k1 s1]. cbn [fst snd] in *. subst s1.
    set (M2 := madd M (mmul h k1)). set (s1 := mkS _ _ _).
    assert (HX2 : D (x2 X t dt) M2) by (apply D_plus; [exact HX|]; now apply D_scal).
    pose proof (Ha 1%nat _ eq_refl) as HA1. replace (s_idx s + 1)%nat with (s_idx s1) in HA1 by (cbn; lia).
    destruct (Hd M2 th s1 _ _ HA1 HX2) as (D2 & E2). destruct (drhs M2 th s1) as [k2 s2]. cbn [fst snd] in *.
    set (M3 := madd M (mmul h k2)).
    assert (HX3 : D (x3 X t dt) M3) by (apply D_plus; [exact HX|]; now apply D_scal).
    pose proof (Ha 2%nat _ eq_refl) as HA2. replace (s_idx s + 2)%nat with (s_idx s2) in HA2 by (subst s2; cbn; lia).
    destruct (Hd M3 th s2 _ _ HA2 HX3) as (D3 & E3). destruct (drhs M3 th s2) as [k3 s3]. cbn [fst snd] in *.
    set (M4 := madd M (mmul dt k3)).
    assert (HX4 : D (x4 X t dt) M4) by (apply D_plus; [exact HX|]; now apply D_scal).
    pose proof (Ha 3%nat _ eq_refl) as HA3. replace (s_idx s + 3)%nat with (s_idx s3) in HA3 by (subst s3 s2; cbn; lia).
    destruct (Hd M4 (t' + dt)%R s3 _ _ HA3 HX4) as (D4 & E4). destruct (drhs M4 (t' + dt)%R s3) as [k4 s4]. cbn [fst snd] in *.
    exists (madd M (mmul (/ 6 * dt)%R (madd (madd (madd k1 (mmul 2%R k2)) (mmul 2%R k3)) k4))), [M; M2; M3; M4].
    split; [|split].
    + subst s4 s3 s2 s1. cbn [s_idx s_ok s_cache length st_rk4]. rewrite <- !app_assoc. cbn [app].
      do 2 f_equal. lia.
    + unfold r_next, madd, mmul. apply D_plus; [exact HX|]. apply D_scal. apply D_plus; [|exact D4].
      apply D_plus; [|now apply D_scal]. apply D_plus; [exact D1|]. now apply D_scal.
    + repeat (apply Forall2_cons; [assumption|]). constructor.
Qed.

Lemma loop_M st n : forall X t dt M s, D X M ->
  (forall i q, nth_error (stgs st n X t dt) i = Some q -> nth_error all (s_idx s + i) = Some q) ->
  exists M' Ms, loop madd mmul drhs st n M t dt s = (M', mkS (s_idx s + length (stgs st n X t dt)) (s_ok s) (s_cache s ++ Ms)) /\
    D (nxt st n X t dt) M' /\ Forall2 (fun q M => D (fst q) M) (stgs st n X t dt) Ms.
Proof.
  induction n as [|n IH]; intros X t dt M s HX Ha; cbn [loop nxt stgs length] in *.
  - exists M, []. rewrite app_nil_r, Nat.add_0_r. destruct s. auto.
  - destruct (step_M st X t t dt M s HX) as (M1 & Ms1 & E1 & HX1 & F1).
    { intros i q Hi. apply Ha. rewrite nth_error_app1; [exact Hi|]. apply nth_error_Some. congruence. }
    rewrite E1. set (s1 := mkS _ _ _).
    destruct (IH (next st X t dt) (t + dt)%R dt M1 s1 HX1) as (M2 & Ms2 & E2 & HX2 & F2).
    { intros i q Hi. cbn [s_idx s1]. rewrite <- Nat.add_assoc. apply Ha.
      rewrite nth_error_app2 by lia. now replace (length (stages st X t dt) + i - length (stages st X t dt))%nat with i by lia. }
    exists M2, (Ms1 ++ Ms2). rewrite E2. cbn [s_idx s_ok s_cache s1]. split; [|split; [exact HX2|now apply Forall2_app]].
    now rewrite app_length, Nat.add_assoc, app_assoc.
Qed.
Lemma ct_loop_M st t' n : forall X t dt M s, D X M ->
  (forall i q, nth_error (stgs st n X t dt) i = Some q -> nth_error all (s_idx s + i) = Some q) ->
  exists M' Ms, ct_loop madd mmul drhs st n M t' dt s = (M', mkS (s_idx s + length (stgs st n X t dt)) (s_ok s) (s_cache s ++ Ms)) /\
    D (nxt st n X t dt) M' /\ Forall2 (fun q M => D (fst q) M) (stgs st n X t dt) Ms.
Proof.
  induction n as [|n IH]; intros X t dt M s HX Ha; cbn [ct_loop nxt stgs length] in *.
  - exists M, []. rewrite app_nil_r, Nat.add_0_r. destruct s. auto.
  - destruct (step_M st X t t' dt M s HX) as (M1 & Ms1 & E1 & HX1 & F1).
    { intros i q Hi. apply Ha. rewrite nth_error_app1; [exact Hi|]. apply nth_error_Some. congruence. }
    rewrite E1. set (s1 := mkS _ _ _).
    destruct (IH (next st X t dt) (t + dt)%R dt M1 s1 HX1) as (M2 & Ms2 & E2 & HX2 & F2).
    { intros i q Hi. cbn [s_idx s1]. rewrite <- Nat.add_assoc. apply Ha.
      rewrite nth_error_app2 by lia. now replace (length (stages st X t dt) + i - length (stages st X t dt))%nat with i by lia. }
    exists M2, (Ms1 ++ Ms2). rewrite E2. cbn [s_idx s_ok s_cache s1]. split; [|split; [exact HX2|now apply Forall2_app]].
    now rewrite app_length, Nat.add_assoc, app_assoc.
Qed.
End Gen.

(** Quadratures over the cache. *)
Section Quad.
Context {W : NormedModule R_AbsRing}.
Variable w0 : W.
Notation D X M := (filterdiff (U := W) (V := R_NormedModule) (X : W -> R) (locally w0) M).
Variable ls : list (W -> R).
Variable crhs : W -> R -> R -> sst R -> R * sst R.
Variable drhs : (W -> R) -> R -> sst (W -> R) -> (W -> R) * sst (W -> R).
Hypothesis Hc : forall w c t s l, nth_error ls (s_idx s) = Some l -> crhs w c t s = (l w, mkS (S (s_idx s)) (s_ok s) (s_cache s)).
Hypothesis Hd : forall M t s l, nth_error ls (s_idx s) = Some l -> exists g, drhs M t s = (g, mkS (S (s_idx s)) (s_ok s) (s_cache s)) /\ D l g.
Definition nst st := match st with Euler => 1%nat | RK4 => 4%nat end.

Lemma R_plus X Y M N : D X M -> D Y N -> D (fun w => (X w + Y w)%R) (fun h => (M h + N h)%R).
Proof. intros. apply (filterdiff_plus_fct (V := R_NormedModule)); assumption. Qed.
Lemma R_scal c X M : D X M -> D (fun w => (c * X w)%R) (fun h => (c * M h)%R).
Proof. intros. apply (filterdiff_scal_r_fct (V := R_NormedModule)); [apply Rcomm|assumption]. Qed.

Lemma quad_step st C G t dt (s : sst R) (s' : sst (W -> R)) : D C G -> s_idx s = s_idx s' -> (s_idx s + nst st <= length ls)%nat ->
  exists C' G', (forall w, do_step Rplus Rmult (crhs w) st (C w) t dt s = (C' w, mkS (s_idx s + nst st) (s_ok s) (s_cache s))) /\
    do_step radd rmul drhs st G t dt s' = (G', mkS (s_idx s + nst st) (s_ok s') (s_cache s')) /\ D C' G'.
Proof.
  intros HD Hi Hl. assert (N : forall k, (k < nst st)%nat -> exists l, nth_error ls (s_idx s + k) = Some l).
  { intros k Hk. destruct (nth_error ls (s_idx s + k)) eqn:E; [eauto|]. apply nth_error_None in E. lia. }
  destruct st; cbn [do_step nst] in *.
  - destruct (N 0%nat ltac:(lia)) as [l0 L0]. rewrite Nat.add_0_r in L0.
    assert (L0' := L0). rewrite Hi in L0'. destruct (Hd G t s' l0 L0') as (g & Eg & Dg).
    exists (fun w => (C w + dt * l0 w)%R), (radd G (rmul dt g)). split; [|split].
    + intros w. unfold euler_st. rewrite (Hc _ _ _ _ _ L0). now rewrite Nat.add_1_r.
    + unfold euler_st. rewrite Eg. now rewrite Hi, Nat.add_1_r.
    + apply R_plus; [exact HD|now apply R_scal].
  - destruct (N 0%nat ltac:(lia)) as [l0 L0]. rewrite Nat.add_0_r in L0.
    destruct (N 1%nat ltac:(lia)) as [l1 L1]. destruct (N 2%nat ltac:(lia)) as [l2 L2]. destruct (N 3%nat ltac:(lia)) as [l3 L3].
    set (h := (/ 2 * dt)%R). set (th := (t + h)%R).
    set (sn := fun k => mkS (Y := R) (s_idx s + k) (s_ok s) (s_cache s)).
    set (sn' := fun k => mkS (Y := W -> R) (s_idx s' + k) (s_ok s') (s_cache s')).
    assert (E0 : forall w c t, crhs w c t s = (l0 w, sn 1%nat)) by (intros; rewrite (Hc _ _ _ _ _ L0); unfold sn; now rewrite Nat.add_1_r).
    assert (En : forall k l, nth_error ls (s_idx s + k) = Some l -> forall w c t, crhs w c t (sn k) = (l w, sn (S k))).
    { intros k l Lk w c t1. rewrite (Hc w c t1 (sn k) l Lk). unfold sn; cbn. now rewrite Nat.add_succ_r. }
    assert (Dn : forall k l G t, nth_error ls (s_idx s + k) = Some l -> exists g, drhs G t (sn' k) = (g, sn' (S k)) /\ D l g).
    { intros k l G1 t1 Lk. rewrite Hi in Lk. destruct (Hd G1 t1 (sn' k) l Lk) as (g & E & Dg). exists g. split; [|exact Dg].
      rewrite E. unfold sn'; cbn. now rewrite Nat.add_succ_r. }
    assert (S0' : sn' 0%nat = s') by (unfold sn'; rewrite Nat.add_0_r; now destruct s').
    rewrite <- (Nat.add_0_r (s_idx s)) in L0.
    unfold rk4_st. fold h. fold th. rewrite <- S0'.
    destruct (Dn 0%nat l0 G t L0) as (g0 & G0 & D0). rewrite G0.
    destruct (Dn 1%nat l1 (radd G (rmul h g0)) th L1) as (g1 & G1 & D1). rewrite G1.
    destruct (Dn 2%nat l2 (radd G (rmul h g1)) th L2) as (g2 & G2 & D2). rewrite G2.
    destruct (Dn 3%nat l3 (radd G (rmul dt g2)) (t + dt)%R L3) as (g3 & G3 & D3). rewrite G3.
    eexists (fun w => (C w + (/ 6 * dt) * (l0 w + 2 * l1 w + 2 * l2 w + l3 w))%R), _. split; [|split].
    + intros w. rewrite E0. rewrite (En 1%nat l1 L1), (En 2%nat l2 L2), (En 3%nat l3 L3). reflexivity.
    + rewrite Hi. reflexivity.
    + apply R_plus; [exact HD|]. apply R_scal. apply R_plus; [|exact D3]. apply R_plus; [|now apply R_scal].
      apply R_plus; [exact D0|now apply R_scal].
Qed.

Lemma quad_loop st n : forall C G t dt (s : sst R) (s' : sst (W -> R)), D C G -> s_idx s = s_idx s' -> (s_idx s + n * nst st <= length ls)%nat ->
  exists C' G', (forall w, loop Rplus Rmult (crhs w) st n (C w) t dt s = (C' w, mkS (s_idx s + n * nst st) (s_ok s) (s_cache s))) /\
    loop radd rmul drhs st n G t dt s' = (G', mkS (s_idx s + n * nst st) (s_ok s') (s_cache s')) /\ D C' G'.
Proof.
  induction n as [|n IH]; intros C G t dt s s' HD Hi Hl; cbn [loop Nat.mul] in *.
  - exists C, G. split; [|split; [|exact HD]].
    + intros w. rewrite Nat.add_0_r. now destruct s.
    + rewrite Nat.add_0_r, Hi. now destruct s'.
  - destruct (quad_step st C G t dt s s' HD Hi ltac:(lia)) as (C1 & G1 & E1 & F1 & D1). 
    set (s1 := mkS (Y := R) (s_idx s + nst st) (s_ok s) (s_cache s)).
    set (s1' := mkS (Y := W -> R) (s_idx s + nst st) (s_ok s') (s_cache s')).
    destruct (IH C1 G1 (t + dt)%R dt s1 s1' D1 eq_refl) as (C2 & G2 & E2 & F2 & D2); [cbn; lia|].
    exists C2, G2. split; [|split; [|exact D2]].
    + intros w. rewrite E1. fold s1. rewrite E2. cbn. now rewrite Nat.add_assoc.
    + rewrite F1. fold s1'. rewrite F2. cbn. now rewrite Nat.add_assoc.
Qed.
End Quad.

Lemma stgs_length {V U W : NormedModule R_AbsRing} (f : V -> U -> R -> V) (ctrl : W -> R -> U) st n : forall X t dt,
  length (stgs f ctrl st n X t dt) = (n * nst st)%nat.
Proof. induction n as [|n IH]; intros X t dt; [reflexivity|]. cbn [stgs Nat.mul]. rewrite app_length, IH. now destruct st. Qed.
