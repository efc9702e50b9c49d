(** C63: point-to-point motions of a single degree of freedom.
    C64: joint trajectories of an arm. *)
From Coq Require Import Reals Lra Lia List ZArith Psatz.
From Coquelicot Require Import Coquelicot.
From Verif Require Import Base.Outcome Rbd.TrajGenModel Rbd.TrajGenProofs.
Import ListNotations.
Local Open Scope R_scope.

(** * Specification *)

(** [pos], [vel] is a motion from rest at [x0] at time 0 to rest at [xT] at time [T], within the limits:
    the velocity is the derivative of the position, never exceeds [v] and never changes faster than [a]. *)
Definition motion (x0 xT v a T : R) (pos vel : R -> R) : Prop :=
  (pos 0 = x0 /\ vel 0 = 0) /\ (pos T = xT /\ vel T = 0) /\
  (forall t, 0 < t < T -> is_derive pos t (vel t)) /\
  (forall t, 0 <= t <= T -> continuity_pt pos t) /\
  (forall t, 0 <= t <= T -> Rabs (vel t) <= v) /\
  (forall s t, 0 <= s <= T -> 0 <= t <= T -> Rabs (vel t - vel s) <= a * Rabs (t - s)).

(** * C63 *)

(** Whatever the generator was set up for before: the queried values are a motion within the limits
    whose duration is the returned time; beyond it the target is held; the target is not reached
    before; the position moves from the start to the target without reversing. *)
Theorem C63_motion (x0 xT v a : R) (g : gen) : 0 < v -> 0 < a ->
  let g' := fst (setup x0 xT v a g) in let T := snd (setup x0 xT v a g) in
  exists pos vel, (forall t, 0 <= t -> queryTrajectory g' t = Ok (pos t, vel t)) /\
    0 <= T /\ motion x0 xT v a T pos vel /\
    (forall t, T <= t -> pos t = xT /\ vel t = 0) /\
    (forall t, 0 <= t < T -> pos t <> xT) /\
    (x0 <= xT -> forall s t, 0 <= s <= t -> x0 <= pos s /\ pos s <= pos t /\ pos t <= xT) /\
    (xT <= x0 -> forall s t, 0 <= s <= t -> xT <= pos t /\ pos t <= pos s /\ pos s <= x0).
Proof.
  intros Hv Ha g' T. set (d := dist x0 xT). set (s0 := sgnd x0 xT).
  assert (Hd : 0 <= d) by apply dpos.
  assert (ET : T = total d v a) by (apply setup_total; auto).
  pose proof (sgnd_dist x0 xT) as E. fold d s0 in E.
  assert (S2 : s0 * s0 = 1) by apply sgnd_sq.
  set (pos := fun t => x0 + s0 * P d v a t). set (vel := fun t => s0 * V d v a t).
  exists pos, vel. split; [|split; [|split; [|split; [|split; [|split]]]]].
  - intros t Ht. apply setup_query; auto.
  - rewrite ET. now apply total_pos.
  - assert (Dr : forall t, is_derive pos t (vel t)).
    { intros t. unfold pos, vel. evar_last.
      - apply @is_derive_plus; [apply @is_derive_const|]. apply is_derive_scal. now apply profile_derive.
      - unfold plus, zero; simpl. ring. }
    split; [|split; [|split; [|split; [|split]]]].
    + destruct (P_start d v a Hv Ha) as [P0 V0]. unfold pos, vel. rewrite P0, V0. split; ring.
    + destruct (P_end d v a Hd Hv Ha T) as [P0 V0]; [lra|]. unfold pos, vel. rewrite P0, V0. split; lra.
    + intros t _. apply Dr.
    + intros t _. apply derivable_continuous_pt. exists (vel t). apply is_derive_Reals, Dr.
    + intros t Ht. unfold vel, s0. rewrite sgnd_abs. destruct (V_range d v a Hd Hv Ha t) as [A B]; [lra|].
      rewrite Rabs_right; lra.
    + intros s t _ _. unfold vel. replace (s0 * V d v a t - s0 * V d v a s) with (s0 * (V d v a t - V d v a s)) by ring.
      unfold s0. rewrite sgnd_abs. now apply V_lip.
  - intros t Ht. destruct (P_end d v a Hd Hv Ha t) as [P0 V0]; [lra|]. unfold pos, vel. rewrite P0, V0. split; lra.
  - intros t Ht Q. pose proof (P_before d v a Hd Hv Ha t) as B. rewrite <- ET in B. specialize (B Ht).
    assert (s0 * P d v a t = s0 * d) by (unfold pos in Q; lra).
    assert (s0 * (s0 * P d v a t) = s0 * (s0 * d)) by (f_equal; auto).
    rewrite <- !Rmult_assoc, S2, !Rmult_1_l in H0. lra.
  - intros L s t Hst. assert (Es : s0 * d = d /\ (d = 0 \/ s0 = 1)).
    { unfold s0, sgnd. destruct (Rlt_dec xT x0); [lra|]. split; [ring|auto]. }
    pose proof (P_mono d v a Hd Hv Ha 0 s). pose proof (P_mono d v a Hd Hv Ha s t).
    pose proof (P_mono d v a Hd Hv Ha t (Rmax t T)).
    destruct (P_start d v a Hv Ha) as [P0 _]. pose proof (Rmax_l t T). pose proof (Rmax_r t T).
    destruct (P_end d v a Hd Hv Ha (Rmax t T)) as [P1 _]; [lra|].
    unfold pos. assert (s0 = 1) by (unfold s0, sgnd; destruct (Rlt_dec xT x0); lra). rewrite H4.
    rewrite H4 in E. lra.
  - intros L s t Hst. destruct (Rlt_dec xT x0) as [L'|L'].
    + pose proof (P_mono d v a Hd Hv Ha 0 s). pose proof (P_mono d v a Hd Hv Ha s t).
      pose proof (P_mono d v a Hd Hv Ha t (Rmax t T)).
      destruct (P_start d v a Hv Ha) as [P0 _]. pose proof (Rmax_l t T). pose proof (Rmax_r t T).
      destruct (P_end d v a Hd Hv Ha (Rmax t T)) as [P1 _]; [lra|].
      unfold pos. assert (s0 = -1) by (unfold s0, sgnd; destruct (Rlt_dec xT x0); lra). rewrite H4.
      rewrite H4 in E. lra.
    + assert (D0 : d = 0) by (unfold d, dist; replace (xT - x0) with 0 by lra; apply Rabs_R0).
      pose proof (P_mono d v a Hd Hv Ha 0 s). pose proof (P_mono d v a Hd Hv Ha 0 t).
      pose proof (P_mono d v a Hd Hv Ha s (Rmax s T)). pose proof (P_mono d v a Hd Hv Ha t (Rmax t T)).
      destruct (P_start d v a Hv Ha) as [P0 _]. pose proof (Rmax_l t T). pose proof (Rmax_r t T).
      pose proof (Rmax_l s T). pose proof (Rmax_r s T).
      destruct (P_end d v a Hd Hv Ha (Rmax t T)) as [P1 _]; [lra|].
      destruct (P_end d v a Hd Hv Ha (Rmax s T)) as [P2 _]; [lra|].
      assert (P d v a s = 0) by lra. assert (P d v a t = 0) by lra. unfold pos. rewrite H7, H8. lra.
Qed.

(** Negative times are rejected, by a generator in any state. *)
Theorem C63_negative_time (g : gen) t : t < 0 -> queryTrajectory g t = Throw.
Proof. intros H. unfold queryTrajectory. destruct (Rlt_dec t 0); [reflexivity|lra]. Qed.

(** What the generator was set up for before does not matter. *)
Theorem C63_history (g1 g2 : gen) (x0 xT v a t : R) : 0 < v -> 0 < a ->
  snd (setup x0 xT v a g1) = snd (setup x0 xT v a g2) /\
  queryTrajectory (fst (setup x0 xT v a g1)) t = queryTrajectory (fst (setup x0 xT v a g2)) t.
Proof.
  intros Hv Ha. rewrite !setup_total by auto. split; [reflexivity|].
  destruct (Rlt_dec t 0) as [N|N].
  - rewrite !C63_negative_time by auto. reflexivity.
  - rewrite !setup_query by (auto; lra). reflexivity.
Qed.

(** No motion within the limits is faster. *)
Lemma slower (q w b : R -> R) (s t : R) : s <= t ->
  (forall u, s < u < t -> is_derive q u (w u)) -> (forall u, s <= u <= t -> continuity_pt q u) ->
  forall B, (forall u, is_derive B u (b u)) -> (forall u, s <= u <= t -> w u <= b u) ->
  q t - q s <= B t - B s.
Proof.
  intros L D C B DB H. destruct (Req_dec s t) as [->|N]; [lra|].
  destruct (MVT_gen (fun u => B u - q u) s t (fun u => b u - w u)) as (c & Hc & E).
  - rewrite Rmin_left, Rmax_right by lra. intros u Hu. apply (is_derive_minus B q u (b u) (w u)); auto.
  - rewrite Rmin_left, Rmax_right by lra. intros u Hu. apply continuity_pt_minus; [|now apply C].
    apply derivable_continuous_pt. exists (b u). apply is_derive_Reals, DB.
  - rewrite Rmin_left, Rmax_right in Hc by lra. specialize (H c). assert (0 <= (b c - w c) * (t - s)).
    { apply Rmult_le_pos; lra. } lra.
Qed.
Lemma fastest_pos (d v a T : R) (q w : R -> R) : 0 <= d -> 0 < v -> 0 < a -> 0 <= T ->
  motion 0 d v a T q w -> total d v a <= T.
Proof.
  intros Hd Hv Ha HT ((Q0 & W0) & (Q1 & W1) & D & C & B & L).
  pose proof (t0_sq d a Hd Ha) as S0. pose proof (t0_pos d a) as P0. pose proof (tn_eq v a Ha) as Sn.
  pose proof (tn_pos v a Hv Ha) as Pn. pose proof (t1_eq d v Hv) as S1.
  assert (U1 : forall u, 0 <= u <= T -> w u <= a * u).
  { intros u Hu. specialize (L 0 u). rewrite W0 in L. rewrite (Rabs_right (u - 0)) in L by lra.
    pose proof (Rle_abs (w u - 0)). lra. }
  assert (U2 : forall u, 0 <= u <= T -> w u <= a * (T - u)).
  { intros u Hu. specialize (L T u). rewrite W1 in L. rewrite (Rabs_left1 (u - T)) in L by lra.
    pose proof (Rle_abs (w u - 0)). lra. }
  assert (U3 : forall u, 0 <= u <= T -> w u <= v).
  { intros u Hu. specialize (B u Hu). pose proof (Rle_abs (w u)). lra. }
  assert (Half : d <= a * (T * T) / 4).
  { assert (H1 := slower q w (fun u => a * u) 0 (T / 2) ltac:(lra)
      (fun u Hu => D u ltac:(lra)) (fun u Hu => C u ltac:(lra)) (fun u => a * u * u / 2)).
    assert (H2 := slower q w (fun u => a * (T - u)) (T / 2) T ltac:(lra)
      (fun u Hu => D u ltac:(lra)) (fun u Hu => C u ltac:(lra)) (fun u => a * (T * u - u * u / 2))).
    simpl in H1, H2.
    assert (q (T / 2) - q 0 <= a * (T / 2) * (T / 2) / 2 - a * 0 * 0 / 2).
    { apply H1; [intros u; auto_derive; auto; lra|intros u Hu; apply U1; lra]. }
    assert (q T - q (T / 2) <= a * (T * T - T * T / 2) - a * (T * (T / 2) - T / 2 * (T / 2) / 2)).
    { apply H2; [intros u; auto_derive; auto; lra|intros u Hu; apply U2; lra]. }
    nra. }
  unfold total. destruct (short d v a) eqn:E.
  - destruct (Rle_dec (2 * t0 d a) T) as [|N]; [assumption|]. exfalso.
    assert (T * T < (2 * t0 d a) * (2 * t0 d a)) by nra. nra.
  - assert (Lg : v * v / a < d) by (unfold short in E; destruct (Rge_dec (v * v / a) d); [discriminate|lra]).
    assert (Ev : v * tn v a = v * v / a) by (unfold tn; field; lra).
    assert (T2 : 2 * tn v a <= T).
    { destruct (Rle_dec (2 * tn v a) T) as [|N]; [assumption|]. exfalso.
      assert (T * T < (2 * tn v a) * (2 * tn v a)) by nra. nra. }
    set (n := tn v a) in *.
    assert (H1 : q n - q 0 <= a * n * n / 2 - a * 0 * 0 / 2).
    { apply (slower q w (fun u => a * u) 0 n ltac:(lra) (fun u Hu => D u ltac:(lra)) (fun u Hu => C u ltac:(lra))
        (fun u => a * u * u / 2)); [intros u; auto_derive; auto; lra|intros u Hu; apply U1; lra]. }
    assert (H2 : q (T - n) - q n <= v * (T - n) - v * n).
    { apply (slower q w (fun u => v) n (T - n) ltac:(lra) (fun u Hu => D u ltac:(lra)) (fun u Hu => C u ltac:(lra))
        (fun u => v * u)); [intros u; auto_derive; auto; lra|intros u Hu; apply U3; lra]. }
    assert (H3 : q T - q (T - n) <= a * (T * T - T * T / 2) - a * (T * (T - n) - (T - n) * (T - n) / 2)).
    { apply (slower q w (fun u => a * (T - u)) (T - n) T ltac:(lra) (fun u Hu => D u ltac:(lra)) (fun u Hu => C u ltac:(lra))
        (fun u => a * (T * u - u * u / 2))); [intros u; auto_derive; auto; lra|intros u Hu; apply U2; lra]. }
    assert (F : d <= v * T - v * n) by nra.
    apply (Rmult_le_reg_l v); [auto|]. rewrite Rmult_plus_distr_l, S1. lra.
Qed.
Theorem C63_fastest (x0 xT v a T : R) (g : gen) (pos vel : R -> R) : 0 < v -> 0 < a -> 0 <= T ->
  motion x0 xT v a T pos vel -> snd (setup x0 xT v a g) <= T.
Proof.
  intros Hv Ha HT (Q0 & Q1 & D & C & B & L). rewrite setup_total by auto.
  set (s0 := sgnd x0 xT). assert (S2 : s0 * s0 = 1) by apply sgnd_sq.
  pose proof (sgnd_dist x0 xT) as E. fold s0 in E.
  apply (fastest_pos (dist x0 xT) v a T (fun t => s0 * (pos t - x0)) (fun t => s0 * vel t)); auto; [apply dpos|].
  destruct Q0 as [Q0 W0], Q1 as [Q1 W1].
  split; [|split; [|split; [|split; [|split]]]].
  - rewrite Q0, W0. split; ring.
  - rewrite Q1, W1. split; [|ring]. rewrite E. rewrite <- Rmult_assoc, S2. ring.
  - intros t Ht. apply is_derive_scal. evar_last.
    + apply @is_derive_minus; [apply D; exact Ht|apply @is_derive_const].
    + unfold minus, plus, opp, zero; simpl. ring.
  - intros t Ht. apply continuity_pt_mult; [apply continuity_pt_const; intros ? ?; reflexivity|].
    apply continuity_pt_minus; [now apply C|apply continuity_pt_const; intros ? ?; reflexivity].
  - intros t Ht. unfold s0. rewrite sgnd_abs. auto.
  - intros s t Hs Ht. replace (s0 * vel t - s0 * vel s) with (s0 * (vel t - vel s)) by ring.
    unfold s0. rewrite sgnd_abs. auto.
Qed.

(** A long move holds the maximal velocity, a short one does not reach it. *)
Example C63_example : snd (setup 0 3 1 1 newGen) = 4 /\ queryTrajectory (fst (setup 0 3 1 1 newGen)) 2 = Ok (3 / 2, 1).
Proof.
  split.
  - rewrite setup_total by lra. unfold total, short, dist. rewrite Rabs_right by lra.
    destruct (Rge_dec (1 * 1 / 1) (3 - 0)); [lra|]. unfold t1, tn. lra.
  - rewrite setup_query by lra. unfold P, V, short, dist, sgnd. rewrite Rabs_right by lra.
    destruct (Rlt_dec 3 0); [lra|]. destruct (Rge_dec (1 * 1 / 1) (3 - 0)); [lra|].
    unfold glue, t1, tn. destruct (Rle_dec 2 (1 / 1)); [lra|]. destruct (Rle_dec 2 ((3 - 0) / 1)); [|lra].
    do 2 f_equal; lra.
Qed.

(** * C64 *)

(** The duration of the motion of one joint. *)
Definition duration (j : joint) (T : R) : Prop := forall g, snd (setup (j_start j) (j_end j) (j_v j) (j_a j) g) = T.
Definition limits (j : joint) : Prop := 0 < j_v j /\ 0 < j_a j.

(** For every set of joints with positive limits, whatever the object was used for before, and every
    sampling time > 0: the samples are taken at the multiples of the sampling time, the first one is
    the start at rest, every joint follows its own motion within its limits.  The last sample time is
    the multiple of the sampling time nearest to the longest duration, and exactly the joints whose
    duration is not longer than that have reached their target in the last sample. *)
Theorem C64_samples_partial (js : list joint) (gs : list gen) (dt : R) :
  js <> [] -> List.Forall limits js -> (length js <= length gs)%nat -> 0 < dt ->
  exists gs' tr N H, generateTrajectory js gs dt = Ok (gs', tr) /\ length tr = S N /\
    (exists j, List.In j js /\ duration j H) /\ (forall j Tj, List.In j js -> duration j Tj -> Tj <= H) /\
    (H - dt / 2 < INR N * dt <= H + dt / 2) /\
    (exists poss vels, length poss = length js /\ length vels = length js /\
       (forall i, (i <= N)%nat -> nth_error tr i =
          Some (INR i * dt, map (fun p => p (INR i * dt)) poss ++ map (fun p => p (INR i * dt)) vels)) /\
       forall k j, nth_error js k = Some j -> exists pos vel Tj,
         nth_error poss k = Some pos /\ nth_error vels k = Some vel /\ duration j Tj /\
         motion (j_start j) (j_end j) (j_v j) (j_a j) Tj pos vel /\
         (forall t, Tj <= t -> pos t = j_end j /\ vel t = 0) /\
         (pos (INR N * dt) = j_end j -> Tj <= INR N * dt)).
Proof.
  intros Hn Hj Hl Hdt.
  destruct (generate_ok js gs dt Hn Hj Hl Hdt) as (gs' & E).
  assert (Dur : forall j, limits j -> duration j (jT j)).
  { intros j [Hv Ha] g. now apply setup_total. }
  destruct (horizon_spec js Hn) as ((jm & Im & Em) & Max).
  assert (Hlim : forall j, List.In j js -> limits j) by (now apply List.Forall_forall).
  assert (H0 : 0 <= horizon js).
  { rewrite Em. destruct (Hlim _ Im) as [Hv Ha]. apply total_pos; auto; apply dpos. }
  assert (Hq : 0 <= horizon js / dt) by (apply Rmult_le_pos; [auto|left; now apply Rinv_0_lt_compat]).
  destruct (roundR_le _ Hq) as [Rr Rz].
  exists gs'. eexists. exists (Z.to_nat (roundR (horizon js / dt))), (horizon js).
  split; [exact E|]. split; [rewrite map_length, seq_length; unfold samples; lia|].
  split; [exists jm; split; [exact Im|rewrite Em; auto]|].
  split.
  { intros j Tj Ij Dj. specialize (Dur j (Hlim _ Ij) newGen). rewrite (Dj newGen) in Dur. subst Tj. now apply Max. }
  split.
  { rewrite INR_IZR_INZ, Z2Nat.id by exact Rz.
    assert (Ex : horizon js = horizon js / dt * dt) by (field; lra).
    set (x := horizon js / dt) in *. rewrite Ex. split; nra. }
  exists (map jpos js), (map jvel js). split; [apply map_length|]. split; [apply map_length|]. split.
  { intros i Hi. rewrite nth_error_map. rewrite (nth_error_nth' _ 0%nat) by (rewrite seq_length; unfold samples; lia).
    rewrite seq_nth by (unfold samples; lia). simpl. rewrite !map_map. reflexivity. }
  intros k j Hk. exists (jpos j), (jvel j), (jT j). rewrite !nth_error_map, Hk.
  assert (Ij : List.In j js) by (now apply nth_error_In in Hk). destruct (Hlim _ Ij) as [Hv Ha].
  split; [reflexivity|]. split; [reflexivity|]. split; [now apply Dur, Hlim|].
  destruct (C63_motion (j_start j) (j_end j) (j_v j) (j_a j) newGen Hv Ha) as (pos & vel & Q & T0 & M & Af & Be & _).
  rewrite setup_total in * by auto. fold (jT j) in *.
  assert (Eq : forall t, 0 <= t -> pos t = jpos j t /\ vel t = jvel j t).
  { intros t Ht. specialize (Q t Ht). rewrite setup_query in Q by auto. apply Ok_inj in Q. injection Q as Q1 Q2. auto. }
  assert (Np : 0 <= INR (Z.to_nat (roundR (horizon js / dt))) * dt) by (apply Rmult_le_pos; [apply pos_INR|lra]).
  split; [|split].
  - destruct (Hlim _ Ij) as [_ _]. set (d := dist (j_start j) (j_end j)). set (s0 := sgnd (j_start j) (j_end j)).
    destruct M as (M0 & M1 & M2 & M3 & M4 & M5).
    assert (Dr : forall t, is_derive (jpos j) t (jvel j t)).
    { intros t. unfold jpos, jvel. evar_last.
      - apply @is_derive_plus; [apply @is_derive_const|]. apply is_derive_scal. apply profile_derive; auto; apply dpos.
      - unfold plus, zero; simpl. ring. }
    split; [|split; [|split; [|split; [|split]]]].
    + destruct (Eq 0 ltac:(lra)) as [<- <-]. exact M0.
    + destruct (Eq (jT j) T0) as [<- <-]. exact M1.
    + intros t _. apply Dr.
    + intros t _. apply derivable_continuous_pt. exists (jvel j t). apply is_derive_Reals, Dr.
    + intros t Ht. destruct (Eq t ltac:(lra)) as [_ <-]. now apply M4.
    + intros s t Hs Ht. destruct (Eq t ltac:(lra)) as [_ <-]. destruct (Eq s ltac:(lra)) as [_ <-]. now apply M5.
  - intros t Hle. destruct (Eq t ltac:(lra)) as [<- <-]. now apply Af.
  - intros Hr. destruct (Eq _ Np) as [Ep _]. rewrite <- Ep in Hr.
    destruct (Rle_dec (jT j) (INR (Z.to_nat (roundR (horizon js / dt))) * dt)) as [|N]; [assumption|].
    exfalso. apply (Be (INR (Z.to_nat (roundR (horizon js / dt))) * dt)); [lra|exact Hr].
Qed.

(** REFUTED: "the whole trajectory ends when the last joint arrives".  Whenever the nearest multiple of
    the sampling time lies before the longest duration, the trajectory ends before some joint has
    arrived; with a sampling time of more than twice the duration only the start is returned. *)
Theorem C64_arrives_refuted (js : list joint) (gs : list gen) (dt H : R) (m : nat) :
  js <> [] -> List.Forall limits js -> (length js <= length gs)%nat -> 0 < dt ->
  (exists j, List.In j js /\ duration j H) -> (forall j Tj, List.In j js -> duration j Tj -> Tj <= H) ->
  INR m * dt < H < (INR m + 1 / 2) * dt ->
  exists gs' tr k j s q, generateTrajectory js gs dt = Ok (gs', tr) /\ length tr = S m /\
    nth_error js k = Some j /\ nth_error tr m = Some s /\ nth_error (snd s) k = Some q /\ q <> j_end j.
Proof.
  intros Hn Hj Hl Hdt (jm & Im & Dm) Max Bd.
  destruct (C64_samples_partial js gs dt Hn Hj Hl Hdt) as (gs' & tr & N & H' & E & Len & (j' & I' & D') & Max' & Near & (poss & vels & Lp & Lv & Sm & Each)).
  assert (HH : H' = H).
  { apply Rle_antisym; [now apply (Max j')|now apply (Max' jm)]. }
  subst H'.
  assert (NN : N = m).
  { assert (INR N < INR m + 1) by nra. assert (INR m < INR N + 1) by nra.
    rewrite <- S_INR in *. apply INR_lt in H0, H1. lia. }
  subst N. destruct (In_nth_error _ _ Im) as [k Hk].
  destruct (Each k jm Hk) as (pos & vel & Tj & Ep & Ev & Dj & _ & _ & Late).
  exists gs', tr, k, jm, (INR m * dt, map (fun p => p (INR m * dt)) poss ++ map (fun p => p (INR m * dt)) vels), (pos (INR m * dt)).
  split; [exact E|]. split; [exact Len|]. split; [exact Hk|]. split; [apply Sm; lia|]. split.
  - simpl. rewrite nth_error_app1 by (rewrite map_length, Lp; apply nth_error_Some; rewrite Hk; discriminate).
    rewrite nth_error_map, Ep. reflexivity.
  - intros Q. specialize (Late Q). specialize (Dm newGen). specialize (Dj newGen). rewrite Dm in Dj. lra.
Qed.

(** When the sampling time divides the longest duration every joint has arrived in the last sample. *)
Theorem C64_arrives_partial (js : list joint) (gs : list gen) (dt : R) (m : nat) :
  js <> [] -> List.Forall limits js -> (length js <= length gs)%nat -> 0 < dt ->
  (forall j Tj, List.In j js -> duration j Tj -> Tj <= INR m * dt) -> (exists j, List.In j js /\ duration j (INR m * dt)) ->
  exists gs' tr, generateTrajectory js gs dt = Ok (gs', tr) /\ length tr = S m /\
    nth_error tr m = Some (INR m * dt, map j_end js ++ map (fun _ => 0) js).
Proof.
  intros Hn Hj Hl Hdt Max (jm & Im & Dm).
  destruct (C64_samples_partial js gs dt Hn Hj Hl Hdt) as (gs' & tr & N & H' & E & Len & (j' & I' & D') & Max' & Near & (poss & vels & Lp & Lv & Sm & Each)).
  assert (HH : H' = INR m * dt).
  { apply Rle_antisym; [now apply (Max j')|now apply (Max' jm)]. }
  subst H'.
  assert (NN : N = m).
  { assert (INR N < INR m + 1) by nra. assert (INR m < INR N + 1) by nra.
    rewrite <- S_INR in *. apply INR_lt in H, H0. lia. }
  subst N. exists gs', tr. split; [exact E|]. split; [exact Len|]. rewrite Sm by lia.
  assert (A : forall k j, nth_error js k = Some j -> exists pos vel, nth_error poss k = Some pos /\
    nth_error vels k = Some vel /\ pos (INR m * dt) = j_end j /\ vel (INR m * dt) = 0).
  { intros k j Hk. destruct (Each k j Hk) as (pos & vel & Tj & Ep & Ev & Dj & _ & Early & _).
    exists pos, vel. split; [exact Ep|]. split; [exact Ev|]. apply Early. apply (Max j); [|exact Dj].
    now apply nth_error_In in Hk. }
  assert (B1 : map (fun p => p (INR m * dt)) poss = map j_end js).
  { apply nth_ext with (d := 0) (d' := 0); [rewrite !map_length; auto|].
    intros k Hk. rewrite map_length, Lp in Hk. destruct (nth_error js k) as [j|] eqn:Ek; [|apply nth_error_None in Ek; lia].
    destruct (A k j Ek) as (pos & vel & Ep & Ev & V1 & V2).
    rewrite (nth_error_nth _ _ _ (map_nth_error (fun p => p (INR m * dt)) k poss Ep)),
      (nth_error_nth _ _ _ (map_nth_error j_end k js Ek)). exact V1. }
  assert (B2 : map (fun p => p (INR m * dt)) vels = map (fun _ => 0) js).
  { apply nth_ext with (d := 0) (d' := 0); [rewrite !map_length; auto|].
    intros k Hk. rewrite map_length, Lv in Hk. destruct (nth_error js k) as [j|] eqn:Ek; [|apply nth_error_None in Ek; lia].
    destruct (A k j Ek) as (pos & vel & Ep & Ev & V1 & V2).
    rewrite (nth_error_nth _ _ _ (map_nth_error (fun p => p (INR m * dt)) k vels Ev)),
      (nth_error_nth _ _ _ (map_nth_error (fun _ => 0) k js Ek)). exact V2. }
  now rewrite B1, B2.
Qed.

(** Two joints: 4 seconds and 2 seconds; with a sampling time of 1 second both arrive, with 3 seconds
    (nearest multiple 3 < 4) the first one does not. *)
Definition exJoints : list joint := [mkJoint 0 3 1 1; mkJoint 0 (-1) 1 1].
Lemma exDur : duration (mkJoint 0 3 1 1) 4 /\ duration (mkJoint 0 (-1) 1 1) 2.
Proof.
  split; intros g; rewrite setup_total by (simpl; lra); unfold total, short, dist; simpl.
  - rewrite Rabs_right by lra. destruct (Rge_dec (1 * 1 / 1) (3 - 0)); [lra|]. unfold t1, tn. lra.
  - rewrite Rabs_left by lra. destruct (Rge_dec (1 * 1 / 1) (- (-1 - 0))) as [_|N]; [|lra].
    unfold t0. replace (- (-1 - 0) / 1) with 1 by lra. rewrite sqrt_1. ring.
Qed.
Example C64_example : exJoints <> [] /\ List.Forall limits exJoints /\
  (exists j, List.In j exJoints /\ duration j 4) /\
  (forall j Tj, List.In j exJoints -> duration j Tj -> Tj <= 4) /\
  INR 4 * 1 = 4 /\ INR 1 * 3 < 4 < (INR 1 + 1 / 2) * 3.
Proof.
  split; [discriminate|]. split; [repeat (apply List.Forall_cons; [split; simpl; lra|]); apply List.Forall_nil|].
  destruct exDur as [D1 D2]. split; [exists (mkJoint 0 3 1 1); split; [left; reflexivity|exact D1]|].
  split; [|simpl; lra].
  intros j Tj [<-|[<-|[]]] D; specialize (D newGen).
  - rewrite (D1 newGen) in D. lra.
  - rewrite (D2 newGen) in D. lra.
Qed.

Print Assumptions C63_motion.
Print Assumptions C63_negative_time.
Print Assumptions C63_history.
Print Assumptions C63_fastest.
Print Assumptions C64_samples_partial.
Print Assumptions C64_arrives_refuted.
Print Assumptions C64_arrives_partial.
