(** C28: control splines and their derivatives.  C50: quadrature weights of the simple shooting
    cost.  C60: the gradient of the simple shooting cost.
    [describes g N T d] (DmsProps.v) says that the grid g has N shots of positive durations d;
    C26_history shows that every admissible history of a grid leads to such a grid. *)
From Coq Require Import Reals List Bool Arith Lia Lra.
From Coquelicot Require Import Coquelicot.
From Verif Require Import Base.Outcome Base.RVec Optcon.DmsModel Optcon.DmsSpec
  Optcon.DmsProofs Optcon.DmsProps Optcon.DmsSplineModel.
Import ListNotations.
Local Open Scope R_scope.

Lemma shot_times g N T d i : describes g N T d -> (i < N)%nat ->
  exists s e, getShotStartTime g i = Ok s /\ getShotEndTime g i = Ok e /\
    rShotDuration g i = Ok (e - s) /\ s < e /\ getShotStartTime g (S i) = Ok e /\
    nth i d 0 = e - s /\ s = nth i (g_t g) 0 /\ e = nth (S i) (g_t g) 0.
Proof.
  intros (Hd & HN & HT & H0 & Hs & Ho & [Hl Hp]) Hi.
  destruct (Hs i Hi) as (s & e & E1 & E2 & E3 & Hlt & E4 & E5).
  exists s, e. repeat split; auto.
  - unfold getShotStartTime in E1. rewrite (vec_get_nth _ _ 0) in E1 by lia. now inversion E1.
  - unfold getShotStartTime in E3. rewrite (vec_get_nth _ _ 0) in E3 by lia. now inversion E3.
Qed.

(** ** C28 *)

(** The linear spline takes the values of the two node controls at the ends of the shot, stays
    between them, and is continuous from one shot to the next. *)
Theorem C28_linear_interpolates g N T d nodes i : describes g N T d ->
  length nodes = S N -> (i < N)%nat ->
  exists s e f,
    getShotStartTime g i = Ok s /\ getShotEndTime g i = Ok e /\
    (forall t, evalSpline PIECEWISE_LINEAR nodes g t i = Ok (f t)) /\
    (forall j, f s j = nth i nodes rzero j) /\
    (forall j, f e j = nth (S i) nodes rzero j) /\
    (forall t j, s <= t <= e ->
       Rmin (nth i nodes rzero j) (nth (S i) nodes rzero j) <= f t j <=
       Rmax (nth i nodes rzero j) (nth (S i) nodes rzero j)) /\
    (forall t j lambda, t = (1 - lambda) * s + lambda * e ->
       f t j = (1 - lambda) * nth i nodes rzero j + lambda * nth (S i) nodes rzero j) /\
    ((S i < N)%nat -> exists v,
       evalSpline PIECEWISE_LINEAR nodes g e (S i) = Ok v /\ forall j, v j = f e j).
Proof.
  intros Hg Hn Hi. destruct (shot_times g N T d i Hg Hi) as (s & e & E1 & E2 & E3 & Hlt & E4 & _).
  exists s, e, (fun t j => nth i nodes rzero j * (e - t) / (e - s) +
                           nth (S i) nodes rzero j * (t - s) / (e - s)).
  split; [exact E1|]. split; [exact E2|].
  assert (Hf : forall lambda j, nth i nodes rzero j * (e - ((1 - lambda) * s + lambda * e)) / (e - s) +
     nth (S i) nodes rzero j * ((1 - lambda) * s + lambda * e - s) / (e - s) =
     (1 - lambda) * nth i nodes rzero j + lambda * nth (S i) nodes rzero j).
  { intros lambda j. field. lra. }
  split; [|split; [|split; [|split; [|split]]]].
  - intros t. unfold evalSpline. rewrite E3, E1, E2, Nat.add_1_r. cbn [obind].
    rewrite !(vec_get_nth _ _ rzero) by lia. reflexivity.
  - intros j. field. lra.
  - intros j. field. lra.
  - intros t j Ht. set (l := (t - s) / (e - s)).
    assert (Hl : 0 <= l <= 1).
    { unfold l. split.
      - apply Rmult_le_pos; [lra|]. apply Rlt_le, Rinv_0_lt_compat. lra.
      - apply (Rmult_le_reg_r (e - s)); [lra|]. field_simplify; lra. }
    replace t with ((1 - l) * s + l * e) by (unfold l; field; lra).
    rewrite Hf. set (a := nth i nodes rzero j). set (b := nth (S i) nodes rzero j).
    unfold Rmin, Rmax. destruct (Rle_dec a b).
    + split.
      * assert (0 <= l * (b - a)) by (apply Rmult_le_pos; lra). lra.
      * assert (0 <= (1 - l) * (b - a)) by (apply Rmult_le_pos; lra). lra.
    + split.
      * assert (0 <= (1 - l) * (a - b)) by (apply Rmult_le_pos; lra). lra.
      * assert (0 <= l * (a - b)) by (apply Rmult_le_pos; lra). lra.
  - intros t j l ->. apply Hf.
  - intros Hi'. destruct (shot_times g N T d (S i) Hg Hi')
      as (s' & e' & F1 & F2 & F3 & Flt & _).
    assert (s' = e) by (rewrite E4 in F1; now inversion F1). subst s'.
    eexists. split.
    + unfold evalSpline. rewrite F3, F1, F2, Nat.add_1_r. cbn [obind].
      rewrite !(vec_get_nth _ _ rzero) by lia. reflexivity.
    + intros j. cbv beta. field. lra.
Qed.

(** The zero order hold is the node control on the whole shot. *)
Theorem C28_zoh_holds g nodes i t : (i < length nodes)%nat ->
  evalSpline ZERO_ORDER_HOLD nodes g t i = Ok (nth i nodes rzero).
Proof. intros H. apply vec_get_nth. exact H. Qed.

(** Reported time derivative. *)
Theorem C28_derivative_time sp g N T d nodes i : describes g N T d ->
  length nodes = S N -> (i < N)%nat ->
  exists f f', (forall t, evalSpline sp nodes g t i = Ok (f t)) /\
    (forall t, splineDerivative_t sp nodes g t i = Ok (f' t)) /\
    forall t j, is_derive (fun t => f t j) t (f' t j).
Proof.
  intros Hg Hn Hi. destruct (shot_times g N T d i Hg Hi) as (s & e & E1 & E2 & E3 & Hlt & E4 & _).
  destruct sp.
  - exists (fun _ => nth i nodes rzero), (fun _ => rzero). split; [|split].
    + intros t. apply vec_get_nth. lia.
    + reflexivity.
    + intros t j. unfold rzero. apply (is_derive_const (V := R_NormedModule)).
  - exists (fun t j => nth i nodes rzero j * (e - t) / (e - s) +
                       nth (S i) nodes rzero j * (t - s) / (e - s)),
      (fun t j => (nth (S i) nodes rzero j - nth i nodes rzero j) / (e - s)).
    split; [|split].
    + intros t. unfold evalSpline. rewrite E3, E1, E2, Nat.add_1_r. cbn [obind].
      rewrite !(vec_get_nth _ _ rzero) by lia. reflexivity.
    + intros t. unfold splineDerivative_t. rewrite E3, Nat.add_1_r. cbn [obind].
      rewrite !(vec_get_nth _ _ rzero) by lia. reflexivity.
    + intros t j. cbv beta. auto_derive; [auto|]. field. lra.
Qed.

(** Reported derivative with respect to component k of the node control at the start of the
    shot, and at its end. *)
Theorem C28_derivative_node sp g N T d nodes i t k : describes g N T d ->
  length nodes = S N -> (i < N)%nat ->
  exists F D,
    (forall z, evalSpline sp (replace i (rset (nth i nodes rzero) k z) nodes) g t i = Ok (F z)) /\
    splineDerivative_q_i sp g t i = Ok D /\
    forall j, is_derive (fun z => F z j) (nth i nodes rzero k) (D j k).
Proof.
  intros Hg Hn Hi. destruct (shot_times g N T d i Hg Hi) as (s & e & E1 & E2 & E3 & Hlt & E4 & _).
  assert (Ha : forall z, vec_get (replace i (rset (nth i nodes rzero) k z) nodes) i =
                         Ok (rset (nth i nodes rzero) k z)).
  { intros z. rewrite (vec_get_nth _ _ rzero) by (rewrite replace_length; lia).
    rewrite replace_nth by lia. now rewrite Nat.eqb_refl. }
  assert (Hb : forall z, vec_get (replace i (rset (nth i nodes rzero) k z) nodes) (i + 1) =
                         Ok (nth (S i) nodes rzero)).
  { intros z. rewrite (vec_get_nth _ _ rzero) by (rewrite replace_length; lia).
    rewrite replace_nth, Nat.add_1_r by lia.
    now replace (S i =? i)%nat with false by (symmetry; apply Nat.eqb_neq; lia). }
  destruct sp.
  - exists (fun z => rset (nth i nodes rzero) k z), (scaledIdentity 1).
    split; [exact Ha|]. split; [reflexivity|]. intros j. unfold rset, scaledIdentity.
    destruct (Nat.eqb_spec j k).
    + apply (is_derive_id (K := R_AbsRing)).
    + apply (is_derive_const (V := R_NormedModule)).
  - eexists _, _. split; [|split].
    + intros z. unfold evalSpline. rewrite E3, E1, E2. cbn [obind]. rewrite Ha, Hb.
      cbn [obind]. reflexivity.
    + unfold splineDerivative_q_i. rewrite E3, E2. cbn [obind]. reflexivity.
    + intros j. cbv beta. unfold rset, scaledIdentity. destruct (Nat.eqb_spec j k).
      * auto_derive; [auto|]. field. lra.
      * auto_derive; [auto|]. reflexivity.
Qed.
Theorem C28_derivative_next_node sp g N T d nodes i t k : describes g N T d ->
  length nodes = S N -> (i < N)%nat ->
  exists F D,
    (forall z, evalSpline sp (replace (S i) (rset (nth (S i) nodes rzero) k z) nodes) g t i =
               Ok (F z)) /\
    splineDerivative_q_iplus1 sp g t i = Ok D /\
    forall j, is_derive (fun z => F z j) (nth (S i) nodes rzero k) (D j k).
Proof.
  intros Hg Hn Hi. destruct (shot_times g N T d i Hg Hi) as (s & e & E1 & E2 & E3 & Hlt & E4 & _).
  assert (Hb : forall z, vec_get (replace (S i) (rset (nth (S i) nodes rzero) k z) nodes) (i + 1)
                         = Ok (rset (nth (S i) nodes rzero) k z)).
  { intros z. rewrite (vec_get_nth _ _ rzero) by (rewrite replace_length; lia).
    rewrite replace_nth, Nat.add_1_r by lia. now rewrite Nat.eqb_refl. }
  assert (Ha : forall z, vec_get (replace (S i) (rset (nth (S i) nodes rzero) k z) nodes) i =
                         Ok (nth i nodes rzero)).
  { intros z. rewrite (vec_get_nth _ _ rzero) by (rewrite replace_length; lia).
    rewrite replace_nth by lia.
    now replace (i =? S i)%nat with false by (symmetry; apply Nat.eqb_neq; lia). }
  destruct sp.
  - exists (fun z => nth i nodes rzero), (scaledIdentity 0).
    split; [exact Ha|]. split; [reflexivity|]. intros j. unfold scaledIdentity.
    destruct (j =? k)%nat; apply (is_derive_const (V := R_NormedModule)).
  - eexists _, _. split; [|split].
    + intros z. unfold evalSpline. rewrite E3, E1, E2. cbn [obind]. rewrite Ha, Hb.
      cbn [obind]. reflexivity.
    + unfold splineDerivative_q_iplus1. rewrite E3, E1. cbn [obind]. reflexivity.
    + intros j. cbv beta. unfold rset, scaledIdentity. destruct (Nat.eqb_spec j k).
      * auto_derive; [auto|]. field. lra.
      * auto_derive; [auto|]. reflexivity.
Qed.

(** Reported derivative with respect to the duration of the shot: the derivative of the spline
    on the grid with the i-th segment varied, at a fixed time. *)
Lemma sums_prefix h : forall a i z k, (k <= i)%nat ->
  nth k (a :: sums a (replace i z h)) 0 = nth k (a :: sums a h) 0.
Proof.
  induction h as [|x h IH]; intros a i z k Hk; [destruct i; reflexivity|].
  destruct k as [|k]; [reflexivity|]. destruct i as [|i]; [lia|].
  cbn [replace sums]. specialize (IH (a + x) i z k ltac:(lia)). exact IH.
Qed.
Theorem C28_derivative_duration sp N T ts h nodes i t : length ts = S N -> length h = N ->
  List.Forall (fun d => 0 < d) h -> length nodes = S N -> (i < N)%nat ->
  exists g F D, rUpdateTimeGrid h (mkGrid N T ts) = Ok g /\
    (forall z, exists g', rUpdateTimeGrid (replace i z h) (mkGrid N T ts) = Ok g' /\
                          evalSpline sp nodes g' t i = Ok (F z)) /\
    splineDerivative_h_i sp nodes g t i = Ok D /\
    forall j, is_derive (fun z => F z j) (nth i h 0) (D j).
Proof.
  intros Ht Hh Hp Hn Hi. exists (mkGrid N T (0 :: sums 0 h)).
  assert (Eu : forall z, rUpdateTimeGrid (replace i z h) (mkGrid N T ts) =
                         Ok (mkGrid N T (0 :: sums 0 (replace i z h)))).
  { intros z. apply updateTimeGrid_spec; auto. now rewrite replace_length. }
  assert (Hpos : 0 < nth i h 0).
  { rewrite Forall_forall in Hp. apply Hp, nth_In. lia. }
  destruct sp.
  - exists (fun _ => nth i nodes rzero), rzero. split; [now apply updateTimeGrid_spec|].
    split; [|split; [reflexivity|]].
    + intros z. eexists. split; [apply Eu|]. apply vec_get_nth. lia.
    + intros j. apply (is_derive_const (V := R_NormedModule)).
  - set (s := nth i (0 :: sums 0 h) 0). set (a := nth i nodes rzero).
    set (b := nth (S i) nodes rzero).
    exists (fun z j => a j * (s + z - t) / (s + z - s) + b j * (t - s) / (s + z - s)),
           (fun j => (t - s) * (a j - b j) / ((s + nth i h 0 - s) * (s + nth i h 0 - s))).
    assert (Hg : forall z, vec_get (0 :: sums 0 (replace i z h)) i = Ok s /\
                   vec_get (0 :: sums 0 (replace i z h)) (i + 1) = Ok (s + z)).
    { intros z. split.
      - rewrite (vec_get_nth _ _ 0) by (simpl; rewrite sums_length, replace_length; lia).
        f_equal. now apply sums_prefix.
      - rewrite (vec_get_nth _ _ 0) by (simpl; rewrite sums_length, replace_length; lia).
        f_equal. rewrite Nat.add_1_r. cbn [nth].
        rewrite sums_nth by (rewrite replace_length; lia).
        rewrite sums_prefix, replace_nth, Nat.eqb_refl by lia. reflexivity. }
    assert (Hh' : replace i (nth i h 0) h = h).
    { clear - Hi Hh. subst N. revert i Hi. induction h as [|x h IH]; intros [|i] Hi; simpl in *;
        try lia; auto. f_equal. apply IH. lia. }
    split; [now apply updateTimeGrid_spec|]. split; [|split].
    + intros z. eexists. split; [apply Eu|]. destruct (Hg z) as [G1 G2].
      unfold evalSpline, rShotDuration, getShotDuration, getShotStartTime, getShotEndTime.
      cbn [g_t]. rewrite G1, G2. cbn [obind].
      rewrite Nat.add_1_r, !(vec_get_nth _ _ rzero) by lia. reflexivity.
    + destruct (Hg (nth i h 0)) as [G1 G2]. rewrite Hh' in G1, G2.
      unfold splineDerivative_h_i, rShotDuration, getShotDuration, getShotStartTime.
      cbn [g_t]. rewrite G1, G2. cbn [obind].
      rewrite Nat.add_1_r, !(vec_get_nth _ _ rzero) by lia. reflexivity.
    + intros j. cbv beta. auto_derive; [repeat split; auto; lra|]. field. lra.
Qed.

(** Finding: the linear spliner has no value for the last node (index N), although there are
    N + 1 nodes; the zero order hold has.  The constraint discretizer asks for it. *)
Theorem C28_linear_last_node_refuted g N T d nodes t : describes g N T d ->
  length nodes = S N -> evalSpline PIECEWISE_LINEAR nodes g t N = UB /\
                        exists v, evalSpline ZERO_ORDER_HOLD nodes g t N = Ok v.
Proof.
  intros Hg Hn. split.
  - unfold evalSpline. destruct (C26_out_of_range N T d g Hg) as [_ ->]. reflexivity.
  - eexists. apply (vec_get_nth _ _ rzero). lia.
Qed.

(** ** C50 *)

Lemma collect_ok {A} (f : nat -> outcome A) (v : nat -> A) k : forall i,
  (forall j, (i <= j < i + k)%nat -> f j = Ok (v j)) ->
  collect f i k = Ok (map v (seq i k)).
Proof.
  induction k as [|k IH]; intros i H; [reflexivity|]. cbn [collect seq map].
  rewrite H by lia. cbn [obind]. rewrite IH by (intros; apply H; lia). reflexivity.
Qed.

(** A sum over all but the last element. *)
Fixpoint weighted (w c : list R) : R :=
  match w, c with
  | a :: w', b :: c' => a * b + weighted w' c'
  | _, _ => 0
  end.

Lemma durations_list g N T d : describes g N T d ->
  d = map (fun i => nth (S i) (g_t g) 0 - nth i (g_t g) 0) (seq 0 N).
Proof.
  intros Hg. apply (nth_ext _ _ 0 0).
  - rewrite map_length, seq_length. apply Hg.
  - intros i Hi. assert (HiN : (i < N)%nat) by (destruct Hg as [<- _]; exact Hi).
    destruct (shot_times g N T d i Hg HiN) as (s & e & _ & _ & _ & _ & _ & E & -> & ->).
    rewrite E. set (f := fun i => nth (S i) (g_t g) 0 - nth i (g_t g) 0).
    rewrite (nth_indep (map f (seq 0 N)) 0 (f 0%nat)) by (rewrite map_length, seq_length; lia).
    rewrite map_nth, seq_nth by lia. reflexivity.
Qed.

Lemma zoh_weights g N T d : describes g N T d ->
  updatePhi ZERO_ORDER_HOLD g N = Ok (d ++ [0]).
Proof.
  intros Hg. unfold updatePhi.
  rewrite (collect_ok _ (fun i => nth (S i) (g_t g) 0 - nth i (g_t g) 0)).
  - cbn [obind]. now rewrite <- (durations_list g N T d Hg).
  - intros j Hj. destruct (shot_times g N T d j Hg) as (s & e & _ & _ & E & _ & _ & _ & -> & ->);
      [lia|exact E].
Qed.

Lemma durations_pos g N T d : describes g N T d -> List.Forall (fun x => 0 < x) d.
Proof.
  intros Hg. apply Forall_forall. intros x Hx. destruct (In_nth _ _ 0 Hx) as (i & Hi & <-).
  assert (HiN : (i < N)%nat) by (destruct Hg as [<- _]; exact Hi).
  destruct (shot_times g N T d i Hg HiN) as (s & e & _ & _ & _ & Hlt & _ & E & _). lra.
Qed.

(** A function on the grid is integrated piece by piece. *)
Lemma RInt_pieces (t : list R) (f : R -> R) (v : nat -> R) : forall N,
  (forall i, (i < N)%nat -> is_RInt f (nth i t 0) (nth (S i) t 0) (v i)) ->
  is_RInt f (nth 0 t 0) (nth N t 0) (fold_right Rplus 0 (map v (seq 0 N))).
Proof.
  induction N as [|N IH]; intros H.
  - simpl. apply (is_RInt_point (V := R_NormedModule)).
  - rewrite seq_S, map_app. cbn [map Nat.add].
    replace (fold_right Rplus 0 (map v (seq 0 N) ++ [v N])) with
      (plus (fold_right Rplus 0 (map v (seq 0 N))) (v N)).
    + apply (is_RInt_Chasles (V := R_NormedModule)) with (nth N t 0).
      * apply IH. intros i Hi. apply H. lia.
      * apply H. lia.
    + unfold plus; simpl. clear. induction (map v (seq 0 N)) as [|x l IH]; simpl; lra.
Qed.

(** Zero order hold: N+1 non-negative weights that sum to the end of the grid and integrate
    exactly every stage cost that is constant on each shot. *)
Theorem C50_zoh g N T d : describes g N T d ->
  exists phi, updatePhi ZERO_ORDER_HOLD g N = Ok phi /\ length phi = S N /\
    List.Forall (fun w => 0 <= w) phi /\
    getOptimizedTimeHorizon g = Ok (fold_right Rplus 0 phi) /\
    forall f c, length c = S N ->
      (forall i t, (i < N)%nat -> nth i (g_t g) 0 < t < nth (S i) (g_t g) 0 -> f t = nth i c 0) ->
      is_RInt f 0 (fold_right Rplus 0 phi) (weighted phi c).
Proof.
  intros Hg. exists (d ++ [0]). split; [now apply (zoh_weights g N T)|].
  assert (Hd : length d = N) by apply Hg.
  split; [rewrite app_length, Hd; simpl; lia|]. split; [|split].
  - apply Forall_app. split; [|repeat constructor; lra].
    eapply Forall_impl; [|apply (durations_pos g N T d Hg)]. intros; simpl in *; lra.
  - destruct Hg as (_ & _ & _ & _ & _ & Ho & _). rewrite Ho. f_equal.
    clear. induction d; simpl in *; lra.
  - intros f c Hc Hf.
    assert (Hend : fold_right Rplus 0 (d ++ [0]) = nth N (g_t g) 0).
    { destruct Hg as (_ & _ & _ & _ & _ & _ & (_ & _ & E & _)). rewrite E.
      clear. induction d; simpl in *; lra. }
    assert (Hstart : nth 0 (g_t g) 0 = 0).
    { destruct Hg as (_ & _ & _ & _ & _ & _ & (_ & E & _)). exact E. }
    rewrite Hend. rewrite <- Hstart at 1.
    assert (Hw : weighted (d ++ [0]) c =
      fold_right Rplus 0 (map (fun i => (nth (S i) (g_t g) 0 - nth i (g_t g) 0) * nth i c 0)
                            (seq 0 N))).
    { assert (G : forall d c k, length c = S (length d) -> 
        weighted (d ++ [0]) c = fold_right Rplus 0 (map (fun i => nth (i - k) d 0 * nth (i - k) c 0)
                            (seq k (length d)))).
      { clear. induction d as [|x d IH]; intros c k Hc.
        - destruct c; simpl; lra.
        - destruct c as [|y c]; [discriminate|]. simpl in Hc.
          cbn [app weighted length seq map fold_right]. rewrite Nat.sub_diag.
          cbn [nth]. f_equal. rewrite (IH c (S k)) by lia. f_equal. apply map_ext_in.
          intros i Hi. apply in_seq in Hi. replace (i - k)%nat with (S (i - S k)) by lia.
          reflexivity. }
      rewrite (G d c 0%nat) by lia. rewrite Hd. f_equal. apply map_ext_in. intros i Hi.
      apply in_seq in Hi. rewrite Nat.sub_0_r.
      destruct (shot_times g N T d i Hg) as (s & e & _ & _ & _ & _ & _ & E & -> & ->); [lia|].
      now rewrite E. }
    rewrite Hw. apply RInt_pieces. intros i Hi.
    destruct (shot_times g N T d i Hg Hi) as (s & e & _ & _ & _ & Hlt & _ & _ & Es & Ee).
    apply (is_RInt_ext (fun _ => nth i c 0)).
    + rewrite <- Es, <- Ee. rewrite Rmin_left, Rmax_right by lra. intros t Ht.
      symmetry. apply Hf; auto. rewrite <- Es, <- Ee. lra.
    + apply (is_RInt_const (V := R_NormedModule)).
Qed.

(** Finding: the weights of the piecewise linear case cannot be computed: the duration of shot N,
    which does not exist, is read past the end of the grid. *)
Theorem C50_linear_refuted g N T d : describes g N T d -> (1 <= N)%nat ->
  updatePhi PIECEWISE_LINEAR g N = UB.
Proof.
  intros Hg HN. unfold updatePhi, linearHead.
  destruct (shot_times g N T d 0 Hg) as (s & e & E1 & E2 & E3 & _); [lia|]. rewrite E3.
  cbn [obind].
  rewrite (collect_ok _ (fun i => 1 / 2 * (nth (S i) (g_t g) 0 - nth (i - 1) (g_t g) 0))).
  - cbn [obind]. destruct (C26_out_of_range N T d g Hg) as [_ ->]. reflexivity.
  - intros j Hj. destruct (shot_times g N T d j Hg) as (s1 & e1 & F1 & F2 & F3 & _ & _ & _ & _ & Fe);
      [lia|]. destruct (shot_times g N T d (j - 1) Hg) as (s2 & e2 & G1 & G2 & G3 & _ & _ & _ & Gs & _);
      [lia|]. rewrite F2, G1. cbn [obind]. subst. reflexivity.
Qed.

(** The other N weights of the piecewise linear case are the trapezoidal ones: completed by half
    the duration of the last shot they are positive, sum to the end of the grid and integrate
    exactly every stage cost that is linear on each shot.  Partial: the last weight is the one
    the code fails to compute. *)
Lemma trapezoid (t c : list R) : forall N, (1 <= N)%nat ->
  fold_right Rplus 0 (map (fun i => (nth (S i) t 0 - nth i t 0) * (nth i c 0 + nth (S i) c 0) / 2)
    (seq 0 N)) =
  (nth 1 t 0 - nth 0 t 0) / 2 * nth 0 c 0 +
  fold_right Rplus 0 (map (fun i => (nth (S i) t 0 - nth (i - 1) t 0) / 2 * nth i c 0)
    (seq 1 (N - 1))) + (nth N t 0 - nth (N - 1) t 0) / 2 * nth N c 0.
Proof.
  intros N HN. destruct N as [|N]; [lia|]. clear HN. rewrite Nat.sub_succ, Nat.sub_0_r.
  induction N as [|N IH].
  - simpl. lra.
  - rewrite seq_S, map_app, fold_right_app. 
    assert (F : forall l a, fold_right Rplus a l = fold_right Rplus 0 l + a).
    { clear. induction l; intros; simpl; [lra|]. rewrite IHl. lra. }
    rewrite F, IH, (seq_S N 1), map_app, fold_right_app, (F _ (fold_right _ _ _)).
    cbn [map fold_right Nat.add]. rewrite Nat.sub_succ, Nat.sub_0_r. field.
Qed.
Theorem C50_linear_partial g N T d : describes g N T d -> (1 <= N)%nat ->
  exists w, linearHead g N = Ok w /\ length w = N /\
    let phi := w ++ [nth (N - 1) d 0 / 2] in
    List.Forall (fun x => 0 < x) phi /\
    getOptimizedTimeHorizon g = Ok (fold_right Rplus 0 phi) /\
    forall f c, length c = S N ->
      (forall i t, (i < N)%nat -> nth i (g_t g) 0 < t < nth (S i) (g_t g) 0 ->
         f t = nth i c 0 + (nth (S i) c 0 - nth i c 0) *
               ((t - nth i (g_t g) 0) / (nth (S i) (g_t g) 0 - nth i (g_t g) 0))) ->
      is_RInt f 0 (fold_right Rplus 0 phi) (weighted phi c).
Proof.
  intros Hg HN. set (t := g_t g).
  set (w := (nth 1 t 0 - nth 0 t 0) / 2 ::
            map (fun i => (nth (S i) t 0 - nth (i - 1) t 0) / 2) (seq 1 (N - 1))).
  assert (Hinc : forall i, (i < N)%nat -> nth i t 0 < nth (S i) t 0 /\ 
                           nth i d 0 = nth (S i) t 0 - nth i t 0).
  { intros i Hi. destruct (shot_times g N T d i Hg Hi) as (s & e & _ & _ & _ & H & _ & E & -> & ->).
    split; auto. }
  assert (Hstart : nth 0 t 0 = 0).
  { destruct Hg as (_ & _ & _ & _ & _ & _ & (_ & E & _)). exact E. }
  assert (Hlast : nth (N - 1) d 0 = nth N t 0 - nth (N - 1) t 0).
  { destruct (Hinc (N - 1)%nat) as [_ E]; [lia|]. rewrite E. now replace (S (N - 1)) with N by lia. }
  assert (Hlen : length w = N).
  { unfold w. cbn [length]. rewrite map_length, seq_length. lia. }
  assert (Hw : forall c, length c = S N -> weighted (w ++ [nth (N - 1) d 0 / 2]) c =
    (nth 1 t 0 - nth 0 t 0) / 2 * nth 0 c 0 +
    fold_right Rplus 0 (map (fun i => (nth (S i) t 0 - nth (i - 1) t 0) / 2 * nth i c 0)
      (seq 1 (N - 1))) + (nth N t 0 - nth (N - 1) t 0) / 2 * nth N c 0).
  { intros c Hc. destruct c as [|c0 c]; [discriminate|]. unfold w.
    cbn [app weighted]. change (nth 0 (c0 :: c) 0) with c0. simpl in Hc.
    assert (G : forall k j c v, length c = S k ->
      weighted (map (fun i => (nth (S i) t 0 - nth (i - 1) t 0) / 2) (seq (S j) k) ++ [v]) c =
      fold_right Rplus 0 (map (fun i => (nth (S i) t 0 - nth (i - 1) t 0) / 2 * nth (i - S j) c 0)
        (seq (S j) k)) + v * nth k c 0).
    { clear. induction k as [|k IH]; intros j c v Hc; destruct c as [|y c]; try discriminate.
      - simpl. lra.
      - simpl in Hc. cbn [seq map app weighted fold_right]. rewrite (IH (S j) c v) by lia.
        rewrite Nat.sub_diag. cbn [nth].
        rewrite (map_ext_in _ (fun i => (nth (S i) t 0 - nth (i - 1) t 0) / 2 *
                                        nth (i - S j) (y :: c) 0) (seq (S (S j)) k)).
        + symmetry. apply Rplus_assoc.
        + intros i Hi. apply in_seq in Hi. replace (i - S j)%nat with (S (i - S (S j))) by lia.
          reflexivity. }
    rewrite (G (N - 1)%nat 0%nat c) by lia. rewrite Hlast.
    rewrite (map_ext_in _ (fun i => (nth (S i) t 0 - nth (i - 1) t 0) / 2 * nth i (c0 :: c) 0)
                        (seq 1 (N - 1))).
    - replace (nth N (c0 :: c) 0) with (nth (N - 1) c 0)
        by (replace N with (S (N - 1)) at 2 by lia; reflexivity).
      lra.
    - intros i Hi. apply in_seq in Hi. destruct i as [|i]; [lia|]. 
      rewrite Nat.sub_succ, Nat.sub_0_r. reflexivity. }
  assert (Hsum : fold_right Rplus 0 (w ++ [nth (N - 1) d 0 / 2]) = nth N t 0).
  { pose proof (Hw (repeat 1 (S N)) (repeat_length _ _)) as E.
    rewrite <- (trapezoid t (repeat 1 (S N)) N HN) in E.
    assert (H1 : forall i, (i <= N)%nat -> nth i (repeat 1 (S N)) 0 = 1).
    { intros i Hi. apply (repeat_spec (S N) 1). apply nth_In. rewrite repeat_length. lia. }
    assert (G : forall l k, (length l <= k)%nat -> weighted l (repeat 1 k) = fold_right Rplus 0 l).
    { clear. induction l as [|x l IH]; intros [|k] Hk; simpl in *; try lia; auto.
      rewrite IH by lia. lra. }
    rewrite G in E by (rewrite app_length, Hlen; simpl; lia). rewrite E.
    rewrite (map_ext_in _ (fun i => nth (S i) t 0 - nth i t 0)).
    - rewrite telescope by (unfold t; destruct Hg as (_ & _ & _ & _ & _ & _ & (L & _)); lia).
      lra.
    - intros i Hi. apply in_seq in Hi. rewrite !H1 by lia. lra. }
  exists w. split; [|split; [exact Hlen|]].
  - unfold linearHead.
    destruct (shot_times g N T d 0 Hg) as (s & e & E1 & E2 & E3 & _ & _ & _ & Es & Ee); [lia|].
    rewrite E3. cbn [obind].
    rewrite (collect_ok _ (fun i => (nth (S i) t 0 - nth (i - 1) t 0) / 2)).
    + cbn [obind]. unfold w. subst s e. fold t. do 2 f_equal. field.
    + intros j Hj. destruct (shot_times g N T d j Hg) as (s1 & e1 & F1 & F2 & F3 & _ & _ & _ & _ & Fe);
      [lia|]. destruct (shot_times g N T d (j - 1) Hg) as (s2 & e2 & G1 & G2 & G3 & _ & _ & _ & Gs & _);
      [lia|]. rewrite F2, G1. cbn [obind]. rewrite Fe, Gs. fold t. f_equal. field.
  - intros phi. split; [|split].
    + unfold phi. apply Forall_app. split.
      * unfold w. constructor.
        -- destruct (Hinc 0%nat) as [H _]; [lia|]. lra.
        -- apply Forall_forall. intros x Hx. apply in_map_iff in Hx.
           destruct Hx as (i & <- & Hi). apply in_seq in Hi.
           destruct (Hinc i) as [H1 _]; [lia|]. destruct (Hinc (i - 1)%nat) as [H2 _]; [lia|].
           replace (S (i - 1)) with i in H2 by lia. lra.
      * constructor; [|constructor]. rewrite Hlast.
        destruct (Hinc (N - 1)%nat) as [H2 _]; [lia|].
        replace (S (N - 1)) with N in H2 by lia. lra.
    + unfold phi. rewrite Hsum. destruct Hg as (_ & _ & _ & _ & _ & Ho & (_ & _ & E & _)).
      rewrite Ho. f_equal. symmetry. exact E.
    + intros f c Hc Hf. unfold phi. rewrite Hsum, (Hw c Hc), <- (trapezoid t c N HN).
      rewrite <- Hstart at 1. apply RInt_pieces. intros i Hi.
      destruct (Hinc i Hi) as [Hlt _].
      set (a := nth i t 0) in *. set (b := nth (S i) t 0) in *.
      set (y := nth i c 0) in *. set (z := nth (S i) c 0) in *.
      apply (is_RInt_ext (fun x => y + (z - y) * ((x - a) / (b - a)))).
      * rewrite Rmin_left, Rmax_right by lra. intros x Hx. symmetry. apply Hf; auto.
      * replace ((b - a) * (y + z) / 2) with
          (minus ((fun x => y * x + (z - y) * ((x - a) * (x - a) / (2 * (b - a)))) b)
                 ((fun x => y * x + (z - y) * ((x - a) * (x - a) / (2 * (b - a)))) a)).
        -- apply (is_RInt_derive (V := R_CompleteNormedModule)
             (fun x => y * x + (z - y) * ((x - a) * (x - a) / (2 * (b - a))))).
           ++ intros x _. auto_derive; [auto|]. field. lra.
           ++ intros x _. apply (ex_derive_continuous (V := R_NormedModule)).
              auto_derive. lra.
        -- unfold minus, plus, opp; simpl. field. lra.
Qed.

(** Finding: the weights are computed once, in the constructor.  After the horizon is changed
    (which is what constructing a solver does whenever the problem's horizon differs from the
    one in the settings) they still sum to the old horizon. *)
Theorem C50_stale_weights_refuted N T T' : (1 <= N)%nat -> 0 < T -> 0 < T' -> T <> T' ->
  exists g g' phi, rNewGrid N T = Ok g /\ updatePhi ZERO_ORDER_HOLD g N = Ok phi /\
    rChangeTimeHorizon T' g = Ok g' /\
    getOptimizedTimeHorizon g' <> Ok (fold_right Rplus 0 phi).
Proof.
  intros HN HT HT' Hne.
  destruct (C26_history N T [GHorizon T'] HN HT) as (g & g' & E & Er & D); [simpl; auto|].
  destruct (C26_history N T [] HN HT I) as (g1 & g2 & E1 & Er1 & D1).
  rewrite E in E1. inversion E1; subst g1. simpl in Er1. inversion Er1; subst g2.
  cbn [meaning fold_left] in D1. change (describes g N T (equal_shots N T)) in D1.
  cbn in D. 
  destruct (C50_zoh g N T _ D1) as (phi & Ep & _ & _ & Eh & _).
  exists g, g', phi. split; [exact E|]. split; [exact Ep|]. split.
  - cbn [grun gstep] in Er. destruct (rChangeTimeHorizon T' g); cbn [obind] in Er; congruence.
  - assert (Hs : forall T, fold_right Rplus 0 (equal_shots N T) = T).
    { intros X. unfold equal_shots.
      assert (G : forall k, fold_right Rplus 0 (repeat (X / INR N) k) = INR k * (X / INR N)).
      { induction k as [|k IH]; [simpl; lra|]. cbn [repeat fold_right]. rewrite IH, S_INR. lra. }
      rewrite G. field. apply not_0_INR. lia. }
    destruct D as (_ & _ & _ & _ & _ & Ho & _). rewrite Ho, Hs.
    destruct D1 as (_ & _ & _ & _ & _ & Ho1 & _). rewrite Ho1, Hs in Eh.
    intros C. inversion C. inversion Eh. lra.
Qed.

(** What the evaluator returns: the weighted stage costs at the nodes, plus the terminal cost of
    the last state with a zero control at time 0. *)
Lemma evalLoop_spec n m cost N T d phi l g0 o g : holds n m N l g0 o -> describes g N T d ->
  length phi = S N -> forall k i acc, (i + k <= N + 1)%nat ->
  evalLoop n m cost phi o g i k acc =
  Ok (acc + fold_right Rplus 0 (map (fun j => nth j phi 0 *
        c_val cost (fst (nth j l dflt)) (snd (nth j l dflt)) (nth j (g_t g) 0)) (seq i k))).
Proof.
  intros Ho Hg Hp. induction k as [|k IH]; intros i acc Hi; cbn [evalLoop seq map fold_right].
  - f_equal. lra.
  - rewrite (holds_get_state n m N l g0 o i Ho) by lia. cbn [obind].
    rewrite (holds_get_control n m N l g0 o i Ho) by lia. cbn [obind].
    unfold getShotStartTime.
    rewrite (vec_get_nth (g_t g) _ 0)
      by (destruct Hg as (_ & _ & _ & _ & _ & _ & (L & _)); lia).
    cbn [obind]. rewrite (vec_get_nth phi _ 0) by lia. cbn [obind].
    rewrite IH by lia. f_equal. lra.
Qed.
Theorem C50_value n m cost N T d l g0 o g : holds n m N l g0 o -> describes g N T d ->
  exists phi, updatePhi ZERO_ORDER_HOLD g N = Ok phi /\
    simpleEval n m cost phi o g N =
    Ok (fold_right Rplus 0 (map (fun i => nth i d 0 *
          c_val cost (fst (nth i l dflt)) (snd (nth i l dflt)) (nth i (g_t g) 0)) (seq 0 N)) +
        c_fin cost (fst (nth N l dflt)) (repeat 0 m) 0).
Proof.
  intros Ho Hg. exists (d ++ [0]). split; [now apply (zoh_weights g N T)|].
  assert (Hd : length d = N) by apply Hg.
  unfold simpleEval. rewrite (evalLoop_spec n m cost N T d _ l g0 o g Ho Hg)
    by (rewrite ?app_length, ?Hd; simpl; lia).
  cbn [obind]. rewrite (holds_get_state n m N l g0 o N Ho) by lia. cbn [obind]. f_equal.
  rewrite Nat.add_1_r, seq_S, map_app, fold_right_app. cbn [map fold_right Nat.add].
  rewrite app_nth2, Hd, Nat.sub_diag by lia. cbn [nth].
  rewrite Rmult_0_l, Rplus_0_r.
  rewrite (map_ext_in _ (fun i => nth i d 0 *
      c_val cost (fst (nth i l dflt)) (snd (nth i l dflt)) (nth i (g_t g) 0))).
  - lra.
  - intros i Hi. apply in_seq in Hi. now rewrite app_nth1 by lia.
Qed.

(** ** C60: the gradient *)

(** The derivatives the cost function reports are its partial derivatives. *)
Definition cost_derivatives (n m : nat) (c : costfun) : Prop :=
  forall x u t, length x = n -> length u = m ->
  length (c_dx c x u t) = n /\ length (c_du c x u t) = m /\ length (c_fin_dx c x u t) = n /\
  (forall j, (j < n)%nat ->
     is_derive (fun z => c_val c (replace j z x) u t) (nth j x 0) (nth j (c_dx c x u t) 0)) /\
  (forall j, (j < m)%nat ->
     is_derive (fun z => c_val c x (replace j z u) t) (nth j u 0) (nth j (c_du c x u t) 0)) /\
  (forall j, (j < n)%nat ->
     is_derive (fun z => c_fin c (replace j z x) u t) (nth j x 0) (nth j (c_fin_dx c x u t) 0)).

Lemma vadd_nth a : forall b, length a = length b ->
  forall j, nth j (vadd a b) 0 = nth j a 0 + nth j b 0.
Proof.
  unfold vadd. induction a as [|x a IH]; intros [|y b] H j; simpl in *; try discriminate.
  - destruct j; lra.
  - destruct j; [reflexivity|]. apply IH. lia.
Qed.
Lemma vadd_length a b : length a = length b -> length (vadd a b) = length a.
Proof. intros H. unfold vadd. rewrite map_length, combine_length. lia. Qed.
Lemma vscale_nth c a : forall j, nth j (vscale c a) 0 = c * nth j a 0.
Proof. induction a as [|x a IH]; intros [|j]; simpl; try lra. apply IH. Qed.
Lemma vscale_length c a : length (vscale c a) = length a.
Proof. apply map_length. Qed.
Lemma vadd_zero v : vadd (repeat 0 (length v)) v = v.
Proof. induction v as [|x v IH]; [reflexivity|]. unfold vadd in *. simpl. f_equal; [lra|auto]. Qed.

Lemma add_state n m (G : list node) i v : (forall p, In p G -> length (fst p) = n /\ length (snd p) = m) ->
  (i < length G)%nat -> length v = n ->
  addSegment (i * (n + m)) v (flatten G) =
  Ok (flatten (replace i (vadd (fst (nth i G dflt)) v, snd (nth i G dflt)) G)).
Proof.
  intros Hd Hi Hv. unfold addSegment. rewrite Hv, (node_state n m) by auto. cbn [obind].
  apply set_node_state; auto.
  assert (length (fst (nth i G dflt)) = n) by (apply Hd, nth_In; auto).
  rewrite vadd_length; lia.
Qed.
Lemma add_control n m (G : list node) i v : (forall p, In p G -> length (fst p) = n /\ length (snd p) = m) ->
  (i < length G)%nat -> length v = m ->
  addSegment (i * (n + m) + n) v (flatten G) =
  Ok (flatten (replace i (fst (nth i G dflt), vadd (snd (nth i G dflt)) v) G)).
Proof.
  intros Hd Hi Hv. unfold addSegment. rewrite Hv, (node_control n m) by auto. cbn [obind].
  apply set_node_control; auto.
  assert (length (snd (nth i G dflt)) = m) by (apply Hd, nth_In; auto).
  rewrite vadd_length; lia.
Qed.

Definition gradNode (cost : costfun) (phi : list R) (l : list node) (g : grid R) (j : nat) : node :=
  let p := nth j phi 0 in let x := fst (nth j l dflt) in let u := snd (nth j l dflt) in
  let t := nth j (g_t g) 0 in (vscale p (c_dx cost x u t), vscale p (c_du cost x u t)).

Lemma gradLoop_spec n m cost N T d phi l g0 o g : holds n m N l g0 o -> describes g N T d ->
  length phi = S N -> cost_derivatives n m cost -> forall k i G, (i + k <= N + 1)%nat ->
  nodes_ok n m N G ->
  (forall j, (i <= j < i + k)%nat -> nth j G dflt = (repeat 0 n, repeat 0 m)) ->
  exists G', gradLoop n m cost phi o g i k (flatten G) = Ok (flatten G') /\ nodes_ok n m N G' /\
    forall j, nth j G' dflt =
      if ((i <=? j) && (j <? i + k))%nat then gradNode cost phi l g j else nth j G dflt.
Proof.
  intros Ho Hg Hp Hc. induction k as [|k IH]; intros i G Hi HG Hz.
  - exists G. split; [reflexivity|]. split; [exact HG|]. intros j.
    replace ((i <=? j) && (j <? i + 0))%nat with false; [reflexivity|].
    symmetry. apply andb_false_iff. rewrite Nat.leb_gt, Nat.ltb_ge. lia.
  - assert (Hl : nodes_ok n m N l) by apply Ho. destruct Hl as [Ll Dl].
    destruct HG as [LG DG].
    assert (Hx : length (fst (nth i l dflt)) = n) by (apply Dl, nth_In; lia).
    assert (Hu : length (snd (nth i l dflt)) = m) by (apply Dl, nth_In; lia).
    destruct (Hc _ _ (nth i (g_t g) 0) Hx Hu) as (L1 & L2 & _).
    cbn [gradLoop]. rewrite (holds_get_state n m N l g0 o i Ho) by lia. cbn [obind].
    rewrite (holds_get_control n m N l g0 o i Ho) by lia. cbn [obind].
    unfold getShotStartTime at 1.
    rewrite (vec_get_nth (g_t g) _ 0)
      by (destruct Hg as (_ & _ & _ & _ & _ & _ & (L & _)); lia).
    cbn [obind]. rewrite (vec_get_nth phi _ 0) by lia. cbn [obind].
    rewrite (holds_state_index n m N l g0 o i Ho), (holds_control_index n m N l g0 o i Ho).
    replace (i <=? N)%nat with true by (symmetry; apply Nat.leb_le; lia). cbn [obind].
    rewrite (add_state n m G i); [|exact DG|unfold node in *; lia|now rewrite vscale_length].
    cbn [obind]. match goal with |- context [flatten ?X] => set (G1 := X) end.
    assert (HGi : nth i G dflt = (repeat 0 n, repeat 0 m)) by (apply Hz; lia).
    assert (LG1 : length G1 = S N) by (unfold G1; rewrite replace_length; exact LG).
    assert (DG1 : forall p, In p G1 -> length (fst p) = n /\ length (snd p) = m).
    { apply (dims_replace n m); auto; cbn [fst snd]; rewrite HGi; cbn [fst snd].
      - rewrite vadd_length, repeat_length; auto. now rewrite repeat_length, vscale_length.
      - apply repeat_length. }
    rewrite (add_control n m G1 i); [|exact DG1|unfold node in *; lia|now rewrite vscale_length].
    cbn [obind]. match goal with |- context [flatten ?X] => set (G2 := X) end.
    assert (HG2 : G2 = replace i (gradNode cost phi l g i) G).
    { unfold G2, G1. rewrite replace_nth by lia. rewrite Nat.eqb_refl, replace_replace.
      f_equal. rewrite HGi. cbn [fst snd]. unfold gradNode. f_equal.
      - rewrite <- (vadd_zero (vscale _ _)) at 2. now rewrite vscale_length, L1.
      - rewrite <- (vadd_zero (vscale _ _)) at 2. now rewrite vscale_length, L2. }
    destruct (IH (S i) G2) as (G' & E & HG' & Hn); try lia.
    + rewrite HG2. split; [now rewrite replace_length|]. apply (dims_replace n m); auto;
        unfold gradNode; cbn [fst snd]; now rewrite vscale_length.
    + intros j Hj. rewrite HG2, replace_nth by lia.
      replace (j =? i)%nat with false by (symmetry; apply Nat.eqb_neq; lia). apply Hz. lia.
    + exists G'. split; [exact E|]. split; [exact HG'|]. intros j. rewrite Hn, HG2.
      rewrite replace_nth by lia.
      destruct (Nat.leb_spec (S i) j), (Nat.leb_spec i j), (Nat.ltb_spec j (S i + k)),
        (Nat.ltb_spec j (i + S k)), (Nat.eqb_spec j i); cbn [andb]; subst; auto; lia.
Qed.

(** One summand depends on z. *)
Lemma derive_one (f : nat -> R -> R) i x D : is_derive (f i) x D -> forall K k,
  (forall j z, j <> i -> f j z = f j x) -> (k <= i < k + K)%nat ->
  is_derive (fun z => fold_right Rplus 0 (map (fun j => f j z) (seq k K))) x D.
Proof.
  intros Hi K k Hc Hk.
  apply (is_derive_ext (fun z => fold_right Rplus 0 (map (fun j => f j x) (seq k K)) - f i x + f i z)).
  - intros z. revert k Hk.
    assert (G : forall K k, ~ (k <= i < k + K)%nat ->
      fold_right Rplus 0 (map (fun j => f j x) (seq k K)) =
      fold_right Rplus 0 (map (fun j => f j z) (seq k K))).
    { clear - Hc. intros K k H. f_equal. apply map_ext_in. intros j Hj. apply in_seq in Hj.
      symmetry. apply Hc. lia. }
    induction K as [|K IH]; intros k Hk; [lia|]. cbn [seq map fold_right].
    destruct (Nat.eq_dec k i) as [->|Hne].
    + rewrite (G K (S i)) by lia. apply Rplus_eq_reg_r with 0. 
      change ((f i x + fold_right Rplus 0 (map (fun j => f j z) (seq (S i) K)) - f i x + f i z) + 0 =
        f i z + fold_right Rplus 0 (map (fun j => f j z) (seq (S i) K)) + 0). ring.
    + specialize (IH (S k) ltac:(lia)). rewrite <- IH, (Hc k z Hne).
      match goal with |- ?a = ?b => change (a = b :> R) end. ring.
  - auto_derive.
    + eexists; exact Hi.
    + pose proof (is_derive_unique (f i) x D Hi) as E.
      change (Derive (fun y => f i y) x = D) in E. rewrite E. ring.
Qed.

Lemma replace_app_r {A} (a b : list A) (v : A) : forall j,
  replace (length a + j) v (a ++ b) = a ++ replace j v b.
Proof. induction a as [|x a IH]; intros j; simpl; [reflexivity|]. now rewrite IH. Qed.
Lemma replace_app_l {A} (a b : list A) (v : A) : forall j, (j < length a)%nat ->
  replace j v (a ++ b) = replace j v a ++ b.
Proof.
  induction a as [|x a IH]; intros [|j] H; simpl in *; try lia; auto. now rewrite IH by lia.
Qed.

Lemma flatten_component n m (l : list node) i : (forall p, In p l -> length (fst p) = n /\ length (snd p) = m) ->
  (i < length l)%nat ->
  (forall j, (j < n)%nat ->
     nth (i * (n + m) + j) (flatten l) 0 = nth j (fst (nth i l dflt)) 0 /\
     forall z, replace (i * (n + m) + j) z (flatten l) =
       flatten (replace i (replace j z (fst (nth i l dflt)), snd (nth i l dflt)) l)) /\
  (forall j, (j < m)%nat ->
     nth (i * (n + m) + (n + j)) (flatten l) 0 = nth j (snd (nth i l dflt)) 0 /\
     forall z, replace (i * (n + m) + (n + j)) z (flatten l) =
       flatten (replace i (fst (nth i l dflt), replace j z (snd (nth i l dflt))) l)).
Proof.
  intros Hd Hi. destruct (node_split n m l i Hd Hi) as (a & b & E & La & L1 & L2 & Hr).
  split; intros j Hj; (split; [|intros z; rewrite Hr; cbn [fst snd]]); rewrite E, <- La.
  - rewrite app_nth2_plus, app_nth1 by lia. reflexivity.
  - rewrite replace_app_r, replace_app_l by lia. reflexivity.
  - rewrite app_nth2_plus. rewrite <- L1 at 1. rewrite app_nth2_plus, app_nth1 by lia. reflexivity.
  - rewrite replace_app_r. rewrite <- L1 at 1. rewrite replace_app_r, replace_app_l by lia.
    reflexivity.
Qed.

Lemma holds_withX n m N l l' g o : holds n m N l g o -> nodes_ok n m N l' ->
  holds n m N l' g (withX (flatten l') o).
Proof.
  intros (H1 & H2 & H3 & H4 & H5 & H6 & H7 & H8) H. unfold holds, withX; simpl.
  exact (conj eq_refl (conj H2 (conj H3 (conj H4 (conj H5 (conj H6 (conj H H8))))))).
Qed.

(** For every cost function that reports its own derivatives, every decision vector, grid and
    weights: the gradient has one entry per decision variable, and entry k is the derivative of
    the evaluated cost with respect to variable k. *)
Theorem C60_gradient n m cost N T d phi l g0 o g : holds n m N l g0 o -> describes g N T d ->
  length phi = S N -> cost_derivatives n m cost ->
  exists grad, simpleGradient n m cost phi o g N ((N + 1) * (n + m)) = Ok grad /\
    length grad = ((N + 1) * (n + m))%nat /\
    forall k, (k < (N + 1) * (n + m))%nat ->
      exists F, (forall z, simpleEval n m cost phi (withX (replace k z (o_x o)) o) g N = Ok (F z)) /\
                is_derive F (nth k (o_x o) 0) (nth k grad 0).
Proof.
  intros Ho Hg Hp Hc.
  assert (Hl : nodes_ok n m N l) by apply Ho. assert (Hox : o_x o = flatten l) by apply Ho.
  set (Z := repeat (repeat 0 n, repeat 0 m) (N + 1) : list node).
  assert (HZ : flatten Z = repeat 0 ((N + 1) * (n + m))).
  { unfold Z. generalize (N + 1)%nat as k. induction k as [|k IH]; [reflexivity|].
    cbn [repeat]. rewrite flatten_cons, IH. cbn [fst snd].
    rewrite app_assoc, <- !repeat_app. reflexivity. }
  assert (HZn : forall j, (j < N + 1)%nat -> nth j Z dflt = (repeat 0 n, repeat 0 m)).
  { intros j Hj. apply (repeat_spec (N + 1)). apply nth_In. unfold Z. now rewrite repeat_length. }
  assert (HZok : nodes_ok n m N Z).
  { split; [unfold Z; rewrite repeat_length; lia|]. intros p Hpz. apply repeat_spec in Hpz.
    subst p. cbn [fst snd]. now rewrite !repeat_length. }
  destruct (gradLoop_spec n m cost N T d phi l g0 o g Ho Hg Hp Hc (N + 1) 0 Z)
    as (G & EG & [LG DG] & HG); auto; try lia.
  { intros j Hj. apply HZn. lia. }
  destruct Hl as [Ll Dl].
  assert (Hdim : forall i, (i <= N)%nat -> length (fst (nth i l dflt)) = n /\
                                   length (snd (nth i l dflt)) = m).
  { intros i Hi. apply Dl, nth_In. lia. }
  destruct (Hdim N (le_n _)) as [HxN _].
  destruct (Hc _ (repeat 0 m) 0 HxN (repeat_length _ _)) as (_ & _ & LF & _ & _ & DF).
  set (gf := c_fin_dx cost (fst (nth N l dflt)) (repeat 0 m) 0) in *.
  assert (Hgn : forall i, (i <= N)%nat -> nth i G dflt = gradNode cost phi l g i).
  { intros i Hi. rewrite HG. cbn [Nat.leb andb].
    now replace (i <? 0 + (N + 1))%nat with true by (symmetry; apply Nat.ltb_lt; lia). }
  set (vN := (vadd (fst (nth N G dflt)) gf, snd (nth N G dflt)) : node).
  set (G' := replace N vN G).
  exists (flatten G').
  assert (LGN : length (fst (nth N G dflt)) = n /\ length (snd (nth N G dflt)) = m)
    by (apply DG, nth_In; lia).
  assert (DG' : forall p, In p G' -> length (fst p) = n /\ length (snd p) = m).
  { apply (dims_replace n m); auto; unfold vN; cbn [fst snd]; [rewrite vadd_length|]; lia. }
  assert (LG' : length G' = S N) by (unfold G'; now rewrite replace_length).
  split; [|split].
  - unfold simpleGradient. rewrite <- HZ, EG. cbn [obind].
    rewrite (holds_get_state n m N l g0 o N Ho) by lia. cbn [obind].
    rewrite (holds_state_index n m N l g0 o N Ho), Nat.leb_refl. cbn [obind].
    apply add_state; auto. lia.
  - refine (eq_trans (flatten_length n m G' DG') _).
    refine (eq_trans (f_equal (fun z => (z * (n + m))%nat) LG') _). lia.
  - intros k Hk.
    assert (Heval : forall l', nodes_ok n m N l' ->
      simpleEval n m cost phi (withX (flatten l') o) g N =
      Ok (fold_right Rplus 0 (map (fun j => nth j phi 0 *
        c_val cost (fst (nth j l' dflt)) (snd (nth j l' dflt)) (nth j (g_t g) 0)) (seq 0 (N + 1))) +
        c_fin cost (fst (nth N l' dflt)) (repeat 0 m) 0)).
    { intros l' Hl'. pose proof (holds_withX n m N l l' g0 o Ho Hl') as Ho'.
      unfold simpleEval. rewrite (evalLoop_spec n m cost N T d phi l' g0 _ g Ho' Hg Hp) by lia.
      cbn [obind]. rewrite (holds_get_state n m N l' g0 _ N Ho') by lia. cbn [obind].
      f_equal. lra. }
    assert (Hnm : (n + m <> 0)%nat) by (intros E; rewrite E in Hk; lia).
    pose proof (Nat.div_mod k (n + m) Hnm) as Ed. rewrite Nat.mul_comm in Ed.
    pose proof (Nat.mod_upper_bound k (n + m) Hnm) as Em.
    assert (Hi : (k / (n + m) <= N)%nat).
    { assert (k / (n + m) < N + 1)%nat by (apply Nat.div_lt_upper_bound; lia). lia. }
    set (i := (k / (n + m))%nat) in *. set (r := (k mod (n + m))%nat) in *. clearbody i r.
    destruct (Hdim i Hi) as [Hx Hu].
    destruct (Hc _ _ (nth i (g_t g) 0) Hx Hu) as (L1 & L2 & _ & DX & DU & _).
    destruct (flatten_component n m l i Dl) as [CX CU]; [lia|].
    destruct (flatten_component n m G' i DG') as [GX GU]; [lia|].
    assert (HG'i : nth i G' dflt = if (i =? N)%nat
       then (vadd (fst (nth N G dflt)) gf, snd (nth N G dflt)) else gradNode cost phi l g i).
    { unfold G'. rewrite replace_nth by lia. destruct (Nat.eqb_spec i N); auto. }
    destruct (Nat.lt_ge_cases r n) as [Hr|Hr].
    + subst k. destruct (CX r Hr) as [C1 C2]. destruct (GX r Hr) as [G1 _].
      rewrite G1, Hox, C1.
      set (ln := fun z => replace i (replace r z (fst (nth i l dflt)), snd (nth i l dflt)) l : list node).
      assert (Hln : forall z, nodes_ok n m N (ln z)).
      { intros z. split; [unfold ln; rewrite replace_length; exact Ll|].
        apply (dims_replace n m); auto. cbn [fst]. now rewrite replace_length. }
      eexists. split.
      * intros z. rewrite C2. apply (Heval (ln z) (Hln z)).
      * assert (Hn : forall j z, nth j (ln z) dflt = if (j =? i)%nat then
            (replace r z (fst (nth i l dflt)), snd (nth i l dflt)) else nth j l dflt).
        { intros j z. unfold ln. rewrite replace_nth by lia. reflexivity. }
        assert (Hsum : is_derive (fun z => fold_right Rplus 0 (map (fun j => nth j phi 0 *
             c_val cost (fst (nth j (ln z) dflt)) (snd (nth j (ln z) dflt)) (nth j (g_t g) 0))
             (seq 0 (N + 1)))) (nth r (fst (nth i l dflt)) 0)
             (nth r (fst (gradNode cost phi l g i)) 0)).
        { apply (derive_one (fun j z => nth j phi 0 *
             c_val cost (fst (nth j (ln z) dflt)) (snd (nth j (ln z) dflt)) (nth j (g_t g) 0)) i).
          - unfold gradNode. cbn [fst]. rewrite vscale_nth.
            apply (is_derive_ext (fun z => nth i phi 0 *
              c_val cost (replace r z (fst (nth i l dflt))) (snd (nth i l dflt)) (nth i (g_t g) 0))).
            + intros z. rewrite Hn, Nat.eqb_refl. reflexivity.
            + apply is_derive_scal. apply DX. exact Hr.
          - intros j z Hj. rewrite !Hn.
            replace (j =? i)%nat with false by (symmetry; apply Nat.eqb_neq; auto). reflexivity.
          - lia. }
        destruct (Nat.eqb_spec i N) as [->|HiN].
        -- rewrite HG'i. cbn [fst]. rewrite vadd_nth by lia. rewrite (Hgn N (le_n _)).
           apply (is_derive_plus (V := R_NormedModule)); [exact Hsum|].
           apply (is_derive_ext (fun z => c_fin cost (replace r z (fst (nth N l dflt))) (repeat 0 m) 0)).
           ++ intros z. now rewrite Hn, Nat.eqb_refl.
           ++ apply DF. exact Hr.
        -- rewrite HG'i.
           replace (nth r (fst (gradNode cost phi l g i)) 0) with
             (plus (nth r (fst (gradNode cost phi l g i)) 0) 0) by (unfold plus; simpl; lra).
           apply (is_derive_plus (V := R_NormedModule)); [exact Hsum|].
           apply (is_derive_ext (fun _ => c_fin cost (fst (nth N l dflt)) (repeat 0 m) 0)).
           ++ intros z. rewrite Hn.
              replace (N =? i)%nat with false by (symmetry; apply Nat.eqb_neq; auto). reflexivity.
           ++ apply (is_derive_const (V := R_NormedModule)).
    + set (j0 := (r - n)%nat). assert (Hj0 : (j0 < m)%nat) by (unfold j0; lia).
      replace k with (i * (n + m) + (n + j0))%nat by (unfold j0; lia).
      destruct (CU j0 Hj0) as [C1 C2]. destruct (GU j0 Hj0) as [G1 _].
      rewrite G1, Hox, C1.
      set (ln := fun z => replace i (fst (nth i l dflt), replace j0 z (snd (nth i l dflt))) l : list node).
      assert (Hln : forall z, nodes_ok n m N (ln z)).
      { intros z. split; [unfold ln; rewrite replace_length; exact Ll|].
        apply (dims_replace n m); auto. cbn [snd]. now rewrite replace_length. }
      eexists. split.
      * intros z. rewrite C2. apply (Heval (ln z) (Hln z)).
      * assert (Hn : forall j z, nth j (ln z) dflt = if (j =? i)%nat then
            (fst (nth i l dflt), replace j0 z (snd (nth i l dflt))) else nth j l dflt).
        { intros j z. unfold ln. rewrite replace_nth by lia. reflexivity. }
        replace (nth j0 (snd (nth i G' dflt)) 0) with
          (plus (nth j0 (snd (gradNode cost phi l g i)) 0) 0).
        2:{ rewrite HG'i. transitivity (nth j0 (snd (gradNode cost phi l g i)) 0);
              [apply Rplus_0_r|].
            destruct (Nat.eqb_spec i N) as [->|HiN]; [|reflexivity].
            unfold vN. cbn [snd]. now rewrite (Hgn N (le_n _)). }
        apply (is_derive_plus (V := R_NormedModule)).
        -- apply (derive_one (fun j z => nth j phi 0 *
             c_val cost (fst (nth j (ln z) dflt)) (snd (nth j (ln z) dflt)) (nth j (g_t g) 0)) i).
          ++ unfold gradNode. cbn [snd]. rewrite vscale_nth.
            apply (is_derive_ext (fun z => nth i phi 0 *
              c_val cost (fst (nth i l dflt)) (replace j0 z (snd (nth i l dflt))) (nth i (g_t g) 0))).
            ** intros z. rewrite Hn, Nat.eqb_refl. reflexivity.
            ** apply is_derive_scal. apply DU. exact Hj0.
          ++ intros j z Hj. rewrite !Hn.
            replace (j =? i)%nat with false by (symmetry; apply Nat.eqb_neq; auto). reflexivity.
          ++ lia.
        -- apply (is_derive_ext (fun _ => c_fin cost (fst (nth N l dflt)) (repeat 0 m) 0)).
           ++ intros z. rewrite Hn. destruct (Nat.eqb_spec N i) as [->|]; reflexivity.
           ++ apply (is_derive_const (V := R_NormedModule)).
Qed.

(** A cost function satisfying the hypothesis. *)
Example C60_example : cost_derivatives 1 1
  (mkCost (fun x u t => nth 0 x 0 * nth 0 x 0 + nth 0 u 0 * nth 0 u 0 + t)
          (fun x u t => [2 * nth 0 x 0]) (fun x u t => [2 * nth 0 u 0])
          (fun x u t => 3 * nth 0 x 0) (fun x u t => [3])).
Proof.
  intros x u t Hx Hu. destruct x as [|x [|]]; try discriminate.
  destruct u as [|u [|]]; try discriminate. cbn [c_val c_dx c_du c_fin c_fin_dx].
  do 3 (split; [reflexivity|]).
  split; [|split]; intros [|j] Hj; try lia; cbn [replace nth]; auto_derive; auto; lra.
Qed.

Print Assumptions C28_linear_interpolates.
Print Assumptions C28_zoh_holds.
Print Assumptions C28_derivative_time.
Print Assumptions C28_derivative_node.
Print Assumptions C28_derivative_next_node.
Print Assumptions C28_derivative_duration.
Print Assumptions C28_linear_last_node_refuted.
Print Assumptions C50_zoh.
Print Assumptions C50_linear_refuted.
Print Assumptions C50_linear_partial.
Print Assumptions C50_stale_weights_refuted.
Print Assumptions C50_value.
Print Assumptions C60_gradient.
