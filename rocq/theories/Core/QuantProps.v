(** C98: quantised measurements. *)
From Coq Require Import Reals List ZArith Lra Lia.
From Verif Require Import Base.Outcome Core.QuantModel.
Import ListNotations.
Local Open Scope R_scope.

Definition sumR (l : list R) : R := fold_right Rplus 0 l.
(** Every output is a whole number of intervals from the bias. *)
Definition onGrid (q b y : R) : Prop := exists k : Z, y = IZR k * q + b.
(** Range of the rest that a method leaves. *)
Definition within (h : method) (q r : R) : Prop := match h with FLOOR => 0 <= r < q | ROUND => - q / 2 <= r <= q / 2 end.
(** Measurements small enough for 32 bit counts. *)
Definition representable (q v : R) : Prop := Rabs v <= (2 ^ 31 - 3) * q.

Lemma floor_spec x : IZR (Int_part x) <= x < IZR (Int_part x) + 1.
Proof. pose proof (base_Int_part x). lra. Qed.
Lemma cround_spec x : IZR (cround x) - /2 <= x <= IZR (cround x) + /2.
Proof.
  unfold cround. destruct (Rle_dec 0 x).
  - pose proof (floor_spec (x + /2)). lra.
  - pose proof (floor_spec (- x + /2)). rewrite opp_IZR. lra.
Qed.
Lemma range_int (k : Z) (x : R) : Rabs x <= 2 ^ 31 - 2 -> IZR k - 1 <= x -> x <= IZR k + 1 -> int_range k = true.
Proof.
  intros A H1 H2. assert (P : (2 ^ 31)%R = IZR (2 ^ 31)%Z) by exact (pow_IZR 2 31).
  assert (B : - (2 ^ 31 - 2) <= x <= 2 ^ 31 - 2) by (unfold Rabs in A; destruct (Rcase_abs x); lra).
  unfold int_range. apply andb_true_intro. rewrite P in B. split; [apply Z.leb_le|apply Z.ltb_lt].
  - apply le_IZR. rewrite opp_IZR. lra.
  - apply lt_IZR. lra.
Qed.
Lemma one_step (h : method) (q b r v : R) : 0 < q -> within h q r -> representable q v ->
  exists y r', noisify (mkQuant q [r] b h) v 0 = Ok (y, mkQuant q [r'] b h) /\ onGrid q b y /\ within h q r' /\ v + r = (y - b) + r'.
Proof.
  intros Hq Hr Hv. unfold noisify. cbn [rest length Nat.leb nth_error interval how bias]. destruct (Req_EM_T q 0) as [Z|_]; [lra|].
  set (x := (v + r) / q). assert (Ex : v + r = x * q) by (unfold x; field; lra).
  assert (Ax : Rabs x <= 2 ^ 31 - 2).
  { assert (Ar : Rabs r <= q) by (unfold within in Hr; destruct h; apply Rabs_le; lra). unfold x, Rdiv. rewrite Rabs_mult, (Rabs_inv q), (Rabs_pos_eq q) by lra.
    apply Rmult_le_reg_r with q; [exact Hq|]. rewrite Rmult_assoc, Rinv_l by lra. pose proof (Rabs_triang v r). unfold representable in Hv. lra. }
  set (k := match h with FLOOR => Int_part x | ROUND => cround x end).
  assert (K : match h with FLOOR => IZR k <= x < IZR k + 1 | ROUND => IZR k - /2 <= x <= IZR k + /2 end) by (unfold k; destruct h; [apply floor_spec|apply cround_spec]).
  rewrite (range_int k x Ax); [|destruct h; lra|destruct h; lra]. eexists _, _. split; [reflexivity|]. split; [exists k; reflexivity|]. split; [|ring].
  rewrite Ex. unfold within. destruct h.
  - assert (0 <= x - IZR k < 1) by lra. assert (0 <= (x - IZR k) * q) by (apply Rmult_le_pos; lra). assert ((x - IZR k) * q < 1 * q) by (apply Rmult_lt_compat_r; lra). split; lra.
  - assert (- /2 <= x - IZR k <= /2) by lra. assert ((x - IZR k) * q <= /2 * q) by (apply Rmult_le_compat_r; lra). assert (- /2 * q <= (x - IZR k) * q) by (apply Rmult_le_compat_r; lra). lra.
Qed.
Lemma measure_from (h : method) (q b : R) : 0 < q -> forall vs r, within h q r -> List.Forall (representable q) vs ->
  exists ys r', measure (mkQuant q [r] b h) vs = Ok (ys, mkQuant q [r'] b h) /\ length ys = length vs /\ List.Forall (onGrid q b) ys /\ within h q r' /\
    sumR vs + r = sumR (map (fun y => y - b) ys) + r' /\ List.Forall (fun p => Rabs (fst p - b - snd p) <= q /\ (h = FLOOR -> Rabs (fst p - b - snd p) < q)) (combine ys vs).
Proof.
  intros Hq. induction vs as [|v vs IH]; intros r Hr F.
  - exists [], r. repeat split; try constructor. exact Hr.
  - pose proof (Forall_inv F) as Fv. pose proof (Forall_inv_tail F) as Fs. destruct (one_step h q b r v Hq Hr Fv) as (y & r1 & E & G & W & S).
    destruct (IH r1 W Fs) as (ys & r2 & E2 & L & G2 & W2 & S2 & D2). exists (y :: ys), r2. cbn [measure]. rewrite E. cbn [obind snd]. rewrite E2. cbn [obind fst snd].
    split; [reflexivity|]. split; [cbn; congruence|]. split; [constructor; assumption|]. split; [exact W2|]. split; [cbn [sumR fold_right map] in *; unfold sumR in S2; lra|].
    constructor; [|exact D2]. cbn [fst snd]. replace (y - b - v) with (r - r1) by lra. unfold within in Hr, W. destruct h; split; try discriminate; intros; [apply Rabs_le; lra|apply Rabs_def1; lra|apply Rabs_le; lra].
Qed.

(** For every sequence of measurements: each output lies on the grid and within one interval of its measurement, and no matter how
    many there are, the outputs less the bias sum up to the measurements, less a rest below one interval. *)
Theorem C98_quantised (h : method) (q b : R) (vs : list R) : 0 < q -> List.Forall (representable q) vs ->
  exists ys s, measure (newQuantizer b q h) vs = Ok (ys, s) /\ length ys = length vs /\ List.Forall (onGrid q b) ys /\
    within h q (sumR vs - sumR (map (fun y => y - b) ys)) /\
    List.Forall (fun p => Rabs (fst p - b - snd p) <= q /\ (h = FLOOR -> Rabs (fst p - b - snd p) < q)) (combine ys vs).
Proof.
  intros Hq F. destruct (measure_from h q b Hq vs 0) as (ys & r & E & L & G & W & S & D); [unfold within; destruct h; lra|exact F|].
  exists ys, (mkQuant q [r] b h). repeat split; try assumption. replace (sumR vs - sumR (map (fun y => y - b) ys)) with r by lra. exact W.
Qed.
Print Assumptions C98_quantised.

Lemma beyond (s : quantizer) (v : R) (i : nat) : (length (rest s) <= i)%nat -> noisify s v i = UB.
Proof.
  intros L. unfold noisify. rewrite (proj2 (Nat.leb_le _ _) L). assert (N : nth_error (resize (rest s) i) i = None).
  { apply nth_error_None. unfold resize. rewrite app_length, firstn_length, repeat_length. lia. } rewrite N. reflexivity.
Qed.
(** Refuted: any identifier but zero, used on an object before any other, reads beyond the end of a vector. *)
Theorem C98_identifier_refuted (h : method) (q b v : R) (i : nat) : (0 < i)%nat -> noisify (newQuantizer b q h) v i = UB.
Proof. intros Hi. apply beyond. cbn. lia. Qed.
Print Assumptions C98_identifier_refuted.
(** Refuted: so does quantising a vector with more than one entry. *)
Theorem C98_vector_refuted (h : method) (q b v w : R) (l : list R) : 0 < q -> representable q v -> noisifyVector (newQuantizer b q h) (v :: w :: l) = UB.
Proof.
  intros Hq Hv. unfold noisifyVector. cbn [noisifyFrom]. destruct (one_step h q b 0 v Hq) as (y & r & E & _); [unfold within; destruct h; lra|exact Hv|].
  unfold newQuantizer. rewrite E. cbn [obind snd]. rewrite beyond by (cbn; lia). reflexivity.
Qed.
Print Assumptions C98_vector_refuted.
(** Refuted: and so does every use after a reset. *)
Theorem C98_reset_refuted (s : quantizer) (v : R) (i : nat) : noisify (reset s) v i = UB.
Proof. apply beyond. cbn. lia. Qed.
Print Assumptions C98_reset_refuted.
(** The hypotheses are met, and a rest is kept for the next measurement. *)
Example quant_case : List.Forall (representable (3 / 10)) [1/10; 1/10; -7] /\ noisify (newQuantizer 5 1 ROUND) (6/10) 0 = Ok (6, mkQuant 1 [-4/10] 5 ROUND).
Proof.
  split.
  - apply Forall_cons; [|apply Forall_cons; [|apply Forall_cons; [|apply Forall_nil]]]; unfold representable; apply Rabs_le; lra.
  - unfold noisify, newQuantizer. cbn [rest length Nat.leb nth_error interval how bias]. destruct (Req_EM_T 1 0); [lra|].
    assert (K : cround ((6 / 10 + 0) / 1) = 1%Z).
    { pose proof (cround_spec ((6 / 10 + 0) / 1)) as C. assert (A : IZR (cround ((6 / 10 + 0) / 1)) < 2) by lra. assert (B : 0 < IZR (cround ((6 / 10 + 0) / 1))) by lra. apply lt_IZR in A, B. lia. }
    rewrite K. cbn [int_range]. change (int_range 1) with true. cbn. f_equal. f_equal; [lra|]. f_equal. f_equal. lra.
Qed.
