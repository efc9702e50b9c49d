(** Rounding functions of the C library on exact rationals. *)
From Coq Require Import ZArith QArith Qround Lqa Lia.
Open Scope Q_scope.

(** std::lround: nearest integer, halfway cases away from zero. *)
Definition lround (q : Q) : Z :=
  if Qle_bool 0 q then Qfloor (q + (1#2)) else (- Qfloor (- q + (1#2)))%Z.

(** conversion of a floating point value to int: truncation towards zero. *)
Definition trunc (q : Q) : Z := Z.quot (Qnum q) (QDen q).

Lemma Qfloor_bounds q : inject_Z (Qfloor q) <= q /\ q < inject_Z (Qfloor q) + 1.
Proof.
  split; [apply Qfloor_le|]. pose proof (Qlt_floor q) as H. rewrite inject_Z_plus in H. exact H.
Qed.

Lemma lround_bounds q : inject_Z (lround q) <= q + (1#2) /\ q - (1#2) <= inject_Z (lround q).
Proof.
  unfold lround. destruct (Qle_bool 0 q) eqn:E.
  - destruct (Qfloor_bounds (q + (1#2))). split; lra.
  - destruct (Qfloor_bounds (- q + (1#2))). rewrite inject_Z_opp. split; lra.
Qed.

Lemma inject_Z_lt_inv a b : inject_Z a < inject_Z b -> (a < b)%Z.
Proof. rewrite <- Zlt_Qlt. auto. Qed.
Lemma inject_Z_le_inv a b : inject_Z a <= inject_Z b -> (a <= b)%Z.
Proof. rewrite <- Zle_Qle. auto. Qed.

(** A number strictly closer than 1/2 to [k] is rounded to [k]. *)
Lemma lround_near q k : inject_Z k - (1#2) < q -> q < inject_Z k + (1#2) -> lround q = k.
Proof.
  intros H1 H2. destruct (lround_bounds q) as [H3 H4].
  assert (inject_Z (lround q) < inject_Z (k + 1)) by (rewrite inject_Z_plus; change (inject_Z 1) with 1; lra).
  assert (inject_Z (k - 1) < inject_Z (lround q)).
  { unfold Z.sub. rewrite inject_Z_plus, inject_Z_opp. change (inject_Z 1) with 1. lra. }
  apply inject_Z_lt_inv in H. apply inject_Z_lt_inv in H0. lia.
Qed.

Lemma lround_inject k : lround (inject_Z k) = k.
Proof. apply lround_near; lra. Qed.

Lemma lround_mono a b : a <= b -> (lround a <= lround b)%Z.
Proof.
  intro H. unfold lround. destruct (Qle_bool 0 a) eqn:E1, (Qle_bool 0 b) eqn:E2.
  - apply Qfloor_resp_le. lra.
  - apply Qle_bool_iff in E1. exfalso. assert (0 <= b) by lra. apply Qle_bool_iff in H0. congruence.
  - assert (Ha : ~ 0 <= a) by (intro Hc; apply Qle_bool_iff in Hc; congruence).
    apply Qle_bool_iff in E2. apply Qnot_le_lt in Ha.
    pose proof (Qfloor_resp_le 0 (- a + (1#2))) as H1. pose proof (Qfloor_resp_le 0 (b + (1#2))) as H2.
    change (Qfloor 0) with 0%Z in *. assert (0 <= - a + (1#2)) by lra. assert (0 <= b + (1#2)) by lra.
    specialize (H1 H0). specialize (H2 H3). lia.
  - pose proof (Qfloor_resp_le (- b + (1#2)) (- a + (1#2))) as H1.
    assert (- b + (1#2) <= - a + (1#2)) by lra. specialize (H1 H0). lia.
Qed.

Lemma lround_pos q : 0 <= q -> (0 <= lround q)%Z.
Proof. intro H. change 0%Z with (lround 0). apply lround_mono. exact H. Qed.
