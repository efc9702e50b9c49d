From Coq Require Import List ZArith QArith SpecFloat Lqa Lia.
From Verif Require Import Base.Outcome Base.Scalar Core.GridModel.
Import ListNotations.
Open Scope Q_scope.

Definition Qn (n : nat) : Q := inject_Z (Z.of_nat n).
Definition Fn (n : nat) : spec_float := SFnum (Z.of_nat n) 0.

Lemma Qn_S n : Qn (S n) == Qn n + 1.
Proof. unfold Qn. rewrite Nat2Z.inj_succ. unfold Z.succ. rewrite inject_Z_plus. reflexivity. Qed.
Lemma Qn_0 : Qn 0 == 0.
Proof. reflexivity. Qed.
Lemma Qn_nonneg n : 0 <= Qn n.
Proof. unfold Qn. change 0 with (inject_Z 0). rewrite <- Zle_Qle. lia. Qed.

Lemma linspace_loop_len {S} (ops : scalar_ops S) n : forall v h, length (linspace_loop ops n v h) = n.
Proof. induction n as [|n IH]; intros v h; simpl; [reflexivity|]. rewrite IH. reflexivity. Qed.

Lemma linspace_loop_nth n : forall v h k, (k < n)%nat ->
  exists x, nth_error (linspace_loop Qops n v h) k = Some x /\ x == v + Qn k * h.
Proof.
  induction n as [|n IH]; intros v h k Hk; [lia|].
  destruct k as [|k].
  - exists v. split; [reflexivity|]. rewrite Qn_0. ring.
  - destruct (IH (v + h) h k) as (x & Hx & He); [lia|].
    exists x. split; [exact Hx|]. rewrite He, Qn_S. ring.
Qed.

Lemma linspace_spec a b N : (1 <= N)%nat ->
  exists l, linspace Qops Qn a b N = Ok l /\ length l = N /\
    forall k, (k < N)%nat -> exists x, nth_error l k = Some x /\
      ((2 <= N)%nat -> x == a + Qn k * ((b - a) / Qn (N - 1))) /\ (k = 0%nat -> x == a) /\
      ((2 <= N)%nat -> k = (N - 1)%nat -> x == b).
Proof.
  intro HN. destruct N as [|m]; [lia|].
  eexists. split; [reflexivity|]. split; [apply linspace_loop_len|].
  intros k Hk. destruct (linspace_loop_nth (S m) a (s_div Qops (s_sub Qops b a) (Qn m)) k Hk)
    as (x & Hx & He).
  exists x. split; [exact Hx|]. replace (S m - 1)%nat with m by lia. cbn [s_div s_sub Qops] in He.
  repeat split.
  - intros _. exact He.
  - intros ->. rewrite He. rewrite Qn_0. ring.
  - intros H2 ->. rewrite He. destruct m as [|m]; [lia|].
    pose proof (Qn_S m). pose proof (Qn_nonneg m). field. intro. lra.
Qed.

Lemma timearray_spec dt N t0 : (1 <= N)%nat ->
  exists l, TimeArray_uniform Qops Qn dt N t0 = Ok l /\ length l = N /\
    forall k, (k < N)%nat -> exists x, nth_error l k = Some x /\ x == t0 + Qn k * dt.
Proof.
  intro HN. unfold TimeArray_uniform. cbn [s_add s_mul Qops].
  destruct (linspace_spec t0 (t0 + Qn (N - 1) * dt) N HN) as (l & Hl & Hlen & Hn).
  exists l. split; [exact Hl|]. split; [exact Hlen|]. intros k Hk.
  destruct (Hn k Hk) as (x & Hx & H1 & H2 & _). exists x. split; [exact Hx|].
  destruct (Nat.eq_dec N 1) as [->|Hne].
  - assert (k = 0)%nat by lia. subst k. rewrite H2 by reflexivity. rewrite Qn_0. ring.
  - rewrite H1 by lia. destruct N as [|[|m]]; try lia.
    replace (S (S m) - 1)%nat with (S m) by lia.
    pose proof (Qn_S m). pose proof (Qn_nonneg m). field. intro. lra.
Qed.
