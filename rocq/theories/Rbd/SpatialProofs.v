(** Lemmas on rotation matrices for C90. *)
From Coq Require Import Reals List Bool Arith Lia Lra.
From Verif Require Import Base.RVec Rbd.SpatialModel.
Import ListNotations.
Local Open Scope R_scope.

(** The nine entries of a matrix with orthonormal rows and determinant 1. *)
Definition rot9 (a b c d e f g h i : R) : Prop :=
  a * a + b * b + c * c = 1 /\ d * d + e * e + f * f = 1 /\ g * g + h * h + i * i = 1 /\
  a * d + b * e + c * f = 0 /\ a * g + b * h + c * i = 0 /\ d * g + e * h + f * i = 0 /\
  a * (e * i - f * h) - b * (d * i - f * g) + c * (d * h - e * g) = 1.

(** Every entry is its cofactor. *)
Lemma rot9_cof a b c d e f g h i : rot9 a b c d e f g h i ->
  e * i - f * h = a /\ f * g - d * i = b /\ d * h - e * g = c /\
  c * h - b * i = d /\ a * i - c * g = e /\ b * g - a * h = f /\
  b * f - c * e = g /\ c * d - a * f = h /\ a * e - b * d = i.
Proof.
  intros (H1 & H2 & H3 & H4 & H5 & H6 & H7).
  repeat split.
  - transitivity ((e * i - f * h) * (a * a + b * b + c * c) + (c * h - b * i) * (a * d + b * e + c * f) + (b * f - c * e) * (a * g + b * h + c * i)).
    + rewrite H1, H4, H5. ring.
    + transitivity (a * (a * (e * i - f * h) - b * (d * i - f * g) + c * (d * h - e * g))); [ring|rewrite H7; ring].
  - transitivity ((f * g - d * i) * (a * a + b * b + c * c) + (a * i - c * g) * (a * d + b * e + c * f) + (c * d - a * f) * (a * g + b * h + c * i)).
    + rewrite H1, H4, H5. ring.
    + transitivity (b * (a * (e * i - f * h) - b * (d * i - f * g) + c * (d * h - e * g))); [ring|rewrite H7; ring].
  - transitivity ((d * h - e * g) * (a * a + b * b + c * c) + (b * g - a * h) * (a * d + b * e + c * f) + (a * e - b * d) * (a * g + b * h + c * i)).
    + rewrite H1, H4, H5. ring.
    + transitivity (c * (a * (e * i - f * h) - b * (d * i - f * g) + c * (d * h - e * g))); [ring|rewrite H7; ring].
  - transitivity ((e * i - f * h) * (a * d + b * e + c * f) + (c * h - b * i) * (d * d + e * e + f * f) + (b * f - c * e) * (d * g + e * h + f * i)).
    + rewrite H2, H4, H6. ring.
    + transitivity (d * (a * (e * i - f * h) - b * (d * i - f * g) + c * (d * h - e * g))); [ring|rewrite H7; ring].
  - transitivity ((f * g - d * i) * (a * d + b * e + c * f) + (a * i - c * g) * (d * d + e * e + f * f) + (c * d - a * f) * (d * g + e * h + f * i)).
    + rewrite H2, H4, H6. ring.
    + transitivity (e * (a * (e * i - f * h) - b * (d * i - f * g) + c * (d * h - e * g))); [ring|rewrite H7; ring].
  - transitivity ((d * h - e * g) * (a * d + b * e + c * f) + (b * g - a * h) * (d * d + e * e + f * f) + (a * e - b * d) * (d * g + e * h + f * i)).
    + rewrite H2, H4, H6. ring.
    + transitivity (f * (a * (e * i - f * h) - b * (d * i - f * g) + c * (d * h - e * g))); [ring|rewrite H7; ring].
  - transitivity ((e * i - f * h) * (a * g + b * h + c * i) + (c * h - b * i) * (d * g + e * h + f * i) + (b * f - c * e) * (g * g + h * h + i * i)).
    + rewrite H3, H5, H6. ring.
    + transitivity (g * (a * (e * i - f * h) - b * (d * i - f * g) + c * (d * h - e * g))); [ring|rewrite H7; ring].
  - transitivity ((f * g - d * i) * (a * g + b * h + c * i) + (a * i - c * g) * (d * g + e * h + f * i) + (c * d - a * f) * (g * g + h * h + i * i)).
    + rewrite H3, H5, H6. ring.
    + transitivity (h * (a * (e * i - f * h) - b * (d * i - f * g) + c * (d * h - e * g))); [ring|rewrite H7; ring].
  - transitivity ((d * h - e * g) * (a * g + b * h + c * i) + (b * g - a * h) * (d * g + e * h + f * i) + (a * e - b * d) * (g * g + h * h + i * i)).
    + rewrite H3, H5, H6. ring.
    + transitivity (i * (a * (e * i - f * h) - b * (d * i - f * g) + c * (d * h - e * g))); [ring|rewrite H7; ring].
Qed.

(** The columns are orthonormal as well. *)
Lemma rot9_cols a b c d e f g h i : rot9 a b c d e f g h i ->
  a * a + d * d + g * g = 1 /\ b * b + e * e + h * h = 1 /\ c * c + f * f + i * i = 1 /\
  a * b + d * e + g * h = 0 /\ a * c + d * f + g * i = 0 /\ b * c + e * f + h * i = 0.
Proof.
  intros H. destruct (rot9_cof _ _ _ _ _ _ _ _ _ H) as (K1 & K2 & K3 & K4 & K5 & K6 & K7 & K8 & K9).
  destruct H as (_ & _ & _ & _ & _ & _ & H7).
  repeat split.
  - rewrite <- K1 at 1. rewrite <- K4 at 1. rewrite <- K7 at 1. rewrite <- H7. ring.
  - rewrite <- K2 at 1. rewrite <- K5 at 1. rewrite <- K8 at 1. rewrite <- H7. ring.
  - rewrite <- K3 at 1. rewrite <- K6 at 1. rewrite <- K9 at 1. rewrite <- H7. ring.
  - rewrite <- K1 at 1. rewrite <- K4 at 1. rewrite <- K7 at 1. ring.
  - rewrite <- K1 at 1. rewrite <- K4 at 1. rewrite <- K7 at 1. ring.
  - rewrite <- K2 at 1. rewrite <- K5 at 1. rewrite <- K8 at 1. ring.
Qed.

Definition rotM (E : m33) : Prop := rot9 (XX E) (XY E) (XZ E) (YX E) (YY E) (YZ E) (ZX E) (ZY E) (ZZ E).

(** The fast formulas for E A E^T. *)
Definition eae (x1 x2 x3 y1 y2 y3 : R) (A : m33) : R :=
  x1 * (XX A * y1 + XY A * y2 + XZ A * y3) + x2 * (YX A * y1 + YY A * y2 + YZ A * y3) + x3 * (ZX A * y1 + ZY A * y2 + ZZ A * y3).
Definition full (A : s33) : m33 := mkM (sXX A) (sXY A) (sXZ A) (sXY A) (sYY A) (sYZ A) (sXZ A) (sYZ A) (sZZ A).

Lemma rot_EAET_ok E A : rotM E -> rot_EAET E A =
  let row1 := eae (XX E) (XY E) (XZ E) in let row2 := eae (YX E) (YY E) (YZ E) in let row3 := eae (ZX E) (ZY E) (ZZ E) in
  mkM (row1 (XX E) (XY E) (XZ E) A) (row1 (YX E) (YY E) (YZ E) A) (row1 (ZX E) (ZY E) (ZZ E) A)
      (row2 (XX E) (XY E) (XZ E) A) (row2 (YX E) (YY E) (YZ E) A) (row2 (ZX E) (ZY E) (ZZ E) A)
      (row3 (XX E) (XY E) (XZ E) A) (row3 (YX E) (YY E) (YZ E) A) (row3 (ZX E) (ZY E) (ZZ E) A).
Proof.
  unfold rotM. intros H. destruct E as [a b c d e f g h i]. cbn [XX XY XZ YX YY YZ ZX ZY ZZ] in *.
  destruct (rot9_cof _ _ _ _ _ _ _ _ _ H) as (K1 & K2 & K3 & K4 & K5 & K6 & K7 & K8 & K9).
  destruct H as (H1 & H2 & H3 & H4 & H5 & H6 & _).
  destruct A as [A1 A2 A3 A4 A5 A6 A7 A8 A9]. unfold rot_EAET, eae. cbn [XX XY XZ YX YY YZ ZX ZY ZZ]. cbv zeta.
  assert (EX : a * - A6 + b * A3 = (e * i - f * h) * - A6 + (f * g - d * i) * A3) by (rewrite K1, K2; reflexivity).
  assert (EY : d * - A6 + e * A3 = (c * h - b * i) * - A6 + (a * i - c * g) * A3) by (rewrite K4, K5; reflexivity).
  assert (EZ : g * - A6 + h * A3 = (b * f - c * e) * - A6 + (c * d - a * f) * A3) by (rewrite K7, K8; reflexivity).
  rewrite EX, EY, EZ. clear EX EY EZ K1 K2 K3 K4 K5 K6 K7 K8 K9.
  f_equal.
  - apply Rminus_diag_uniq. transitivity (A9 * (1 - (a * a + b * b + c * c))); [ring|rewrite H1; ring].
  - apply Rminus_diag_uniq. transitivity (- A9 * (a * d + b * e + c * f)); [ring|rewrite H4; ring].
  - apply Rminus_diag_uniq. transitivity (- A9 * (a * g + b * h + c * i)); [ring|rewrite H5; ring].
  - apply Rminus_diag_uniq. transitivity (- A9 * (a * d + b * e + c * f)); [ring|rewrite H4; ring].
  - apply Rminus_diag_uniq. transitivity (A9 * (1 - (d * d + e * e + f * f))); [ring|rewrite H2; ring].
  - apply Rminus_diag_uniq. transitivity (- A9 * (d * g + e * h + f * i)); [ring|rewrite H6; ring].
  - apply Rminus_diag_uniq. transitivity (- A9 * (a * g + b * h + c * i)); [ring|rewrite H5; ring].
  - apply Rminus_diag_uniq. transitivity (- A9 * (d * g + e * h + f * i)); [ring|rewrite H6; ring].
  - apply Rminus_diag_uniq. transitivity (A9 * (1 - (g * g + h * h + i * i))); [ring|rewrite H3; ring].
Qed.

Lemma rot_symmetric_ok E A : rotM E -> rot_symmetric_EAET E A =
  let row1 := eae (XX E) (XY E) (XZ E) in let row2 := eae (YX E) (YY E) (YZ E) in let row3 := eae (ZX E) (ZY E) (ZZ E) in
  mkS (row1 (XX E) (XY E) (XZ E) (full A)) (row1 (YX E) (YY E) (YZ E) (full A)) (row1 (ZX E) (ZY E) (ZZ E) (full A))
      (row2 (YX E) (YY E) (YZ E) (full A)) (row2 (ZX E) (ZY E) (ZZ E) (full A))
      (row3 (ZX E) (ZY E) (ZZ E) (full A)).
Proof.
  unfold rotM. intros H. destruct E as [a b c d e f g h i]. cbn [XX XY XZ YX YY YZ ZX ZY ZZ] in *.
  destruct (rot9_cof _ _ _ _ _ _ _ _ _ H) as (K1 & K2 & K3 & K4 & K5 & K6 & K7 & K8 & K9).
  destruct (rot9_cols _ _ _ _ _ _ _ _ _ H) as (T1 & T2 & T3 & T4 & T5 & T6).
  destruct H as (H1 & H2 & H3 & H4 & H5 & H6 & _).
  destruct A as [A1 A2 A3 A5 A6 A9]. unfold rot_symmetric_EAET, eae, full.
  cbn [XX XY XZ YX YY YZ ZX ZY ZZ sXX sXY sXZ sYY sYZ sZZ]. cbv zeta.
  assert (EX : a * - A6 + b * A3 = (e * i - f * h) * - A6 + (f * g - d * i) * A3) by (rewrite K1, K2; reflexivity).
  assert (EY : d * - A6 + e * A3 = (c * h - b * i) * - A6 + (a * i - c * g) * A3) by (rewrite K4, K5; reflexivity).
  assert (EZ : g * - A6 + h * A3 = (b * f - c * e) * - A6 + (c * d - a * f) * A3) by (rewrite K7, K8; reflexivity).
  rewrite EX, EY, EZ. clear EX EY EZ K1 K2 K3 K4 K5 K6 K7 K8 K9.
  f_equal.
  - apply Rminus_diag_uniq.
    transitivity (A9 * (1 - (a * a + b * b + c * c)) + (A1 - A9) * (1 - (a * a + d * d + g * g)) + (A5 - A9) * (1 - (b * b + e * e + h * h))
       - 2 * A2 * (a * b + d * e + g * h) - 2 * A3 * (a * c + d * f + g * i) - 2 * A6 * (b * c + e * f + h * i)); [ring|rewrite H1, T1, T2, T4, T5, T6; ring].
  - apply Rminus_diag_uniq. transitivity (- A9 * (a * d + b * e + c * f)); [ring|rewrite H4; ring].
  - apply Rminus_diag_uniq. transitivity (- A9 * (a * g + b * h + c * i)); [ring|rewrite H5; ring].
  - apply Rminus_diag_uniq. transitivity (A9 * (1 - (d * d + e * e + f * f))); [ring|rewrite H2; ring].
  - apply Rminus_diag_uniq. transitivity (- A9 * (d * g + e * h + f * i)); [ring|rewrite H6; ring].
  - apply Rminus_diag_uniq. transitivity (A9 * (1 - (g * g + h * h + i * i))); [ring|rewrite H3; ring].
Qed.
