(** * Model of planes and of the estimation of planes

    Models  ct_core/include/ct/core/geometry/Plane.h  and  PlaneEstimator.h.  Numbers are
    reals. *)
From Coq Require Import Reals List.
From Verif Require Import Base.Outcome.
Import ListNotations.
Local Open Scope R_scope.

Definition point := (R * R * R)%type.

(** Plane.h 98 and the constructors 18-34: the coefficients a, b, c, d. *)
Record plane := mkPlane { pa : R; pb : R; pc : R; pd : R }.
Definition plane0 : plane := mkPlane 0 0 0 0.

(** getCoefficient, 48-53 *)
Definition getCoefficient (p : plane) (i : nat) : outcome R :=
  match i with
  | 0%nat => Ok (pa p) | 1%nat => Ok (pb p) | 2%nat => Ok (pc p) | 3%nat => Ok (pd p)
  | _ => Throw
  end.

(** solveX, solveY, solveZ, 72-88 *)
Definition solveX (p : plane) (y z : R) : R := (pd p - pb p * y - pc p * z) / pa p.
Definition solveY (p : plane) (x z : R) : R := (pd p - pa p * x - pc p * z) / pb p.
Definition solveZ (p : plane) (x y : R) : R := (pd p - pa p * x - pb p * y) / pc p.

(** PlaneEstimator::estimate (PlaneEstimator.h 37-56).  [solve] is
    colPivHouseholderQr().solve, which takes the rows of the matrix and the right-hand
    side. *)
Definition estimate (solve : list point -> list R -> point) (points : list point)
  : outcome plane :=
  if (length points <? 3)%nat then Throw
  else
    let A := map (fun p => p) points in
    let d := repeat 1 (length points) in
    let '(x, y, z) := solve A d in
    Ok (mkPlane x y z 1).
