(** Model of /repo/ct_rbd/include/ct/rbd/robot/control/SelectionMatrix-impl.h. *)
From mathcomp Require Import all_ssreflect all_algebra.
From Verif Require Import Base.Outcome.
Set Implicit Arguments. Unset Strict Implicit. Unset Printing Implicit Defensive.
Import GRing.Theory.
Local Open Scope ring_scope.

(** bottomRightCorner<h, w>().setIdentity() of a zero matrix; a corner larger than the matrix violates Eigen's assertion. *)
Definition cornerIdentity (F : fieldType) (CD SD h w : nat) : outcome 'M[F]_(CD, SD) :=
  if ((h <= CD) && (w <= SD))%N
  then Ok (\matrix_(i, j) (if ((CD - h <= i) && (SD - w <= j))%N then (i - (CD - h) == j - (SD - w))%N%:R else 0))
  else UB.
(** 24-39 (at least six columns) and 41-51 (fewer) *)
Definition selection (F : fieldType) (CD SD : nat) (floatingBase : bool) : outcome 'M[F]_(CD, SD) :=
  if (6 <= SD)%N then
    if floatingBase then cornerIdentity F CD SD CD (SD - 6) else cornerIdentity F CD SD CD CD
  else if floatingBase then Throw else cornerIdentity F CD SD CD CD.
