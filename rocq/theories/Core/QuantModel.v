(** Model of the quantisation of measurements: ct_core/include/ct/core/common/QuantizationNoise.h.
    Scalars are exact reals; the conversion to a 32 bit int is undefined out of range. *)
From Coq Require Import Reals List ZArith Lra.
From Verif Require Import Base.Outcome.
Import ListNotations.
Local Open Scope R_scope.

(** 21-25 *)
Inductive method := FLOOR | ROUND.
(** 104-107 *)
Record quantizer := mkQuant { interval : R; rest : list R; bias : R; how : method }.
(** 33-39 *)
Definition newQuantizer (b q : R) (h : method) : quantizer := mkQuant q [0] b h.
(** std::round: halves away from zero. *)
Definition cround (x : R) : Z := if Rle_dec 0 x then Int_part (x + /2) else (- Int_part (- x + /2))%Z.
(** std::vector::resize(size, 0) *)
Definition resize (l : list R) (size : nat) : list R := firstn size l ++ repeat 0 (size - length l).
Definition set_nth (l : list R) (i : nat) (v : R) : list R := firstn i l ++ v :: skipn (S i) l.
Definition int_range (z : Z) : bool := ((- 2 ^ 31 <=? z) && (z <? 2 ^ 31))%Z%bool.
(** 49-81: the vector is grown to [index] elements, which do not include the one at [index]; reading beyond the end is undefined,
    as is the conversion of a quotient that is no number. *)
Definition noisify (s : quantizer) (value : R) (index : nat) : outcome (R * quantizer) :=
  let r := if (length (rest s) <=? index)%nat then resize (rest s) index else rest s in
  match nth_error r index with
  | None => UB
  | Some r0 =>
      if Req_EM_T (interval s) 0 then UB else
      let currentValue := value + r0 in
      let nQuantsDouble := currentValue / interval s in
      let nQuants := match how s with FLOOR => Int_part nQuantsDouble | ROUND => cround nQuantsDouble end in
      if int_range nQuants then
        let outputValue := IZR nQuants * interval s in
        Ok (outputValue + bias s, mkQuant (interval s) (set_nth r index (currentValue - outputValue)) (bias s) (how s))
      else UB
  end.
(** 89-96 *)
Fixpoint noisifyFrom (i : nat) (s : quantizer) (v : list R) : outcome (list R * quantizer) :=
  match v with
  | [] => Ok ([], s)
  | x :: v' => do p <- noisify s x i ;; do q <- noisifyFrom (S i) (snd p) v' ;; Ok (fst p :: fst q, snd q)
  end.
Definition noisifyVector (s : quantizer) (v : list R) := noisifyFrom 0 s v.
(** 102 *)
Definition reset (s : quantizer) : quantizer := mkQuant (interval s) [] (bias s) (how s).
(** Measurements quantised one after the other. *)
Fixpoint measure (s : quantizer) (vs : list R) : outcome (list R * quantizer) :=
  match vs with
  | [] => Ok ([], s)
  | x :: r => do p <- noisify s x 0 ;; do q <- measure (snd p) r ;; Ok (fst p :: fst q, snd q)
  end.
