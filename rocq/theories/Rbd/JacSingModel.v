(** Model of the singularity measures of a Jacobian: ct_rbd/include/ct/rbd/common/math/JacobiSingularity.h and
    implementation/JacobiSingularity.h.  Scalars are elements of a real field, the square root is a parameter.  Eigen's JacobiSVD with
    thin factors is a parameter; r is ROWS, c is COLS and d, the number of singular values, is the smaller of both.  The rank that
    Eigen's solve uses is taken to be exact: its threshold for small singular values is not modelled. *)
From mathcomp Require Import all_ssreflect all_algebra.
From Verif Require Import Base.Outcome.
Set Implicit Arguments. Unset Strict Implicit. Unset Printing Implicit Defensive.
Import GRing.Theory Num.Theory.
Local Open Scope ring_scope.

Section Sing.
Variables (F : realFieldType) (r c d : nat) (sqrt : F -> F).
Record svd := mkSvd { sU : 'M[F]_(r, d); sS : 'cV[F]_d; sV : 'M[F]_(c, d) }.
Variable jacobiSvd : 'M[F]_(r, c) -> svd.

(** implementation/JacobiSingularity.h 51-57: the result is assigned to a vector of ROWS entries; another size is undefined. *)
Definition calc_singular_values (J : 'M[F]_(r, c)) : outcome 'cV[F]_r :=
  if @eqP _ d r is ReflectT e then Ok (castmx (e, erefl 1%N) (sS (jacobiSvd J))) else UB.
(** Eigen's maxCoeff and minCoeff; undefined for no entries *)
Definition entries (v : 'cV[F]_r) : seq F := [seq v i 0 | i <- enum 'I_r].
Definition maxCoeff (v : 'cV[F]_r) : outcome F := if entries v is x :: l then Ok (foldl Num.max x l) else UB.
Definition minCoeff (v : 'cV[F]_r) : outcome F := if entries v is x :: l then Ok (foldl Num.min x l) else UB.
(** 18-23 *)
Definition calc_condition_number (J : 'M[F]_(r, c)) : outcome F :=
  obind (calc_singular_values J) (fun sv => obind (maxCoeff sv) (fun a => obind (minCoeff sv) (fun b => Ok (a / b)))).
(** 26-48; the loop is a product *)
Inductive method := DIRECT | SINGULAR_VALUES.
Definition calc_manipulability (m : method) (J : 'M[F]_(r, c)) : outcome F :=
  match m with
  | DIRECT => Ok (sqrt (\det (J *m J^T)))
  | SINGULAR_VALUES => obind (calc_singular_values J) (fun sv => Ok (\prod_i sv i 0))
  end.
(** 60-75, the part that is returned: Eigen's solve inverts the nonzero singular values. *)
Definition reciprocal (s : 'cV[F]_d) : 'rV[F]_d := \row_i (if s i 0 == 0 then 0 else (s i 0)^-1).
Definition calc_joint_vel (J : 'M[F]_(r, c)) (v : 'cV[F]_r) : 'cV[F]_c :=
  let e := jacobiSvd J in sV e *m (diag_mx (reciprocal (sS e)) *m ((sU e)^T *m v)).
End Sing.
