(** Scalar operations of the C++ code, as a record so that one model can be instantiated with
    exact rationals and with IEEE binary64 (Coq's specification floats). *)
From Coq Require Import ZArith QArith SpecFloat Bool.

Record scalar_ops (S : Type) := {
  s_zero : S;
  s_add : S -> S -> S;
  s_sub : S -> S -> S;
  s_mul : S -> S -> S;
  s_div : S -> S -> S;
  s_opp : S -> S;
  s_ltb : S -> S -> bool      (* operator< ; a > b is s_ltb b a *)
}.
Arguments s_zero {S}. Arguments s_add {S}. Arguments s_sub {S}. Arguments s_mul {S}.
Arguments s_div {S}. Arguments s_opp {S}. Arguments s_ltb {S}.

(** Exact rationals.  [Qdiv] by zero is 0; theorems that use this instance state that divisors
    are non-zero. *)
Definition Qops : scalar_ops Q := {|
  s_zero := 0%Q;
  s_add := Qplus;
  s_sub := Qminus;
  s_mul := Qmult;
  s_div := Qdiv;
  s_opp := Qopp;
  s_ltb := fun a b => negb (Qle_bool b a)
|}.

(** IEEE-754 binary64, round to nearest even: precision 53, emax 1024. *)
Definition prec64 := 53%Z.
Definition emax64 := 1024%Z.
Definition Fops : scalar_ops spec_float := {|
  s_zero := S754_zero false;
  s_add := SFadd prec64 emax64;
  s_sub := SFsub prec64 emax64;
  s_mul := SFmul prec64 emax64;
  s_div := SFdiv prec64 emax64;
  s_opp := SFopp;
  s_ltb := SFltb
|}.

(** [SFnum m e] is the double nearest to m*2^e. *)
Definition SFnum (m e : Z) : spec_float := binary_normalize prec64 emax64 m e false.
