(** * Model of reading values and matrices from .info files

    Models  ct_core/include/ct/core/common/InfoFileParser.h  and the part of boost's property
    trees it uses.  A property tree is the function that gives the text at a node, a node
    being the list of the keys that lead to it; the reading of the file itself (read_info) is
    not modelled. *)
From Coq Require Import List String Ascii ZArith Decimal DecimalString.
From Coq Require Import Floats.SpecFloat.
From Verif Require Import Base.Outcome.
Import ListNotations.
Local Open Scope string_scope.

Definition tree := list string -> option string.

(** boost::property_tree::string_path: a path is split at its dots. *)
Fixpoint split_dots (acc : string) (s : string) : list string :=
  match s with
  | EmptyString => [acc]
  | String c r =>
      if Ascii.eqb c "." then acc :: split_dots "" r else split_dots (acc ++ String c "") r
  end.
Definition path (s : string) : list string := split_dots "" s.

(** ptree: the first child with the key; here the tree of a list of nodes with their text, as
    written in a file from top to bottom. *)
Fixpoint of_nodes (l : list (list string * string)) : tree :=
  fun p => match l with
           | [] => None
           | (q, v) :: r => if list_eq_dec string_dec q p then Some v else of_nodes r p
           end.

(** Values.  Doubles are binary64 numbers, infinities and NaN included. *)
Inductive value := VD (d : spec_float) | VI (z : Z) | VB (b : bool) | VS (s : string).

(** The types that are asked for: double, int, unsigned int, size_t, bool, std::string. *)
Inductive tag := TD | TI | TU | TZ | TB | TS.

Section Parse.
(** Reading a double from a text: any function. *)
Variable parse_double : string -> option spec_float.

(** boost's stream translators.  Integers: an optional sign and digits (white space around the
    digits and a leading plus are not modelled); a minus in front of an unsigned number is
    accepted and wraps around, as operator>> does. *)
Definition parse_Z (s : string) : option Z := option_map Z.of_int (NilZero.int_of_string s).
Definition in_int (z : Z) : bool := (-2147483648 <=? z)%Z && (z <=? 2147483647)%Z.
Definition parse_unsigned (bits : Z) (s : string) : option Z :=
  match parse_Z s with
  | Some z => if (Z.abs z <? 2 ^ bits)%Z then Some (z mod 2 ^ bits)%Z else None
  | None => None
  end.
(** bool: the number 0 or 1, else the words (stream_translator, customize_stream<bool>). *)
Definition parse_bool (s : string) : option bool :=
  if s =? "0" then Some false else if s =? "1" then Some true
  else if s =? "false" then Some false else if s =? "true" then Some true else None.

Definition parse (t : tag) (s : string) : option value :=
  match t with
  | TD => option_map VD (parse_double s)
  | TI => match parse_Z s with Some z => if in_int z then Some (VI z) else None | None => None end
  | TU => option_map VI (parse_unsigned 32 s)
  | TZ => option_map VI (parse_unsigned 64 s)
  | TB => option_map VB (parse_bool s)
  | TS => Some (VS s)
  end.

(** ptree::get<T>(path): bad path and bad data are exceptions. *)
Definition pt_get (pt : tree) (t : tag) (p : string) : outcome value :=
  match pt (path p) with
  | Some s => match parse t s with Some v => Ok v | None => Throw end
  | None => Throw
  end.
(** ptree::get<double>(path, default): the default also for bad data. *)
Definition pt_get_default (pt : tree) (p : string) (d : spec_float) : spec_float :=
  match pt (path p) with
  | Some s => match parse_double s with Some v => v | None => d end
  | None => d
  end.

(** loadScalar, 31-37 *)
Definition loadScalar (pt : tree) (t : tag) (name : string) (ns : string) : outcome value :=
  pt_get pt t (ns ++ name).
(** loadScalarOptional for doubles, 51-61 *)
Definition loadScalarOptional (pt : tree) (name : string) (d : spec_float) (ns : string)
  : spec_float := pt_get_default pt (ns ++ name) d.

(** std::to_string(size_t) *)
Definition to_string (n : nat) : string := NilZero.string_of_uint (Nat.to_uint n).

(** loadMatrix, 111-133: [mul] is the product of doubles, [one] and [zero] are 1 and 0.0. *)
Variable mul : spec_float -> spec_float -> spec_float.
Definition one64 : spec_float := S754_finite false 4503599627370496 (-52).
Definition zero64 : spec_float := S754_zero false.
Definition loadMatrix (pt : tree) (name ns : string) (i j : nat) : spec_float :=
  let scaling := pt_get_default pt (ns ++ name ++ ".scaling") one64 in
  mul scaling
    (pt_get_default pt (ns ++ name ++ "." ++ "(" ++ to_string i ++ "," ++ to_string j ++ ")")
       zero64).
End Parse.
