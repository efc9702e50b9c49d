(** Model of loading a cost function from an .info file: ct_optcon/include/ct/optcon/costfunction/CostFunctionAnalytical-impl.hpp 42-93
    and CostFunctionAD-impl.hpp 136-179 (loadFromConfigFile), term/TermLoadMacros.hpp, costfunction/utility/utilities.hpp.
    Property trees are those of Core/InfoModel.v.  A loaded term is known by its number in the file, its kind and its name; its
    weights are read by loadMatrixCF and loadScalarCF below.  The time activation of a term (C13) is not repeated here. *)
From Coq Require Import List String Ascii ZArith Arith Bool.
From Coq Require Import Floats.SpecFloat.
From Verif Require Import Base.Outcome Core.InfoModel.
Import ListNotations.
Local Open Scope string_scope.

(** boost::algorithm::to_lower *)
Definition lowerChar (c : ascii) : ascii :=
  let n := nat_of_ascii c in if (Nat.leb 65 n && Nat.leb n 90)%bool then ascii_of_nat (n + 32) else c.
Fixpoint lower (s : string) : string := match s with EmptyString => "" | String c r => String (lowerChar c) (lower r) end.
(** TermLoadMacros.hpp 18-23 *)
Definition supported : list string := ["linear"; "quadratic"; "mixed"; "quadratic-multiplicative"; "smooth-abs"].
Definition isSupported (k : string) : bool := existsb (String.eqb k) supported.
Record loaded := mkLoaded { number : nat; kind : string; name : string }.
(** The lists of terms: analytical ones (CostFunctionQuadratic) and those of an automatically differentiated cost function *)
Record costs := mkCosts { intermediate : list loaded; final : list loaded; intermediateAD : list loaded; finalAD : list loaded }.

Definition termKey (i : nat) : string := "term" ++ to_string i.
Section Load.
Variable parse_double : string -> option spec_float.
Variable pt : tree.
Notation get := (pt_get parse_double pt).
(** utilities.hpp 75-102 and 104-131: addTerm and addADTerm *)
Definition addTerm (ad : bool) (ty : Z) (t : loaded) (c : costs) : outcome costs :=
  if Z.eqb ty 0 then Ok (if ad then mkCosts (intermediate c) (final c) (intermediateAD c ++ [t])%list (finalAD c)
                         else mkCosts (intermediate c ++ [t])%list (final c) (intermediateAD c) (finalAD c))
  else if Z.eqb ty 1 then Ok (if ad then mkCosts (intermediate c) (final c) (intermediateAD c) (finalAD c ++ [t])%list
                              else mkCosts (intermediate c) (final c ++ [t])%list (intermediateAD c) (finalAD c))
  else Throw.
(** One round of the loop; the name in the file is read and not used. *)
Definition loadTerm (ad : bool) (i : nat) (c : costs) : outcome costs :=
  obind (get TS (termKey i ++ "." ++ "kind")) (fun v => match v with
  | VS s => let k := lower s in
      obind (get TI (termKey i ++ "." ++ "type")) (fun w => match w with
      | VI ty => if isSupported k then addTerm ad ty (mkLoaded i k k) c else Throw
      | _ => Throw end)
  | _ => Throw end).
(** The loop; [None] when it has not ended after [fuel] rounds *)
Fixpoint loop (ad : bool) (fuel i : nat) (c : costs) : option (outcome costs) :=
  match fuel with
  | O => None
  | S f => match loadTerm ad i c with
           | Ok c' => match pt [termKey (i + 1)] with Some _ => loop ad f (i + 1)%nat c' | None => Some (Ok c') end
           | o => Some o
           end
  end.
(** Both versions clear the analytical terms first. *)
Definition loadFromConfigFile (ad : bool) (fuel : nat) (c : costs) : option (outcome costs) :=
  loop ad fuel 0 (mkCosts [] [] (intermediateAD c) (finalAD c)).
(** utilities.hpp 20-30 and 45-73 *)
Definition loadScalarCF (t : tag) (nm term : string) : outcome value := get t (term ++ ".weights." ++ nm).
Variable mul : spec_float -> spec_float -> spec_float.
Definition loadMatrixCF (nm term : string) (i j : nat) : spec_float :=
  let scaling := pt_get_default parse_double pt (term ++ ".weights." ++ nm ++ ".scaling") one64 in
  if term =? "" then mul scaling (pt_get_default parse_double pt (nm ++ "." ++ "(" ++ to_string i ++ "," ++ to_string j ++ ")") zero64)
  else mul scaling (pt_get_default parse_double pt (term ++ ".weights." ++ nm ++ "." ++ "(" ++ to_string i ++ "," ++ to_string j ++ ")") zero64).
End Load.
(** CostFunctionQuadratic-impl.hpp 151-171, getIntermediateTermByName, getFinalTermByName *)
Fixpoint termByName (l : list loaded) (nm : string) : outcome loaded :=
  match l with [] => Throw | t :: r => if name t =? nm then Ok t else termByName r nm end.
