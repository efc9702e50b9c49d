(** Model of the generation of derivative code in ct_core: replacement of placeholders in templates (internal/autodiff/CGHelpers.h),
    the written files (math/DerivativesCppadCG.h) and sparsity patterns (internal/autodiff/SparsityPattern.h,
    systems/linearizer/DynamicsLinearizerADBase.h).  A string is a list of characters.  The code emitted for the derivative comes from
    CppAD and is a parameter; reading and writing files is not modelled. *)
From Coq Require Import List Arith Ascii String Bool Lia DecimalString.
From Verif Require Import Base.Outcome.
Import ListNotations.
Local Open Scope list_scope.
Local Open Scope nat_scope.

Definition text := list ascii.
(** std::string::find: the first position at which the pattern occurs. *)
Fixpoint prefixb (p t : text) : bool :=
  match p, t with [], _ => true | a :: p', b :: t' => Ascii.eqb a b && prefixb p' t' | _ :: _, [] => false end.
Fixpoint find (p t : text) : option nat :=
  if prefixb p t then Some 0 else match t with [] => None | _ :: t' => option_map S (find p t') end.
(** std::string::replace at a valid position. *)
Definition replace (t : text) (pos len : nat) (r : text) : text := List.firstn pos t ++ r ++ skipn (pos + len) t.

(** CGHelpers.h 239-247, replaceAll; [None] after [fuel] replacements means that the loop is still running. *)
Fixpoint replaceAll (fuel : nat) (t p r : text) : option text :=
  match find p t with
  | None => Some t
  | Some pos => match fuel with 0 => None | S fuel' => replaceAll fuel' (replace t pos (List.length p) r) p r end
  end.
(** 256-259, replaceOnce; std::string::replace at npos throws std::out_of_range. *)
Definition replaceOnce (t p r : text) : outcome text :=
  match find p t with None => Throw | Some pos => Ok (replace t pos (List.length p) r) end.

(** DerivativesCppadCG.h 255-265, replaceSizesAndNames: the replacements in order; [ps] pairs placeholders and texts. *)
Fixpoint replaceEach (fuel : nat) (t : text) (ps : list (text * text)) : option text :=
  match ps with [] => Some t | (p, r) :: ps' => match replaceAll fuel t p r with None => None | Some t' => replaceEach fuel t' ps' end end.
Definition chars (s : string) : text := list_ascii_of_string s.
Arguments chars s%string.
(** std::to_string of an unsigned number *)
Definition to_string (n : nat) : text := chars (NilZero.string_of_uint (Nat.to_uint n)).
Definition sizesAndNames (systemName ns1 ns2 : text) (inDim outDim : nat) : list (text * text) :=
  [(chars "DERIVATIVE_NAME", systemName); (chars "NS1", ns1); (chars "NS2", ns2); (chars "IN_DIM", to_string inDim);
   (chars "OUT_DIM", to_string outDim)].
(** 217-244, writeCodeFile, on the contents of the two templates. *)
Definition writeCodeFile (fuel : nat) (header source systemName ns1 ns2 : text) (inDim outDim tmpVarCount : nat) (codeJac codePlaceholder : text)
  : option (outcome (text * text)) :=
  match replaceEach fuel header (sizesAndNames systemName ns1 ns2 inDim outDim),
        replaceEach fuel source (sizesAndNames systemName ns1 ns2 inDim outDim) with
  | Some h, Some s =>
      Some (do h' <- replaceOnce h (chars "MAX_COUNT") (to_string tmpVarCount) ;; do s' <- replaceOnce s codePlaceholder codeJac ;; Ok (h', s'))
  | _, _ => None
  end.

(** * Sparsity patterns *)
(** SparsityPattern.h 36-65 and the members 108-110; the matrix has [rows] rows and is read by row and column.  The pairs of the two
    vectors of indices are kept together. *)
Record pattern := mkPattern { sparsity : list bool; rowcol : list (nat * nat) }.
Definition initPattern (rows cols : nat) (S : nat -> nat -> bool) : pattern :=
  mkPattern (map (fun i => S (i mod rows) (i / rows)) (seq 0 (rows * cols)))
            (flat_map (fun i => flat_map (fun j => if S i j then [(j, i)] else []) (seq 0 cols)) (seq 0 rows)).
Definition row (p : pattern) : list nat := map fst (rowcol p).
Definition col (p : pattern) : list nat := map snd (rowcol p).
(** DynamicsLinearizerADBase.h 132-156, setupSparsityA and setupSparsityB *)
Definition sparsityA (STATE_DIM CONTROL_DIM : nat) : pattern := initPattern (STATE_DIM + CONTROL_DIM) STATE_DIM (fun i j => i <? STATE_DIM).
Definition sparsityB (STATE_DIM CONTROL_DIM : nat) : pattern :=
  initPattern (STATE_DIM + CONTROL_DIM) STATE_DIM (fun i j => negb (i <? STATE_DIM)).
(** What is handed to the differentiation for a Jacobian: the pattern and the number of entries asked for.
    DerivativesCppadCG.h 92-110 (generateJacobianSource), 160-181 (generateHessianSource). *)
Definition jacobianRequest (IN_DIM OUT_DIM : nat) (S : nat -> nat -> bool) : pattern * nat := (initPattern IN_DIM OUT_DIM S, IN_DIM * OUT_DIM).
Definition hessianRequest (IN_DIM : nat) (S : nat -> nat -> bool) : pattern * nat := (initPattern IN_DIM IN_DIM S, IN_DIM * IN_DIM).

(** CGHelpers.h 212-215: the loops that copy one triangle of the Hessian onto the other; [hes] is indexed by position. *)
Definition upd {V} (h : nat -> V) (k : nat) (v : V) : nat -> V := fun i => if Nat.eqb i k then v else h i.
Definition symmetrise {V} (n : nat) (hes : nat -> V) : nat -> V :=
  fold_left (fun h i => fold_left (fun h j => upd h (i * n + j) (h (j * n + i))) (seq 0 i) h) (seq 0 n) hes.
