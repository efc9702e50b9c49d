(** Model of the derivatives compiled just in time: ct_core/include/ct/core/math/DerivativesCppadJIT{.h,-impl.h}.
    Scalars are exact reals.  CppAD and CppADCodeGen are parameters: a recorded operation sequence is the function itself,
    [jacOf] is the Jacobian of its compiled code and [patternOf] the sparsity pattern, as pairs of row and column.
    Names of libraries, the contents of files, Hessians and verbosity are not modelled. *)
From Coq Require Import Reals List Bool Arith.
From Verif Require Import Base.Outcome.
Import ListNotations.
Local Open Scope R_scope.

Definition vec := list R.
Definition func := vec -> vec.

Section Jit.
Variable jacOf : func -> vec -> nat -> nat -> R.
Variable patternOf : func -> nat -> nat -> list (nat * nat).

(** DerivativesCppadJIT.h 180-218.  [tape] is cgCppadFun_ ([None] before anything is recorded), [model] the code of model_
    ([None] for a null pointer), [dynamicLib] and [llvmLib] say whether the pointers are set; [sparsity] are
    sparsityRowsJacobian_, sparsityColsJacobian_ and [sparsityEigen] the Eigen copies. *)
Record jit := mkJit { inputDim : nat; outputDim : nat; tape : option func; compiled : bool; model : option func;
  dynamicLib : bool; llvmLib : bool; sparsity : list (nat * nat); sparsityEigen : list (nat * nat) }.

(** -impl.h 66-80, with recordCg (458-480).  The pointer to an LLVM library is not reset. *)
Definition update (f : func) (i o : nat) (j : jit) : jit :=
  if ((0 <? o) && (0 <? i))%nat then mkJit i o (Some f) false None false (llvmLib j) (sparsity j) (sparsityEigen j)
  else mkJit i o (tape j) (compiled j) (model j) (dynamicLib j) (llvmLib j) (sparsity j) (sparsityEigen j).
(** 14-29 *)
Definition newJit (f : func) (i o : nat) : jit := update f i o (mkJit i o None false None false false [] []).
(** 31-63: the sparsity patterns are not copied. *)
Definition copyJit (arg : jit) : outcome jit :=
  let j := mkJit (inputDim arg) (outputDim arg) (tape arg) (compiled arg) None false false [] [] in
  if compiled arg then
    if dynamicLib arg then Ok (mkJit (inputDim arg) (outputDim arg) (tape arg) true (model arg) true false [] [])
    else Throw
  else Ok j.
(** 295-436; [dynamic] is settings.useDynamicLibrary_, [llvm] says whether LLVM is installed.  What the libraries do without a
    recorded function is left open. *)
Definition compileJIT (dynamic llvm : bool) (j : jit) : outcome jit :=
  if compiled j then Ok j else
  match tape j with
  | None => UB
  | Some f =>
      if dynamic || llvm then
        let p := patternOf f (inputDim j) (outputDim j) in
        Ok (mkJit (inputDim j) (outputDim j) (tape j) true (Some f) (dynamicLib j || dynamic) (llvmLib j || negb dynamic) p p)
      else Throw
  end.
(** 88-100; a null pointer is dereferenced if there is no model. *)
Definition forwardZero (j : jit) (x : vec) : outcome vec :=
  if compiled j then match model j with Some f => Ok (f x) | None => UB end else Throw.
(** 102-120 *)
Definition jacobian (j : jit) (x : vec) : outcome (nat -> nat -> R) :=
  if (outputDim j <=? 0)%nat then Throw else
  if compiled j then match model j with Some f => Ok (jacOf f x) | None => UB end else Throw.
(** 122-143: the library writes the pattern it computes for into the two vectors; the returned indices are the Eigen copies. *)
Definition sparseJacobian (j : jit) (x : vec) : outcome (vec * list (nat * nat)) * jit :=
  if (outputDim j <=? 0)%nat then (Throw, j) else
  if compiled j then
    match model j with
    | Some f =>
        let p := patternOf f (inputDim j) (outputDim j) in
        (Ok (map (fun rc => jacOf f x (fst rc) (snd rc)) p, sparsityEigen j),
         mkJit (inputDim j) (outputDim j) (tape j) (compiled j) (model j) (dynamicLib j) (llvmLib j) p (sparsityEigen j))
    | None => (UB, j)
    end
  else (Throw, j).
(** 263-270 *)
Definition getSparsityPatternJacobian (j : jit) : list (nat * nat) := sparsityEigen j.
(** 272-277 *)
Definition getNumNonZerosJacobian (j : jit) : nat := length (sparsity j).
End Jit.
