(** Model of ct_optcon/include/ct/optcon/constraint/ConstraintContainerAD-impl.h with the base classes
    LinearConstraintContainer-impl.h and ConstraintContainerBase-impl.h (state, initialisation and bounds).
    Intermediate and terminal constraints are kept in two sets of fields that the same code treats; a [stage] is one of
    them.  Constraint terms are immutable: their parameters and bounds do not change after they have been added.
    compileJIT is called with a dynamic library (DerivativesCppadSettings.h 50).  Printing is left out. *)
From Coq Require Import Reals List Bool Arith.
From Verif Require Import Base.Outcome Core.JitModel.
Import ListNotations.
Local Open Scope R_scope.

(** ConstraintBase: getConstraintSize, evaluateCppadCg, getLowerBound, getUpperBound. *)
Record constraint := mkConstraint { c_size : nat; c_eval : vec -> vec -> R -> vec; c_lower : vec; c_upper : vec }.

Section Container.
Variable jacOf : func -> vec -> nat -> nat -> R.
Variable patternOf : func -> nat -> nat -> list (nat * nat).
(** STATE_DIM and CONTROL_DIM *)
Variables (n m : nat).

Record stage := mkStage { terms : list constraint; codegen : option jit; initialized : bool;
  patState : list (nat * nat); patInput : list (nat * nat); lower : vec; upper : vec }.
(** [x], [u], [t] of the base and stateControlD_. *)
Record container := mkContainer { inter : stage; term : stage; b_x : vec; b_u : vec; b_t : R; stateControlD : vec }.

(** 163-185 *)
Definition countOf (cs : list constraint) : nat := fold_left (fun count c => (count + c_size c)%nat) cs 0%nat.
(** 531-569: the time is zero. *)
Definition evaluateCodegen (cs : list constraint) (stateinput : vec) : vec :=
  fold_left (fun g c => g ++ c_eval c (firstn n stateinput) (skipn n stateinput) 0) cs [].
(** LinearConstraintContainer-impl.h 11-15 and ConstraintContainerAD-impl.h 14-31: one stage. *)
Definition emptyStage (j : option jit) : stage := mkStage [] j false [] [] [] [].
(** 14-31; ConstraintContainerBase-impl.h 11-15 *)
Definition newContainer : container :=
  let j := Some (newJit (evaluateCodegen []) (n + m) (countOf [])) in
  mkContainer (emptyStage j) (emptyStage j) (repeat 0 n) (repeat 0 m) 0 (repeat 0 (n + m)).
(** 34-41: nothing is generated. *)
Definition newContainerAt (x u : vec) (t : R) : container :=
  mkContainer (emptyStage None) (emptyStage None) (repeat 0 n) (repeat 0 m) 0 (x ++ u).
(** 96-138 *)
Definition addStage (c : constraint) (s : stage) : outcome stage :=
  let cs := terms s ++ [c] in
  match codegen s with
  | None => UB
  | Some j => Ok (mkStage cs (Some (update (evaluateCodegen cs) (n + m) (countOf cs) j)) false (patState s) (patInput s) (lower s) (upper s))
  end.
(** The loops 426-432 and 491-497. *)
Definition bounds (f : constraint -> vec) (cs : list constraint) : vec := fold_left (fun b c => b ++ f c) cs [].
(** The loops 437-451 and 502-516: the entries of the state, and those of the input with their own columns. *)
Fixpoint split (p : list (nat * nat)) : list (nat * nat) * list (nat * nat) :=
  match p with
  | [] => ([], [])
  | (r, c) :: p' =>
      let '(s, i) := split p' in
      if (c <? n)%nat then ((r, c) :: s, i) else (s, (r, (c - n)%nat) :: i)
  end.
(** 394-521; the flag is set by the caller. *)
Definition initStage (s : stage) : outcome stage :=
  if (0 <? countOf (terms s))%nat then
    match codegen s with
    | None => UB
    | Some j =>
        do j' <- compileJIT patternOf true false j ;;
        let '(ps, pi) := split (getSparsityPatternJacobian j') in
        Ok (mkStage (terms s) (Some j') (initialized s) ps pi (bounds c_lower (terms s)) (bounds c_upper (terms s)))
    end
  else Ok s.
Definition flag (b : bool) (s : stage) : stage := mkStage (terms s) (codegen s) b (patState s) (patInput s) (lower s) (upper s).
(** LinearConstraintContainer-impl.h 38-43 *)
Definition initialize (k : container) : outcome container :=
  do i <- initStage (inter k) ;; do t <- initStage (term k) ;;
  Ok (mkContainer (flag true i) (flag true t) (b_x k) (b_u k) (b_t k) (stateControlD k)).
(** 44-80: the recorded function is the one of the original; constraints are cloned. *)
Definition copyStage (s : stage) : stage :=
  mkStage (terms s) (Some (newJit (evaluateCodegen (terms s)) (n + m) (countOf (terms s)))) (initialized s) (patState s) (patInput s) (lower s) (upper s).
Definition copyContainer (k : container) : outcome container :=
  do i <- initStage (copyStage (inter k)) ;; do t <- initStage (copyStage (term k)) ;;
  Ok (mkContainer i t (b_x k) (b_u k) (b_t k) (stateControlD k)).
(** ConstraintContainerBase-impl.h 34-42 with update (524-528). *)
Definition setCurrentStateAndControl (x u : vec) (t : R) (k : container) : container :=
  mkContainer (inter k) (term k) x u t (x ++ u).
(** 96-138 *)
Definition addIntermediateConstraint (c : constraint) (k : container) : outcome container :=
  do s <- addStage c (inter k) ;; Ok (mkContainer s (term k) (b_x k) (b_u k) (b_t k) (stateControlD k)).
Definition addTerminalConstraint (c : constraint) (k : container) : outcome container :=
  do s <- addStage c (term k) ;; Ok (mkContainer (inter k) s (b_x k) (b_u k) (b_t k) (stateControlD k)).

Definition withCodegen {A} (s : stage) (f : jit -> outcome A) : outcome A := match codegen s with Some j => f j | None => UB end.
(** 141-160 *)
Definition evaluate (s : stage) (sc : vec) : outcome vec :=
  if negb (initialized s) then Throw else withCodegen s (fun j => forwardZero j sc).
(** 207-216, 237-246: columns of the state. *)
Definition jacobianState (s : stage) (sc : vec) : outcome (nat -> nat -> R) :=
  if negb (initialized s) then Throw else withCodegen s (fun j => jacobian jacOf j sc).
(** 264-273, 294-303: columns of the input. *)
Definition jacobianInput (s : stage) (sc : vec) : outcome (nat -> nat -> R) :=
  if negb (initialized s) then Throw else
  do J <- withCodegen s (fun j => jacobian jacOf j sc) ;; Ok (fun r c => J r (n + c)%nat).
(** 351-391 *)
Definition nonZeroState (s : stage) : outcome nat := if negb (initialized s) then Throw else Ok (length (patState s)).
Definition nonZeroInput (s : stage) : outcome nat := if negb (initialized s) then Throw else Ok (length (patInput s)).
(** 305-349 *)
Definition sparsityPatternState (s : stage) : outcome (list (nat * nat)) := if negb (initialized s) then Throw else Ok (patState s).
Definition sparsityPatternInput (s : stage) : outcome (list (nat * nat)) := if negb (initialized s) then Throw else Ok (patInput s).
(** 186-204, 219-234 *)
Definition jacobianStateSparse (s : stage) (sc : vec) : outcome vec :=
  if negb (initialized s) then Throw else
  do J <- withCodegen s (fun j => jacobian jacOf j sc) ;; Ok (map (fun rc => J (fst rc) (snd rc)) (patState s)).
(** 276-291 *)
Definition jacobianInputSparseTerminal (s : stage) (sc : vec) : outcome vec :=
  if negb (initialized s) then Throw else
  do J <- withCodegen s (fun j => jacobian jacOf j sc) ;; Ok (map (fun rc => J (fst rc) (n + snd rc)%nat) (patInput s)).
(** 249-261: the flag is only checked when the number of entries is asked for. *)
Definition jacobianInputSparseIntermediate (s : stage) (sc : vec) : outcome vec :=
  do J <- withCodegen s (fun j => jacobian jacOf j sc) ;;
  do _ <- nonZeroInput s ;; Ok (map (fun rc => J (fst rc) (n + snd rc)%nat) (patInput s)).

(** A program using a container. *)
Inductive op :=
| AddIntermediate (c : constraint) | AddTerminal (c : constraint) | Initialize | Set_ (x u : vec) (t : R) | Clone.
Definition step (k : container) (o : op) : outcome container :=
  match o with
  | AddIntermediate c => addIntermediateConstraint c k
  | AddTerminal c => addTerminalConstraint c k
  | Initialize => initialize k
  | Set_ x u t => Ok (setCurrentStateAndControl x u t k)
  | Clone => copyContainer k
  end.
Fixpoint exec (k : container) (os : list op) : outcome container :=
  match os with [] => Ok k | o :: r => do k' <- step k o ;; exec k' r end.
End Container.
