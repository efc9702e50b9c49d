(** Model of the line search of the nonlinear optimal control solver.
    /repo/ct_optcon/include/ct/optcon/nloc/NLOCBackendBase-impl.hpp lines 1010-1276, NLOCBackendST-impl.hpp lines
    70-171.  Numbers are exact rationals or NaN; infinities and rounding are left out. *)
From Coq Require Import List QArith Qabs Bool Arith.
Import ListNotations.
Set Implicit Arguments.

(** A double: [None] is NaN.  Arithmetic propagates NaN, comparisons with NaN are false. *)
Definition num := option Q.
Definition nadd (a b : num) : num := match a, b with Some p, Some q => Some (p + q) | _, _ => None end.
Definition nsub (a b : num) : num := match a, b with Some p, Some q => Some (p - q) | _, _ => None end.
Definition nmul (a b : num) : num := match a, b with Some p, Some q => Some (p * q) | _, _ => None end.
Definition nltb (a b : num) : bool := match a, b with Some p, Some q => negb (Qle_bool q p) | _, _ => false end.
Definition nleb (a b : num) : bool := match a, b with Some p, Some q => Qle_bool p q | _, _ => false end.
Definition isnan (a : num) : bool := match a with None => true | _ => false end.

Section Ls.
(** Trajectories: states, controls, integrated states and sub-steps ([T]); defects are kept apart ([Df]). *)
Variables T Df : Type.
Variable zero_defects : Df.

(** What one trial of executeLineSearch, lines 1107-1183, delivers. *)
Record trial := MkTrial { o_traj : T; o_defects : Df; o_int : num; o_fin : num; o_def : num; o_box : num; o_gen : num }.

(** Settings used by the line search: LineSearchSettings and the merit weights. *)
Inductive ls_type := SIMPLE | ARMIJO.
Record ls_settings := MkLs {
  ls_kind : ls_type; ls_max : nat; ls_alpha0 : Q; ls_n : Q; ls_armijo : Q; ls_rho : Q; ls_rhoc : Q;
  ls_minImprove : Q; ls_maxDefect : Q }.

(** The members the line search reads and writes. *)
Record ls_state := MkLsState { b_traj : T; b_defects : Df; b_int : num; b_fin : num; b_dnorm : num; b_box : num; b_gen : num; b_lowest : num }.

(** Merit, lines 1201-1202 and 1214-1215. *)
Definition merit (c : ls_settings) (o : trial) : num :=
  nadd (nadd (nadd (o_int o) (o_fin o)) (nmul (Some (ls_rho c)) (o_def o)))
       (nmul (Some (ls_rhoc c)) (nadd (o_box o) (o_gen o))).

(** acceptStep, lines 1187-1276, without GOLDSTEIN, which throws.  [d1], [d2] are Delta1 and Delta2, computed from
    the solution of the LQ problem. *)
Definition acceptStep (c : ls_settings) (d1 d2 : num) (alpha : Q) (o : trial) (lowest : num) : bool :=
  let m := merit c o in
  match ls_kind c with
  | SIMPLE => nltb (Some 0) (nsub lowest m) && negb (isnan m)
  | ARMIJO =>
      if isnan m then false
      else let decr := nmul (Some alpha) (nadd d1 (nmul (nmul (Some alpha) (Some (1#2))) d2)) in
           nleb (nmul (Some (ls_armijo c)) decr) (nsub lowest m) && nleb (Some 0) (nsub lowest m)
  end.

(** performLineSearch of the single-threaded solver: the loop of lines 81-168 with [n] iterations left, at step size
    [alpha]; returns alphaBest and the members. *)
Fixpoint search (c : ls_settings) (d1 d2 : num) (eval : Q -> trial) (n : nat) (alpha : Q) (b : ls_state) : Q * ls_state :=
  match n with
  | O => (0, b)
  | S n =>
      let o := eval alpha in
      if acceptStep c d1 d2 alpha o (b_lowest b)
      then (alpha, MkLsState (o_traj o) (o_defects o) (o_int o) (o_fin o) (o_def o) (o_box o) (o_gen o) (merit c o))
      else search c d1 d2 eval n (alpha * ls_n c) b
  end.
Definition performLineSearch (c : ls_settings) (d1 d2 : num) (eval : Q -> trial) (b : ls_state) : Q * ls_state :=
  search c d1 d2 eval (ls_max c) (ls_alpha0 c) b.

(** lineSearch, lines 1010-1103, for the types that search.  [dnorm] is computeDefectsNorm.  The returned flag says
    whether a better cost was found.  Division by a previous merit of zero is not modelled (it is [None], NaN). *)
Definition ndiv (a b : num) : num := match a, b with Some p, Some q => if Qeq_bool q 0 then None else Some (p / q) | _, _ => None end.
Definition nabs (a : num) : num := match a with Some p => Some (Qabs p) | None => None end.
Definition lineSearch (c : ls_settings) (d1 d2 : num) (dnorm : Df -> num) (eval : Q -> trial) (b : ls_state) : bool * ls_state :=
  let dn := dnorm (b_defects b) in
  let low := nadd (nadd (nadd (b_int b) (b_fin b)) (nmul dn (Some (ls_rho c)))) (nmul (nadd (b_box b) (b_gen b)) (Some (ls_rhoc c))) in
  let b1 := MkLsState (b_traj b) zero_defects (b_int b) (b_fin b) dn (b_box b) (b_gen b) low in
  let (alpha, b2) := performLineSearch c d1 d2 eval b1 in
  if Qeq_bool alpha 0 then (false, b2)
  else if nltb (Some (ls_minImprove c)) (nabs (ndiv (nsub low (b_lowest b2)) low)) then (true, b2)
  else (nltb (Some (ls_maxDefect c)) (b_dnorm b2), b2).
End Ls.

(** *** The multi-threaded line search, NLOCBackendMP-impl.hpp lines 409-461 and 465-585, for one call.  Trials are
    numbered by the exponent of n_alpha; [acc e] says whether acceptStep accepts the completed trial [e].  The part
    under lineSearchResultMutex_, lines 507-583, is one step.  A worker enters at any time after the task is posted.
    A trial interrupted by the termination flag has an arbitrary verdict, given by the schedule. *)
Inductive lwpc :=
| LIdle               (* has not yet started on this line search *)
| LTake               (* line 469 *)
| LHave (e : nat)     (* line 475 *)
| LExec (e : nat)     (* lines 479-505 *)
| LCommit (e : nat) (v : bool)  (* lines 507-583 *)
| LOut.               (* returned *)
Inductive lmpc :=
| LCheck              (* predicate of the wait, line 432 *)
| LBlock              (* predicate was false, about to block *)
| LSleep
| LDone.              (* past the wait *)

Record lst := MkLst {
  l_taken : nat; l_found : bool; l_best : nat; l_processed : list bool;
  l_result : option nat;          (* which trial's trajectories and costs are in place; None: those before the call *)
  l_main : lmpc; l_workers : list lwpc }.

Fixpoint lupd {A} (l : list A) (i : nat) (v : A) : list A :=
  match l, i with
  | [], _ => []
  | _ :: l, O => v :: l
  | a :: l, S i => a :: lupd l i v
  end.

Section LsMp.
Variable acc : nat -> bool.
Variable max : nat.               (* alphaExpMax_ *)

Definition all_before (best : nat) (p : list bool) : bool := forallb (fun b => b) (firstn best p).

(** Lines 507-583. *)
Definition commit (i e : nat) (v : bool) (s : lst) : lst :=
  if v && l_found s then MkLst (l_taken s) (l_found s) (l_best s) (l_processed s) (l_result s) (l_main s) (lupd (l_workers s) i LOut)
  else
    let best := if v then e else l_best s in
    let res := if v then Some e else l_result s in
    let p := lupd (l_processed s) e true in
    let all := all_before best p in
    MkLst (l_taken s) (l_found s || all) best p res
      (if all then match l_main s with LSleep => LCheck | m => m end else l_main s) (lupd (l_workers s) i LTake).

Definition lworker (i : nat) (verdict : bool) (s : lst) : option lst :=
  let go pc := MkLst (l_taken s) (l_found s) (l_best s) (l_processed s) (l_result s) (l_main s) (lupd (l_workers s) i pc) in
  match nth_error (l_workers s) i with
  | None => None
  | Some LIdle => Some (go LTake)
  | Some LTake => Some (MkLst (S (l_taken s)) (l_found s) (l_best s) (l_processed s) (l_result s) (l_main s) (lupd (l_workers s) i (LHave (l_taken s))))
  | Some (LHave e) => Some (go (if (max <=? e) || l_found s then LOut else LExec e))
  | Some (LExec e) => Some (go (LCommit e (if l_found s then verdict else acc e)))
  | Some (LCommit e v) => Some (commit i e v s)
  | Some LOut => None
  end.

Definition lmain (s : lst) : option lst :=
  let go m := MkLst (l_taken s) (l_found s) (l_best s) (l_processed s) (l_result s) m (l_workers s) in
  match l_main s with
  | LCheck => Some (go (if l_found s then LDone else LBlock))
  | LBlock => Some (go LSleep)
  | LSleep | LDone => None
  end.

Inductive lev := LMain | LWk (i : nat) (verdict : bool) | LSpur.
Definition lstep (e : lev) (s : lst) : option lst :=
  match e with
  | LMain => lmain s
  | LWk i v => lworker i v s
  | LSpur => match l_main s with
             | LSleep => Some (MkLst (l_taken s) (l_found s) (l_best s) (l_processed s) (l_result s) LCheck (l_workers s))
             | _ => None
             end
  end.
Fixpoint lrun (sch : list lev) (s : lst) : option lst :=
  match sch with
  | [] => Some s
  | e :: sch => match lstep e s with Some s' => lrun sch s' | None => None end
  end.

(** Lines 413-422: the search is posted to [n] workers. *)
Definition lpost (n : nat) : lst := MkLst 0 false max (repeat false max) None LCheck (repeat LIdle n).

(** Lines 440-445: the step size returned, as an exponent; [None] stands for 0. *)
Definition lreturned (s : lst) : option nat := if l_best s =? max then None else Some (l_best s).
End LsMp.
