(** Model of the main loop of the nonlinear optimal control solver, the number of stages and the initial guess.
    /repo/ct_optcon/include/ct/optcon/solver/NLOptConSolver-impl.hpp lines 126-139,
    nloc/algorithms/SingleShooting-impl.hpp lines 56-133 and MultipleShooting-impl.hpp lines 92-160 (finishIteration),
    nloc/NLOCBackendBase-impl.hpp lines 126-246 and 1010-1103, solver/NLOptConSettings.hpp lines 290-297. *)
From Coq Require Import List ZArith QArith Qabs Qround Bool.
From Verif.Base Require Import Outcome.
From Verif.Optcon Require Import LsModel.
Import ListNotations.
Set Implicit Arguments.

Section Loop.
Variable St : Type.
Variable run : St -> bool * St.     (* runIteration: whether a better solution was found *)

(** The while loop, lines 131-136, with [fuel] iterations left before the limit; [n] is numIterations. *)
Fixpoint loop (fuel : nat) (found : bool) (n : nat) (s : St) : bool * nat * St :=
  match fuel with
  | O => (found, n, s)
  | S fuel => if found then let (f, s') := run s in loop fuel f (S n) s' else (found, n, s)
  end.
(** solve: returned flag, number of iterations and final state. *)
Definition solve (max_iterations : Z) (s : St) : bool * nat * St :=
  let '(found, n, s) := loop (Z.to_nat max_iterations) true 0 s in
  ((1 <? n)%nat || found || ((n =? 1)%nat && negb found), n, s).
End Loop.

(** One iteration as far as the line search sees it: [lq] is everything before it (LQ approximation, solution of the
    LQ problem), giving Delta1, Delta2 and the outcome of each trial. *)
Section Iter.
Variables T Df : Type.
Variable zero_defects : Df.
Variable dnorm : Df -> num.
Definition iteration (c : ls_settings) (lq : ls_state T Df -> num * num * (Q -> trial T Df)) (b : ls_state T Df) : bool * ls_state T Df :=
  let '(d1, d2, eval) := lq b in lineSearch zero_defects c d1 d2 dnorm eval b.

(** Line search type NONE, lines 1020-1042 and 1087-1094: the full step is always taken. *)
Definition fullStep (c : ls_settings) (full : ls_state T Df -> trial T Df) (b : ls_state T Df) : bool * ls_state T Df :=
  let prev := nadd (b_int b) (b_fin b) in
  let o := full b in
  let low := nadd (o_int o) (o_fin o) in
  let b' := MkLsState (o_traj o) (o_defects o) (o_int o) (o_fin o) (o_def o) (b_box b) (b_gen b) low in
  if nltb (Some (ls_minImprove c)) (nabs (ndiv (nsub prev low) prev)) then (true, b')
  else (nltb (Some (ls_maxDefect c)) (b_dnorm b'), b').
End Iter.

(** *** Number of stages. *)
(** std::lround on an exact quotient: halves away from zero. *)
Definition lround (q : Q) : Z := if Qle_bool 0 q then Qfloor (q + (1#2)) else (- Qfloor (- q + (1#2)))%Z.
(** NLOptConSettings::computeK; [None] is the exception. *)
Definition computeK (dt horizon : Q) : option Z :=
  if negb (Qle_bool 0 horizon) then None else Some (Z.max 1 (lround (horizon / dt))).

(** The members of the backend that depend on the number of stages.  Arrays are lists; entries that
    std::vector::resize adds are value initialised ([x0], [u0], [l0]). *)
Section Guess.
Variables X U L : Type.
Variables (x0 : X) (u0 : U) (l0 : L).
Record backend := MkB { k_K : Z; k_dt : Q; k_x : list X; k_xprev : list X; k_u : list U; k_L : list L; k_t : nat; k_init : bool }.
Record guess := MkG { g_x : list X; g_u : list U; g_L : list L }.

(** std::vector::resize *)
Definition resize {A} (a0 : A) (n : nat) (l : list A) : list A := firstn n l ++ repeat a0 (n - length l).

(** setInitialGuess, lines 126-187, up to the cost evaluation; [None] is the exception. *)
Definition setInitialGuess (g : guess) (b : backend) : option backend :=
  let K := Z.to_nat (k_K b) in
  if (length (g_x g) <? K + 1)%nat then None
  else if (length (g_u g) <? K)%nat then None
  else if (length (g_L g) <? K)%nat then None
  else
    let x := if (K + 1 <? length (g_x g))%nat then resize x0 (K + 1) (g_x g) else g_x g in
    let u := if (K <? length (g_u g))%nat then resize u0 K (g_u g) else g_u g in
    let l := if (K <? length (g_L g))%nat then resize l0 K (g_L g) else g_L g in
    Some (MkB (k_K b) (k_dt b) x (g_x g) u l (length x) true).

(** changeTimeHorizon(int), lines 190-226. *)
Definition changeNumStages (n : Z) (b : backend) : option backend :=
  if (n =? k_K b)%Z then Some b
  else if (n <? 1)%Z then None
  else let K := Z.to_nat n in
       Some (MkB n (k_dt b) (resize x0 (K + 1) (k_x b)) (resize x0 (K + 1) (k_xprev b)) (resize u0 K (k_u b)) (resize l0 K (k_L b)) (K + 1) (k_init b)).
(** changeTimeHorizon(tf), lines 229-235. *)
Definition changeTimeHorizon (tf : Q) (b : backend) : option backend :=
  if negb (Qle_bool 0 tf) then None
  else match computeK (k_dt b) tf with Some n => changeNumStages n b | None => None end.
(** changeInitialState, lines 238-246. *)
Definition changeInitialState (x : X) (b : backend) : backend :=
  let xs := match k_x b with [] => [x] | _ :: r => x :: r end in
  MkB (k_K b) (k_dt b) xs (k_xprev b) (k_u b) (k_L b) (k_t b) (k_init b).
(** configure, lines 385-433: takes over the settings; the number of stages stays. *)
Definition configure (dt : Q) (b : backend) : backend := MkB (k_K b) dt (k_x b) (k_xprev b) (k_u b) (k_L b) (k_t b) (k_init b).
(** getTimeHorizon, line 1647. *)
Definition getTimeHorizon (b : backend) : Q := inject_Z (k_K b) * k_dt b.
End Guess.
