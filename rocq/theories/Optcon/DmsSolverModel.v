(** Model of how an optimal control problem gets into the direct multiple shooting solver:
    ct_optcon/include/ct/optcon/problem/OptConProblemBase-impl.h, solver/OptConSolver.h (setProblem), dms/dms_core/DmsSolver.h,
    DmsProblem.h (constructor, configure, changeTimeHorizon), ShotContainer.h (constructor).
    Systems, linearisations, cost functions and constraint containers are values of abstract types; a clone of an object
    is the same value (C46, C86).  A null pointer is None.  Scalars are real. *)
From Coq Require Import Reals List Bool Arith ZArith.
From Verif Require Import Base.Outcome Optcon.DmsModel Optcon.DmsSplineModel.
Import ListNotations.
Local Open Scope R_scope.

(** DmsSettings.h, the members read here.  SplineType_t, CostEvaluationType_t, ObjectiveType_t, IntegrationType_t and
    NlpSolverType; [None] is any other value (for the integration type the process ends with exit(0), not modelled). *)
Inductive costEval := SIMPLE | FULL.
Inductive integration := EULER | RK4 | RK5.
Inductive nlpType := IPOPT | SNOPT.
Record dmsSettings := mkDms {
  ds_N : nat; ds_T : R; ds_dt : R; ds_spline : option splineType; ds_cost : option costEval; ds_optimizeGrid : bool;
  ds_integration : integration; ds_nlp : option nlpType }.

Section Solver.
Variables (X Dyn Lin Cost Con : Type).
(** The numerical linearisation of a system (LINEARIZER_T). *)
Variable linearizer : Dyn -> Lin.

(** OptConProblemBase.h 222-250.  [tf_] is None when a constructor without horizon was used. *)
Record problem := mkPb {
  pb_tf : option R; pb_x0 : X; pb_dyn : option Dyn; pb_lin : option Lin; pb_cost : option Cost;
  pb_inputBox : option Con; pb_stateBox : option Con; pb_general : option Con }.
(** OptConProblemBase-impl.h 14-34, 83-101.  The delegating constructor builds the linearizer from the system given. *)
Definition newProblem (tf : R) (x0 : X) (dyn : option Dyn) (cost : option Cost) (ib sb g : option Con) (lin : option Lin) : problem :=
  mkPb (Some tf) x0 dyn (match lin with None => option_map linearizer dyn | Some l => Some l end) cost ib sb g.
(** 175-203: the setters replace the pointer only. *)
Definition setNonlinearSystem (d : option Dyn) (p : problem) : problem :=
  mkPb (pb_tf p) (pb_x0 p) d (pb_lin p) (pb_cost p) (pb_inputBox p) (pb_stateBox p) (pb_general p).
Definition setLinearSystem (l : option Lin) (p : problem) : problem :=
  mkPb (pb_tf p) (pb_x0 p) (pb_dyn p) l (pb_cost p) (pb_inputBox p) (pb_stateBox p) (pb_general p).
(** verify, 110-128. *)
Definition verify (p : problem) : outcome R :=
  match pb_dyn p with
  | None => Throw
  | Some _ =>
    match pb_lin p with
    | None => Throw
    | Some _ =>
      match pb_cost p with
      | None => Throw
      | Some _ => match pb_tf p with
                  | None => UB
                  | Some tf => if Rlt_dec tf 0 then Throw else Ok tf
                  end
      end
    end
  end.

(** One ShotContainer (with the integrator it owns): 70-135. *)
Record shot := mkShot { sh_dyn : Dyn; sh_lin : Lin; sh_cost : Cost; sh_rk4 : bool; sh_start : R; sh_steps : nat }.
(** What the NLP solver works on: the shots, the cost evaluator (its cost function, and the weights of the simple
    evaluator), the shared time grid, the initial state constraint and the discretized constraints, in order. *)
Record nlpProblem := mkNlp {
  np_shots : list shot; np_evalCost : Cost; np_phi : option (list R); np_grid : grid R; np_x0 : X; np_con : list Con;
  np_guess : option X }.

(** Conversion of a real number to size_t: truncation; negative or too large values are undefined. *)
Definition to_size (r : R) : outcome nat :=
  if Rlt_dec (-1) r then if Rlt_dec r (IZR 18446744073709551616) then Ok (Z.to_nat (Int_part r)) else UB else UB.

(** DmsProblem.h 128-142 with ShotContainer.h 91-135: the shots, each from its own copies of the given objects. *)
Definition newShot (s : dmsSettings) (g : grid R) (sys : list Dyn) (lin : list Lin) (cost : list Cost) (k : nat) : outcome shot :=
  do d <- vec_get sys k ;;
  do l <- vec_get lin k ;;
  do e <- getShotEndTime g k ;;
  do b <- getShotStartTime g k ;;
  do n <- (if Req_EM_T (ds_dt s) 0 then UB else to_size ((e - b) / ds_dt s + 1 / 2)) ;;
  do c <- vec_get cost k ;;
  match ds_integration s with
  | EULER => Ok (mkShot d l c false b n)
  | RK4 => Ok (mkShot d l c true b n)
  | RK5 => Throw
  end.

Definition front {A : Type} (l : list A) : list A := match l with [] => [] | a :: _ => [a] end.

(** DmsProblem.h 62-169.  The result of parametersOk (75) is not looked at. *)
Definition newDmsProblem (s : dmsSettings) (sys : list Dyn) (lin : list Lin) (cost : list Cost) (ib sb gen : list Con) (x0 : X)
  : outcome nlpProblem :=
  do g <- rNewGrid (ds_N s) (ds_T s) ;;
  match ds_spline s with
  | None => Throw
  | Some sp =>
    if ds_optimizeGrid s then Throw
    else
      let con := front ib ++ front sb ++ front gen in
      do shots <- collect (newShot s g sys lin cost) 0 (ds_N s) ;;
      match ds_cost s with
      | None => Throw
      | Some ce =>
          do c <- vec_get cost 0 ;;
          do phi <- match ce with SIMPLE => omap Some (updatePhi sp g (ds_N s)) | FULL => Ok None end ;;
          Ok (mkNlp shots c phi g x0 con None)
      end
  end.

(** DmsSolver.h 275-289. *)
Record solver := mkSolver {
  so_settings : dmsSettings; so_problem : option nlpProblem; so_nlp : option nlpType; so_x0 : option X; so_tf : option R;
  so_sys : list Dyn; so_lin : list Lin; so_cost : list Cost; so_ib : list Con; so_sb : list Con; so_gen : list Con }.

Definition overProblem (f : nlpProblem -> outcome nlpProblem) (o : option nlpProblem) : outcome (option nlpProblem) :=
  match o with None => Ok None | Some p => omap Some (f p) end.

(** DmsSolver.h 162-167 with DmsProblem.h 251; 169-174 with 257-261. *)
Definition changeTimeHorizon (tf : R) (s : solver) : outcome solver :=
  do p <- overProblem (fun p => do g <- rChangeTimeHorizon tf (np_grid p) ;;
            Ok (mkNlp (np_shots p) (np_evalCost p) (np_phi p) g (np_x0 p) (np_con p) (np_guess p))) (so_problem s) ;;
  Ok (mkSolver (so_settings s) p (so_nlp s) (so_x0 s) (Some tf) (so_sys s) (so_lin s) (so_cost s) (so_ib s) (so_sb s) (so_gen s)).
Definition changeInitialState (x : X) (s : solver) : outcome solver :=
  do p <- overProblem (fun p =>
            Ok (mkNlp (np_shots p) (np_evalCost p) (np_phi p) (np_grid p) (np_x0 p) (np_con p) (Some x))) (so_problem s) ;;
  Ok (mkSolver (so_settings s) p (so_nlp s) (Some x) (so_tf s) (so_sys s) (so_lin s) (so_cost s) (so_ib s) (so_sb s) (so_gen s)).
(** 176-217: N copies of the new object (an absent one leaves N null pointers; problems with absent parts are refused by
    verify, so the model takes the object itself); constraints are appended. *)
Definition changeCostFunction (c : Cost) (s : solver) : solver :=
  mkSolver (so_settings s) (so_problem s) (so_nlp s) (so_x0 s) (so_tf s) (so_sys s) (so_lin s) (repeat c (ds_N (so_settings s))) (so_ib s) (so_sb s) (so_gen s).
Definition changeNonlinearSystem (d : Dyn) (s : solver) : solver :=
  mkSolver (so_settings s) (so_problem s) (so_nlp s) (so_x0 s) (so_tf s) (repeat d (ds_N (so_settings s))) (so_lin s) (so_cost s) (so_ib s) (so_sb s) (so_gen s).
Definition changeLinearSystem (l : Lin) (s : solver) : solver :=
  mkSolver (so_settings s) (so_problem s) (so_nlp s) (so_x0 s) (so_tf s) (so_sys s) (repeat l (ds_N (so_settings s))) (so_cost s) (so_ib s) (so_sb s) (so_gen s).
Definition changeInputBoxConstraints (c : Con) (s : solver) : solver :=
  mkSolver (so_settings s) (so_problem s) (so_nlp s) (so_x0 s) (so_tf s) (so_sys s) (so_lin s) (so_cost s) (so_ib s ++ [c]) (so_sb s) (so_gen s).
Definition changeStateBoxConstraints (c : Con) (s : solver) : solver :=
  mkSolver (so_settings s) (so_problem s) (so_nlp s) (so_x0 s) (so_tf s) (so_sys s) (so_lin s) (so_cost s) (so_ib s) (so_sb s ++ [c]) (so_gen s).
Definition changeGeneralConstraints (c : Con) (s : solver) : solver :=
  mkSolver (so_settings s) (so_problem s) (so_nlp s) (so_x0 s) (so_tf s) (so_sys s) (so_lin s) (so_cost s) (so_ib s) (so_sb s) (so_gen s ++ [c]).

Definition onSome {A B : Type} (o : option A) (f : A -> B -> B) (b : B) : B := match o with None => b | Some a => f a b end.

(** OptConSolver.h 73-89. *)
Definition setProblem (p : problem) (s : solver) : outcome solver :=
  do tf <- verify p ;;
  do s <- changeTimeHorizon tf s ;;
  do s <- changeInitialState (pb_x0 p) s ;;
  let s := onSome (pb_cost p) changeCostFunction s in
  let s := onSome (pb_dyn p) changeNonlinearSystem s in
  let s := onSome (pb_lin p) changeLinearSystem s in
  let s := onSome (pb_inputBox p) changeInputBoxConstraints s in
  let s := onSome (pb_stateBox p) changeStateBoxConstraints s in
  Ok (onSome (pb_general p) changeGeneralConstraints s).

(** configure, DmsSolver.h 121-126 with DmsProblem.h 189: DmsProblem::settings_ is not read after construction. *)
Definition configure (st : dmsSettings) (s : solver) : outcome solver :=
  match so_tf s, so_x0 s with
  | Some tf, Some x => do s <- changeTimeHorizon tf s ;; changeInitialState x s
  | _, _ => UB
  end.

(** The constructor, 93-113. *)
Definition newSolver (p : problem) (st : dmsSettings) : outcome solver :=
  do s <- setProblem p (mkSolver st None None None None [] [] [] [] [] []) ;;
  match so_x0 s with
  | None => UB
  | Some x0 =>
      do np <- newDmsProblem st (so_sys s) (so_lin s) (so_cost s) (so_ib s) (so_sb s) (so_gen s) x0 ;;
      configure st (mkSolver (so_settings s) (Some np) (ds_nlp st) (so_x0 s) (so_tf s) (so_sys s) (so_lin s) (so_cost s) (so_ib s) (so_sb s) (so_gen s))
  end.

(** solve, 128-134: what is handed to which NLP solver; a null nlpSolver_ is dereferenced. *)
Definition solve (s : solver) : outcome (nlpType * nlpProblem) :=
  match so_nlp s, so_problem s with
  | Some t, Some p => Ok (t, p)
  | _, _ => UB
  end.
End Solver.
Arguments mkPb {X Dyn Lin Cost Con}. Arguments pb_tf {X Dyn Lin Cost Con}. Arguments pb_x0 {X Dyn Lin Cost Con}.
Arguments pb_dyn {X Dyn Lin Cost Con}. Arguments pb_lin {X Dyn Lin Cost Con}. Arguments pb_cost {X Dyn Lin Cost Con}.
Arguments newProblem {X Dyn Lin Cost Con}. Arguments verify {X Dyn Lin Cost Con}.
Arguments setNonlinearSystem {X Dyn Lin Cost Con}. Arguments setLinearSystem {X Dyn Lin Cost Con}.
Arguments mkShot {Dyn Lin Cost}. Arguments sh_dyn {Dyn Lin Cost}. Arguments sh_lin {Dyn Lin Cost}. Arguments sh_cost {Dyn Lin Cost}.
Arguments sh_rk4 {Dyn Lin Cost}. Arguments sh_start {Dyn Lin Cost}. Arguments sh_steps {Dyn Lin Cost}.
Arguments newShot {Dyn Lin Cost}.
Arguments mkNlp {X Dyn Lin Cost Con}. Arguments np_shots {X Dyn Lin Cost Con}. Arguments np_evalCost {X Dyn Lin Cost Con}.
Arguments np_phi {X Dyn Lin Cost Con}. Arguments np_grid {X Dyn Lin Cost Con}. Arguments np_x0 {X Dyn Lin Cost Con}.
Arguments np_con {X Dyn Lin Cost Con}. Arguments np_guess {X Dyn Lin Cost Con}.
Arguments newDmsProblem {X Dyn Lin Cost Con}.
Arguments mkSolver {X Dyn Lin Cost Con}. Arguments so_settings {X Dyn Lin Cost Con}. Arguments so_problem {X Dyn Lin Cost Con}.
Arguments so_nlp {X Dyn Lin Cost Con}. Arguments so_x0 {X Dyn Lin Cost Con}. Arguments so_tf {X Dyn Lin Cost Con}.
Arguments changeTimeHorizon {X Dyn Lin Cost Con}. Arguments changeInitialState {X Dyn Lin Cost Con}.
Arguments changeCostFunction {X Dyn Lin Cost Con}. Arguments changeNonlinearSystem {X Dyn Lin Cost Con}.
Arguments changeLinearSystem {X Dyn Lin Cost Con}. Arguments changeInputBoxConstraints {X Dyn Lin Cost Con}.
Arguments changeStateBoxConstraints {X Dyn Lin Cost Con}. Arguments changeGeneralConstraints {X Dyn Lin Cost Con}.
Arguments setProblem {X Dyn Lin Cost Con}. Arguments configure {X Dyn Lin Cost Con}. Arguments newSolver {X Dyn Lin Cost Con}.
Arguments solve {X Dyn Lin Cost Con}.
