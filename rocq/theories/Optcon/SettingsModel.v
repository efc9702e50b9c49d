(** * Model of the settings and of how they are loaded from files

    Models  ct_optcon/include/ct/optcon/solver/NLOptConSettings.hpp,  mpc/MpcSettings.h,
    dms/dms_core/DmsSettings.h,  nlp/solver/NlpSolverSettings.h,  filter/FilterSettings.h
    (ct_optcon)  and  ct_core/include/ct/core/math/DerivativesCppadSettings.h.

    A settings object is the function that gives the value of each member by its name (members
    of members have dotted names).  A load function is the list of its statements. *)
From Coq Require Import List String Ascii ZArith Bool.
From Coq Require Import Floats.SpecFloat.
From Verif Require Import Base.Outcome Core.InfoModel.
Import ListNotations.
Local Open Scope string_scope.

Definition settings := string -> value.
Definition upd (s : settings) (f : string) (v : value) : settings :=
  fun g => if g =? f then v else s g.

(** Enumerators are their numbers. *)
Definition E (n : Z) : value := VI n.

Inductive stm :=
(** member = pt.get<T>(ns + "." + key) *)
| Get (t : tag) (member key : string)
(** member = conversion(pt.get<T>(ns + "." + key)) *)
| GetConv (t : tag) (conv : value -> value) (member key : string)
(** the member takes the value computed from another member, or a constant *)
| Copy (member from : string)
| Set_ (member : string) (v : value)
(** setParameterIfExists, NlpSolverSettings.h 241-253 *)
| IfExists (t : tag) (member key : string)
(** a name looked up in a map, exit(-1) if it is not there *)
| Enum (names : list (string * Z)) (member key : string)
(** the same, with only a message if it is not there (DerivativesCppadSettings.h 137-147) *)
| EnumWarn (names : list (string * Z)) (member key : string)
(** try { ... } catch (...) { } *)
| Try (b : list stm)
(** other.load(filename, verbose, ns + suffix) for a member *)
| Load (member suffix : string) (b : list stm)
(** if (member == v) ... else if (member == w) ... *)
| Switch (member : string) (cases : list (value * stm)).

(** How a load function ends: normally, by an exception, or by ending the process. *)
Inductive status := Done | Thrown | Exited.

Definition assoc (names : list (string * Z)) (k : string) : option Z :=
  match find (fun p => fst p =? k) names with Some p => Some (snd p) | None => None end.

Definition value_eqb (a b : value) : bool :=
  match a, b with
  | VI x, VI y => Z.eqb x y
  | VB x, VB y => Bool.eqb x y
  | VS x, VS y => x =? y
  | _, _ => false
  end.

Section Load.
Variable parse_double : string -> option spec_float.
Variable pt : tree.

Definition get (t : tag) (ns key : string) : outcome value :=
  pt_get parse_double pt t (ns ++ "." ++ key).

Definition dotted (pre f : string) : string := if pre =? "" then f else pre ++ "." ++ f.

Definition seq_ (run : stm -> settings -> status * settings) : list stm -> settings -> status * settings :=
  fix go b s :=
    match b with
    | [] => (Done, s)
    | c :: r => match run c s with (Done, s') => go r s' | x => x end
    end.

Fixpoint exec (pre ns : string) (c : stm) (s : settings) {struct c} : status * settings :=
  match c with
  | Get t f k => match get t ns k with Ok v => (Done, upd s (dotted pre f) v) | _ => (Thrown, s) end
  | GetConv t conv f k =>
      match get t ns k with Ok v => (Done, upd s (dotted pre f) (conv v)) | _ => (Thrown, s) end
  | Copy f g => (Done, upd s (dotted pre f) (s (dotted pre g)))
  | Set_ f v => (Done, upd s (dotted pre f) v)
  | IfExists t f k =>
      match pt (path (ns ++ "." ++ k)) with
      | None => (Done, s)
      | Some _ => match get t ns k with Ok v => (Done, upd s (dotted pre f) v) | _ => (Thrown, s) end
      end
  | Enum names f k =>
      match get TS ns k with
      | Ok (VS n) => match assoc names n with
                     | Some z => (Done, upd s (dotted pre f) (E z)) | None => (Exited, s) end
      | _ => (Thrown, s)
      end
  | EnumWarn names f k =>
      match get TS ns k with
      | Ok (VS n) => match assoc names n with
                     | Some z => (Done, upd s (dotted pre f) (E z)) | None => (Done, s) end
      | _ => (Thrown, s)
      end
  | Try b => match seq_ (exec pre ns) b s with (Thrown, s') => (Done, s') | x => x end
  | Load m sfx b => seq_ (exec (dotted pre m) (ns ++ sfx)) b s
  | Switch f cases =>
      (fix go l := match l with
                   | [] => (Done, s)
                   | (v, c') :: r =>
                       if value_eqb (s (dotted pre f)) v then exec pre ns c' s else go r
                   end) cases
  end.
Definition run (b : list stm) (ns : string) (s : settings) : status * settings := seq_ (exec "" ns) b s.
End Load.

Definition Opt (t : tag) (f k : string) : stm := Try [Get t f k].

(** ** NLOptConSettings.hpp *)

(** LineSearchSettings: constructor 44-54 (lineSearchSettings.* below), load 87-146 *)
Definition line_search_types := [("NONE", 0); ("SIMPLE", 1); ("ARMIJO", 2); ("GOLDSTEIN", 3)]%Z.
Definition load_line_search : list stm :=
  [ Enum line_search_types "type" "type";
    Get TZ "maxIterations" "maxIterations";
    Get TD "alpha_0" "alpha_0";
    Get TD "n_alpha" "n_alpha";
    Get TB "debugPrint" "debugPrint";
    Copy "alpha_max" "alpha_0";
    Set_ "adaptive" (VB false);
    Opt TD "armijo_parameter" "armijo_parameter";
    Opt TB "adaptive" "adaptive";
    Opt TD "alpha_max" "alpha_max" ].

(** LQOCSolverSettings::load, 169-189 *)
Definition load_lqoc : list stm :=
  [ Opt TI "num_lqoc_iterations" "num_lqoc_iterations";
    Opt TB "lqoc_debug_print" "lqoc_debug_print" ].

(** the maps of 645-684; the enumerations: Integrator.h 30-43,
    SensitivityApproximation.h (APPROXIMATION), NLOptConSettings.hpp 202-219 *)
Definition integrators :=
  [("Euler", 0); ("RK4", 1); ("MODIFIED_MIDPOINT", 2); ("ODE45", 3); ("RK5VARIABLE", 4);
   ("RK78", 5); ("BULIRSCHSTOER", 6); ("EulerCT", 7); ("RK4CT", 8); ("Euler_Sym", 9);
   ("Rk_Sym", 10)]%Z.
Definition discretizations :=
  [("Forward_euler", 0); ("Backward_euler", 1); ("Symplectic_euler", 2); ("Tustin", 3);
   ("Matrix_exponential", 4)]%Z.
Definition algorithms :=
  [("GNMS", 0); ("ILQR", 1); ("MS_ILQR", 2); ("SS_OL", 3); ("SS_CL", 4); ("GNMS_M_OL", 5);
   ("GNMS_M_CL", 6)]%Z.
Definition lqoc_solvers := [("GNRICCATI_SOLVER", 0); ("HPIPM_SOLVER", 1)]%Z.

(** NLOptConSettings::load, 396-614 (printing left out) *)
Definition load_nloptcon : list stm :=
  [ Opt TD "epsilon" "epsilon";
    Opt TB "timeVaryingDiscretization" "timeVaryingDiscretization";
    Opt TD "min_cost_improvement" "min_cost_improvement";
    Opt TD "maxDefectSum" "maxDefectSum";
    Opt TD "meritFunctionRho" "meritFunctionRho";
    Opt TD "meritFunctionRhoConstraints" "meritFunctionRhoConstraints";
    Opt TI "max_iterations" "max_iterations";
    Opt TI "nThreads" "nThreads";
    Opt TS "loggingPrefix" "loggingPrefix";
    Opt TB "debugPrint" "debugPrint";
    Opt TB "printSummary" "printSummary";
    Opt TB "useSensitivityIntegrator" "useSensitivityIntegrator";
    Opt TB "logToMatlab" "logToMatlab";
    Opt TD "dt" "dt";
    Opt TI "K_sim" "K_sim";
    Opt TI "K_shot" "K_shot";
    Opt TZ "nThreadsEigen" "nThreadsEigen";
    Opt TB "recordSmallestEigenvalue" "recordSmallestEigenvalue";
    Opt TB "fixedHessianCorrection" "fixedHessianCorrection";
    Try [Load "lineSearchSettings" ".line_search" load_line_search];
    Try [Load "lqoc_solver_settings" ".lqoc_solver_settings" load_lqoc];
    Try [ Enum integrators "integrator" "integrator";
          Enum discretizations "discretization" "discretization";
          Enum algorithms "nlocp_algorithm" "nlocp_algorithm";
          Enum lqoc_solvers "lqocp_solver" "locp_solver" ] ].

(** LineSearchSettings::parametersOk, 57, and NLOptConSettings::parametersOk, 349-386 *)
Definition zero_d : spec_float := S754_zero false.
Definition one_d : spec_float := S754_finite false 4503599627370496 (-52).
Definition gt (a b : spec_float) : bool := SFltb b a.
Definition line_search_ok (alpha_0 n_alpha alpha_max : spec_float) : bool :=
  gt alpha_0 zero_d && gt n_alpha zero_d && SFltb n_alpha one_d && gt alpha_max zero_d.
Record nloc_params := mkNloc {
  p_dt : spec_float; p_K_sim : Z; p_K_shot : Z; p_algorithm : Z; p_nThreads : Z;
  p_nThreadsEigen : Z; p_alpha_0 : spec_float; p_n_alpha : spec_float; p_alpha_max : spec_float }.
Definition nloptcon_ok (p : nloc_params) : bool :=
  if SFleb (p_dt p) zero_d then false
  else if (p_K_sim p <=? 0)%Z then false
  else if (p_K_shot p <=? 0)%Z then false
  else if (1 <? p_K_shot p)%Z && (p_algorithm p =? 1)%Z then false
  else if (100 <? p_nThreads p)%Z || (100 <? p_nThreadsEigen p)%Z then false
  else line_search_ok (p_alpha_0 p) (p_n_alpha p) (p_alpha_max p).

(** ** MpcSettings.h: loadMpcSettings, 151-167 (namespace "mpc") *)
Definition load_mpc : list stm :=
  [ Get TB "measureDelay_" "measureDelay";
    Get TB "stateForwardIntegration_" "stateForwardIntegration";
    Get TD "stateForwardIntegration_dt_" "stateForwardIntegration_dt";
    Get TI "stateForwardIntegratorType_" "stateForwardIntegratorType";
    Get TI "fixedDelayUs_" "fixedDelayUs";
    Get TI "additionalDelayUs_" "additionalDelayUs";
    Get TD "minimumTimeHorizonMpc_" "timeHorizon";
    Get TB "coldStart_" "coldStart";
    Get TB "postTruncation_" "postTruncation";
    Get TD "delayMeasurementMultiplier_" "delayMeasurementMultiplier";
    Get TB "useExternalTiming_" "useExternalTiming" ].

(** ** NlpSolverSettings.h *)

(** unsigned int to int, and to an enumeration of uint8_t *)
Definition to_int32 (v : value) : value :=
  match v with VI z => VI ((z + 2147483648) mod 4294967296 - 2147483648)%Z | v => v end.
Definition to_uint8 (v : value) : value := match v with VI z => VI (z mod 256)%Z | v => v end.

(** SnoptSettings::load, 103-113 *)
Definition load_snopt : list stm :=
  [ GetConv TU to_int32 "minor_iteration_limit_param_" "MaxMinorIterations";
    GetConv TU to_int32 "major_iteration_limit_param_" "MaxMajorIterations";
    GetConv TU to_int32 "minor_print_level_param_" "MinorPrintLevelVerbosity";
    GetConv TU to_int32 "major_print_level_param_" "MajorPrintLevelVerbosity";
    Get TD "major_optimality_tolerance_param_" "OptimalityTolerance" ].

(** IpoptSettings::load, 200-239 *)
Definition yes_no (y n : string) (v : value) : value :=
  match v with VB true => VS y | VB false => VS n | v => v end.
Definition load_ipopt : list stm :=
  [ GetConv TU to_int32 "max_iter_" "MaxIterations";
    GetConv TB (yes_no "first-order" "none") "derivativeTest_" "CheckDerivatives";
    GetConv TB (yes_no "exact" "limited-memory") "hessian_approximation_" "ExactHessian";
    GetConv TU to_int32 "printLevel_" "Verbosity";
    Get TD "tol_" "OptimalityTolerance";
    IfExists TS "jacobianApproximation_" "jacobianApproximation";
    IfExists TD "restoAcceptableTol_" "restoAcceptableTol";
    IfExists TD "restoAcceptableTol_" "restoAcceptableTol";
    IfExists TD "constr_viol_tol_" "constr_viol_tol";
    IfExists TD "restoTol_" "restoTol";
    IfExists TD "acceptableTol_" "acceptableTol";
    IfExists TD "restoAcceptableTol_" "restoAcceptableTol";
    IfExists TS "linear_scaling_on_demand_" "linear_scaling_on_demand";
    IfExists TS "nlp_scaling_method_" "nlp_scaling_method";
    IfExists TS "print_user_options_" "print_user_options";
    IfExists TI "print_frequency_iter_" "print_frequency_iter_";
    IfExists TS "printInfoString_" "printInfoString";
    IfExists TD "derivativeTestTol_" "derivativeTestTol";
    IfExists TD "derivativeTestPerturbation_" "derivativeTestPerturbation";
    IfExists TD "point_perturbation_radius_" "point_perturbation_radius";
    IfExists TS "checkDerivativesForNaninf_" "checkDerivativesForNaninf";
    IfExists TS "derivativeTestPrintAll_" "derivativeTestPrintAll";
    IfExists TS "linear_solver_" "linear_solver";
    IfExists TS "linearSystemScaling_" "linearSystemScaling";
    IfExists TS "jacobianApproximation_" "jacobianApproximation" ].

(** NlpSolverSettings::load, 325-344, parametersOk, 308-316 (both solvers' own checks return
    true, 95, 192) *)
Definition load_nlp : list stm :=
  [ GetConv TU to_uint8 "solverType_" "SolverType";
    Get TB "useGeneratedCostGradient_" "UseGeneratedCostGradient";
    Get TB "useGeneratedConstraintJacobian_" "UseGeneratedConstraintJacobian";
    Switch "solverType_" [(VI 0, Load "ipoptSettings_" ".ipopt" load_ipopt);
                          (VI 1, Load "snoptSettings_" ".snopt" load_snopt)] ].
Definition nlp_ok (solverType : Z) : bool := (solverType =? 0)%Z || (solverType =? 1)%Z.

(** ** DerivativesCppadSettings.h: load, 119-154 *)
Definition load_cppad : list stm :=
  [ Get TB "multiThreading_" "MultiThreading";
    Get TB "createForwardZero_" "CreateForwardZero";
    Get TB "createForwardOne_" "CreateForwardOne";
    Get TB "createReverseOne_" "CreateReverseOne";
    Get TB "createReverseTwo_" "CreateReverseTwo";
    Get TB "createJacobian_" "CreateJacobian";
    Get TB "createSparseJacobian_" "CreateSparseJacobian";
    Get TB "createHessian_" "CreateHessian";
    Get TB "createSparseHessian_" "CreateSparseHessian";
    Get TU "maxAssignements_" "MaxAssignements";
    Get TB "generateSourceCode_" "GenerateSourceCode";
    Get TB "useDynamicLibrary_" "UseDynamicLibrary";
    EnumWarn [("GCC", 0); ("CLANG", 1)]%Z "compiler_" "Compiler" ].

(** ** DmsSettings.h: load, 124-153; the conversions of numbers without an enumerator to the
    enumerations keep the number (their values are checked by parametersOk only). *)
Definition load_dms : list stm :=
  [ Get TU "N_" "N";
    Get TD "T_" "T";
    Get TU "nThreads_" "nThreads";
    Get TU "splineType_" "InterpolationType";
    Get TU "costEvaluationType_" "CostEvaluationType";
    Get TU "objectiveType_" "ObjectiveType";
    Get TD "h_min_" "h_min";
    Get TU "integrationType_" "IntegrationType";
    Get TD "dt_sim_" "dt_sim";
    Get TD "absErrTol_" "AbsErrTol";
    Get TD "relErrTol_" "RelErrTol";
    Load "solverSettings_" ".solver" load_nlp;
    Load "cppadSettings_" ".cppad" load_cppad ].

(** DmsSettings::parametersOk, 86-122; the decimal constants as the nearest doubles *)
Definition d_001 : spec_float := S754_finite false 5764607523034235 (-59).
Definition d_100 : spec_float := S754_finite false 7036874417766400 (-46).
Definition d_1em20 : spec_float := S754_finite false 6646139978924579 (-119).
Record dms_params := mkDms {
  q_N : Z; q_T : spec_float; q_nThreads : Z; q_spline : Z; q_cost : Z; q_objective : Z;
  q_h_min : spec_float; q_integration : Z; q_dt_sim : spec_float; q_abs : spec_float;
  q_rel : spec_float; q_solver : Z }.
Definition dms_ok (p : dms_params) : bool :=
  if (q_N p <? 1)%Z || (1000 <? q_N p)%Z then false
  else if SFleb (q_T p) zero_d then false
  else if (q_nThreads p <? 1)%Z || (32 <? q_nThreads p)%Z then false
  else if (q_spline p <? 0)%Z || negb (q_spline p <? 2)%Z then false
  else if (q_cost p <? 0)%Z || negb (q_cost p <? 2)%Z then false
  else if (q_objective p <? 0)%Z || negb (q_objective p <? 2)%Z then false
  else if SFltb (q_h_min p) d_001 || gt (q_h_min p) (q_T p) then false
  else if (q_integration p <? 0)%Z || negb (q_integration p <? 3)%Z then false
  else if SFleb (q_dt_sim p) zero_d || gt (q_dt_sim p) d_100 then false
  else if SFleb (q_abs p) d_1em20 || gt (q_abs p) one_d then false
  else if SFleb (q_rel p) d_1em20 || gt (q_rel p) one_d then false
  else nlp_ok (q_solver p).

(** ** FilterSettings.h: UnscentedKalmanFilterSettings::load, 207-226

    SCALAR is double: the bool becomes 0.0 or 1.0.  The matrices are read by loadMatrix with
    the namespace as it is. *)
Definition bool_to_double (v : value) : value :=
  match v with VB true => VD one_d | VB false => VD zero_d | v => v end.
Definition load_ukf : list stm :=
  [ GetConv TB bool_to_double "alpha" "alpha";
    GetConv TB bool_to_double "beta" "beta";
    GetConv TB bool_to_double "kappa" "kappa" ].
Definition load_ukf_matrix (parse_double : string -> option spec_float)
  (mul : spec_float -> spec_float -> spec_float) (pt : tree) (ns name : string) : nat -> nat -> spec_float :=
  loadMatrix parse_double mul pt name ns.
