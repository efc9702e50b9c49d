(** * What loading settings from a file should do

    [given pd pt t ns key]: the value of type [t] the file has for [key] in the block [ns].

    A setting is described by its type, its member, its key, and whether the file must have it
    ([Required]), may have it ([Optional]: nothing happens if it is missing or unreadable) or
    may have it but then readable ([IfThere]). *)
From Coq Require Import List String ZArith Decimal DecimalString.
From Coq Require Import Floats.SpecFloat.
From Verif Require Import Core.InfoModel.
Import ListNotations.
Local Open Scope string_scope.

Section Spec.
Variable pd : string -> option spec_float.
Variable pt : tree.

Definition given (t : tag) (ns key : string) : option value :=
  match pt (path (ns ++ "." ++ key)) with Some txt => parse pd t txt | None => None end.

Inductive need := Required | Optional | IfThere.
Record setting := mkSetting {
  need_ : need; type_ : tag; conv_ : value -> value; member_ : string; key_ : string }.

(** The file is acceptable for this setting. *)
Definition acceptable (ns : string) (e : setting) : Prop :=
  match need_ e with
  | Required => given (type_ e) ns (key_ e) <> None
  | Optional => True
  | IfThere => pt (path (ns ++ "." ++ key_ e)) <> None -> given (type_ e) ns (key_ e) <> None
  end.

(** The value the member should have after loading, [old] being the one it had. *)
Definition expected (ns : string) (e : setting) (old : value) : value :=
  match given (type_ e) ns (key_ e) with Some v => conv_ e v | None => old end.
End Spec.

Definition id_conv (v : value) : value := v.
Definition opt (t : tag) (k : string) : setting := mkSetting Optional t id_conv k k.
Definition req (t : tag) (m k : string) : setting := mkSetting Required t id_conv m k.
Definition maybe (t : tag) (k : string) : setting := mkSetting IfThere t id_conv (k ++ "_") k.

(** The solver: every key sets the member of the same name. *)
Definition nloptcon_settings : list setting :=
  map (opt TD) ["epsilon"; "min_cost_improvement"; "maxDefectSum"; "meritFunctionRho";
                "meritFunctionRhoConstraints"; "dt"] ++
  map (opt TB) ["timeVaryingDiscretization"; "debugPrint"; "printSummary";
                "useSensitivityIntegrator"; "logToMatlab"; "recordSmallestEigenvalue";
                "fixedHessianCorrection"] ++
  map (opt TI) ["max_iterations"; "nThreads"; "K_sim"; "K_shot"] ++
  map (opt TZ) ["nThreadsEigen"] ++ map (opt TS) ["loggingPrefix"].
Definition lqoc_settings : list setting :=
  [opt TI "num_lqoc_iterations"; opt TB "lqoc_debug_print"].

(** MPC: members are the keys with an underscore, but for the horizon. *)
Definition req_ (t : tag) (k : string) : setting := req t (k ++ "_") k.
Definition mpc_settings : list setting :=
  map (req_ TB) ["measureDelay"; "stateForwardIntegration"; "coldStart"; "postTruncation";
                 "useExternalTiming"] ++
  map (req_ TD) ["stateForwardIntegration_dt"; "delayMeasurementMultiplier"] ++
  map (req_ TI) ["stateForwardIntegratorType"; "fixedDelayUs"; "additionalDelayUs"] ++
  [req TD "minimumTimeHorizonMpc_" "timeHorizon"].

(** Direct multiple shooting. *)
Definition dms_settings : list setting :=
  [req TU "N_" "N"; req TD "T_" "T"; req TU "nThreads_" "nThreads";
   req TU "splineType_" "InterpolationType"; req TU "costEvaluationType_" "CostEvaluationType";
   req TU "objectiveType_" "ObjectiveType"; req TD "h_min_" "h_min";
   req TU "integrationType_" "IntegrationType"; req TD "dt_sim_" "dt_sim";
   req TD "absErrTol_" "AbsErrTol"; req TD "relErrTol_" "RelErrTol"].
Definition ipopt_optional : list setting :=
  map (maybe TS) ["jacobianApproximation"; "linear_scaling_on_demand"; "nlp_scaling_method";
                  "print_user_options"; "printInfoString"; "checkDerivativesForNaninf";
                  "derivativeTestPrintAll"; "linear_solver"; "linearSystemScaling"] ++
  map (maybe TD) ["restoAcceptableTol"; "constr_viol_tol"; "restoTol"; "acceptableTol";
                  "derivativeTestTol"; "derivativeTestPerturbation"; "point_perturbation_radius"].
(** the switches of IPOPT that the file has as yes or no, and a number kept in an int *)
Definition choice (y n : string) (v : value) : value :=
  match v with VB b => VS (if b then y else n) | v => v end.
Definition wrap (v : value) : value :=
  match v with VI z => VI (if (z <? 2147483648)%Z then z else z - 4294967296)%Z | v => v end.
Definition ipopt_settings : list setting :=
  [mkSetting Required TU wrap "max_iter_" "MaxIterations";
   mkSetting Required TB (choice "first-order" "none") "derivativeTest_" "CheckDerivatives";
   mkSetting Required TB (choice "exact" "limited-memory") "hessian_approximation_" "ExactHessian";
   mkSetting Required TU wrap "printLevel_" "Verbosity";
   req TD "tol_" "OptimalityTolerance"] ++ ipopt_optional.
Definition snopt_settings : list setting :=
  [mkSetting Required TU wrap "minor_iteration_limit_param_" "MaxMinorIterations";
   mkSetting Required TU wrap "major_iteration_limit_param_" "MaxMajorIterations";
   mkSetting Required TU wrap "minor_print_level_param_" "MinorPrintLevelVerbosity";
   mkSetting Required TU wrap "major_print_level_param_" "MajorPrintLevelVerbosity";
   req TD "major_optimality_tolerance_param_" "OptimalityTolerance"].
Definition nlp_settings : list setting :=
  [req TB "useGeneratedCostGradient_" "UseGeneratedCostGradient";
   req TB "useGeneratedConstraintJacobian_" "UseGeneratedConstraintJacobian"].
Definition cppad_settings : list setting :=
  [req TB "multiThreading_" "MultiThreading"; req TB "createForwardZero_" "CreateForwardZero";
   req TB "createForwardOne_" "CreateForwardOne"; req TB "createReverseOne_" "CreateReverseOne";
   req TB "createReverseTwo_" "CreateReverseTwo"; req TB "createJacobian_" "CreateJacobian";
   req TB "createSparseJacobian_" "CreateSparseJacobian"; req TB "createHessian_" "CreateHessian";
   req TB "createSparseHessian_" "CreateSparseHessian"; req TU "maxAssignements_" "MaxAssignements";
   req TB "generateSourceCode_" "GenerateSourceCode"; req TB "useDynamicLibrary_" "UseDynamicLibrary"].

(** The names of the enumerations, in the order of the enumerators. *)
Definition line_search_names := ["NONE"; "SIMPLE"; "ARMIJO"; "GOLDSTEIN"].
Definition integrator_names :=
  ["Euler"; "RK4"; "MODIFIED_MIDPOINT"; "ODE45"; "RK5VARIABLE"; "RK78"; "BULIRSCHSTOER";
   "EulerCT"; "RK4CT"; "Euler_Sym"; "Rk_Sym"].
Definition discretization_names :=
  ["Forward_euler"; "Backward_euler"; "Symplectic_euler"; "Tustin"; "Matrix_exponential"].
Definition algorithm_names :=
  ["GNMS"; "ILQR"; "MS_ILQR"; "SS_OL"; "SS_CL"; "GNMS_M_OL"; "GNMS_M_CL"].
Definition lq_solver_names := ["GNRICCATI_SOLVER"; "HPIPM_SOLVER"].

(** The file names the enumerator number [n]. *)
Definition names_it (pd : string -> option spec_float) (pt : tree) (names : list string)
  (ns key : string) (n : nat) : Prop :=
  exists txt, given pd pt TS ns key = Some (VS txt) /\ nth_error names n = Some txt.
(** The file has a name that is not in the list. *)
Definition unknown (pd : string -> option spec_float) (pt : tree) (names : list string)
  (ns key : string) : Prop :=
  exists txt, given pd pt TS ns key = Some (VS txt) /\ ~ In txt names.

(** Members of a member have dotted names. *)
Definition member_of (pre m : string) : string := if String.eqb pre "" then m else pre ++ "." ++ m.

(** Every setting of the table has its value. *)
Definition loaded (pd : string -> option spec_float) (pt : tree) (pre ns : string)
  (table : list setting) (before after : string -> value) : Prop :=
  forall e, In e table ->
    after (member_of pre (member_ e)) = expected pd pt ns e (before (member_of pre (member_ e))).

(** A matrix of [r] rows and [c] columns in a file, in the block [block]: one line for each
    entry, with the key (i,j), whose text is [show] of the value. *)
Definition decimal (n : nat) : string := DecimalString.NilZero.string_of_uint (Nat.to_uint n).
Definition entry_key (i j : nat) : string := "(" ++ decimal i ++ "," ++ decimal j ++ ")".
Definition matrix_lines (show : spec_float -> string) (block : list string) (r c : nat)
  (M : nat -> nat -> spec_float) : list (list string * string) :=
  flat_map (fun i => map (fun j => (List.app block [entry_key i j], show (M i j))) (seq 0 c)) (seq 0 r).
