# Formal model of control-toolbox (ct_core, ct_optcon, parts of ct_rbd) in Coq 8.16.1

## 1. Method and conventions

* The model is a set of total Gallina functions, written one C++ function at a time.
  Each definition carries a comment with the file and line range in /repo it models, and
  says where it simplifies.
* Files come in groups per topic: `XModel.v` (code), `XSpec.v` (independent vocabulary used by the
  statements, when one is needed), `XProofs.v` (lemmas), `XProps.v` (property theorems named
  `Cxx_...`, each followed by `Print Assumptions`, and examples showing that the hypotheses are met by
  a concrete non-trivial case).
* C++ outcomes are explicit (`Base/Outcome.v`): `Ok v`, `Throw` (exception), `UB` (undefined behaviour:
  out-of-range access, null dereference, use of uninitialised memory, unsigned underflow used as an
  index). A theorem saying `f x = Ok v` therefore also says that no exception and no undefined
  behaviour happens on that path.
* Objects are records; methods return the new record. Histories are lists of calls (inductive types
  `op`, `ccall`, `zcall`, ...), and the invariants are proved by induction over them.
* Scalars. Where a property is about comparisons and times, `double` is modelled by exact rationals
  `Q`; linear algebra is over an arbitrary mathcomp field / real field; analysis (derivatives,
  barriers, costs, constraints) over Coq's reals. Rounding, overflow and infinities are
  not modelled, except where a property is about them: there `Base/Scalar.v` runs the same polymorphic
  model over IEEE binary64 (`SpecFloat`) and the theorem is a concrete witness checked by `vm_compute`
  (C05, C12, C15, C26), or NaN is an explicit value (C35, C36, C41).
* Concurrency (C37-C40): an interleaving transition system, one program counter per thread, one
  transition per shared memory access, mutex operation or condition variable operation, spurious wake-ups
  included. Memory is sequentially consistent.
* If the faithful model violates a property, a theorem `..._refuted` exhibits the witness and the
  defect is listed in section 4; the part that does hold is proved and the claim is `partial` unless the
  refuted part is outside the stated property.

## 2. Plan and outcome per property

"partial" means: the full statement is in properties.jsonl, the proved part and what is missing or refuted are in MANIFEST.json and section 4.

| id | what is modelled | how it is proved | theorems in | status |
|----|---|---|---|---|
| C01 | `Interpolation::findIndex` with its cached index | loop invariants; equality with a spec index characterised by order only | `Core/InterpProps.v` | partial |
| C02 | `Interpolation::interpolate` | case analysis over C01; weights; error outcomes | `Core/InterpProps.v` | proved |
| C03 | `DiscreteTrajectoryBase` edit operations | invariant by induction on operation lists; refinement to a list of (time, sample) | `Core/InterpProps.v` | proved |
| C04 | `PhaseSequence` | upper_bound characterisation, induction on phases | `Core/PhaseProps.v` | proved |
| C05 | `PIDController` | invariant over call histories; binary64 witness | `Core/PIDProps.v` | proved |
| C06 | `integrate_n_steps`, observers and event handlers of the native steppers | induction on steps; any scalar type | `Core/IntProps.v` | partial |
| C07 | Euler / RK4 `do_step` | identities on polynomial and linear systems; Taylor bounds | `Core/IntLinProps.v` | proved |
| C08 | `lu`, `solveLU`, `ldlt`, `solveLDLT` | loop invariants of Crout and LDL^T elimination | `Core/InverseProps.v` | proved |
| C09 | `DerivativesNumDiff`, `DynamicsLinearizerNumDiff` | algebra; mean value bounds for the error | `Core/NumDiffProps.v` | proved |
| C10 | `SensitivityApproximation` | matrix algebra; Tustin and matrix exponential refuted | `Core/IntLinProps.v` | partial |
| C11 | `StateFeedbackController` | from C02 and C03 | `Core/FeedbackProps.v` | proved |
| C12 | `linspace`, `TimeArray` | induction; binary64 witness | `Core/GridProps.v` | proved |
| C13 | activations | case analysis, floor arithmetic, derivatives of the barrier | `Core/ActivationProps.v` | partial |
| C14 | controllability / observability matrix computation with index bounds | induction; observability refuted | `Core/LtiProps.v` | partial |
| C15 | `ControlSimulator::simulateSystem` step arithmetic | divisible case proved, refuted otherwise | `Core/IntProps.v` | partial |
| C16 | `GNRiccatiSolver` | completion of squares, induction on stages | `Optcon/LQProps.v` | proved |
| C17 | `FHDTLQR`, `DynamicRiccatiEquation` | same; eigenvalue routine as a parameter with a specification | `Optcon/LqrProps.v` | partial |
| C18 | prepare / finish split of the backward pass | induction on stages | `Optcon/LQProps.v` | proved |
| C19 | `ExtendedKalmanFilter` | PSD algebra over a real field, induction on histories | `Optcon/FilterProps.v` | proved |
| C20 | `UnscentedKalmanFilter` weights and sigma points | finite sums; refuted for a fresh filter | `Optcon/FilterProps.v` | partial |
| C21 | `SteadyStateKalmanFilter` | exact characterisation; refuted | `Optcon/FilterProps.v` | partial |
| C22 | `MpcTimeHorizon` | case analysis over Q | `Optcon/MpcTimeProps.v` | proved |
| C23 | `MpcTimeKeeper`, `Timer` | invariant over histories of clock readings | `Optcon/MpcTimeProps.v`, `Optcon/MpcWindowProps.v` | partial |
| C24 | `StateFeedbackPolicyHandler` | list invariants | `Optcon/PolicyProps.v` | proved |
| C25 | `MPC::prepareIteration/finishIteration` | history invariants and six refutations | `Optcon/MpcProps.v` | partial |
| C26 | `TimeGrid` | induction; binary64 witness | `Optcon/DmsProps.v` | partial |
| C27 | `OptVectorDms` | index arithmetic, refinement to a list of (state, control) pairs | `Optcon/DmsProps.v` | partial |
| C28 | spliners and their derivatives | algebra and `is_derive` | `Optcon/DmsSplineProps.v` | partial |
| C29 | `DiscreteConstraintContainerBase`, `ConstraintsContainerDms` | list induction; stacked sparse matrices | `Optcon/NlpProps.v` | proved |
| C30 | `ContinuityConstraint` | index arithmetic; `is_derive` of every entry | `Optcon/NlpProps.v` | proved |
| C31 | `ConstraintBase`, containers, sparse interface | invariant over histories; refuted for dense user terms | `Optcon/ConstraintProps.v` | partial |
| C32 | cost terms | `is_derive` and exact second-order expansions | `Optcon/CostProps.v` | partial |
| C33 | `CostFunctionAnalytical`, `CostFunctionAD` sums | finite sums; refutations | `Optcon/CostProps.v` | partial |
| C34 | constraint violation | order reasoning, histories | `Optcon/ConstraintProps.v` | partial |
| C35 | rollout and defects | induction over stages | `Optcon/RolloutProps.v` | proved |
| C36 | single-threaded line search | induction over trials | `Optcon/LsProps.v` | partial |
| C37 | multi-threaded LQ approximation | interleaving system, inductive invariant | `Optcon/MpProps.v` | partial |
| C38 | multi-threaded shot rollout | same; independence of shots | `Optcon/RolloutProps.v` | partial |
| C39 | multi-threaded line search | same; refutations of agreement with the sequential search | `Optcon/LsProps.v` | partial |
| C40 | wake-up protocol of the worker pool | invariant; stuck schedules exhibited | `Optcon/MpProps.v` | partial |
| C41 | `NLOptConSolver::solve` loop | induction over iterations | `Optcon/SolveProps.v` | partial |
| C42 | `computeK`, horizon and guess changes | rounding of rationals; histories | `Optcon/SolveProps.v` | proved |
| C43 | `LQOCProblem` box and general constraints, their transfer from containers | invariant over call histories | `Optcon/LqocProps.v` | partial |
| C44 | `ShotContainer` caching, update counts of `OptVector` | invariant over callback histories | `Optcon/ShotProps.v` | partial |
| C45 | `SensitivityIntegrator(CT)` | Frechet derivatives of the step map, induction on steps | `Core/SensProps.v` | partial |
| C46 | cloning of cost functions and terms | heap model with object identities; lock step | `Optcon/CloneProps.v` | partial |
| C47 | numerical cost derivatives | state tracking; refutations | `Core/NumDiffProps.v` | partial |
| C48 | `IntegratorSymplectic`, symplectic Euler | block determinants, composition | `Core/IntLinProps.v`, `Core/SensProps.v` | proved |
| C49 | `ConstraintDiscretizer` | counting invariant over histories; refutations | `Optcon/NlpProps.v` | partial |
| C50 | `CostEvaluatorSimple` weights | sums; refutation for piecewise linear | `Optcon/DmsSplineProps.v` | partial |
| C51 | `SecondOrderSystem` | algebra, energy derivative; refutation | `Core/SecondOrderProps.v` | partial |
| C52 | `DmsProblem::changeInitialState` | histories; refutation | `Optcon/ShotProps.v` | partial |
| C53 | `DARE` | loop invariant, residual bound | `Optcon/LqrProps.v` | partial |
| C54 | `CARE` (sign iteration), `LQR` | algebra of the Hamiltonian; completion of squares | `Optcon/CareProps.v` | partial |
| C55 | `UnscentedKalmanFilter` on affine systems | finite sums; refuted with process noise | `Optcon/FilterProps.v` | partial |
| C56 | filters' calls of the measurement model | call-argument tracking; refuted for the EKF | `Optcon/FilterProps.v` | partial |
| C57 | `isControllable` | Cayley-Hamilton | `Core/LtiProps.v` | proved |
| C58 | Gramians of `DiscreteLTISystem` | induction on the loop | `Core/LtiProps.v` | proved |
| C59 | `updateReferenceState/Control` | case analysis over terms; refutations | `Optcon/CloneProps.v` | partial |
| C60 | gradient of `CostEvaluatorSimple` | `is_derive` of every entry of the decision vector | `Optcon/DmsSplineProps.v` | proved |
| C61 | dense constraint Jacobians | `is_derive`, histories | `Optcon/ConstraintProps.v` | proved |
| C62 | `computeBoxConstraintErrorOfTrajectory`, `computeGeneralConstraintErrorOfTrajectory` | sums; zero iff feasible | `Optcon/LqocProps.v` | proved |
| C63 | `SingleDOFTrajectoryGenerator` setup and query over exact reals, with the members left from earlier set-ups | explicit profile, glued derivatives, Lipschitz velocity; optimality by comparing any admissible motion with the profile | `Rbd/TrajGenProps.v` | proved |
| C64 | `SimpleArmTrajectoryGenerator::generateTrajectory`: set-up of all joints, longest duration, rounding of the sample count, sampling loop | induction over the sampling loop; C63 per joint | `Rbd/TrajGenProps.v` | partial |
| C65 | `JointState` normalisation and limit checks over reals (int conversions with their range) and the loop body in binary64 | floor arithmetic; induction over the joints; evaluation for the double witness | `Rbd/StateProps.v` | partial |
| C66 | pose storage, `RBDState`, `FloatingBaseRobotState`, `FixBaseRobotState`, symplectic layout as functions on lists; kindr's conversions are parameters | segment/append algebra for all dimensions | `Rbd/StateProps.v` | partial |
| C67 | `EEContactModel` function by function over the reals; elements that are never written are `None` | closed form of the force; potential function and its derivative; power balance | `Rbd/ContactProps.v` | partial |
| C68 | `RbdLinearizer`: generated Jacobians copied expression by expression over the reals, base class as in C09 | trigonometric ring identities; derivative of the rotation matrix; derivative of an affine solve | `Rbd/LinProps.v` | proved |
| C69 | serial chains of revolute and prismatic joints; `FrameJacobian` and `ConstraintJacobian` loops over the reals | induction over the chain with derivatives of rotations; loop invariants over the feet | `Rbd/JacProps.v` | proved |
| C70 | `OperationalJacobianBase` with all caching flags; Jacobians of the state and Eigen's solvers are parameters | invariant over histories; generalized inverse algebra over any ordered field; derivative of a matrix inverse for the rates | `Rbd/OpJacProps.v` | partial |
| C71 | `ProjectedDynamics` with its contact configuration, constraint sizes and KKT system, over any ordered field; robot terms are parameters | invariant over histories of contact changes and calls; Schur complement / KKT uniqueness; generalized inverse algebra | `Rbd/ProjProps.v` | partial |
| C72 | the computeControlledDynamics/computePdot/computeVdot functions on lists with explicit block writes; null pointers are undefined; forward dynamics, force map and pose conversion are parameters | block algebra for all dimensions; loop invariants for the link forces; two runs compared for the lost force | `Rbd/SystemProps.v` | partial |
| C73 | both actuator classes over the reals, with the write loop and all four constructors | loop invariant; closed forms; derivative of the spring torque | `Rbd/ActuatorProps.v` | partial |
| C74 | `JointPositionPIDController`, `WholeBodyController` over the PID model of C05 for any scalar type; `SelectionMatrix` over any field | induction over histories projecting onto one joint; matrix algebra | `Rbd/CtrlProps.v`, `Rbd/SelProps.v` | partial |
| C75 | `RigidBodyPose` frame functions and `Kinematics` over the reals: quaternions, rotation matrices and angle-axis written out; RobCoGen's functions are parameters | quaternion and rotation identities by ring; product rule for matrix-valued functions; duality of force and motion transforms | `Rbd/KinProps.v` | partial |
| C76 | `IDControllerFB` and `InfiniteHorizonLQRwithInverseDynamics` over the reals; inverse dynamics, linear system and Riccati solver are parameters | derivative of the energy along motions; induction over histories; chain rule | `Rbd/IdCtrlProps.v` | partial |
| C77 | the four switched system classes and their bases over a heap of subsystems and controllers with state | case analysis on the schedule (C04); simulation relation between one heap shared by original and clone and two separate ones | `Core/SwitchedProps.v` | partial |
| C78 | `SwitchedLinearConstraintContainer` over a heap of containers with an arbitrary interface | induction over histories; simulation for clones | `Optcon/SwitchedConstraintProps.v` | partial |
| C79 | modelled | discretizer state with generation-numbered integrators; invariant over all call histories, relating the object to the intent of the calls; steps against textbook formulas | `Core/DiscretizerProps.v` | partial |
| C80 | modelled | list of per-thread discretizers and sensitivities; invariant over all histories | `Core/DiscretizerProps.v` | partial |
| C81 | modelled | sparse matrices as keyed lists; pattern and values of the container and the program compared entry by entry with a sum over constraint terms | `Optcon/HessianProps.v` | partial |
| C82 | modelled | Eigen's conversion of matrices to quaternions and to axis and angle are written out and proved correct for all rotation matrices; derivatives with Coquelicot along arbitrary joint motions | `Rbd/IkCostProps.v` | partial |
| C83 | modelled | heap of arrays with lifetimes: the interface keeps pointers into the problem object; proved by an invariant over histories; the first gain by completing the square in mathcomp | `Optcon/HpipmGain.v`, `Optcon/HpipmProps.v` | partial |
| C84 | modelled | the generated expressions transcribed over the reals; Jacobians by differentiating along arbitrary curves (Coquelicot); equations of motion against a small specification with rotation matrices and cross products | `Models/QuadrotorProps.v` | proved |
| C85 | modelled | the QR solve is a parameter characterised by the normal equations; least squares by completing squares | `Core/PlaneProps.v` | partial |
| C86 | modelled | heap of controllers, systems and process models with histories of calls; invariant: the system still points to the model's own controller; derivative with Coquelicot's filterdiff in normed modules | `Optcon/ProcProps.v` | partial |
| C87 | modelled | Property trees as functions from paths to texts, load functions as lists of statements with exceptions, process exit and the surrounding try blocks; each table of settings is stated separately and compared with the result of the statements; paths and printed indices are proved injective for the matrices; the checks are related to real numbers through Flocq | `Optcon/SettingsFileProps.v`, `Optcon/SettingsProps.v` | partial |
| C88 | modelled | One shot from the integration model of C45, the shots summed and the segments accumulated as in the code; the value by an invariant relating the cached evaluations to the integration of the extended system; the gradient by the derivative theorems of C45 per shot and induction over the shots | `Optcon/FullCostProps.v` | partial |
| C89 | modelled | the constructors of problem, shots and solver, setProblem, the change functions and configure as functions on a record of pointers, over abstract systems, costs and constraints; the solver built is computed in closed form; invariant over all histories of calls | `Optcon/DmsSolverProps.v` | partial |
| C90 | modelled | 6x6 matrices as index functions, each write modelled as an update; the specification uses only the cross product, the momentum of a rigid body and matrix products; the fast EAE^T formulas are proved from orthonormality and determinant one through the cofactor identities. | `Rbd/ArticulatedProps.v`, `Rbd/InertiaProps.v`, `Rbd/SpatialProps.v` | partial |
| C91 | modelled | The articulated body and the Newton-Euler algorithms as recursions over the list of links, with the members that survive a call as state; induction over the links with the articulated inertia shown symmetric and positive semidefinite. | `Rbd/ChainProps.v` | proved |
| C92 | modelled | The transforms as updates of matrices with arbitrary previous contents; closed forms from C91, then Lagrange's equations by differentiation along the motion. | `Rbd/PendulumProps.v` | proved |
| C93 | jsim.impl.h: composite inertia sweep, factor, inverse of the factor and inverse as one block per link applied to a list of links, with the members surviving between updates | Induction over the chain: a row of the matrix is what a unit acceleration needs; Schur complements for the factor; combined with C91 for the forward dynamics and C92 for the double pendulum. | `Rbd/JsimProps.v` | partial |
| C94 | HyA transforms.impl.h (constructors and update operators), inertia_properties.impl.h (tensors), tensors of the quadrotor with load | Each matrix is compared with the table of frames and offsets of the mounting; Sylvester minors for the tensors; then C91 and C93 are applied to the concrete arm. | `Rbd/HyaProps.v` | partial |
| C95 | Homogeneous transforms of the links and the end effector, force transforms and Jacobian of HyA, the functions of robcogenHelpers.h that select them and the members they update | The entries are compared with the pose composed along the mounting of C94; the Jacobian is compared with axes and levers; the derivative of poses along motions is proved by induction along the chain. | `Rbd/HyaKinProps.v` | partial |
| C96 | modelled | Inverse kinematics as functions of what the solvers return, over the model of joint normalisation of C65, of poses of C75 and of HyA's kinematics of C95. The set of results is characterised by an iff; poses carry over because the kinematics has period 2 pi; the closest solution by induction on the list; the trials of the optimiser by induction with a history of guesses and solves. | `Rbd/IkProps.v` | partial |
| C97 | Core/JitModel.v: recording, compilation, copy and evaluation of derivatives compiled just in time, with the results of the code generator as parameters; Optcon/ConstraintADModel.v: the container on top of it | C97_values and C97_jacobians by an invariant relating the generated code of each stage to the constraints added, kept by every operation including cloning; the specification reads the history of operations only. That the generator returns derivatives and complete patterns is a hypothesis (differentiates) shown satisfiable. | `Optcon/ConstraintADProps.v` | partial |
| C98 | Core/QuantModel.v: scalar and vector quantisation with the vector of rests, conversions to int undefined out of range | invariant on the rest by induction over the measurements; the statement mentions only inputs and outputs | `Core/QuantProps.v` | partial |
| C99 | Core/EventModel.v: handlers, observer, fixed step integration with shared arrays, and writes to the kill flags at any time | the exact state of all handlers and arrays after k steps as an invariant; least stopping step | `Core/EventProps.v` | partial |
| C100 | modelled | terms as records, the parameter vector of the generated term as a list with segments; histories by induction with an invariant on its layout; the compiled code through the model of C97; the angle law by Rodrigues' formula and orthogonality; gradients with Coquelicot from a hypothesis on the differentiation library | `Rbd/TaskTermProps.v` | partial |
| C101 | modelled | the model's parameters as matrices of any size over an ordered field, the shared Jacobian through the object of C70 with its caches; histories by induction; the equations of motion, the energy and the torques by matrix algebra from positive definiteness | `Rbd/OpModelProps.v` | partial |
| C102 | Logs as sequences with unchecked reads that are undefined past the end; the three computations by integration type, with the exit of the process and the exception as outcomes. | Specification by the simulated states themselves and derivatives along curves; induction over the steps with the chain rule, then the loops computed as iterates. | `Optcon/RknProps.v` | partial |
| C103 | Strings as lists of characters with find and replace; the loop of replacements with a number of rounds, so that running on is visible; patterns as lists of index pairs. | Invariant that all occurrences lie in the rest of the text; unbounded induction over the rest; counting and order of the index pairs by induction over rows. | `Core/CodegenProps.v` | partial |
| C104 | modelled | The pool is a list of optional solver names with an inductive relation of histories and an invariant relating it to the indices solvers remember; memory blocks are records of lists, and SNOPT itself is an arbitrary returned status and memory. | `Optcon/SnoptProps.v` | partial |
| C105 | modelled | The loop is a fold whose torque variable survives rounds; its result feeds the model of NLOCBackendBase in Optcon/SolveModel.v. | `Rbd/FixNlocProps.v` | partial |
| C106 | modelled | Matrices over a real field; the decomposition and the square root are parameters with their specification as hypotheses, shown to be met by a sample and by the square root of the reals. | `Rbd/JacSingProps.v` | partial |
| C107 | modelled | The property trees of Core/InfoModel.v with the loop over term numbers; fuel is shown to suffice for every file. | `Optcon/CostFileProps.v` | partial |

## 3. Trusted base

### 3.1 What has to be trusted

1. Coq 8.16.1's kernel (including its `vm_compute` reduction, used for concrete witnesses and examples)
   and the OCaml runtime it runs on.
2. The axioms of Coq's standard library listed in 3.3. There are no axioms, `Admitted` proofs, section-less
   variables, functors, module types or plugins in this development, and no kernel check is switched off.
   mathcomp, Coquelicot and Flocq are used as proved libraries; Coquelicot and Flocq themselves only rest on the
   standard library's axioms.
3. That the model says what the code does: the definitions in `*Model.v` were written by reading /repo, the C++
   was neither compiled nor run. Every definition cites the lines it models.
4. That the theorem statements say what the properties say: the vocabulary is in the `*Spec.v` files and at the
   head of the `*Props.v` files.

### 3.2 Parameters with assumed behaviour

These appear as explicit hypotheses or function arguments of the theorems, not as axioms.

* User-supplied functions (dynamics, controllers, cost and constraint functions, measurement models): arbitrary functions;
  where a theorem is about derivatives it says so in its hypotheses.
* Eigen: matrix arithmetic is exact; `inverse`, `colPivHouseholderQr().inverse`, `ldlt/llt().solve`, `exp`,
  `FullPivLU::rank`, the self-adjoint eigenvalue decomposition and `realSchur` are functions that are assumed
  to return the exact result (C10, C14, C16, C17, C19-C21, C54, C57).
* boost::odeint's `symplectic_euler` is modelled from its documentation (C48). Adaptive steppers are not modelled.
* `std::mutex`, `std::condition_variable`, `std::atomic_*`: their standard semantics, sequentially consistent, with spurious
  wake-ups (C37-C40).
* The clock read by `Timer` is an arbitrary (monotone where stated) sequence of readings (C23, C25).
* An Eigen assertion (`eigen_assert`, `assert`) that fails is modelled as undefined behaviour, as in release builds.

### 3.3 `Print Assumptions` of every property theorem

Generated by printing the assumptions of every theorem named `Cxx_...`.
`ClassicalDedekindReals.sig_forall_dec`, `ClassicalDedekindReals.sig_not_dec` and
`FunctionalExtensionality.functional_extensionality_dep` are the axioms of Coq's real numbers;
`Classical_Prop.classic` comes with Coquelicot's and the standard library's analysis lemmas and mathcomp is axiom free.

<!-- assumptions:begin -->
* **No axioms (closed under the global context)** — 326 theorems: C01_lookup_after_empty_lookup_refuted, C01_lookup_independent_of_history, C02_interpolate_exact_at_nodes, C02_interpolate_on_curve, C02_interpolate_throws, C03_trajectory_eval_is_recorded_curve, C03_trajectory_refines_recording, C04_after_end_last_phase, C04_before_start_first_phase, C04_build_never_fails, C04_counts, C04_empty_sequence_query_refuted, C04_intervals_cover, C04_next_switch, C04_phase_contains_time, C04_phase_start_end_times, C04_switch_query_in_last_phase_refuted, C04_total_duration, C05_pid_bound_with_zero_dt_refuted, C05_pid_closed_form_without_saturation, C05_pid_output_and_integral_bounded, C05_pid_reset_restores_initial_behaviour, C05_pid_saturated_law, C05_pid_saturated_law_with_derivative, C06_composition, C06_constructed, C06_copy_refuted, C06_evaluation_times, C06_evaluations, C06_exact_times, C06_handlers, C06_report, C07_euler_constant, C07_euler_linear, C07_euler_order, C07_rk4_cubic, C07_rk4_linear, C07_rk4_order, C08_any_invertible_refuted, C08_ldlt_solves, C08_lu_solves, C08_posdef_unique, C101_dynamics, C101_energy, C101_joints_refuted, C101_shared_refuted, C101_torques, C101_velocities, C103_captured_refuted, C103_dense, C103_endless_refuted, C103_files, C103_hessian, C103_linearizer, C103_no_placeholder, C103_pattern, C103_replace_all, C103_replace_once, C103_replaced, C103_sparse_refuted, C104_default_refuted, C104_derivatives, C104_handed, C104_leak_refuted, C104_pool, C104_stored, C104_success_refuted, C104_unasked, C104_unready, C104_warm_refuted, C105_steady, C106_condition, C106_joint_vel, C106_manipulability, C106_pseudo, C106_tall_refuted, C107_again_refuted, C107_ends, C107_gap_refuted, C107_loaded, C107_name_refuted, C107_rejected, C107_scaling_refuted, C107_weights, C10_backward_euler, C10_backward_euler_defined, C10_forward_euler, C10_matrix_exponential_equilibrium, C10_matrix_exponential_refuted, C10_symplectic_euler, C10_symplectic_time_varying, C10_time_varying, C10_tustin_actual, C10_tustin_refuted, C11_control_law, C11_discrete_law, C11_extract, C11_extract_empty_refuted, C11_on_reference, C11_update_empty_refuted, C11_update_refused, C12_empty_grid_rejected, C12_linspace_end_exact_in_double_refuted, C12_linspace_equally_spaced, C12_timearray_uniform, C13_linear_active_iff_in_window, C13_linear_value_in_unit_interval_refuted, C13_periodic_active_iff_in_some_window, C13_periodic_constructor_uninitialised_refuted, C13_periodic_load_checked, C13_single_active_iff_in_window, C13_weight, C14_controllability_matrix_partial, C14_observability_refuted, C14_observability_scalar_partial, C15_advanced_time, C15_multiple_partial, C15_period_refuted, C15_rounding_refuted, C16_constrained_refused, C16_convex_problem, C16_corrected_hessian, C16_fixed_correction_not_optimal_refuted, C16_riccati_optimal, C17_checks_only_reject, C17_documented_sign_refuted, C17_gains_optimal_linearised_partial, C17_gains_optimal_partial, C17_given_weights_refuted, C17_lengths, C17_valid_weights_accepted_refuted, C18_split_backward_pass, C19_covariance_valid, C19_predict, C19_update_optimal, C20_affine_cycle, C20_fresh_filter_refuted, C20_sigma_points, C21_correction_partial, C21_steady_state_gain_refuted, C22_horizon_documented, C22_horizon_monotone, C22_unknown_mode_throws, C23_forward_window, C23_negative_delay_throws, C23_recorded_delays_match, C23_recorded_delays_without_measuring_refuted, C23_timings_inside_horizon, C24_truncate, C24_warm_start, C24_whole_steps_unique, C25_cold_start_truncation_refuted, C25_failed_solve_stamp_refuted, C25_first_stamp_without_measuring_refuted, C25_new_strategy_ignored_refuted, C25_policy_time_stamp_partial, C25_predicted_time_close, C25_prediction_controller_refuted, C25_stages, C25_stamp_without_prediction_refuted, C26_end_in_double_refuted, C27_all_vectors, C27_guess_sizes, C35_rollout, C36_first_acceptable, C36_line_search, C36_never_worse, C36_reported, C36_strict_decrease_refuted, C37_exactly_once_partial, C37_first_call, C37_sequential_result_partial, C37_single_stage, C37_stale_worker_refuted, C38_first_rollout, C38_parallel_rollout_partial, C38_single_index, C39_full_step, C39_iff_sequential_accepts, C39_larger_step_refuted, C39_one_worker, C39_result_partial, C39_unique_step, C39_wakeup_lost_refuted, C39_workers_finish, C39_zero_iterations_hang_refuted, C40_caller_wakeup_lost_refuted, C40_lost_count_refuted, C40_no_work_left_partial, C40_worker_wakeup_lost_refuted, C41_defects_forgotten_refuted, C41_full_step_refuted, C41_iterations, C41_lowest_merit, C41_result_refuted, C42_configure_refuted, C42_dimensions_history, C42_initial_guess, C42_reported_horizon, C42_stages, C43_general_set, C44_before_first_update_refuted, C44_change_initial_refuted, C44_fresh, C44_once, C44_reset_refuted, C48_determinant, C48_step, C48_symplectic, C48_trajectory, C48_volume, C53_dare_gives_up, C53_dare_large_tolerance_refuted, C53_dare_residual, C54_care_solution_partial, C54_diagonal_shortcut, C54_exact_convergence, C54_failure_reported, C54_lqr_gain_optimal_partial, C55_ukf_is_kalman_partial, C55_ukf_process_noise_refuted, C56_ekf_measurement_time_refuted, C56_ukf_measurement_time_partial, C57_isControllable_iff_reachable, C58_controllability_gramian, C58_observability_gramian, C59_costfunction, C59_last_wins, C65_double_refuted, C66_euler_state, C66_euler_vector, C66_fixbase_state, C66_floating, C66_quaternion_state, C66_quaternion_vector, C66_rotation, C66_symplectic, C70_answers, C70_projector, C70_svd_refuted, C71_forces_refuted, C71_forward, C71_fully_actuated_refuted, C71_inverse, C71_inverse_forward, C71_sizes, C72_actuators, C72_consistent_state, C72_copy, C72_floating_copy_refuted, C72_kinematic, C72_null_actuator_refuted, C72_shared_link_refuted, C72_symplectic, C72_torques_partial, C74_clone_refuted, C74_gains_refuted, C74_joints_independent, C74_same_parameters, C74_selection, C74_selection_sizes, C74_unchecked, C75_set_end_effector_refuted, C77_active_mode, C77_clone_aliased_refuted, C77_clone_independent, C77_controller, C77_defined_everywhere, C77_discrete_clone_partial, C77_discrete_clone_refuted, C77_discrete_linear, C77_last_control_refuted, C77_linear, C77_unknown_mode_refuted, C78_bounds_after_initialize_refuted, C78_clone, C78_clone_active_refuted, C78_defined, C78_initialize, C78_intermediate, C78_terminal, C78_terminal_at_end, C78_terminal_stale_refuted, C83_box_count_changed, C83_cost_and_general, C83_first_gain, C83_freed_object_refuted, C83_longer_horizon_refuted, C83_new_bound_refuted, C83_new_object_refuted, C83_same_problem_again_refuted, C83_shorter_horizon_refuted, C83_whole_problem_partial, C85_getCoefficient, C86_accumulated_time_refuted, C87_dms_complete, C87_dms_settings, C87_exit, C87_ipopt_frequency_refuted, C87_line_search_partial, C87_line_search_refuted, C87_matrix, C87_matrix_entry_refuted, C87_mpc_mode_refuted, C87_mpc_settings, C87_names_partial, C87_names_refuted, C87_nan_refuted, C87_solver_settings, C87_solver_type_refuted, C87_texts, C87_threads_refuted, C87_ukf_namespace_refuted, C87_ukf_parameters_refuted, C87_unknown_exits_refuted, C89_replace_refuted, C89_stale_linearisation_refuted, C97_copy_llvm_refuted, C97_copy_sparsity_refuted, C97_empty_update_refuted, C97_jit, C99_completes, C99_kill_before_refuted, C99_max_steps, C99_recorder_array_refuted, C99_stops.
* **`ClassicalDedekindReals.sig_forall_dec`** — 19 theorems: C105_equilibrium, C27_guess_separate, C27_history, C27_ranges, C28_zoh_holds, C29_container, C31_uninitialised, C43_no_undefined, C43_unchecked_refuted, C51_set_dynamics, C66_fixbase, C66_storage_refuted, C73_constructors, C81_pattern, C81_range, C97_constructor_refuted, C97_no_constraints_refuted, C97_time_refuted, C97_values.
* **`ClassicalDedekindReals.sig_forall_dec`, `FunctionalExtensionality.functional_extensionality_dep`** — 146 theorems: C09_first_order, C09_linearizer, C100_pose, C100_position, C100_position_clone_refuted, C105_cut_refuted, C105_ends, C105_interpolation, C105_last_actuator_refuted, C105_short, C26_history, C26_out_of_range, C26_rescale, C26_uniform, C27_endpoints_partial, C27_interpolation_refuted, C28_linear_interpolates, C28_linear_last_node_refuted, C29_dms, C30_blocks, C30_continuity, C31_rows, C31_sparse_partial, C31_terminal_flag_refuted, C34_crossed_refuted, C34_half_axes_refuted, C34_inside_value_refuted, C34_obstacle, C34_ordered, C34_violation, C35_defect_norm, C43_general, C43_general_affine, C43_history, C43_input_boxes, C43_stale_refuted, C43_state_boxes, C43_target_refuted, C43_terminal_partial, C43_terminal_refuted, C43_too_many_refuted, C43_zero, C46_simple_partial, C46_simple_refuted, C47_gradient_partial, C47_object_after, C47_one_sided_shift_refuted, C47_time_shift_refuted, C47_unchanged_refuted, C49_discretized_partial, C49_general_refuted, C49_linear_refuted, C50_linear_refuted, C50_stale_weights_refuted, C50_value, C50_zoh, C51_rest, C52_change_refuted, C52_container_update, C52_feasible_partial, C59_simple, C61_container, C62_absent, C62_box, C62_general, C62_zero, C63_negative_time, C65_position_limits, C65_velocity_limits, C68_selection, C72_floating_partial, C73_rest_partial, C73_second_order, C73_state_from_output, C73_state_unique, C73_unit_amplification_refuted, C74_whole_body, C79_consecutive, C79_copy_refuted, C79_propagate, C79_stale_system_refuted, C79_symplectic, C79_symplectic_controls_refuted, C79_symplectic_substates_refuted, C79_type_crash_refuted, C79_type_ignored_refuted, C80_linear, C80_refused, C80_sensitivity_partial, C80_sensitivity_refuted, C80_setup, C80_threads, C81_inverse_kinematics, C81_upper_refuted, C81_values_partial, C82_hessian, C85_exact, C85_least_squares, C85_solve, C86_clone_refuted, C86_disturbance, C86_disturbed_controller, C86_prediction, C86_scheme_refuted, C86_set_controller_refuted, C86_shared_system_refuted, C86_step_number_refuted, C86_time_refuted, C88_control, C88_terminal_time_refuted, C88_value, C89_configure_refuted, C89_constructed, C89_history, C89_horizon_refuted, C89_no_shots_refuted, C89_refused_problem, C89_refused_settings, C89_simple_linear_refuted, C89_two_horizons_refuted, C89_unknown_solver_refuted, C90_bias, C90_bias_z_partial, C90_bias_z_refuted, C90_compute_Ia, C90_cross_matrices, C90_ctransform_prismatic, C90_ctransform_revolute, C90_energy, C90_inertia_history, C90_psd, C90_tensor_and_transform, C90_transformInertia, C91_each_undoes_the_other, C91_forward_dynamics, C91_gravity_and_velocity_terms, C91_inverse_dynamics, C93_inertia_matrix, C94_physical, C94_quadrotor_load_refuted, C97_jacobians, C98_identifier_refuted, C98_quantised, C98_reset_refuted, C98_vector_refuted, C99_tolerances_refuted.
* **`ClassicalDedekindReals.sig_forall_dec`, `ClassicalDedekindReals.sig_not_dec`, `FunctionalExtensionality.functional_extensionality_dep`** — 76 theorems: C100_angle, C100_generated, C100_gradient, C100_pose_history, C100_reference, C13_barrier_bounds, C13_barrier_loaded_is_active_refuted, C32_barrier_refuted, C32_values, C33_ad_activation_refuted, C33_ad_stale_refuted, C33_ad_value, C33_value_actual, C45_control, C45_cost_control, C45_cost_initial_state, C45_discrete_control_partial, C45_discrete_state_partial, C45_initial_state, C45_time_refuted, C46_alias_refuted, C46_barrier_refuted, C48_control_sensitivity, C48_state_sensitivity, C51_frequency, C51_mechanical_actual, C51_mechanical_partial, C51_mechanical_refuted, C59_ignored_refuted, C59_terms, C63_history, C65_int_refuted, C65_representative, C65_unique, C65_unique_passes, C67_force_partial, C67_inactive_refuted, C67_normal_smoothing_refuted, C67_offset_refuted, C67_undefined, C69_jacobian_rates, C69_orientation, C69_point_velocity, C73_series_elastic, C75_base_orientation_refuted, C75_ee_pose, C75_ee_velocity, C75_force_ee_power, C75_force_power, C75_quaternion_rate, C75_reference_frame, C75_rotations, C75_world_frame, C82_target, C84_C, C84_shipped, C86_derivative_partial, C88_gradient_controls, C88_gradient_states, C90_buildRotationMatrix, C92_hypotheses_of_C91, C93_double_pendulum, C93_factor_and_inverse, C93_forward_dynamics, C94_dynamics, C94_mounting, C95_base_link_refuted, C95_direction_refuted, C95_end_effector, C95_force_transform, C95_link_pose, C96_closest, C96_irb, C96_limits_refuted, C96_optimised, C96_origin_refuted.
* **`ClassicalDedekindReals.sig_forall_dec`, `Classical_Prop.classic`, `FunctionalExtensionality.functional_extensionality_dep`** — 1 theorems: C85_through_origin_refuted.
* **`ClassicalDedekindReals.sig_forall_dec`, `ClassicalDedekindReals.sig_not_dec`, `Classical_Prop.classic`, `FunctionalExtensionality.functional_extensionality_dep`** — 72 theorems: C09_central_affine, C09_central_error, C09_central_quadratic, C09_forward_affine, C09_forward_error, C09_forward_quadratic_refuted, C09_second_order, C13_barrier_derivatives, C13_barrier_separates, C13_gauss_constructed_decays_refuted, C13_gauss_loaded_decays, C28_derivative_duration, C28_derivative_next_node, C28_derivative_node, C28_derivative_time, C30_derivative, C31_general_refuted, C32_expansion, C32_reported, C32_simple, C32_simple_refuted, C32_terms, C33_consistent_partial, C33_derivatives, C33_refuted, C33_terminal, C46_barrier_value, C46_clone_partial, C46_independent, C46_lockstep_partial, C50_linear_partial, C51_dissipation, C60_gradient, C61_terms, C63_fastest, C63_motion, C64_arrives_partial, C64_arrives_refuted, C64_samples_partial, C67_dissipates, C67_passive, C67_weight, C68_control, C68_euler_rates, C68_state, C69_contact_acceleration, C69_contact_jacobian, C69_contact_rates, C82_error, C82_evaluator, C82_evaluator_gradient_partial, C82_gradient_partial, C82_hessian_at_target, C82_minimum, C82_position_weights_refuted, C82_rotation_weights_refuted, C84_far_state_refuted, C84_jacobians, C84_rigid_body, C87_dms_check_partial, C87_line_search_check, C87_matrix_unscaled, C87_solver_check_partial, C87_ukf_matrix, C92_double_pendulum, C92_energy, C92_inverted_pendulum, C95_jacobian, C96_close_in_base, C96_close_to, C96_hya, C96_reaches.
* **`ClassicalDedekindReals.sig_forall_dec`, `ClassicalEpsilon.constructive_indefinite_description`, `Classical_Prop.classic`, `FunctionalExtensionality.functional_extensionality_dep`** — 10 theorems: C102_duration_refuted, C102_fifth_order_refuted, C102_short_log, C76_base_law, C76_base_target, C76_base_torque, C76_failed_design_refuted, C76_lqr_default, C76_lqr_equilibrium, C76_lqr_law.
* **`ClassicalDedekindReals.sig_forall_dec`, `ClassicalDedekindReals.sig_not_dec`, `ClassicalEpsilon.constructive_indefinite_description`, `Classical_Prop.classic`, `FunctionalExtensionality.functional_extensionality_dep`** — 4 theorems: C102_controls, C102_start, C76_base_dissipates, C76_lqr_linearisation.
* **`ClassicalDedekindReals.sig_forall_dec`, `ClassicalDedekindReals.sig_not_dec`, `ClassicalEpsilon.constructive_indefinite_description`, `Classical_Prop.classic`, `FunctionalExtensionality.functional_extensionality_dep`, `IndefiniteDescription.constructive_indefinite_description`** — 3 theorems: C70_rates_partial, C70_rates_refuted, C70_rates_square.
<!-- assumptions:end -->

### 3.4 Code that is modelled

| model file | code in /repo |
|---|---|
| `Core/InterpModel.v` | ct_core common/Interpolation.h, types/arrays/DiscreteArray.h, types/trajectories/DiscreteTrajectoryBase.h (edit and query methods) |
| `Core/PhaseModel.v` | ct_core common/Switching.h (PhaseSequence) |
| `Core/PIDModel.v` | ct_core control/continuous_time/siso/PIDController.h, -impl.h |
| `Core/GridModel.v` | ct_core common/linspace.h, types/arrays/TimeArray.h |
| `Core/ActivationModel.v` | ct_core common/activations/*.h (single, periodic, linear, RBF Gauss, barrier) |
| `Core/InverseModel.v` | ct_core math/Inverses.h (LU, LDLT and their solvers) |
| `Core/LtiModel.v` | ct_core systems/*/linear/LTISystem.h, DiscreteLTISystem.h (controllability, observability, Gramians) |
| `Core/IntModel.v, Core/IntLinModel.v` | ct_core integration/Integrator-impl.h, internal/SteppersCT.h, Observer, EventHandlers, IntegratorSymplectic-impl.h, sensitivity/SensitivityApproximation.h, simulation/ControlSimulator.h |
| `Core/SensModel.v` | ct_core integration/sensitivity/SensitivityIntegrator.h, ct_optcon dms/dms_core/SensitivityIntegratorCT.h |
| `Core/NumDiffModel.v` | ct_core math/DerivativesNumDiff.h, systems/linearizer/DynamicsLinearizerNumDiff.h, SystemLinearizer.h |
| `Core/FeedbackModel.v` | ct_core control/StateFeedbackController.h, -impl.h |
| `Core/SecondOrderModel.v` | ct_core systems/continuous_time/SecondOrderSystem.h |
| `Optcon/LQModel.v` | ct_optcon solver/lqp/GNRiccatiSolver-impl.hpp, NLOCBackendBase-impl.hpp (prepareSolveLQProblem / finishSolveLQProblem) |
| `Optcon/LqrModel.v` | ct_optcon lqr/FHDTLQR-impl.hpp, lqr/riccati/DARE-impl.hpp, DynamicRiccatiEquation.hpp |
| `Optcon/CareModel.v` | ct_optcon lqr/riccati/CARE-impl.hpp (Schur-free sign iteration), lqr/LQR-impl.hpp |
| `Optcon/FilterModel.v` | ct_optcon filter/: ExtendedKalmanFilter, UnscentedKalmanFilter, SteadyStateKalmanFilter, EstimatorBase, LTIMeasurementModel |
| `Optcon/MpcTimeModel.v, PolicyModel.v, MpcModel.v` | ct_optcon mpc/: MpcSettings.h, MpcTimeKeeper.h, timehorizon/, policyhandler/, MPC-impl.h; ct_core common/Timer.h, ExternallyDrivenTimer.h |
| `Optcon/RolloutModel.v, LsModel.v, SolveModel.v` | ct_optcon nloc/NLOCBackendBase-impl.hpp (rollouts, defects, line search, horizon and guess changes), NLOCBackendST-impl.hpp, solver/NLOptConSolver-impl.hpp, nloc/algorithms/ |
| `Optcon/MpModel.v` | ct_optcon nloc/NLOCBackendMP-impl.hpp (thread pool, LQ approximation, shot rollout, line search) |
| `Optcon/CostModel.v, CostClone.v` | ct_optcon costfunction/: CostFunctionAnalytical, CostFunctionAD, CostFunctionQuadratic, CostFunctionQuadraticSimple, all terms |
| `Optcon/ConstraintModel.v, LqocModel.v` | ct_optcon constraint/: ConstraintBase, box / terminal / obstacle terms, ConstraintContainerAnalytical, LinearConstraintContainer; problem/LQOCProblem-impl.hpp; constraint part of NLOCBackendBase-impl.hpp |
| `Optcon/DmsModel.v, DmsSplineModel.v, ShotModel.v, NlpModel.v` | ct_optcon dms/: TimeGrid, OptVectorDms, spliners, CostEvaluatorSimple, ShotContainer, DmsProblem (initial state, callbacks), ContinuityConstraint, InitStateConstraint, ConstraintDiscretizer, ConstraintsContainerDms; nlp/: Nlp.h, OptVector.h, DiscreteConstraintBase.h, DiscreteConstraintContainerBase.h |
| `Rbd/TrajGenModel.v` | ct_rbd common/SingleDOFTrajectoryGenerator.h, SimpleArmTrajectoryGenerator.h |
| `Rbd/StateModel.v` | ct_rbd state/: JointState, RigidBodyPose (storage), RBDState, FixBaseRobotState, FloatingBaseRobotState; state layout of systems/FixBaseFDSystemSymplectic.h |
| `Rbd/ContactModel.v` | ct_rbd physics/EEContactModel.h |
| `Rbd/LinModel.v` | ct_rbd systems/linear/RbdLinearizer.h |
| `Rbd/SystemModel.v` | ct_rbd systems/: FixBaseFDSystem, FixBaseFDSystemSymplectic, FloatingBaseFDSystem, FixBaseAccSystem, FixBaseVelSystem; ct_core SymplecticSystem::computeControlledDynamics |
| `Rbd/ActuatorModel.v` | ct_rbd robot/actuator/: SEADynamicsFirstOrder, SecondOrderActuatorDynamics |
| `Rbd/KinModel.v` | ct_rbd state/RigidBodyPose.h (frames), robot/Kinematics.h |
| `Rbd/JacModel.v` | ct_rbd robot/jacobian/: FrameJacobian, ConstraintJacobian |
| `Rbd/OpJacModel.v` | ct_rbd robot/jacobian/OperationalJacobianBase.h |
| `Rbd/ProjModel.v` | ct_rbd robot/ProjectedDynamics.h; robot/Dynamics.h FloatingBaseFullyActuatedID |
| `Rbd/CtrlModel.v, Rbd/SelModel.v` | ct_rbd robot/control/: JointPositionPIDController, WholeBodyController, SelectionMatrix |
| `Rbd/IdCtrlModel.v` | ct_rbd robot/control/: IDControllerFB, InfiniteHorizonLQRwithInverseDynamics |
| `Core/SwitchedModel.v` | ct_core systems/continuous_time: ControlledSystem, SwitchedControlledSystem, linear/SwitchedLinearSystem; discrete_time: DiscreteControlledSystem, SwitchedDiscreteControlledSystem, linear/DiscreteLinearSystem, linear/SwitchedDiscreteLinearSystem |
| `Optcon/SwitchedConstraintModel.v` | ct_optcon constraint/SwitchedLinearConstraintContainer-impl.h |
| `Core/DiscretizerModel.v` | SystemDiscretizer-impl.h, SubstepRecorder.h, IntegratorSymplectic-impl.h 60-80 (loop and recording), OptconContinuousSystemInterface-impl.h (all but getAandB) |
| `Optcon/HessianModel.v` | Nlp.h 112-170, 182-195, 234-307, DiscreteConstraintContainerBase.h 175-267, IKCostEvaluator.h 131-183, JointLimitConstraints.h 62-72 |
| `Rbd/IkCostModel.v` | TermTaskspaceGeometricJacobian.hpp (all but loading of files), IKCostEvaluator.h 28-130, 157-183 |
| `Optcon/HpipmModel.v` | HPIPMInterface-impl.hpp 28-58, 84-158 (sizes), 381-740; LQOCProblem-impl.hpp 57-88 |
| `Optcon/HpipmGain.v` | HPIPMInterface-impl.hpp 317-345 (first stage) |
| `Models/QuadrotorModel.v` | ct_models/src/Quadrotor/{quadrotor_ode,A_quadrotor,B_quadrotor,C_quadrotor}.cpp, Quadrotor.hpp, QuadrotorLinear.hpp |
| `Core/PlaneModel.v` | Plane.h 18-98, PlaneEstimator.h 37-56 |
| `Optcon/ProcModel.v` | CTSystemModel-impl.h 12-56, DisturbedSystem-impl.h 12-34, DisturbedSystemController-impl.h 12-73, InputDisturbedSystem-impl.h 13-52, ConstantController-impl.h, ControlledSystem.h 59-135 (parts) |
| `Core/InfoModel.v` | ct_core common/InfoFileParser.h (without reading the file) |
| `Optcon/SettingsModel.v` | ct_optcon solver/NLOptConSettings.hpp, mpc/MpcSettings.h, dms/dms_core/DmsSettings.h, nlp/solver/NlpSolverSettings.h, filter/FilterSettings.h (load, parametersOk); ct_core math/DerivativesCppadSettings.h (load) |
| `Optcon/FullCostModel.v` | ct_optcon dms/dms_core/cost_evaluator/CostEvaluatorFull.h, ShotContainer.h (passes), ControllerDms.h |
| `Optcon/DmsSolverModel.v` | dms/dms_core/DmsSolver.h, DmsProblem.h (constructor, configure, changes), ShotContainer.h (constructor), solver/OptConSolver.h setProblem, problem/OptConProblemBase-impl.h |
| `Rbd/SpatialModel.v` | ct_rbd/include/ct/iit/rbd/{InertiaMatrix.h,robcogen_commons.h,internals.h,utils.h} |
| `Rbd/ChainModel.v` | ct_models/include/ct/models/{InvertedPendulum,DoubleInvertedPendulum,HyA}/generated/{forward_dynamics,inverse_dynamics}.impl.h |
| `Rbd/PendulumModel.v` | ct_models/include/ct/models/{InvertedPendulum,DoubleInvertedPendulum}/generated/{transforms,inertia_properties}.impl.h (the transforms the dynamics use) |
| `Rbd/JsimModel.v` | ct_models/include/ct/models/{InvertedPendulum,DoubleInvertedPendulum,HyA}/generated/jsim.{h,impl.h} |
| `Rbd/HyaModel.v` | ct_models/include/ct/models/HyA/generated/{transforms,inertia_properties}.impl.h, ct_models/include/ct/models/QuadrotorWithLoad/generated/inertia_properties.impl.h |
| `Rbd/HyaKinModel.v` | ct_models/include/ct/models/HyA/generated/{transforms,jacobians}.impl.h (base to link, end effector), ct_rbd/include/ct/rbd/robot/robcogen/robcogenHelpers.h, ct_rbd/include/ct/rbd/robot/RobCoGenContainer.h 100-200 |
| `Rbd/IkModel.v` | ct_rbd/include/ct/rbd/robot/kinematics/InverseKinematicsBase.h, ik_nlp/IKNLPSolverIpopt.h (with IPOPT); ct_models/include/ct/models/HyA/HyAInverseKinematics.h, HyAJointLimits.h (positions), Irb4600/Irb4600InverseKinematics.h; RigidBodyPose.h isNear |
| `Core/JitModel.v` | ct_core/include/ct/core/math/DerivativesCppadJIT-impl.h (recording, update, copy, compilation states, values, dense and sparse Jacobians; not the Hessian, nor the external code generator, compiler and loader) |
| `Optcon/ConstraintADModel.v` | ct_optcon/include/ct/optcon/constraint/ConstraintContainerAD-impl.h, ConstraintContainerBase-impl.h, LinearConstraintContainer-impl.h initialize |
| `Core/QuantModel.v` | ct_core/include/ct/core/common/QuantizationNoise.h |
| `Core/EventModel.v` | ct_core/include/ct/core/integration/EventHandlers/*.h, Observer-impl.h, Integrator-impl.h integrate_n_steps with fixed step steppers, tolerances of internal/StepperBase.h and internal/SteppersODEInt.h (not boost odeint) |
| `Rbd/TaskTermModel.v` | ct_rbd/robot/costfunction/TermTaskspace{Position,Pose,PoseCG}.hpp |
| `Rbd/OpModelModel.v` | ct_rbd/operationalSpace/rigid_body/OperationalModel{Base,,RBD}.h |
| `Optcon/RknModel.v` | ct_optcon dms/dms_core/RKnDerivatives.h (null logs and assertions left out) |
| `Core/CodegenModel.v` | ct_core internal/autodiff/CGHelpers.h (text replacement, symmetrised Hessian), math/DerivativesCppadCG.h (file contents, requests), internal/autodiff/SparsityPattern.h, systems/linearizer/DynamicsLinearizerADBase.h (patterns); CppAD and files not modelled |
| `Optcon/SnoptModel.v` | ct_optcon/src/nlp/solver/SnoptSolver.cpp, include/ct/optcon/nlp/solver/SnoptSolver.h (without options and printing; SNOPT is external) |
| `Rbd/FixNlocModel.v` | ct_rbd/include/ct/rbd/nloc/FixBaseNLOC-impl.h (initializeSteadyPose, initializeDirectInterpolation; initialize calls a member that does not exist and cannot be instantiated) |
| `Rbd/JacSingModel.v` | ct_rbd/include/ct/rbd/common/math/JacobiSingularity.h and implementation/JacobiSingularity.h (Eigen's JacobiSVD is a parameter, exact rank) |
| `Optcon/CostFileModel.v` | ct_optcon/include/ct/optcon/costfunction/CostFunctionAnalytical-impl.hpp and CostFunctionAD-impl.hpp (loadFromConfigFile), utility/utilities.hpp, term/TermLoadMacros.hpp |

### 3.5 Code that is not modelled

* Bindings to external solvers (IPOPT, SNOPT, HPIPM, BLASFEO, LAPACK variants of the Riccati solvers) beyond the order in which
  IPOPT's callbacks are invoked (C44) and the quadratic program handed to HPIPM (C83).
* Automatic differentiation and code generation (CppAD, CppADCodeGen): AD terms are modelled as their mathematical function
  (C33), generated code is not modelled.
* ODEInt's adaptive and multistep integrators; the generated robot code of ct_models (except the quadrotor, C84).
* Parsing the text of configuration files (boost's read_info); what is done with the parsed tree is modelled (C13, C46, C59, C87);
  logging, printing, plotting, Matlab export; timing/profiling output.
* Random number generators (Gaussian noise), templates for other scalar types than the reals/doubles, Eigen expression templates
  and aliasing.
* Concurrency outside NLOCBackendMP (the MPC time keeper is sequential).

## 4. Findings

Each line is a behaviour of the model (hence, if the model is right, of the code at the pinned commit) that contradicts the property a user would
expect, with the theorem that exhibits it.

| property | theorem | finding |
|---|---|---|
| C01 | `C01_lookup_after_empty_lookup_refuted` | Interpolation.h: a lookup while the trajectory is empty caches index -1; every later lookup of the filled trajectory throws. |
| C04 | `C04_switch_query_in_last_phase_refuted, C04_empty_sequence_query_refuted` | Switching.h: asking for the next switch in the last phase, or any query of an empty sequence, reads out of range. |
| C05 | `C05_pid_bound_with_zero_dt_refuted` | PIDController: dt = 0 gives a NaN that passes the saturation (binary64). |
| C06 | `C06_copy_refuted` | Integrator copy: the callbacks of a copy still write into the log of the original. |
| C08 | `C08_any_invertible_refuted` | Inverses.h: no pivoting, an invertible matrix with a zero leading pivot is not solved. |
| C09 | `C09_forward_quadratic_refuted` | Sharpness: one-sided differences are not exact on quadratics (expected). |
| C10 | `C10_tustin_refuted, C10_matrix_exponential_refuted` | SensitivityApproximation.h: the Tustin discretisation misses the factor 1/2; the matrix exponential variant inverts A and is wrong for singular A. |
| C11 | `C11_update_empty_refuted, C11_extract_empty_refuted` | StateFeedbackController: update with an empty time array reads out of range; extractControlTrajectory of an empty trajectory wraps around size()-1. |
| C12 | `C12_linspace_end_exact_in_double_refuted` | linspace: the last point accumulated in double misses the end of the interval. |
| C13 | `C13_barrier_loaded_is_active_refuted, C13_gauss_constructed_decays_refuted, C13_linear_value_in_unit_interval_refuted, C13_periodic_constructor_uninitialised_refuted` | Activations: the barrier loaded from file is identically zero; the Gaussian built by its constructor grows away from its centre; linear activations leave [0,1]; the periodic constructor leaves t_end uninitialised. |
| C14 | `C14_observability_refuted` | LTISystem.h: computeObservabilityMatrix writes out of bounds for two or more states. |
| C15 | `C15_period_refuted, C15_rounding_refuted` | ControlSimulator: the remainder of the period is computed dimensionless; periods that are not multiples of dt (also after rounding, 0.3/0.1) are wrong. |
| C16 | `C16_fixed_correction_not_optimal_refuted` | GNRiccatiSolver: with the fixed Hessian correction the result minimises another problem. |
| C17 | `C17_documented_sign_refuted, C17_given_weights_refuted, C17_valid_weights_accepted_refuted` | FHDTLQR: 1e-5 I is always added to the input weight; the documented sign of the feedback is not the one of the gain; the default checks reject valid positive definite weights. |
| C20 | `C20_fresh_filter_refuted` | UnscentedKalmanFilter: no constructor or filter step computes the weights; a fresh filter reads uninitialised memory. |
| C21 | `C21_steady_state_gain_refuted` | SteadyStateKalmanFilter: corrects the prediction with the predictor gain (A P H' S^-1) instead of the filter gain; predict does not compile. |
| C23 | `C23_recorded_delays_without_measuring_refuted` | MpcTimeKeeper: with delay measurement off the absolute clock reading is recorded as delay. |
| C25 | `C25_cold_start_truncation_refuted, C25_failed_solve_stamp_refuted, C25_first_stamp_without_measuring_refuted, C25_new_strategy_ignored_refuted, C25_prediction_controller_refuted, C25_stamp_without_prediction_refuted` | MPC-impl.h: six ways in which the time stamp or start state of a policy is not the one it was computed for. |
| C26 | `C26_end_in_double_refuted` | TimeGrid: the last grid point in double may lie below the horizon. |
| C27 | `C27_interpolation_refuted` | OptVectorDms: the end-point guess does not interpolate (integer division). |
| C28 | `C28_linear_last_node_refuted` | LinearSpliner: undefined at the last node. |
| C31 | `C31_general_refuted, C31_terminal_flag_refuted` | ConstraintBase: values of user-defined terms are column-major, the pattern row-major; terminal state Jacobians test the intermediate initialised flag. |
| C32 | `C32_barrier_refuted, C32_simple_refuted` | Cost terms: the state barrier throws for its analytical derivatives; CostFunctionQuadraticSimple's gradient is only right for symmetric weights. |
| C33 | `C33_refuted, C33_ad_activation_refuted, C33_ad_stale_refuted` | Cost functions: activations enter the value squared; AD terms ignore activations; terms added after initialize are not evaluated. |
| C34 | `C34_crossed_refuted` | Constraint violation: crossed bounds cancel to zero. |
| C34 | `C34_half_axes_refuted, C34_inside_value_refuted` | The matrix documented as the half axes of an ellipsoidal obstacle acts as its inverse, and values up to 1, documented to mean inside, are also returned for points outside (the function subtracts 1). |
| C36 | `C36_strict_decrease_refuted` | ARMIJO line search: accepts steps without strict decrease. |
| C37 | `C37_stale_worker_refuted` | NLOCBackendMP: a worker of the previous call can take over indices of the next one. |
| C39 | `C39_larger_step_refuted, C39_wakeup_lost_refuted, C39_zero_iterations_hang_refuted` | NLOCBackendMP line search: a smaller step overwrites the first acceptable one; the caller's wake-up can be lost; maxIterations = 0 never returns. |
| C40 | `C40_caller_wakeup_lost_refuted, C40_lost_count_refuted, C40_worker_wakeup_lost_refuted` | NLOCBackendMP: notify without holding the mutex: wake-ups of workers and of the caller can be lost; a late worker can lose a count. The call then never returns. |
| C41 | `C41_defects_forgotten_refuted, C41_full_step_refuted, C41_result_refuted` | NLOptConSolver: solve() always returns true; line search NONE may raise the cost; a failed search leaves zeroed defects. |
| C42 | `C42_configure_refuted` | configure() with another dt changes the horizon. |
| C43 | `C43_stale_refuted, C43_target_refuted, C43_terminal_refuted, C43_too_many_refuted, C43_unchecked_refuted` | LQOCProblem and its filling: more box rows than components write out of bounds; only the last sparsity index is checked; a container without boxes does not remove old ones; terminal general constraints are linearised at a stale state in the first iteration; target-state terms used as boxes lose their target. |
| C44 | `C44_before_first_update_refuted, C44_change_initial_refuted, C44_reset_refuted` | ShotContainer: an evaluation before the first update, after changeInitialState, or after resetting the counter serves stale data. |
| C45 | `C45_time_refuted` | SensitivityIntegrator: linearises at a wrong time for time-dependent dynamics. |
| C46 | `C46_alias_refuted, C46_barrier_refuted, C46_simple_refuted` | Clones: a term added twice is split; the barrier's clone drops name and activation and the original's barrier reads out of range; QuadraticSimple's clone drops its base point. |
| C47 | `C47_one_sided_shift_refuted, C47_time_shift_refuted, C47_unchanged_refuted` | Numerical cost derivatives leave the object at the perturbed point; a time shift is applied twice. |
| C49 | `C49_general_refuted, C49_linear_refuted` | ConstraintDiscretizer: input non-zeros of general constraints are not counted (writes past the arrays); with piecewise-linear controls each evaluation reads past the grid. |
| C50 | `C50_linear_refuted, C50_stale_weights_refuted` | CostEvaluatorSimple: piecewise-linear weights read past the grid; weights stay stale after a horizon change; the terminal cost is evaluated at time 0. |
| C51 | `C51_mechanical_refuted` | SecondOrderSystem: the damping ratio is computed as d/(2mk) instead of d/(2 sqrt(mk)). |
| C52 | `C52_change_refuted` | DmsProblem: changeInitialState does not update the initial-state constraint. |
| C53 | `C53_dare_large_tolerance_refuted` | DARE: a tolerance above 1 returns the input without iterating. |
| C55 | `C55_ukf_process_noise_refuted` | UKF: sigma points are not redrawn after adding process noise. |
| C56 | `C56_ekf_measurement_time_refuted` | EKF: the measurement model is evaluated at time 0. |
| C59 | `C59_ignored_refuted` | Reference updates: the product, smoothed-absolute and tracking terms ignore them (mixed ignores the control). |
| C64 | `C64_arrives_refuted` | Arm trajectories: the number of samples is rounded to the nearest multiple of the sampling time; the trajectory can end before the last joint arrives. |
| C65 | `C65_int_refuted, C65_double_refuted` | JointState::toUniquePosition: the number of turns is stored in an int (undefined beyond); in double precision a position just below the lower limit becomes lower + 2 pi, outside the range. |
| C66 | `C66_storage_refuted` | RigidBodyPose: the constructor from an Eigen quaternion ignores its storage argument. |
| C67 | `C67_inactive_refuted, C67_offset_refuted, C67_normal_smoothing_refuted` | EEContactModel: forces of inactive end-effectors are uninitialised; without velocity smoothing the contact test uses height 0 and ignores the plane offset, and cuts off the smoothed normal force. |
| C72 | `C72_shared_link_refuted, C72_null_actuator_refuted, C72_floating_copy_refuted` | Robot systems: end-effector forces are assigned, not added, so only the last force on a link acts; a system with actuator states can be built without actuators (null pointer); copying or cloning FloatingBaseFDSystem without a contact model dereferences a null pointer. |
| C73 | `C73_unit_amplification_refuted` | SecondOrderActuatorDynamics: the constructors assuming unit amplification pass w_n^2 as gain, so the actuator amplifies by w_n^2. |
| C75 | `C75_set_end_effector_refuted, C75_base_orientation_refuted` | Kinematics: setEndEffector has an empty body; the documentation of mapForceFromEEToLink recommends the base orientation for world forces, which must be its inverse. |
| C70 | `C70_rates_refuted, C70_svd_refuted` | OperationalJacobianBase: dJdagerdt and dPdt are not the time derivatives of the inverse and of the projector unless the Jacobian is square (the derivative of J^T and of (J W J^T)^-1 is incomplete); JdagerLDLT and JdagerSVD share one cache flag, so whichever is asked first decides what both return. |
| C71 | `C71_forces_refuted, C71_fully_actuated_refuted` | ProjectedDynamics::getContactForcesInBase reads the last solution with the current contact configuration: after moving the contact from foot 0 to foot 1 the force of foot 0 is reported for foot 1, and before the first call it is arbitrary memory; Dynamics::FloatingBaseFullyActuatedID ignores its base acceleration argument and uses an uninitialised one. |
| C74 | `C74_gains_refuted, C74_clone_refuted` | JointPositionPIDController::setAllPIDGains builds a fresh parameter set, so the control limits, the anti-windup limit and dt given to the constructor are replaced by the defaults; clone() of the joint and the whole body controller throws, so a system controlled by them cannot be cloned. |
| C76 | `C76_failed_design_refuted` | InfiniteHorizonLQRwithInverseDynamics::designInfiniteHorizonLQR stores set-point, torques and gain even when the Riccati solver reports failure; the overload without a gain argument then installs a zero gain. |
| C77 | `C77_discrete_clone_refuted` | DiscreteControlledSystem's 'copy constructor' takes a ControlledSystem, so clones of discrete systems share the controller with the original: a controller with internal state is advanced by calls on either. |
| C77 | `C77_unknown_mode_refuted, C77_clone_aliased_refuted, C77_last_control_refuted` | A scheduled mode without a subsystem is an unchecked operator[] access; a subsystem object used for two modes becomes two objects in the clone; getLastControlAction before the first computeDynamics of a system without controller returns uninitialised memory. |
| C78 | `C78_terminal_stale_refuted` | SwitchedLinearConstraintContainer::update passes the current state to the active container only: terminal constraints evaluated at a time before the last phase use an earlier state. |
| C78 | `C78_clone_active_refuted, C78_bounds_after_initialize_refuted` | A clone resets the active container to the first mode but keeps the bounds of the original's mode; after initialize() the intermediate bounds are still empty. |
| C79 | `C79_type_ignored_refuted, C79_type_crash_refuted, C79_stale_system_refuted` | SystemDiscretizer::setIntegrationType only stores the type: integrators are created when the system is set. Switching between explicit types afterwards keeps the old method, switching from a symplectic to an explicit type dereferences a null integrator, and an explicit integrator kept from before a system change still integrates the old system (and records nothing). |
| C79 | `C79_copy_refuted` | SystemDiscretizer's copy constructor (and clone) dereferences the system pointer of the object under construction, which is null. |
| C79 | `C79_symplectic_controls_refuted, C79_symplectic_substates_refuted` | With EULER_SYM the substep recorder stores the system's last control, which symplectic dynamics never update, so recorded controls are stale or uninitialised; with RK_SYM no substeps are recorded at all. |
| C80 | `C80_sensitivity_refuted` | OptconContinuousSystemInterface::configure accepts settings that toggle useSensitivityIntegrator, but keeps the existing sensitivity objects and gives them the time step meant for the other kind (an approximation then discretizes over dt/K instead of dt). |
| C81 | `C81_upper_refuted` | If a constraint term reports second derivatives above the diagonal, the container counts them in its pattern but only stores lower triangular values, so that reading the values runs past the value buffer. |
| C82 | `C82_position_weights_refuted` | TermTaskspaceGeometricJacobian::stateDerivative multiplies with Q_pos although the derivative of the cost is that of its symmetric part: for weights that are not symmetric the gradient is wrong. |
| C82 | `C82_rotation_weights_refuted` | For rotation weights that differ between axes stateDerivative is not the derivative of evaluate: it treats the derivative of the rotation vector as the angular velocity, which is right only for a multiple of the identity (or at the target). |
| C83 | `C83_new_object_refuted, C83_freed_object_refuted` | HPIPMInterface refreshes the pointers to the bounds and masks of box constraints only at stages where their number changes: setting a different problem object with the same numbers hands HPIPM the bounds of the old object, and freed memory if the old object is gone. |
| C83 | `C83_new_bound_refuted` | A bound of a box constraint that was infinite and becomes finite in the same problem is ignored, since the mask is not updated. |
| C83 | `C83_shorter_horizon_refuted, C83_longer_horizon_refuted` | Setting the same problem with a longer horizon reallocates its arrays while the interface keeps the old pointers (freed memory is read); with a shorter horizon the new terminal stage keeps its number of input bounds although it has no input. |
| C83 | `C83_same_problem_again_refuted` | createConstraintsMasks overwrites the absent (infinite) bounds of the problem with 0; setting the same problem again then takes these zeros as real bounds for the general constraints. |
| C84 | `C84_far_state_refuted` | Beyond a state norm of 1e20 the quadrotor's dynamics are set to zero without notice, while its Jacobians are not. |
| C85 | `C85_through_origin_refuted` | PlaneEstimator fixes the constant d to 1: a plane through the origin is never returned, and for points of such a plane the result contains none of them. |
| C86 | `C86_shared_system_refuted` | CTSystemModel installs its own controller in the system it is given: a second process model on the same system makes the first predict with the input of the second. |
| C86 | `C86_time_refuted, C86_accumulated_time_refuted, C86_step_number_refuted` | CTSystemModel::computeDerivativeState linearises at int(t/dt)*dt instead of t: between multiples of the step, and in doubles also at accumulated multiples (eight times 0.1 gives step 7), the derivative is that of an earlier time. When t/dt does not fit into an int (a step of 1 ms: after less than 25 days) the conversion is undefined. |
| C86 | `C86_scheme_refuted` | Nothing ties the linearisation to the integrator: with RK4 and forward Euler the matrix is not the derivative of the prediction. |
| C86 | `C86_clone_refuted` | The copy constructor of InputDisturbedSystem initialises its base class from *this: every clone is undefined behaviour. |
| C86 | `C86_set_controller_refuted` | DisturbedSystem::setController dereferences the result of a failed cast when the system was default constructed or after a CTSystemModel was made with it. |
| C87 | `C87_names_refuted, C87_line_search_refuted, C87_unknown_exits_refuted, C87_matrix_entry_refuted` | NLOptConSettings::load reads the integrator, discretization, algorithm and solver names in one try block, so a file without an integrator silently keeps the default algorithm; a line search block without alpha_0 is loaded up to there; a misspelt name calls exit(-1); an illegible matrix entry is silently zero. |
| C87 | `C87_mpc_mode_refuted, C87_ipopt_frequency_refuted, C87_solver_type_refuted` | loadMpcSettings never reads the MPC mode; IPOPT's print frequency is looked up under the key print_frequency_iter_ with an underscore at its end; the NLP solver type is reduced modulo 256 before it is checked. |
| C87 | `C87_ukf_parameters_refuted, C87_ukf_namespace_refuted` | UnscentedKalmanFilterSettings::load reads alpha, beta and kappa as bool, so 0.001 throws, and reads the matrices at ns + name without a dot, so no namespace loads both the parameters and the matrices of one block. |
| C87 | `C87_nan_refuted, C87_threads_refuted` | parametersOk accepts a time step or horizon that is NaN, and numbers of threads that are zero or negative. |
| C88 | `C88_terminal_time_refuted` | CostEvaluatorFull passes no time with the terminal state, so a terminal cost that depends on time is always evaluated at time 0. |
| C89 | `C89_replace_refuted, C89_configure_refuted` | changeCostFunction, changeNonlinearSystem, changeLinearSystem, the three change-constraints functions and configure of the shooting solver are accepted and have no effect on what is solved: the shots and evaluators keep the objects and settings of the construction |
| C89 | `C89_horizon_refuted, C89_two_horizons_refuted` | the shots take start times and step counts from the horizon in the settings; after changeTimeHorizon, or when the problem has another horizon, they integrate over other intervals than the grid on which controls, cost weights and constraints live |
| C89 | `C89_unknown_solver_refuted, C89_no_shots_refuted, C89_simple_linear_refuted` | the constructor of the shooting solver ignores the result of parametersOk: no shots reads an empty vector, an unknown NLP solver type leaves a null pointer that solve dereferences, and the simple cost with piecewise linear controls reads past the grid |
| C89 | `C89_stale_linearisation_refuted` | setNonlinearSystem on a problem keeps the automatically derived linearisation of the previous dynamics |
| C90 | `C90_bias_z_refuted` | vxIv(omegaz, I) (robcogen_commons.h 131) sets the moment about y to I(AX,AY)*wz^2 where v x* (I v) has I(AX,AZ)*wz^2, so the velocity product force of a first link turning about z is wrong exactly when it turns and its products of inertia Ixy and Ixz differ. The general overload vxIv(v, I) is right (C90_bias). Generated forward and inverse dynamics call this overload for the first link; its joint force reads only the moment about z, which is right, so the wrong moment shows in the link force (the load on the base) and not in the joint accelerations. |
| C94 | `C94_quadrotor_load_refuted` | The inertia tensors of the two load links of QuadrotorWithLoad are the ones about the centre of mass, but fill expects the tensor about the origin of the link frame (as in the other generated models), so the generated 6x6 inertia is not positive semidefinite: some motions of these links have negative kinetic energy. |
| C95 | `C95_base_link_refuted` | robcogenHelpers.h 72-80 and 227-234: for link 0, the base, getTransformBaseLinkById and getTransformLinkBaseById fill the 3x3 block at the top right corner of a zero matrix with the identity and return that, instead of an identity. So a force mapped to the base link by Kinematics::mapForceFromWorldToLink (an end effector on link 0) comes back as a moment and no force. |
| C95 | `C95_direction_refuted` | RobCoGenContainer.h 123-132 documents getHomogeneousTransformBaseEEById as converting from the base to the end effector frame; the matrix returned converts from the end effector frame to the base. |
| C96 | `C96_limits_refuted` | IKNLPSolverIpopt.h 104-117: the result of solve() is ignored and the solution is validated by forward kinematics only, not against the joint limits; when the optimiser stops early the returned joint position can be outside the limits. |
| C96 | `C96_origin_refuted` | RigidBodyPose.h 110-114 with Eigen's isApprox: the position tolerance is relative to the norm of the positions, so that a target position at the origin of the base frame is never accepted unless met exactly, and all trials are used up. |
| C97 | `C97_time_refuted` | the generated code of automatically differentiated constraints is recorded at time zero, so a time dependent constraint is evaluated at the wrong time |
| C97 | `C97_constructor_refuted` | the constraint container constructor taking state, input and time leaves the generated code null; adding a constraint dereferences it |
| C97 | `C97_no_constraints_refuted` | an initialised container without intermediate (or terminal) constraints throws on evaluation instead of returning an empty vector |
| C97 | `C97_copy_sparsity_refuted` | a copy of compiled derivatives has empty sparsity patterns and returns sparse values without indices |
| C97 | `C97_empty_update_refuted` | updating compiled derivatives to a function without outputs keeps the old compiled function |
| C97 | `C97_copy_llvm_refuted` | derivatives compiled with LLVM cannot be copied |
| C98 | `C98_identifier_refuted` | quantising with an identifier other than zero reads beyond the end of the vector of rests, which is resized to one element too few |
| C98 | `C98_vector_refuted` | quantising a vector of more than one entry is undefined for the same reason |
| C98 | `C98_reset_refuted` | every use of a quantiser after a reset is undefined |
| C99 | `C99_kill_before_refuted` | a kill requested before an integration is discarded, since the integration resets all handlers first |
| C99 | `C99_recorder_array_refuted` | arrays handed to a substep recorder by its constructor are replaced by the first reset and never written |
| C99 | `C99_tolerances_refuted` | error tolerances set on an integrator never reach its adaptive stepper, which is built with the default ones |
| C100 | `C100_position_clone_refuted` | TermTaskspacePosition::clone builds a new term from weights and reference only: the copy has no name and is active at all times, although cost functions clone their terms |
| C101 | `C101_shared_refuted` | models that share a Jacobian: after one is updated, the other reports the velocities of its own state in the coordinates of the other's |
| C101 | `C101_joints_refuted` | OperationalModelRBD fills its selection matrix with blocks of twelve rows (and inverts an 18x18 mass matrix) whatever the number of joints: other robots abort in an assertion or write out of bounds |
| C102 | `C102_fifth_order_refuted` | With the integration type RK5, which the settings accept, compute_dXdSi and compute_dXdQi call exit(0): the user's process ends and reports success. compute_dXdQip1 throws instead. |
| C102 | `C102_duration_refuted` | getdXdHiTraj always returns an empty trajectory: the history it copies is never written. |
| C103 | `C103_endless_refuted` | replaceAll searches the whole text again after each replacement, so a class name or namespace that contains its own placeholder (for example DERIVATIVE_NAME_2 or NS1x) makes code generation loop forever while the text grows. |
| C103 | `C103_captured_refuted` | A class name that contains another placeholder is changed by the following replacements: FNS1 becomes Fcore in the file FNS1.h. |
| C103 | `C103_sparse_refuted` | generateJacobianSource always asks for IN_DIM*OUT_DIM entries, but a user pattern with a left out entry yields fewer row and column indices. CppAD requires the same number, and position k of the result would be the k-th selected entry rather than entry k of the matrix. |
| C104 | `C104_success_refuted` | SnoptSolver::solve returns true whatever status SNOPT ends with: for an infeasible problem (status 13) the program keeps its old values and the caller is told that the solve succeeded. |
| C104 | `C104_leak_refuted` | Configuring a SnoptSolver again allocates fifteen new arrays without deleting the earlier ones; k reconfigurations leave 15 k arrays allocated after the destructor. |
| C104 | `C104_default_refuted` | The default constructor of SnoptSolver leaves the pointer to its memory block uninitialised; destroying or configuring the solver dereferences it. |
| C104 | `C104_warm_refuted` | prepareWarmStart writes variable and row states into the arrays, but fill_memory overwrites them at the next solve; and the point handed over is the initial guess given by the user, not the last solution, although the multipliers and states are those of the last solution. |
| C105 | `C105_last_actuator_refuted` | initializeDirectInterpolation computes no torque in its last round; the last actuator state is made from the torque of the state before the last. |
| C105 | `C105_cut_refuted` | If more points than stages are asked for, the interpolated guess is cut off and stops short of the final pose instead of reaching it. |
| C106 | `C106_tall_refuted` | JacobiSingularity declares the singular values as a vector of ROWS entries; a Jacobian with more rows than columns has only COLS of them, and the assignment (and with it the condition number and the manipulability by singular values) is undefined. |
| C107 | `C107_again_refuted` | CostFunctionAD::loadFromConfigFile clears the analytical terms but appends to its own lists of terms: loading a file twice counts every term twice. |
| C107 | `C107_name_refuted` | The name a file gives a term is read and not used; the loaded term is named after its kind, so looking it up by the name in the file throws. |
| C107 | `C107_gap_refuted` | Loading stops at the first missing term number; terms described after a gap are left out without a message. |
| C107 | `C107_scaling_refuted` | loadMatrixCF without a term name reads the entries below the matrix but the scaling below ".weights.", so a scaling written beside the entries is ignored. |
