{"id": "C01", "title": "Interpolation lookup does not depend on query history", "statement": "On a trajectory whose time stamps are strictly increasing, looking up the index for a time t returns the last node whose time is <= t (0 when t precedes the first node), and the answer is the same whatever sequence of earlier lookups (including lookups on other trajectories with the same interpolator) left behind as cached search position.", "quantifier": "every strictly increasing non-empty time array, every query time, every cached index left behind by any history of earlier queries", "why_tests_cant": "The cached index makes the result potentially depend on the whole history of earlier calls; a test samples a few histories.", "anchors": ["ct_core/include/ct/core/common/Interpolation.h:findIndex", "ct_core/include/ct/core/common/Interpolation.h:interpolate"]}
{"id": "C02", "title": "Interpolated values: exact at nodes, between neighbours inside, clamped outside", "statement": "Evaluating a trajectory at a stored time returns exactly the stored sample; strictly between two stored times a linear interpolation lies on the segment between the two neighbouring samples with the barycentric weights of the times, zero-order hold returns the earlier sample; before the first and after the last time the first/last sample is returned. Empty trajectories and data/time length mismatches throw.", "quantifier": "every strictly increasing time array with matching data of any length and dimension, every query time, both interpolation types", "why_tests_cant": "Continuum of query times and arbitrary array sizes.", "anchors": ["ct_core/include/ct/core/common/Interpolation.h:interpolate", "ct_core/include/ct/core/types/trajectories/DiscreteTrajectoryBase.h:eval"]}
{"id": "C03", "title": "Trajectory editing keeps samples attached to their times", "statement": "Any sequence of push_back / pop_back / eraseFront / shiftTime / clear on a well formed trajectory keeps as many times as samples, keeps times strictly increasing (when pushed times are later than the last), and keeps each surviving sample attached to its original time up to the accumulated shift; evaluating a time-shifted trajectory equals evaluating the original at the un-shifted time.", "quantifier": "every finite sequence of edit operations from the empty trajectory, every evaluation time", "why_tests_cant": "History property over unbounded operation sequences.", "anchors": ["ct_core/include/ct/core/types/trajectories/DiscreteTrajectoryBase.h", "ct_core/include/ct/core/types/arrays/DiscreteArray.h", "ct_core/include/ct/core/types/arrays/ScalarArray.h"]}
{"id": "C04", "title": "Phase / mode lookup returns the phase whose interval contains the time", "statement": "For a phase sequence built from a start time by appending phases of positive duration, the phase returned for a time t in [start,end) is the unique one with its start <= t < its end; times before the start give the first, times at or after the end give the last phase.", "quantifier": "every sequence of positive-duration phases and every time", "why_tests_cant": "Unbounded sequences and boundary times.", "anchors": ["ct_core/include/ct/core/switching/Switching.h:PhaseSequence::getIdxFromTime", "ct_core/include/ct/core/switching/Switching.h:addPhase"]}
{"id": "C05", "title": "PID output and integral contribution stay within their limits", "statement": "After any sequence of computeControl calls (any states, any times, any set-point changes and resets) with uMin <= uMax and Imax >= 0, each returned control lies in [uMin,uMax] and, inside the controller, the integral contribution lies in [-Imax,Imax]; reset restores the initial behaviour.", "quantifier": "every history of calls, every parameter set", "why_tests_cant": "State accumulates over arbitrary histories.", "anchors": ["ct_core/include/ct/core/control/continuous_time/siso/PIDController-impl.h"]}
{"id": "C06", "title": "Fixed-step integration bookkeeping", "statement": "integrate_n_steps performs exactly n steps of size dt from (x0,t0), reports every intermediate (state,time) once and in order with time t0+k*dt, and integrating n then m steps gives the same final state and the concatenated report of integrating n+m steps; step handlers are called at the step ends and sub-step handlers at the evaluation points of the right-hand side, and nowhere else.", "quantifier": "every system, initial state, start time, step and step counts", "why_tests_cant": "Arbitrary step counts and arbitrary right-hand sides.", "anchors": ["ct_core/include/ct/core/integration/internal/SteppersCT.h", "ct_core/include/ct/core/integration/Integrator-impl.h"]}
{"id": "C07", "title": "Euler and RK4 steppers have their order of accuracy", "statement": "A fixed step of the native Euler stepper is exact for constant right-hand sides, and a native RK4 step is exact for right-hand sides that are polynomials of degree <= 3 in time and, for a linear system, multiplies the state by the degree-4 Taylor polynomial of exp(A dt).", "quantifier": "every dimension, matrix A, step dt, state and polynomial coefficients", "why_tests_cant": "Algebraic identity over all matrices and steps.", "anchors": ["ct_core/include/ct/core/integration/internal/SteppersCT.h:StepperEulerCT", "ct_core/include/ct/core/integration/internal/SteppersCT.h:StepperRK4CT"]}
{"id": "C08", "title": "LU / LDLT solvers return the solution of the linear system", "statement": "For any square matrix on which the elimination meets no zero pivot, LUsolve(A,b) returns x with A x = b, and for symmetric A with no zero pivot LDLTsolve(A,b) returns x with A x = b.", "quantifier": "every dimension, every matrix with non-vanishing pivots, every right-hand side", "why_tests_cant": "Universal over dimensions and matrices.", "anchors": ["ct_core/include/ct/core/math/Inverses.h"]}
{"id": "C09", "title": "Numerical differentiation is exact up to its order", "statement": "The forward-difference Jacobian equals the true Jacobian for every affine function and the central-difference Jacobian for every quadratic function, independent of the perturbation sizes used. For a smooth function the error of each entry is at most M2*h/2 (forward) or M3*h^2/6 (central), where h is the perturbation of that coordinate and M2, M3 bound the second / third derivative along it. Linearising a system declared second order gives exactly the identity and zero blocks in the upper rows.", "quantifier": "every dimension, every affine / quadratic / sufficiently smooth function, every non-zero perturbation", "why_tests_cant": "Universal algebraic identity.", "anchors": ["ct_core/include/ct/core/math/DerivativesNumDiff.h", "ct_core/include/ct/core/systems/linearizer/DynamicsLinearizerNumDiff.h", "ct_core/include/ct/core/systems/continuous_time/linear/SystemLinearizer.h"]}
{"id": "C10", "title": "Discretised sensitivities of a linear system match the selected scheme", "statement": "For a linear system the discrete-time sensitivities produced by the approximation with the forward Euler, backward Euler, symplectic Euler and Tustin settings are those of the corresponding one-step map of that scheme with step dt.", "quantifier": "every linear system of every dimension and every dt for which the scheme's inverse exists", "why_tests_cant": "Universal algebraic identity; a wrong factor of dt is invisible for a single tolerance.", "anchors": ["ct_core/include/ct/core/integration/sensitivity/SensitivityApproximation.h"]}
{"id": "C11", "title": "State feedback controller law", "statement": "The control returned at time t and state x is uff(t) + K(t)(x - xref(t)), where each of the three trajectories is evaluated with the interpolation semantics of C02; on the reference the feed-forward is returned.", "quantifier": "every update of the controller, every time and state", "why_tests_cant": "Continuum of times and states.", "anchors": ["ct_core/include/ct/core/control/StateFeedbackController-impl.h"]}
{"id": "C12", "title": "Uniform time grids", "statement": "linspace(a,b,N) returns N equally spaced values starting at a and ending at b (N>=2); TimeArray(dt,N,t0) returns t0+k*dt for k<N; N<1 is rejected.", "quantifier": "every a,b,N,dt,t0", "why_tests_cant": "Accumulated loop over unbounded N.", "anchors": ["ct_core/include/ct/core/common/linspace.h", "ct_core/include/ct/core/types/arrays/TimeArray.h"]}
{"id": "C13", "title": "Time activations gate a term exactly in their window", "statement": "A single activation is on exactly in [t_on,t_off); a periodic activation is on exactly when the time since the start, modulo the period, is inside the active window; the activation value lies in [0,1]; a Gaussian activation peaks at its centre and decays away from it however it was constructed.", "quantifier": "every parameter set and every time", "why_tests_cant": "Continuum of times; parameter corner cases.", "anchors": ["ct_core/include/ct/core/common/activations/SingleActivation.hpp", "ct_core/include/ct/core/common/activations/PeriodicActivation.hpp", "ct_core/include/ct/core/common/activations/RBFGaussActivation.h", "ct_core/include/ct/core/common/activations/LinearActivation.hpp"]}
{"id": "C14", "title": "Controllability / observability tests are memory safe and correct", "statement": "The controllability matrix of an LTI system is [B, AB, ..., A^(n-1)B], the observability matrix is [C; CA; ...; CA^(n-1)], for every state and input dimension, and computing them never writes outside the matrix.", "quantifier": "every system dimension", "why_tests_cant": "Template dimensions are unbounded; tests instantiate a few.", "anchors": ["ct_core/include/ct/core/systems/continuous_time/linear/LTISystem.h", "ct_core/include/ct/core/systems/discrete_time/linear/DiscreteLTISystem.h"]}
{"id": "C15", "title": "Simulator advances exactly one control period per cycle", "statement": "In every cycle of the control simulator the simulated system is advanced by exactly one control period, also when the control period is not an integer multiple of the simulation step.", "quantifier": "every control period and simulation step", "why_tests_cant": "Only non-integer ratios expose it and the effect is a wrong simulated time, not a crash.", "anchors": ["ct_core/include/ct/core/simulation/ControlSimulator.h:simulateSystem"]}
{"id": "C16", "title": "Riccati LQ solver returns the global minimiser", "statement": "For every unconstrained linear-quadratic problem (time varying A,B,b,Q,q,P,R,r) in which the stage Hessians the solver inverts are positive definite and left unchanged by the configured Hessian correction, the state/control trajectories returned satisfy the affine dynamics from x0 and have cost not larger than any other control sequence, with equality only for the same controls; the returned feedback L and feed-forward satisfy u_k = L_k x_k + l_k along it.", "quantifier": "every horizon length, state and input dimension, every problem data with positive definite, uncorrected stage Hessians, every competing control sequence", "why_tests_cant": "Optimality is a universally quantified statement over all control sequences.", "anchors": ["ct_optcon/include/ct/optcon/solver/lqp/GNRiccatiSolver-impl.hpp", "ct_optcon/include/ct/optcon/problem/LQOCProblem-impl.hpp"]}
{"id": "C17", "title": "Finite-horizon discrete LQR gain is optimal", "statement": "The gains of the finite-horizon LQR design minimise the quadratic cost over all control sequences for the discretised linear time-varying model, when the clamped Hessian equals the true one; Riccati iterates stay symmetric and the sign convention of the documentation (u = -K(x-xref)) holds.", "quantifier": "every horizon, dimension, weights with positive definite stage Hessians, every competing control sequence", "why_tests_cant": "Optimality over all control sequences.", "anchors": ["ct_optcon/include/ct/optcon/lqr/FHDTLQR-impl.hpp", "ct_optcon/include/ct/optcon/lqr/riccati/DynamicRiccatiEquation.hpp"]}
{"id": "C18", "title": "Splitting the backward pass does not change the LQ solution", "statement": "Processing the stages N-1..k first (preparation phase) and k-1..0 later (finish phase) yields exactly the cost-to-go, feedback and solution that one full backward pass yields, for every split point.", "quantifier": "every problem, horizon and split point", "why_tests_cant": "Quantifies over all problems and split points.", "anchors": ["ct_optcon/include/ct/optcon/solver/lqp/GNRiccatiSolver-impl.hpp:solveSingleStage", "ct_optcon/include/ct/optcon/nloc/NLOCBackendBase-impl.hpp:prepareSolveLQProblem", "ct_optcon/include/ct/optcon/nloc/NLOCBackendBase-impl.hpp:finishSolveLQProblem"]}
{"id": "C19", "title": "Extended Kalman filter covariance stays valid and the gain is optimal", "statement": "For every history of predict/update steps with positive semidefinite process noise and positive definite measurement noise, the covariance stays symmetric positive semidefinite, the update never increases it, and the gain minimises the posterior covariance over all gains.", "quantifier": "every history of predict/update calls, every linearisation, every dimension", "why_tests_cant": "Invariant over unbounded histories and matrices.", "anchors": ["ct_optcon/include/ct/optcon/filter/ExtendedKalmanFilter-impl.h"]}
{"id": "C20", "title": "Unscented filter weights and sigma points reproduce mean and covariance", "statement": "The sigma points generated from (x,P) with the documented weights have weighted mean x and weighted covariance P, and are exact under every linear map.", "quantifier": "every dimension, every tuning parameter with n+lambda nonzero, every (x,P) with a square root", "why_tests_cant": "Algebraic identity over all dimensions.", "anchors": ["ct_optcon/include/ct/optcon/filter/UnscentedKalmanFilter-impl.h"]}
{"id": "C21", "title": "Steady-state Kalman filter corrects with the steady-state gain", "statement": "The measurement correction of the steady-state Kalman filter uses the steady-state covariance (fixed point of the filter Riccati equation up to the tolerance) and the gain that minimises the error covariance of the corrected estimate.", "quantifier": "every system matrix, measurement matrix, noise covariances, start covariance and measurement", "why_tests_cant": "Optimality over all gains and all systems.", "anchors": ["ct_optcon/include/ct/optcon/filter/SteadyStateKalmanFilter-impl.h"]}
{"id": "C22", "title": "MPC time-horizon modes", "statement": "For every mode, initial horizon, minimum horizon and elapsed time the newly computed horizon is the documented one: constant in receding mode, the time left (never negative) in fixed-final-time mode, never below the minimum in the mode with minimum horizon, never above the minimum in the receding-with-fixed-final-time mode; the task-finished flag is set exactly when documented; horizons never increase as time passes.", "quantifier": "all modes, horizons and elapsed times", "why_tests_cant": "Continuum of times, all modes.", "anchors": ["ct_optcon/include/ct/optcon/mpc/timehorizon/MpcTimeHorizon-impl.h"]}
{"id": "C23", "title": "MPC timing keeps forward-integration times inside the horizon", "statement": "For every history of MPC cycles, 0 <= t_forward_start <= t_forward_stop <= current horizon, the recorded maximum/minimum/sum of delays match the history of measured delays, and a negative measured delay is reported as an error.", "quantifier": "every history of clock readings", "why_tests_cant": "History property over arbitrary clock readings.", "anchors": ["ct_optcon/include/ct/optcon/mpc/MpcTimeKeeper.h"]}
{"id": "C24", "title": "Warm starting and truncating a policy keeps it consistent", "statement": "Truncating the front of a policy by a delay and extending/shortening it to a new horizon yields a policy with exactly round(T/dt) (at least one) controls and gains, one more reference state, uniform time stamps starting at zero, whose samples are the old samples shifted by the truncated number of steps; the reported truncated time is that number of steps times dt and never exceeds the delay.", "quantifier": "every policy on a uniform grid, every delay and new horizon", "why_tests_cant": "Unbounded sizes and delays; sequence of MPC cycles.", "anchors": ["ct_optcon/include/ct/optcon/mpc/policyhandler/default/StateFeedbackPolicyHandler-impl.h"]}
{"id": "C25", "title": "MPC policy time stamp", "statement": "The time stamp returned with a new policy is the state time stamp plus the pre-integrated delay plus the truncated time, i.e. the absolute time at which the returned policy's time zero lies.", "quantifier": "every history of prepare/finish cycles, internal and external timing, delay measured or not", "why_tests_cant": "History property over clock readings and settings.", "anchors": ["ct_optcon/include/ct/optcon/mpc/MPC-impl.h:finishIteration", "ct_optcon/include/ct/optcon/mpc/MpcTimeKeeper.h"]}
{"id": "C26", "title": "Shooting grid partitions the horizon", "statement": "The multiple-shooting grid for N shots and horizon T starts at 0, ends at T, is strictly increasing, each shot's end is the next shot's start and shot durations sum to T; changing the horizon rescales it.", "quantifier": "every N>=1 and T>0", "why_tests_cant": "Unbounded N.", "anchors": ["ct_optcon/include/ct/optcon/dms/dms_core/TimeGrid.h"]}
{"id": "C27", "title": "Decision vector layout of direct multiple shooting", "statement": "Writing the state or control of one node and reading any node back returns the written value for that node and leaves all other nodes unchanged; all index ranges are disjoint, in range and cover the vector; an initial guess given as arrays is read back unchanged; an initial guess given by endpoints interpolates linearly between them.", "quantifier": "every number of shots, dimension, sequence of writes", "why_tests_cant": "Universal over sizes and write sequences.", "anchors": ["ct_optcon/include/ct/optcon/dms/dms_core/implementation/OptVectorDms-impl.h", "ct_optcon/include/ct/optcon/dms/dms_core/OptVectorDms.h", "ct_optcon/include/ct/optcon/nlp/OptVector.h"]}
{"id": "C28", "title": "Control spline and its derivatives agree", "statement": "The zero-order-hold and linear spliners interpolate the node controls, are continuous at shot boundaries (linear), and the reported derivatives with respect to the node controls and times are the derivatives of the evaluated spline.", "quantifier": "every grid, shot, time and control values", "why_tests_cant": "Continuum of times and values.", "anchors": ["ct_optcon/include/ct/optcon/dms/dms_core/spline/Linear/LinearSpliner.h", "ct_optcon/include/ct/optcon/dms/dms_core/spline/ZeroOrderHold/ZeroOrderHoldSpliner.h"]}
{"id": "C29", "title": "NLP constraint container: values, bounds and Jacobian rows stay aligned", "statement": "For every list of constraints, constraint values, lower/upper bounds and Jacobian row indices of each constraint occupy the same disjoint consecutive rows; the number of non-zeros equals the sum over constraints; every index is in range; and the sparse triplets describe block-stacked Jacobians.", "quantifier": "every list of constraints of every size", "why_tests_cant": "Universal over lists.", "anchors": ["ct_optcon/include/ct/optcon/nlp/DiscreteConstraintContainerBase.h", "ct_optcon/include/ct/optcon/nlp/DiscreteConstraintBase.h"]}
{"id": "C30", "title": "Shooting continuity constraint Jacobian triplets describe the dense derivative", "statement": "The (row, column, value) triplets reported for a continuity constraint reconstruct the dense Jacobian [-dX/ds_i, -dX/dq_i, I, -dX/dq_{i+1}] at the right decision-vector columns, without duplicates and in range.", "quantifier": "every shot, number of shots and dimension, both spline types", "why_tests_cant": "Universal over sizes.", "anchors": ["ct_optcon/include/ct/optcon/dms/constraints/ContinuityConstraint.h", "ct_optcon/include/ct/optcon/dms/constraints/InitStateConstraint.h", "ct_optcon/include/ct/optcon/nlp/DiscreteConstraintBase.h"]}
{"id": "C31", "title": "Sparse constraint Jacobian values match their sparsity pattern", "statement": "For a general (dense) constraint term the k-th sparse Jacobian value is the entry of the dense Jacobian at the k-th row/column index reported by the sparsity pattern; likewise for box constraints and whole containers.", "quantifier": "every constraint dimension, state and input dimension", "why_tests_cant": "Only visible for particular dimension combinations.", "anchors": ["ct_optcon/include/ct/optcon/constraint/term/ConstraintBase-impl.h", "ct_optcon/include/ct/optcon/constraint/term/BoxConstraintBase-impl.h", "ct_optcon/include/ct/optcon/constraint/ConstraintContainerAnalytical-impl.h"]}
{"id": "C32", "title": "Analytical cost-term derivatives are the derivatives of the cost", "statement": "For every built-in quadratic / bilinear / linear term the reported first derivative is the exact linear part and the second derivative the exact quadratic part of the evaluated cost at every point.", "quantifier": "every weight matrix (also non-symmetric), reference, state, control and displacement", "why_tests_cant": "Universal over matrices and displacements.", "anchors": ["ct_optcon/include/ct/optcon/costfunction/term/TermQuadratic-impl.hpp", "ct_optcon/include/ct/optcon/costfunction/term/TermQuadMult-impl.hpp", "ct_optcon/include/ct/optcon/costfunction/term/TermMixed-impl.hpp", "ct_optcon/include/ct/optcon/costfunction/term/TermLinear-impl.hpp", "ct_optcon/include/ct/optcon/costfunction/CostFunctionQuadraticSimple-impl.hpp"]}
{"id": "C33", "title": "Cost-function totals and gradients agree under time activations", "statement": "The intermediate cost of an analytical cost function is the sum of its terms each weighted by its activation at the current time, and the reported gradient is the gradient of the reported cost, for every activation value in [0,1].", "quantifier": "every list of terms, every activation value", "why_tests_cant": "Depends on activation values no test uses (0/1 only).", "anchors": ["ct_optcon/include/ct/optcon/costfunction/CostFunctionQuadratic-impl.hpp", "ct_optcon/include/ct/optcon/costfunction/CostFunctionAnalytical-impl.hpp", "ct_optcon/include/ct/optcon/costfunction/term/TermBase-impl.hpp"]}
{"id": "C34", "title": "Constraint violation is zero exactly for feasible points", "statement": "The reported total intermediate/terminal violation is zero in every component iff lower <= value <= upper holds in every component (lower<=upper), is positive above the upper and negative below the lower bound, with magnitude the distance to the interval. The obstacle constraint is met exactly outside the ellipsoid.", "quantifier": "every number of constraints, values and bounds", "why_tests_cant": "Universal over values and bounds.", "anchors": ["ct_optcon/include/ct/optcon/constraint/ConstraintContainerBase-impl.h"]}
{"id": "C35", "title": "Rollout and defects", "statement": "After rolling out shots, inside each shot the successor state is the integrated state, the recorded defect at a shot end is integrated state minus the next shot's initial state and zero elsewhere; the defect norm is zero iff the stitched trajectory satisfies the dynamics everywhere.", "quantifier": "every dynamics, horizon, shot length, initial guess", "why_tests_cant": "Universal over sizes and trajectories.", "anchors": ["ct_optcon/include/ct/optcon/nloc/NLOCBackendBase-impl.hpp:rolloutSingleShot", "ct_optcon/include/ct/optcon/nloc/NLOCBackendBase-impl.hpp:computeSingleDefect", "ct_optcon/include/ct/optcon/nloc/NLOCBackendBase-impl.hpp:rolloutShotsSingleThreaded"]}
{"id": "C36", "title": "Line search only accepts improving steps", "statement": "Single-threaded line search tries alpha_0*n_alpha^i for i<max in order, accepts the first one meeting the step-acceptance test, never accepts a step with NaN or non-decreasing merit, and on failure leaves the trajectories and cost untouched.", "quantifier": "every merit function of the step size, all settings", "why_tests_cant": "Universal over merit functions, including NaN.", "anchors": ["ct_optcon/include/ct/optcon/nloc/NLOCBackendST-impl.hpp:performLineSearch", "ct_optcon/include/ct/optcon/nloc/NLOCBackendBase-impl.hpp:acceptStep", "ct_optcon/include/ct/optcon/nloc/NLOCBackendBase-impl.hpp:lineSearch"]}
{"id": "C37", "title": "Parallel linearisation processes every stage exactly once", "statement": "With any number of worker threads and any interleaving, computeLQApproximation(first,last) processes each stage in first..last exactly once and returns only after all of them have been processed.", "quantifier": "every number of workers, every schedule", "why_tests_cant": "Quantifies over all thread schedules.", "anchors": ["ct_optcon/include/ct/optcon/nloc/NLOCBackendMP-impl.hpp:computeLQApproximation", "ct_optcon/include/ct/optcon/nloc/NLOCBackendMP-impl.hpp:computeLQProblemWorker", "ct_optcon/include/ct/optcon/nloc/NLOCBackendMP-impl.hpp:threadWork"]}
{"id": "C38", "title": "Parallel shot rollout equals sequential rollout", "statement": "With any number of worker threads and any interleaving, the multi-threaded shot rollout produces the same states, controls and defects as the single-threaded one.", "quantifier": "every number of workers, every schedule, every horizon and shot length", "why_tests_cant": "Quantifies over all thread schedules.", "anchors": ["ct_optcon/include/ct/optcon/nloc/NLOCBackendMP-impl.hpp:rolloutShots", "ct_optcon/include/ct/optcon/nloc/NLOCBackendMP-impl.hpp:rolloutShotWorker"]}
{"id": "C39", "title": "Parallel line search is safe and agrees with the sequential one", "statement": "Under every interleaving the multi-threaded line search returns an accepted step iff some tried step is acceptable, the trajectories it leaves belong to the returned step size, and the returned step size is the one the sequential line search returns.", "quantifier": "every number of workers, every schedule, every acceptance outcome per step", "why_tests_cant": "Quantifies over all thread schedules.", "anchors": ["ct_optcon/include/ct/optcon/nloc/NLOCBackendMP-impl.hpp:performLineSearch", "ct_optcon/include/ct/optcon/nloc/NLOCBackendMP-impl.hpp:lineSearchWorker"]}
{"id": "C40", "title": "Worker pool never misses a wake-up", "statement": "After the main thread posts a parallel task, under every schedule the task eventually completes: no schedule leaves the main thread waiting while all workers sleep.", "quantifier": "every number of workers, every schedule", "why_tests_cant": "Deadlock depends on a rare interleaving.", "anchors": ["ct_optcon/include/ct/optcon/nloc/NLOCBackendMP-impl.hpp:threadWork", "ct_optcon/include/ct/optcon/nloc/NLOCBackendMP-impl.hpp:computeLQApproximation"]}
{"id": "C41", "title": "Optimal control solver loop: termination, monotone merit and honest result", "statement": "solve() performs at most max_iterations iterations, stops after the first iteration without improvement, never returns a trajectory with larger merit than an earlier accepted one, and its boolean result tells whether a better solution was found.", "quantifier": "every sequence of iteration outcomes and every limit", "why_tests_cant": "History property over arbitrary iteration outcomes.", "anchors": ["ct_optcon/include/ct/optcon/solver/NLOptConSolver-impl.hpp:solve", "ct_optcon/include/ct/optcon/nloc/algorithms/MultipleShooting-impl.hpp"]}
{"id": "C42", "title": "Number of stages and horizon", "statement": "For every non-negative horizon T and dt>0 the number of control stages is at least one and its grid end differs from T by at most dt/2 (when T>=dt/2); negative horizons are rejected; the reported horizon is stages times dt; initial guesses of the wrong size are rejected and leave the solver state unchanged.", "quantifier": "every T, dt", "why_tests_cant": "Continuum of values, rounding boundaries.", "anchors": ["ct_optcon/include/ct/optcon/solver/NLOptConSettings.hpp:computeK", "ct_optcon/include/ct/optcon/nloc/NLOCBackendBase-impl.hpp:changeTimeHorizon", "ct_optcon/include/ct/optcon/nloc/NLOCBackendBase-impl.hpp:setInitialGuess"]}
{"id": "C43", "title": "Box constraints handed to the LQ sub-problem are the original bounds relative to the nominal trajectory", "statement": "For every sparse box constraint and nominal trajectory, a deviation satisfies the bounds stored in the LQ sub-problem iff nominal plus deviation satisfies the original bounds in the constrained components, and no other component is constrained.", "quantifier": "every sparsity pattern, bound, nominal value and deviation", "why_tests_cant": "Universal over index sets.", "anchors": ["ct_optcon/include/ct/optcon/problem/LQOCProblem-impl.hpp:setInputBoxConstraint", "ct_optcon/include/ct/optcon/problem/LQOCProblem-impl.hpp:setIntermediateStateBoxConstraint", "ct_optcon/include/ct/optcon/nloc/NLOCBackendBase-impl.hpp"]}
{"id": "C44", "title": "Shot integration cache never serves stale data", "statement": "Whatever the order in which cost, constraints, gradients and Jacobians are requested and the decision vector is updated, every quantity served by a shot is computed from the current decision vector, and each is integrated at most once per decision vector.", "quantifier": "every interleaving of updates and requests", "why_tests_cant": "History property.", "anchors": ["ct_optcon/include/ct/optcon/dms/dms_core/ShotContainer.h", "ct_optcon/include/ct/optcon/dms/dms_core/DmsProblem.h:updateProblem", "ct_optcon/include/ct/optcon/nlp/OptVector.h"]}
{"id": "C45", "title": "Integrated sensitivities are the exact derivatives of the integrated states", "statement": "The sensitivities integrated along a shot with the native Euler/RK4 stepper equal the exact derivative of the discrete integration map with respect to the initial state and to the control parameters, and the integrated cost gradients that of the integrated cost (for dynamics and costs whose derivatives are supplied exactly); the same holds for the discrete-time A and B of the sensitivity integrator.", "quantifier": "every system, number of steps, step size, initial state", "why_tests_cant": "Identity over arbitrary step counts and dynamics.", "anchors": ["ct_optcon/include/ct/optcon/dms/dms_core/ShotContainer.h", "ct_optcon/include/ct/optcon/dms/dms_core/SensitivityIntegratorCT.h", "ct_core/include/ct/core/integration/sensitivity/SensitivityIntegrator.h"]}
{"id": "C46", "title": "Cloned cost functions and terms evaluate like the original", "statement": "A clone of a cost function or cost term returns the same values and derivatives as the original for the same state, control and time.", "quantifier": "every cost function built by any sequence of calls, every point", "why_tests_cant": "Quantifies over construction histories.", "anchors": ["ct_optcon/include/ct/optcon/costfunction/CostFunctionQuadraticSimple-impl.hpp", "ct_optcon/include/ct/optcon/costfunction/term/TermStateBarrier-impl.hpp", "ct_optcon/include/ct/optcon/costfunction/term/TermBase-impl.hpp"]}
{"id": "C47", "title": "Numerical cost derivatives leave the cost function unchanged", "statement": "Computing a numerical state/control derivative of a cost function returns derivatives at the current point and time and leaves the current point and time unchanged.", "quantifier": "every cost, state, time, time shift", "why_tests_cant": "Requires non-zero time shift and a subsequent evaluation.", "anchors": ["ct_optcon/include/ct/optcon/costfunction/CostFunctionQuadratic-impl.hpp:stateDerivativeIntermediateNumDiff", "ct_optcon/include/ct/optcon/costfunction/CostFunction-impl.hpp"]}
{"id": "C48", "title": "Symplectic integration preserves phase-space volume", "statement": "One semi-implicit Euler step of the symplectic integrator applied to a separable mechanical system updates the positions with the old velocities and then the velocities with the new positions; its sensitivity matrix is the derivative of that update, has determinant one, and for a separable Hamiltonian system preserves the symplectic form.", "quantifier": "every dimension, every separable linear system, every step", "why_tests_cant": "Universal algebraic identity.", "anchors": ["ct_core/include/ct/core/integration/IntegratorSymplectic-impl.h", "ct_core/include/ct/core/systems/continuous_time/SymplecticSystem.h", "ct_core/include/ct/core/integration/sensitivity/SensitivityApproximation.h"]}
{"id": "C49", "title": "Discretised path constraints: every constraint evaluation is complete and in bounds", "statement": "For every combination of box and general constraints and every number of shots, values, bounds, sparsity and Jacobian of the discretised path constraints have the reported sizes and all writes stay inside the allocated arrays.", "quantifier": "every number of shots, constraint counts and non-zero counts", "why_tests_cant": "Universal over sizes.", "anchors": ["ct_optcon/include/ct/optcon/dms/constraints/ConstraintDiscretizer.h"]}
{"id": "C50", "title": "Quadrature weights of the simple shooting cost", "statement": "The cost weights of the simple DMS cost evaluator are non-negative, sum to the horizon, and integrate constant (ZOH) respectively piecewise linear stage costs exactly.", "quantifier": "every grid with N shots, both spline types", "why_tests_cant": "Universal over grids.", "anchors": ["ct_optcon/include/ct/optcon/dms/dms_core/cost_evaluator/CostEvaluatorSimple.h"]}
{"id": "C51", "title": "Mechanical second-order system", "statement": "A second-order system constructed from stiffness k, mass m and damping d has acceleration (g_dc*k*u - d*v - k*p)/m for every state and input.", "quantifier": "every k,m>0, d, gain, state and input", "why_tests_cant": "Universal over parameters; tests use one parameter set.", "anchors": ["ct_core/include/ct/core/systems/continuous_time/SecondOrderSystem.h"]}
{"id": "C52", "title": "Changing the initial state of a shooting problem changes the initial-state constraint", "statement": "After changing the initial state of a direct-multiple-shooting problem, exactly the decision vectors whose first node equals the new initial state satisfy the initial-state constraint.", "quantifier": "every old and new initial state", "why_tests_cant": "Requires a sequence of calls (receding horizon use).", "anchors": ["ct_optcon/include/ct/optcon/dms/dms_core/DmsProblem.h:changeInitialState", "ct_optcon/include/ct/optcon/dms/constraints/InitStateConstraint.h"]}
{"id": "C53", "title": "Discrete algebraic Riccati solver", "statement": "When the discrete-time algebraic Riccati solver returns, the returned matrix is the image under the Riccati map (input weight regularised by 1e-5) of an iterate it differs from by less than the requested tolerance in every entry, it is symmetric positive semidefinite, and the returned gain is the optimal feedback for that iterate; if no such matrix is reached in the iteration limit it throws.", "quantifier": "every system, weights, tolerance, start matrix and iteration limit", "why_tests_cant": "Quantifies over all systems and all numbers of iterations.", "anchors": ["ct_optcon/include/ct/optcon/lqr/riccati/DARE-impl.hpp", "ct_optcon/include/ct/optcon/lqr/riccati/DynamicRiccatiEquation.hpp"]}
{"id": "C54", "title": "Continuous algebraic Riccati solver and LQR gain", "statement": "When the iterative continuous-time algebraic Riccati solver reports success with an exactly converged sign iteration and a full-rank linear system, the returned matrix is symmetric and satisfies A'P + PA - P B R^-1 B' P + Q = 0, and the LQR gain is R^-1 B' P; the diagonal-R shortcut gives the same answer for diagonal R.", "quantifier": "every dimension, system and symmetric weights, every iteration limit", "why_tests_cant": "The equation must hold for all systems; tests compare two solvers on random systems.", "anchors": ["ct_optcon/include/ct/optcon/lqr/riccati/CARE-impl.hpp", "ct_optcon/include/ct/optcon/lqr/LQR-impl.hpp"]}
{"id": "C55", "title": "Unscented filter equals the Kalman filter on affine systems", "statement": "On a system with affine dynamics and affine measurements, a predict/update cycle of the unscented filter yields the error covariance of its own estimate and the gain that minimises it.", "quantifier": "every affine system, noise covariance, tuning and measurement", "why_tests_cant": "Equality for all affine systems.", "anchors": ["ct_optcon/include/ct/optcon/filter/UnscentedKalmanFilter-impl.h"]}
{"id": "C56", "title": "Filters use the measurement model at the time they are given", "statement": "The correction step of a filter depends on the measurement model only through its values at the time passed to the call.", "quantifier": "every time-varying measurement model and time", "why_tests_cant": "Shipped models are time invariant, so tests cannot see it.", "anchors": ["ct_optcon/include/ct/optcon/filter/ExtendedKalmanFilter-impl.h:update", "ct_optcon/include/ct/optcon/filter/UnscentedKalmanFilter-impl.h:update"]}
{"id": "C57", "title": "isControllable answers the reachability question", "statement": "For a discrete LTI system isControllable() returns true if and only if every state can be reached from the origin by some finite input sequence, whatever its length; in particular a negative answer is never an artefact of only looking STATE_DIM steps ahead.", "quantifier": "every state and input dimension, every pair (A,B), input sequences of every length", "why_tests_cant": "Reachability quantifies over all input sequences of all lengths.", "anchors": ["ct_core/include/ct/core/systems/discrete_time/linear/DiscreteLTISystem.h: isControllable", "ct_core/include/ct/core/systems/continuous_time/linear/LTISystem.h: isControllable"]}
{"id": "C58", "title": "Gramians are partial sums of the defining series", "statement": "computeControllabilityGramian and computeObservabilityGramian return the sum of the first K terms of the Gramian series for some K not above max_iters, and stop before max_iters only when the last added term is below the tolerance; the quadratic form of the observability Gramian at x0 is the energy of the first K outputs of the free response from x0.", "quantifier": "every dimension, every system, every iteration limit and tolerance", "why_tests_cant": "Holds for all systems and all iteration counts.", "anchors": ["ct_core/include/ct/core/systems/discrete_time/linear/DiscreteLTISystem.h: computeControllabilityGramian, computeObservabilityGramian"]}
{"id": "C59", "title": "Reference updates of a cost function take effect", "statement": "After updateReferenceState / updateFinalState / updateReferenceControl, every cost term that has such a reference evaluates against the new one, no other part of the cost changes, and the last update wins.", "quantifier": "every term class, cost function, reference and history of updates", "why_tests_cant": "Quantifies over all term classes, update histories and points.", "anchors": ["ct_optcon/include/ct/optcon/costfunction/CostFunctionQuadratic-impl.hpp: updateReferenceState, updateFinalState, updateReferenceControl", "ct_optcon/include/ct/optcon/costfunction/term/TermBase-impl.hpp: updateReferenceState, updateReferenceControl", "ct_optcon/include/ct/optcon/costfunction/CostFunctionQuadraticSimple-impl.hpp: updateReferenceState, updateFinalState"]}
{"id": "C60", "title": "Gradient of the simple shooting cost", "statement": "The gradient reported by the simple (quadrature) shooting cost evaluator is, entry by entry of the decision vector, the partial derivative of the cost value it reports for the same decision vector.", "quantifier": "for all numbers of shots, state and control dimensions, weights, decision vectors and differentiable cost functions", "why_tests_cant": "a finite-difference test checks one point to a tolerance", "anchors": ["ct_optcon/include/ct/optcon/dms/dms_core/cost_evaluator/CostEvaluatorSimple.h: eval, evalGradient"]}
{"id": "C61", "title": "Constraint Jacobians are derivatives of the constraint values", "statement": "For every constraint container, history and point, the dense state and input Jacobians the container returns are the partial derivatives of the constraint values it returns with respect to the state and the input; in particular the built-in box, terminal and ellipsoidal obstacle constraints have exact analytical Jacobians.", "quantifier": "all constraint lists, histories of additions/initialisations/visits, states, inputs, times and matrix entries", "why_tests_cant": "derivatives are limits over a continuum of points; tests compare with finite differences at a few points", "anchors": ["ct_optcon/include/ct/optcon/constraint/ConstraintContainerAnalytical-impl.h:jacobianStateIntermediate", "ct_optcon/include/ct/optcon/constraint/term/ObstacleConstraint-impl.h:jacobianState", "ct_core/include/ct/core/geometry/Ellipsoid.h:insideEllipsoid", "ct_optcon/include/ct/optcon/constraint/term/TerminalConstraint-impl.h"]}
{"id": "C62", "title": "The reported constraint error of a trajectory is the accumulated distance from the bounds", "statement": "For every trajectory, constraint set and step, the box and general constraint errors reported by the nonlinear optimal control solver equal the step times the sum over the stages of the distances of all constraint values from their bounds, plus the distance of the terminal constraints at the last state; hence they are never negative and are zero exactly when every constraint holds at every stage.", "quantifier": "every trajectory length, state and input sequence, constraint list with ordered bounds and positive step", "why_tests_cant": "Tests look at a few trajectories; the claim is about every trajectory and every list of constraints, including empty ones.", "anchors": ["ct_optcon/include/ct/optcon/nloc/NLOCBackendBase-impl.hpp: computeBoxConstraintErrorOfTrajectory, computeGeneralConstraintErrorOfTrajectory", "ct_optcon/include/ct/optcon/constraint/ConstraintContainerBase-impl.h"]}
{"id": "C63", "title": "Point-to-point motions respect the limits and are as fast as possible", "statement": "Whatever the generator was set up for before, after setup(x0, xT, v, a) with positive limits the queried position and velocity are a motion from rest at x0 to rest at xT that takes exactly the returned time, has the velocity as derivative of the position, never exceeds the velocity or acceleration limit, never reverses and holds the target afterwards; no motion within the limits is faster; negative times are rejected.", "quantifier": "all start and target positions, positive limits, query times and earlier uses of the generator; for optimality all competing motions", "why_tests_cant": "Quantifies over a continuum of times and over all competing motions.", "anchors": ["ct_rbd/include/ct/rbd/common/SingleDOFTrajectoryGenerator.h: setup, queryTrajectory"]}
{"id": "C64", "title": "Arm trajectories follow each joint's motion and end when the last joint arrives", "statement": "generateTrajectory samples, on a uniform grid from time zero, the point-to-point motion of every joint within its own limits, holds a joint that has arrived, and ends when the last joint has arrived at its target.", "quantifier": "every number of joints, joint positions, positive limits, sampling time and earlier use", "why_tests_cant": "Quantifies over all joint counts, limits and sampling times, including those that do not divide the duration.", "anchors": ["ct_rbd/include/ct/rbd/common/SimpleArmTrajectoryGenerator.h: generateTrajectory"]}
{"id": "C65", "title": "Joint positions are normalised to their range and limits are checked exactly", "statement": "toUniquePosition changes every joint position by full turns only, brings it into [lower, lower + 2 pi) up to the tolerance, leaves positions that are already there and all velocities unchanged; checkPositionLimits and checkVelocityLimits return true exactly when every joint is within its limits up to the tolerance; a normalised state passes the check.", "quantifier": "every number of joints, state, limits and tolerance", "why_tests_cant": "Ranges over a continuum of positions, including the ends of the ranges and positions many turns away.", "anchors": ["ct_rbd/include/ct/rbd/state/JointState.h: toUniquePosition, checkPositionLimits, checkVelocityLimits"]}
{"id": "C66", "title": "Robot states survive the conversion to state vectors and back", "statement": "Writing a robot state to a state vector and reading it back (and vice versa) gives the same pose, base velocities, joint and actuator states, for quaternion and Euler angle vectors, floating and fixed bases and the symplectic layout, whatever the receiving state held before; if the orientation is stored in the other representation the rotation is the same.", "quantifier": "every number of joints and actuators, every state and vector, every previous content of the receiving state", "why_tests_cant": "Index layouts must be right for every number of joints and actuators.", "anchors": ["ct_rbd/include/ct/rbd/state/RBDState.h", "ct_rbd/include/ct/rbd/state/FloatingBaseRobotState.h", "ct_rbd/include/ct/rbd/state/FixBaseRobotState.h", "ct_rbd/include/ct/rbd/state/RigidBodyPose.h", "ct_rbd/include/ct/rbd/systems/FixBaseFDSystemSymplectic.h: RBDStateFromVector, toFullState"]}
{"id": "C67", "title": "The contact model computes the documented spring-damper force and never adds energy", "statement": "The force on every end-effector is the documented one: the normal spring (linear below the plane, or exponential if normal smoothing is on) plus the damper weighted by the chosen smoothing; it is zero away from the plane without smoothing and zero at end-effectors that are switched off; smoothing weights lie between 0 and 1 and fall with the height; the spring derives from a non-negative potential and the damper only dissipates, so contact never adds energy.", "quantifier": "every number of end-effectors, activation map, parameters, plane offset, position and velocity", "why_tests_cant": "Ranges over a continuum of positions, velocities and parameters; the energy claim is about all motions.", "anchors": ["ct_rbd/include/ct/rbd/physics/EEContactModel.h"]}
{"id": "C68", "title": "The rigid body lineariser returns the exact kinematic part and input part of the Jacobians", "statement": "For every floating-base system the upper half of the state derivative (Euler angle rates, base velocity in world coordinates, joint velocities) is the exact derivative, whatever numerical method is chosen for the rest; the input derivative is the exact derivative of accelerations that obey M a + h = S^T u; the default selection matrices apply every torque to its own joint and none to the base.", "quantifier": "every number of joints, state away from the singularity of the Euler angles, input, inertia matrix and bias", "why_tests_cant": "Generated trigonometric expressions must be derivatives at every state.", "anchors": ["ct_rbd/include/ct/rbd/systems/linear/RbdLinearizer.h"]}
{"id": "C69", "title": "Jacobians and their rates describe every motion of the robot", "statement": "The origin velocity of an end-effector or frame is its Jacobian times the generalized velocity, angular velocity included, along every motion; the reported Jacobian rate is the time derivative of the Jacobian; the contact constraint Jacobian stacks exactly the feet in contact, and its rate makes the constraint acceleration the acceleration of the contact points.", "quantifier": "every serial robot (joint count, kind and geometry), every differentiable motion, every set of contacts and every number of feet", "why_tests_cant": "Ranges over a continuum of motions and all robots; index mistakes only show for certain contact configurations.", "anchors": ["ct_rbd/include/ct/rbd/robot/jacobian/FrameJacobian.h", "ct_rbd/include/ct/rbd/robot/jacobian/ConstraintJacobian.h"]}
{"id": "C70", "title": "Operational Jacobians: inverse, null space projector and rates", "statement": "Whatever sequence of updates and questions, the answers are those for the current state and weighting; the projector is idempotent, maps into and fixes the null space of the Jacobian, and removes the weighted constraint forces, for rank deficient Jacobians too; the reported rates of inverse and projector are their time derivatives.", "quantifier": "every history of updates and questions, every Jacobian (rank deficient included), symmetric positive definite weighting and differentiable motion", "why_tests_cant": "A cache can only be checked over all histories; the algebra ranges over all matrices and the rates over all motions.", "anchors": ["ct_rbd/include/ct/rbd/robot/jacobian/OperationalJacobianBase.h", "ct_rbd/include/ct/rbd/robot/jacobian/OperationalJacobian.h"]}
{"id": "C71", "title": "Projected dynamics: contact-consistent forward and inverse dynamics", "statement": "Whatever sequence of contact changes and calls came before, forward dynamics with contacts returns the only acceleration that satisfies the equations of motion and leaves the feet in contact at rest, the reported contact forces are the ones of that motion and are zero for feet in the air; inverse dynamics returns torques that reproduce an achievable acceleration, with and without gravity; forward dynamics of those torques gives the acceleration back.", "quantifier": "every history of contact configurations and calls, every number of joints and feet, every symmetric positive definite inertia and every independent set of contacts", "why_tests_cant": "Ranges over all histories of contact changes and all robots; a stale constraint size or a wrong offset only shows for certain contact patterns.", "anchors": ["ct_rbd/include/ct/rbd/robot/ProjectedDynamics.h", "ct_rbd/include/ct/rbd/robot/Dynamics.h"]}
{"id": "C72", "title": "Robot systems are the equations of motion with actuators and external forces", "statement": "The time derivative of the state of a robot system is: positions change with the velocities, accelerations are those of the forward dynamics under the joint torques and all end-effector forces, actuator states follow the actuator dynamics driven by the commanded control while the joints get the actuators' output; the symplectic system is the same system with a permuted state; contact forces and force inputs add up; the kinematic systems are integrators; copies behave like the original.", "quantifier": "every number of joints, links, end-effectors and actuator states, every state, control, robot and previous content of the result", "why_tests_cant": "Index layouts must be right for every number of joints and actuators, and no force may get lost for any assignment of end-effectors to links.", "anchors": ["ct_rbd/include/ct/rbd/systems/FixBaseFDSystem.h", "ct_rbd/include/ct/rbd/systems/FixBaseFDSystemSymplectic.h", "ct_rbd/include/ct/rbd/systems/FloatingBaseFDSystem.h", "ct_rbd/include/ct/rbd/systems/FixBaseAccSystem.h", "ct_rbd/include/ct/rbd/systems/FixBaseVelSystem.h", "ct_rbd/include/ct/rbd/systems/FixBaseSystemBase.h"]}
{"id": "C73", "title": "Actuators follow their documented dynamics and can be initialised to any output", "statement": "Every joint of the second order actuators is driven by its own oscillator; the torque of a series elastic actuator changes with the spring constant times the difference of gear and joint velocity; the state computed for a desired output gives that output; actuators constructed for unit amplification rest at the commanded output.", "quantifier": "every number of joints, parameters, state, command, joint motion and previous content of the result", "why_tests_cant": "Ranges over a continuum of states and parameters; the series elastic claim is about all motions.", "anchors": ["ct_rbd/include/ct/rbd/robot/actuator/SEADynamicsFirstOrder-impl.h", "ct_rbd/include/ct/rbd/robot/actuator/SecondOrderActuatorDynamics-impl.h", "ct_rbd/include/ct/rbd/robot/actuator/ActuatorDynamics.h"]}
{"id": "C74", "title": "Joint position control: one PID controller per joint, and the actuated coordinates", "statement": "After any sequence of calls, the control of a joint is what a single PID controller with that joint's parameters and set-point returns for that joint's measurements and settings: joints do not influence each other; the whole body controller uses exactly the joint part of the state vector; changing the gains changes only the gains; controllers can be cloned; the selection matrix picks the actuated coordinates and its transpose leaves the base without control.", "quantifier": "every number of joints, every history of calls, every parameter set, any scalar arithmetic (floating point included), every state vector", "why_tests_cant": "Histories and joint counts are unbounded; an index slip between joints shows only for particular histories.", "anchors": ["ct_rbd/include/ct/rbd/robot/control/JointPositionPIDController-impl.h", "ct_rbd/include/ct/rbd/robot/control/WholeBodyController-impl.h", "ct_rbd/include/ct/rbd/robot/control/SelectionMatrix-impl.h"]}
{"id": "C75", "title": "Frames, end-effector kinematics and force mappings are consistent", "statement": "Rotating between base and inertia frame is a proper rotation and its inverse in both representations; a pose in a reference frame composed with that frame is the pose; the end-effector pose in the world is the composition of base pose and pose in the base; the end-effector velocity in the world is the time derivative of its position along every motion; a force mapped from the world or the end-effector to a link has the same power along every motion; setting an end-effector takes effect.", "quantifier": "every pose in either representation, robot, joint state, motion, force and twist", "why_tests_cant": "Ranges over a continuum of rotations and over all differentiable motions.", "anchors": ["ct_rbd/include/ct/rbd/robot/Kinematics.h", "ct_rbd/include/ct/rbd/state/RigidBodyPose.h", "ct_rbd/include/ct/rbd/state/RBDAcceleration.h"]}
{"id": "C76", "title": "Inverse dynamics controllers: equilibrium, feedback law and dissipation", "statement": "The floating base inverse dynamics controller asks for the gains set last times the attitude error seen from the base, the position error and the velocity error (nothing at the desired state), with or without gravity compensation as requested, and along every motion that follows its command the weighted position error plus kinetic energy of the base never grows; the linear quadratic controller with inverse dynamics returns, after every history, the torques of the last set-point minus the last gain times the deviation; a set-point at rest is an equilibrium of the closed loop, whose linearisation there is A - B K with the matrices given to the Riccati solver; a failed design leaves the controller in use.", "quantifier": "every motion of the base, all gains, every history of designs, system changes and copies, every robot whose forward dynamics inverts its inverse dynamics", "why_tests_cant": "Closed loop statements range over continuous motions and all robots; histories are unbounded.", "anchors": ["ct_rbd/include/ct/rbd/robot/control/IDControllerFB.h", "ct_rbd/include/ct/rbd/robot/control/InfiniteHorizonLQRwithInverseDynamics.h"]}
{"id": "C77", "title": "Switched systems follow their schedule and are cloned independently", "statement": "At every time - before, inside and after the schedule - a switched system has the dynamics (and, for the linear classes, the matrices) of the one subsystem scheduled for that time, evaluated at the same state, time and control; computeDynamics applies the control of the controller, zero without one, and getLastControlAction returns it; a clone is an independent copy: however calls on the two are interleaved, each gets the results the original alone would have given.", "quantifier": "every schedule with positive durations, every time, state and control, all subsystems and controllers (with internal state), every interleaving of calls on original and clone", "why_tests_cant": "Schedules, times and interleavings are unbounded; subsystems and controllers are user code.", "anchors": ["ct_core/include/ct/core/systems/continuous_time/SwitchedControlledSystem.h", "ct_core/include/ct/core/systems/continuous_time/ControlledSystem.h", "ct_core/include/ct/core/systems/continuous_time/linear/SwitchedLinearSystem.h", "ct_core/include/ct/core/systems/discrete_time/SwitchedDiscreteControlledSystem.h", "ct_core/include/ct/core/systems/discrete_time/DiscreteControlledSystem.h", "ct_core/include/ct/core/systems/discrete_time/linear/SwitchedDiscreteLinearSystem.h", "ct_core/include/ct/core/systems/discrete_time/linear/DiscreteLinearSystem.h"]}
{"id": "C78", "title": "Switched constraints evaluate the container of the current phase", "statement": "After any history of setCurrentStateAndControl, the intermediate values and bounds of a switched constraint container are those of the container scheduled for the current time at the current state, control and time; terminal values are those of the container of the last phase at the current state from the start of that phase on; initialize() succeeds exactly when every container does; a clone gives the values of the original from its next update on and does not influence it.", "quantifier": "every schedule, every history of updates, all containers that remember the last state", "why_tests_cant": "Histories, schedules and containers are arbitrary.", "anchors": ["ct_optcon/include/ct/optcon/constraint/SwitchedLinearConstraintContainer-impl.h", "ct_optcon/include/ct/optcon/constraint/ConstraintContainerBase-impl.h", "ct_optcon/include/ct/optcon/constraint/LinearConstraintContainer-impl.h"]}
{"id": "C79", "title": "Discretizing a continuous-time system propagates the requested system with the requested method", "statement": "After any sequence of parameter changes, integration type changes, system changes and propagations, propagating a state over stage n with a constant control performs exactly K steps of size dt/K of the selected method from time n*dt on the system set last, with the parameters set last; consecutive stages concatenate to one integration with step dt/K; the recorded substates are the states at which the dynamics were evaluated during this propagation and every recorded control is the one applied; unsupported symplectic requests throw; a copy behaves like the original.", "quantifier": "all systems, states, controls, step sizes, substep counts and call histories", "why_tests_cant": "the result depends on the whole call history of a stateful object and on arbitrary dynamics", "anchors": ["ct_core/include/ct/core/systems/discrete_time/SystemDiscretizer-impl.h: SystemDiscretizer::propagateControlledDynamics, setParameters, setIntegrationType, changeContinuousTimeSystem, initialize", "ct_core/include/ct/core/integration/EventHandlers/SubstepRecorder.h: SubstepRecorder", "ct_core/include/ct/core/integration/IntegratorSymplectic-impl.h: integrate_n_steps"]}
{"id": "C80", "title": "All threads of the solver's system interface use the system and settings given last", "statement": "After any sequence of changed nonlinear or linear systems, new settings and propagations on arbitrary threads, propagating on any thread gives the result for the settings and system given last, independent of the thread; recorded substeps belong to that thread's last propagation and other threads' records are untouched; null systems and changed thread numbers or integrators are refused and nothing else is; sensitivities use the kind and time step that the settings ask for.", "quantifier": "all systems, settings, numbers of threads and call histories", "why_tests_cant": "a thread-specific stale copy only shows in particular histories and on particular threads", "anchors": ["ct_optcon/include/ct/optcon/system_interface/OptconContinuousSystemInterface-impl.h: changeNonlinearSystem, changeLinearSystem, initialize, configure, propagateControlledDynamics, getSubstates, getSubcontrols"]}
{"id": "C81", "title": "The Hessian of the Lagrangian handed to the NLP solver is complete and correct", "statement": "For every nonlinear program, the number of announced Hessian nonzeros, the announced positions and the values written at those positions agree: positions are sorted, without repetition and within the lower triangle; the value at each position is the objective factor times the objective's second derivative plus the sum over constraint terms of the multiplier weighted second derivatives; no entry outside the announced positions is nonzero; nothing is read outside the buffers.", "quantifier": "all programs, sets of constraint terms, multipliers and points", "why_tests_cant": "pattern and values are assembled separately from arbitrary constraint terms; a mismatch shifts values silently", "anchors": ["ct_optcon/include/ct/optcon/nlp/Nlp.h: getNonZeroHessianCount, getSparsityPatternHessian, evaluateHessian", "ct_optcon/include/ct/optcon/nlp/DiscreteConstraintContainerBase.h: getSparsityPatternHessian, sparseHessianValues, getNonZerosHessianCount", "ct_rbd/include/ct/rbd/robot/kinematics/ik_nlp/IKCostEvaluator.h: sparseHessianValues", "ct_rbd/include/ct/rbd/robot/kinematics/ik_nlp/JointLimitConstraints.h: genSparsityPatternHessian"]}
{"id": "C82", "title": "The inverse kinematics cost measures the pose error, and its gradient and Hessian belong to it", "statement": "The cost is half the weighted square of the position error plus half the weighted square of the rotation vector that turns the target orientation into that of the end-effector; with positive definite weights it vanishes exactly at the target pose; the target read back is the target given (as quaternion of any length or Euler angles); the gradient handed to the solver is the derivative of the cost along every joint motion; the Hessian handed out is symmetric, positive semidefinite and, at the target, the derivative of the gradient; after every history of calls value and derivatives are those of the last target and variables.", "quantifier": "all robots whose Jacobian belongs to their kinematics, all joint positions and motions, weights, targets and call histories", "why_tests_cant": "gradients must hold for every configuration and motion; a wrong gradient for some weights only slows or misleads the solver", "anchors": ["ct_rbd/include/ct/rbd/robot/costfunction/TermTaskspaceGeometricJacobian.hpp: evaluate, stateDerivative, stateSecondDerivative, setReferenceOrientation", "ct_rbd/include/ct/rbd/robot/kinematics/ik_nlp/IKCostEvaluator.h: eval, evalGradient, sparseHessianValues, setTargetPose"]}
{"id": "C83", "title": "The quadratic program handed to HPIPM is the linear quadratic problem that was set", "statement": "After any sequence of problems given to the HPIPM interface, of any horizons, objects and constraint counts, and of changes made to them in between, the program handed to HPIPM by the last setProblem has the horizon, the dimensions, the dynamics, the cost and the general constraints of that problem, and the number of box constraints at each stage; if the counts of box constraints changed, or the problem is on the same object with the same horizon and the same absent bounds, the bounds are those of the problem too; the feedback matrix computed for the first stage gives, for every state, the one input of least cost.", "quantifier": "all histories of problems, horizons, constraint counts, bounds (finite or infinite) and objects; all dimensions and all matrices", "why_tests_cant": "which memory the solver reads depends on the whole history of calls: a test sets one problem, or the same one again", "anchors": ["ct_optcon/include/ct/optcon/solver/lqp/HPIPMInterface-impl.hpp: setProblemImpl, configureInputBoxConstraints, configureStateBoxConstraints, configureGeneralConstraints, setupCostAndDynamics, changeProblemSize, createConstraintsMasks, computeFeedbackMatrices", "ct_optcon/include/ct/optcon/solver/lqp/LQOCSolver.hpp: setProblem", "ct_optcon/include/ct/optcon/problem/LQOCProblem-impl.hpp: changeNumStages"]}
{"id": "C84", "title": "The quadrotor model obeys the Newton-Euler equations and its analytic Jacobians are its derivatives", "statement": "For every mass and moments of inertia and every motion that follows the quadrotor's dynamics away from the singularity of its Euler angles, the centre and the orientation satisfy the Newton-Euler equations of a rigid body under the thrust, the moments and gravity; along every differentiable change of state and input the derivative of the dynamics is A times the rate of the state plus B times the rate of the input.", "quantifier": "all parameters, all states away from the singularity and all motions and inputs", "why_tests_cant": "the equations are long generated expressions: a test compares them at a few states, and an error in one term shows only where that term is not zero", "anchors": ["ct_models/src/Quadrotor/quadrotor_ode.cpp: quadrotor_ode", "ct_models/src/Quadrotor/A_quadrotor.cpp: A_quadrotor", "ct_models/src/Quadrotor/B_quadrotor.cpp: B_quadrotor", "ct_models/src/Quadrotor/C_quadrotor.cpp: C_quadrotor", "ct_models/include/ct/models/Quadrotor/Quadrotor.hpp: computeControlledDynamics", "ct_models/include/ct/models/Quadrotor/QuadrotorLinear.hpp: getDerivativeState, getDerivativeControl"]}
{"id": "C85", "title": "Planes are solved and estimated correctly", "statement": "solveX, solveY and solveZ give the one coordinate that puts a point on the plane; the estimator throws for fewer than three points and else returns the plane whose equation has the least sum of squared errors; if the points lie in one plane and not on a line it returns that plane.", "quantifier": "all planes and points; all numbers and positions of points", "why_tests_cant": "least squares and the degenerate positions range over all point sets", "anchors": ["ct_core/include/ct/core/geometry/Plane.h: getCoefficient, solveX, solveY, solveZ", "ct_core/include/ct/core/geometry/PlaneEstimator.h: estimate"]}
{"id": "C86", "title": "A filter's process model predicts with the input it is given, and its derivative belongs to its prediction", "statement": "After any history of predictions, a prediction is one step of the chosen integrator with the given input held constant, independent of earlier inputs and of the controller the system had; the derivative returned for a state, input and time is the derivative of that prediction; for a system with input disturbances the disturbance stays constant over any number of steps and acts as an addition to the input, and copies behave like the original.", "quantifier": "all systems, states, inputs, times and histories of process models and calls", "why_tests_cant": "controllers are shared objects: what a prediction uses depends on every object created on the same system before", "anchors": ["ct_optcon/include/ct/optcon/filter/CTSystemModel-impl.h: CTSystemModel, computeDynamics, computeDerivativeState", "ct_optcon/include/ct/optcon/filter/InputDisturbedSystem-impl.h: computeControlledDynamics, clone", "ct_optcon/include/ct/optcon/filter/DisturbedSystem-impl.h: setController", "ct_optcon/include/ct/optcon/filter/DisturbedSystemController-impl.h: computeControl, setNominalController, clone", "ct_core/include/ct/core/control/continuous_time/ConstantController-impl.h: setControl, computeControl"]}
{"id": "C87", "title": "Settings are what the settings file says", "statement": "After loading settings from a file, every member has the value the file gives for its key in the given block, and members whose optional key is missing keep the value they had; loading throws exactly when something required is missing or illegible; names of enumerations select the enumerator of that name; matrices are read back entry by entry, times the scaling factor; the checks of the settings accept exactly the values in their documented ranges.", "quantifier": "all files (any nodes in any order), all namespaces, all previous settings, all readings of decimal numbers; for the checks all binary64 values", "why_tests_cant": "a test loads one file; which keys are read, in which order and what a missing or misspelt one does to the others depends on the whole file", "anchors": ["ct_optcon/include/ct/optcon/solver/NLOptConSettings.hpp: load, fromConfigFile, parametersOk", "ct_optcon/include/ct/optcon/mpc/MpcSettings.h: loadMpcSettings", "ct_optcon/include/ct/optcon/dms/dms_core/DmsSettings.h: load, parametersOk", "ct_optcon/include/ct/optcon/nlp/solver/NlpSolverSettings.h: load", "ct_optcon/include/ct/optcon/filter/FilterSettings.h: load", "ct_core/include/ct/core/common/InfoFileParser.h: loadMatrix, loadScalar", "ct_core/include/ct/core/math/DerivativesCppadSettings.h: load"]}
{"id": "C88", "title": "The integrated shooting cost and its gradient belong together", "statement": "With the full cost evaluation, the cost reported for a decision vector is the sum over the shots of the running cost integrated along with the dynamics under the splined control, plus the terminal cost of the last state; and each segment of the reported gradient is the derivative of that cost with respect to the state or control the segment belongs to, including the controls that act in two neighbouring shots. No cached evaluation is read out of bounds.", "quantifier": "all decision vectors, numbers of shots, numbers of steps per shot, step sizes, time grids, both steppers, both splines, all systems and costs with exact derivatives in any normed spaces", "why_tests_cant": "a test compares with finite differences at a few points to a tolerance; an omitted contribution of a neighbouring shot vanishes at points where that derivative is small", "anchors": ["ct_optcon/include/ct/optcon/dms/dms_core/cost_evaluator/CostEvaluatorFull.h: eval, evalGradient", "ct_optcon/include/ct/optcon/dms/dms_core/ShotContainer.h: integrateCost, integrateCostSensitivities", "ct_optcon/include/ct/optcon/dms/dms_core/ControllerDms.h: computeControl, getDerivativeU0, getDerivativeUf"]}
{"id": "C89", "title": "The shooting solver solves the problem it was given", "statement": "A direct multiple shooting solver constructed from an optimal control problem and settings hands the nonlinear program exactly that problem: one shot per interval of the horizon, each with the given dynamics, the given linearisation (or the one derived from the dynamics), the given cost, the selected stepper, the start time of its interval and the number of steps nearest to its length; the initial state and the given constraints in order. Problems with missing parts and unsupported settings are refused. Later replacements of horizon, initial state, dynamics, cost, constraints, settings or of the whole problem show in what is solved next.", "quantifier": "all problems and settings, all sequences of later change, configure and setProblem calls", "why_tests_cant": "a test sees that one solver converges; that a replaced part is silently ignored, or that the shots still integrate over the previous horizon, needs every history of calls", "anchors": ["ct_optcon/include/ct/optcon/dms/dms_core/DmsSolver.h: DmsSolver, configure, solve, changeTimeHorizon, changeInitialState, changeCostFunction, changeNonlinearSystem, changeLinearSystem", "ct_optcon/include/ct/optcon/dms/dms_core/DmsProblem.h: DmsProblem, configure, changeTimeHorizon, changeInitialState", "ct_optcon/include/ct/optcon/dms/dms_core/ShotContainer.h: ShotContainer", "ct_optcon/include/ct/optcon/solver/OptConSolver.h: setProblem", "ct_optcon/include/ct/optcon/problem/OptConProblemBase-impl.h: verify, setNonlinearSystem"]}
{"id": "C90", "title": "The spatial algebra under the generated dynamics computes what it is named after", "statement": "The spatial cross product matrices act as the motion and force cross products and are dual to each other; the velocity product force of a body is v x* (I v) and does no work, also in the overload for a rotation about z; an inertia expressed in other coordinates equals XF I XF^T for every rotation and displacement; articulated inertias moved across a revolute or prismatic joint equal X^T Ia X, and taking the joint out of an articulated inertia leaves the inertia felt for motions without joint force; an inertia object after any sequence of fill, changeMass, changeCOM, changeRotationalInertia, assignment and += is the inertia of the body those calls describe, and stays positive semidefinite under changes of mass, centre of mass, assignment and addition; the rotation built from three angles is a rotation and the product of the three elementary ones.", "quantifier": "all masses, centres of mass, tensors, velocities, rotations and displacements; all sequences of changes; all previous contents of output matrices", "why_tests_cant": "A test evaluates a few inertias; a formula with one wrong entry agrees whenever that entry happens to vanish, as it does for bodies symmetric about the joint axis.", "anchors": ["ct_rbd/include/ct/iit/rbd/InertiaMatrix.h: InertiaMatrixDense", "ct_rbd/include/ct/iit/rbd/robcogen_commons.h: vxIv, motionCrossProductMx, forceCrossProductMx, transformInertia, ctransform_Ia_revolute, ctransform_Ia_prismatic, compute_Ia_revolute, compute_Ia_prismatic", "ct_rbd/include/ct/iit/rbd/internals.h: rot_symmetric_EAET, rot_EAET", "ct_rbd/include/ct/iit/rbd/utils.h: Utils"]}
{"id": "C91", "title": "The generated forward and inverse dynamics of an arm obey Newton and Euler and undo each other", "statement": "For every serial arm with revolute joints on a fixed base, the inverse dynamics returns the joint forces the Newton-Euler equations require for the given angles, velocities, accelerations and external forces; the forward dynamics returns exactly the accelerations for which those forces are required; each undoes the other; gravity terms plus velocity terms are the forces required at zero acceleration. The results do not depend on what the objects computed before.", "quantifier": "arms with any number of links; all rotations and displacements between links, all physical inertias, velocities, accelerations, joint forces and external forces; all histories of calls of the two objects; all contents of uninitialised locals", "why_tests_cant": "Tests evaluate random states of a few arms against another implementation within a tolerance; stale members show only after particular histories, and a wrong entry may vanish for the tested robot.", "anchors": ["ct_models/include/ct/models/DoubleInvertedPendulum/generated/forward_dynamics.impl.h: fd", "ct_models/include/ct/models/DoubleInvertedPendulum/generated/inverse_dynamics.impl.h: id, G_terms, C_terms, firstPass, secondPass", "ct_models/include/ct/models/HyA/generated: forward_dynamics.impl.h, inverse_dynamics.impl.h", "ct_models/include/ct/models/InvertedPendulum/generated: forward_dynamics.impl.h, inverse_dynamics.impl.h"]}
{"id": "C92", "title": "The pendulum models obey Lagrange's equations and conserve energy", "statement": "For every motion of the inverted pendulum and of the double inverted pendulum, the joint forces returned by the inverse dynamics satisfy Lagrange's equations of the links with the documented masses, lengths and inertias, the forward dynamics returns the accelerations of that motion, and the mechanical energy changes at the rate at which the joints put in power. This holds whatever the coordinate transforms were updated for before.", "quantifier": "all twice differentiable motions of the joints, all times, all histories of the transform and dynamics objects, all contents of memory before construction", "why_tests_cant": "Energy and the equations of motion concern every state; a test checks sampled states within a tolerance.", "anchors": ["ct_models/include/ct/models/InvertedPendulum/generated: transforms.impl.h, inertia_properties.impl.h", "ct_models/include/ct/models/DoubleInvertedPendulum/generated: transforms.impl.h, inertia_properties.impl.h"]}
{"id": "C93", "title": "The joint space inertia matrix of a generated arm is the matrix of its dynamics", "statement": "For every fixed base serial arm with revolute joints, after any history of updates, the matrix the generated JSIM object returns is the matrix by which joint accelerations enter the joint forces of the inverse dynamics. It is symmetric, its quadratic form is twice the kinetic energy of the arm, and it is positive definite. The factor L of computeL is lower triangular with a positive diagonal and L^T L = H, the matrix of computeInverse is the two sided inverse of H, and the forward dynamics returns that inverse applied to the joint forces beyond those of zero acceleration. For the double inverted pendulum the entries are those of the mass matrix of its Lagrangian.", "quantifier": "all numbers of links, all rigid link inertias with positive mass, all joint angles, velocities, accelerations and forces, all previous uses of the object and all values its uninitialised members held", "why_tests_cant": "tests compare the matrix at a few random configurations within a tolerance and never after other updates; definiteness and the inverse are statements over all motions", "anchors": ["ct_models/include/ct/models/HyA/generated/jsim.impl.h: JSIM::update, computeL, computeLInverse, computeInverse", "ct_models/include/ct/models/DoubleInvertedPendulum/generated/jsim.impl.h", "ct_models/include/ct/models/InvertedPendulum/generated/jsim.impl.h"]}
{"id": "C94", "title": "The transforms, link inertias and dynamics of the HyA arm are those of one mechanical arm", "statement": "Each generated motion and force transform of HyA is, at every joint angle and after any history of updates, the transform of one and the same mounting: a fixed frame on the parent link followed by a turn about the joint axis. Every link has positive mass, a symmetric tensor and a kinetic energy that is never negative. With these, forward dynamics, inverse dynamics and joint space inertia matrix of HyA belong together: accelerations enter the joint forces through the matrix, which is symmetric and positive definite, and forward dynamics applies its inverse. The link inertias of every shipped model have a kinetic energy that is never negative.", "quantifier": "all joint angles, velocities, accelerations, forces and external forces, all previous uses of the objects and all values their uninitialised members held; all motions of a link", "why_tests_cant": "the constants of thirty generated matrices must agree with each other at all angles; tests look at a few random configurations; positive semidefiniteness ranges over all motions", "anchors": ["ct_models/include/ct/models/HyA/generated/transforms.impl.h", "ct_models/include/ct/models/HyA/generated/inertia_properties.impl.h", "ct_models/include/ct/models/HyA/generated/forward_dynamics.impl.h", "ct_models/include/ct/models/HyA/generated/jsim.impl.h", "ct_models/include/ct/models/QuadrotorWithLoad/generated/inertia_properties.impl.h"]}
{"id": "C95", "title": "Poses, force transforms and Jacobian of HyA describe one arm", "statement": "For every joint position, and after any earlier calls, the transform from link to base the container returns for a link is the pose that the mounting of the links gives, the force transform of a link takes over a force and moment from the base to that link, and the pose of the end effector is that of the last link plus its fixed offset. Along every differentiable motion of the joints, the Jacobian times the joint velocities is the velocity of the returned position (lower rows) and the angular velocity of the returned orientation (upper rows). Numbers of links or end effectors that do not exist are rejected with an exception. For the base itself, link 0, both transforms are the identity. The end effector transform converts from base to end effector as documented.", "quantifier": "all joint positions, all differentiable joint motions, all link and end effector numbers, all histories of calls and all previous contents of uninitialised members", "why_tests_cant": "the entries are long trigonometric expressions; tests evaluate them at a few random positions and never take derivatives or link 0", "anchors": ["ct_models/include/ct/models/HyA/generated/transforms.impl.h", "ct_models/include/ct/models/HyA/generated/jacobians.impl.h", "ct_rbd/include/ct/rbd/robot/robcogen/robcogenHelpers.h: getTransformBaseLinkById, getTransformLinkBaseById, getTransformBaseEEById, getJacobianBaseEEbyId, eeIdToLinkId", "ct_rbd/include/ct/rbd/robot/RobCoGenContainer.h"]}
{"id": "C96", "title": "Inverse kinematics returns reachable, admissible and closest joint positions", "statement": "The inverse kinematics of HyA returns exactly the joint positions within the joint limits that equal, up to full turns, a solution of the generated solver; each of them places the end effector at the requested world pose, for any pose of the base. The result is true if and only if there is one. computeInverseKinematicsCloseTo returns the solution closest to the query, the first in case of ties, and leaves its argument alone if there is none. The optimising solver only returns a joint position whose forward kinematics matches the target, uses at most the configured number of solves, starts first from the user's guess and then from guesses within the joint limits.", "quantifier": "every target and base pose, every query, every set of solutions of the generated solver, every behaviour of the optimiser and of the random generator, every number of trials", "why_tests_cant": "poses, queries and joint configurations are a continuum; a test sees the solver's answers for a few poses, not every list of solutions or every failure history of the optimiser", "anchors": ["ct_rbd/include/ct/rbd/robot/kinematics/InverseKinematicsBase.h: computeInverseKinematicsCloseTo", "ct_models/include/ct/models/HyA/HyAInverseKinematics.h: computeInverseKinematics", "ct_models/include/ct/models/HyA/HyAJointLimits.h: jointLowerLimit, jointUpperLimit", "ct_models/include/ct/models/Irb4600/Irb4600InverseKinematics.h: computeInverseKinematics", "ct_rbd/include/ct/rbd/robot/kinematics/ik_nlp/IKNLPSolverIpopt.h: computeInverseKinematics"]}
{"id": "C97", "title": "Automatically differentiated constraints evaluate, bound and differentiate exactly what was added", "statement": "However constraints are added to an automatically differentiated constraint container, and however it is initialised, moved to a state and input, and cloned in between, once it has been initialised after the last addition its values are those of the constraints in the order of addition at the current state, input and time, its bounds stand in the same order, its Jacobians are the derivatives of these values by state and by input, and the sparse Jacobians with their patterns are the same matrices; before that, evaluation is refused. The compiled derivatives underneath always belong to the function last given, also in copies.", "quantifier": "every history of additions, initialisations, state updates and clones, every number and size of constraints, all states and inputs; every history of updates, compilations and copies of compiled derivatives", "why_tests_cant": "A unit test initialises one container once and reads it; stale generated code, misaligned bounds, columns split at the wrong place and state lost in a copy show only in particular histories", "anchors": ["ct_optcon/include/ct/optcon/constraint/ConstraintContainerAD-impl.h::ConstraintContainerAD", "ct_optcon/include/ct/optcon/constraint/ConstraintContainerBase-impl.h::setCurrentStateAndControl", "ct_core/include/ct/core/math/DerivativesCppadJIT-impl.h::DerivativesCppadJIT"]}
{"id": "C98", "title": "Quantised measurements stay on the grid and never drift", "statement": "However many measurements are quantised one after the other, with any interval and bias and either method, each result lies on the quantisation grid shifted by the bias and within one interval of its measurement, and the results less the bias add up to the measurements up to one rest smaller than an interval; separate identifiers and entries of vectors keep separate rests, and a reset forgets them.", "quantifier": "every interval, bias and method, every sequence of measurements of any length, every identifier and vector size", "why_tests_cant": "The error is carried from call to call, so a drift appears only over unboundedly many calls", "anchors": ["ct_core/include/ct/core/common/QuantizationNoise.h::QuantizationNoise"]}
{"id": "C99", "title": "Integration stops exactly at the first event that demands it, and is complete otherwise", "statement": "An integration over a number of steps with event handlers makes all its steps and returns the whole trajectory if no handler demands a stop; otherwise an exception leaves at the first step at which more steps than allowed have been made or a kill flag is raised, with the state of that step and without touching the caller's trajectory. Recorders hold every evaluation of the dynamics made until then. Counters, flags and recordings of earlier integrations have no influence.", "quantifier": "every list of handlers in every prior state, every number of steps, dynamics and stepper, every schedule of writes to the kill flags during the integration", "why_tests_cant": "The moment of the first event depends on the schedule of writes and on what earlier integrations left in the handlers", "anchors": ["ct_core/include/ct/core/integration/Observer-impl.h::Observer", "ct_core/include/ct/core/integration/EventHandlers/MaxStepsEventHandler.h::MaxStepsEventHandler", "ct_core/include/ct/core/integration/EventHandlers/KillIntegrationEventHandler.h::KillIntegrationEventHandler", "ct_core/include/ct/core/integration/EventHandlers/SubstepRecorder.h::SubstepRecorder", "ct_core/include/ct/core/integration/Integrator-impl.h::integrate_n_steps"]}
{"id": "C100", "title": "Task space cost terms measure the distance to the reference pose", "statement": "For every weight, configuration and history of new references, evaluations and clones, the task space cost terms return the weighted squared position error plus Q_rot times the summed squared difference of the orientation matrices; the latter is 8 Q_rot sin^2 of half the rotation angle whatever the axis. The cost is never negative and with positive weights vanishes at the reference pose only; the generated derivative by the state is the gradient of that cost and the one by the input is zero. References given by a quaternion or Euler angles are proper rotations. Copies behave as the original.", "quantifier": "all weights, references, configurations, inputs, initial memory contents and finite sequences of operations", "why_tests_cant": "the agreement of the compiled term with the plain one after arbitrary sequences of setters and clones, and the angle law for all axes, are universally quantified; tests evaluate a few random poses", "anchors": ["ct_rbd/include/ct/rbd/robot/costfunction/TermTaskspacePose.hpp: TermTaskspacePose::evalLocal", "ct_rbd/include/ct/rbd/robot/costfunction/TermTaskspacePoseCG.hpp: TermTaskspacePoseCG::evaluate, stateDerivative, controlDerivative, setReferencePosition, setReferenceOrientation", "ct_rbd/include/ct/rbd/robot/costfunction/TermTaskspacePosition.hpp: TermTaskspacePosition::evaluate, clone"]}
{"id": "C101", "title": "Operational space models obey the robot's equations of motion in the task coordinates", "statement": "After every history of updates and queries, if a model was last updated at a state with a positive definite mass matrix and independent task coordinates, then every motion of the robot (with any torques and contact forces) satisfies M x'' + C + G = S^T tau + sum Jc^T lambda with the model's parameters and the accelerations it reports; M is symmetric, positive definite and the inverse of J M^-1 J^T, comes with its inverse, and measures the least kinetic energy of all motions with a given task velocity. Torques computed for an operational force produce exactly that force, are orthogonal to the given directions and are the smallest that do so. Several models may share a Jacobian, and robots may have any number of joints.", "quantifier": "all robots, dimensions, states, motions, torques, contact forces and histories of updates and queries of any number of models", "why_tests_cant": "the equations must hold for every motion, and the results depend on caches and objects shared between models; tests compare a few states", "anchors": ["ct_rbd/include/ct/rbd/operationalSpace/rigid_body/OperationalModel.h: update, STransposeDager, getJacobianPtr", "ct_rbd/include/ct/rbd/operationalSpace/rigid_body/OperationalModelBase.h: getVelocities, getAccelerations", "ct_rbd/include/ct/rbd/operationalSpace/rigid_body/OperationalModelRBD.h: update"]}
{"id": "C102", "title": "Shot sensitivities from logs", "statement": "For a shot that was simulated by Euler or Runge-Kutta steps and logged with its times and linearisations, the computed sensitivity trajectories hold one entry per simulated state, and each entry is the derivative of that state with respect to the initial state, or the control parameter at the beginning or at the end of the shot; every integration type of the settings is handled without ending the process, and the sensitivities with respect to the duration are given as well.", "quantifier": "every nonlinear dynamics with derivatives along the simulation, every state and control dimension, grid of times, number of steps, control spline and direction of change", "why_tests_cant": "A test compares sensitivities with finite differences for one system and one grid; that they are the derivatives for every system, grid and number of steps needs an induction with the chain rule.", "anchors": ["ct_optcon/include/ct/optcon/dms/dms_core/RKnDerivatives.h: RKnDerivatives::compute_dXdSi, compute_dXdQi, compute_dXdQip1, getdXdHiTraj", "ct_optcon/include/ct/optcon/dms/dms_core/DmsSettings.h: IntegrationType"]}
{"id": "C103", "title": "Generated derivative code", "statement": "Writing generated derivative code from templates ends for every name, and the files are the templates with exactly the placeholders for names, sizes and code replaced; the sparsity pattern a user gives is honoured: the indices handed to the differentiation are the positions of the selected entries of the Jacobian, in the order in which the generated matrix stores them; and a generated Hessian is symmetric.", "quantifier": "every template text, class name, namespaces, dimensions, generated code and sparsity pattern", "why_tests_cant": "A test generates code for one or two functions with fixed names; termination of the replacement for every name and the positions of all entries for every dimension are statements about all texts and sizes.", "anchors": ["ct_core/include/ct/core/internal/autodiff/CGHelpers.h: replaceAll, replaceOnce, generateHessianSource", "ct_core/include/ct/core/math/DerivativesCppadCG.h: writeCodeFile, replaceSizesAndNames, generateJacobianSource", "ct_core/include/ct/core/internal/autodiff/SparsityPattern.h: initPattern", "ct_core/include/ct/core/systems/linearizer/DynamicsLinearizerADBase.h: setupSparsityA, setupSparsityB"]}
{"id": "C104", "title": "The SNOPT interface hands over the program, its values and its derivatives, and takes over results", "statement": "After any sequence of creating and destroying SNOPT solvers, a callback for a live solver reaches that solver and never a destroyed one, and the shared pool is never larger than the largest number of solvers alive at once. A configured solver hands SNOPT the program's initial guess, bounds, multipliers and states, with an unbounded row for the objective in front of the constraints; an unconfigured one throws. Every derivative passed to SNOPT belongs to the row and the variable declared for it, each pair once. The solution and multipliers are taken over for the statuses 1, 31 and 32 and for no other. solve reports success only then, a solver releases its memory, and a warm start continues from the last solution.", "quantifier": "every history of creations and destructions, every program, point, status and returned memory", "why_tests_cant": "SNOPT is a commercial library that most builds and all test machines lack, and pool indices depend on the whole history of solvers", "anchors": ["ct_optcon/src/nlp/solver/SnoptSolver.cpp", "ct_optcon/include/ct/optcon/nlp/solver/SnoptSolver.h", "ct_optcon/include/ct/optcon/nlp/Nlp.h", "ct_optcon/include/ct/optcon/nlp/OptVector.h"]}
{"id": "C105", "title": "Initial guesses for fixed base robots", "statement": "Initialising the optimal control solver of a fixed base robot with a steady pose gives it the stages of the horizon, the pose at every time and the inverse dynamics torque at every stage (zero with actuator dynamics); without actuator dynamics this is an equilibrium. Direct interpolation gives states on the straight line between two poses, starting at the first and ending at the second, with the inverse dynamics torques of these states, and actuator states that produce the torque of their own state. Guesses shorter than the horizon are rejected.", "quantifier": "all robots (inverse dynamics and actuator maps), poses, horizons, numbers of points and earlier solver states", "why_tests_cant": "the guess is a function of real poses, of the number of points and of the solver's earlier horizon; tests only check that one robot's solver converges", "anchors": ["ct_rbd/include/ct/rbd/nloc/FixBaseNLOC-impl.h", "ct_rbd/include/ct/rbd/nloc/FixBaseNLOC.h", "ct_rbd/include/ct/rbd/systems/FixBaseSystemBase.h: computeIDTorques", "ct_optcon/include/ct/optcon/nloc/NLOCBackendBase-impl.hpp: setInitialGuess"]}
{"id": "C106", "title": "Singularity measures of a Jacobian", "statement": "The joint velocity for a wanted end effector velocity comes as close to it as possible and is the shortest that does, for every Jacobian; where J J' is invertible it reaches the velocity and equals J' (J J')^-1 v. Both methods of computing the manipulability agree, its square is the determinant of J J', and it vanishes exactly for singular Jacobians. The condition number is the ratio of the largest to the smallest stretching factor and at least one.", "quantifier": "all Jacobians of all sizes, velocities and singular value decompositions", "why_tests_cant": "a statement about all matrices and a minimum over all joint velocities; the unit tests check one Jacobian to a tolerance", "anchors": ["ct_rbd/include/ct/rbd/common/math/JacobiSingularity.h", "ct_rbd/include/ct/rbd/common/math/implementation/JacobiSingularity.h"]}
{"id": "C107", "title": "Cost functions loaded from files", "statement": "A file that describes the terms 0 to n - 1 gives a cost function with exactly these terms, those of type 0 as intermediate and those of type 1 as final terms, in the order of the file, and replaces what was loaded before; loading ends for every file, and files whose first term lacks a kind or type, or has an unknown one, are rejected. Weights are read below the term's node with their common factor. Terms carry the names the file gives them and no described term is left out.", "quantifier": "all files (property trees), terms and earlier contents of the cost function", "why_tests_cant": "files have any number of terms in any combination, and loading depends on what was loaded before; tests load a handful of fixed files", "anchors": ["ct_optcon/include/ct/optcon/costfunction/CostFunctionAnalytical-impl.hpp: loadFromConfigFile", "ct_optcon/include/ct/optcon/costfunction/CostFunctionAD-impl.hpp: loadFromConfigFile", "ct_optcon/include/ct/optcon/costfunction/utility/utilities.hpp", "ct_optcon/include/ct/optcon/costfunction/term/TermLoadMacros.hpp"]}
