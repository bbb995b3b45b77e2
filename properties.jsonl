{"id": "C01", "title": "Filter acceptance equals non-domination by the whole history", "statement": "A point is accepted by the filter exactly when, for every point added since the last Clear, at least one coordinate is no larger than that point's coordinate. Discarding dominated entries never changes the answer. (Coordinates are IEEE doubles; the statement is for non-NaN data. A NaN coordinate breaks it, and that is stated as a refutation.)", "quantifier": "every sequence of AddEntry/Clear calls with any finite or infinite coordinates, any dimension, and every query point", "why_tests_cant": "depends on the full history of additions and on which entries were silently discarded; tests only sample short histories", "anchors": ["src/Algorithm/IpFilter.hpp: FilterEntry::Acceptable, FilterEntry::Dominated", "src/Algorithm/IpFilter.cpp: Filter::Acceptable, Filter::AddEntry, Filter::Clear"]}
{"id": "C02", "title": "Filter rejections are permanent until reset", "statement": "Once the filter rejects a point, it rejects that point, and every point no better in every coordinate, after any further additions, until Clear is called; Clear makes every point acceptable.", "quantifier": "all histories and all points", "why_tests_cant": "universally quantified over future additions", "anchors": ["src/Algorithm/IpFilter.cpp: Filter::AddEntry, Filter::Acceptable"]}
{"id": "C03", "title": "A cached result is never stale", "statement": "If GetCachedResult returns a value, then this value was added with exactly the same dependency objects (null positions included) and scalar values, and none of these objects has changed or been destroyed since it was added.", "quantifier": "every interleaving of object creation, change, destruction, cache adds, gets, invalidations and clears, as long as fewer than 2^32-1 changes happened in the thread", "why_tests_cant": "a stale hit needs a particular history; the number of histories is unbounded", "anchors": ["src/Common/IpCachedResults.hpp: CachedResults, DependentResult", "src/Common/IpTaggedObject.cpp: TaggedObject::ObjectChanged", "src/Common/IpObserver.hpp: Observer, Subject"]}
{"id": "C04", "title": "Cache capacity is respected and the most recent results survive", "statement": "A cache created with a non-negative size never holds more than that many results; a result just added to a cache of positive size is returned by the next lookup with the same dependencies; a cache of size zero never returns anything.", "quantifier": "all histories, all sizes (negative = unlimited)", "why_tests_cant": "history dependent", "anchors": ["src/Common/IpCachedResults.hpp: CachedResults::AddCachedResult, GetCachedResult, CleanupInvalidatedResults"]}
{"id": "C05", "title": "Change tags identify object states uniquely", "statement": "HasChanged(t), with t an earlier GetTag() of the object, is false exactly if the object was not modified in between; two different objects (or two states of one object) never carry the same tag. Holds while the 32-bit thread-local counter has not wrapped; after a wrap it is false.", "quantifier": "every sequence of constructions and modifications in one thread", "why_tests_cant": "a collision appears only after 2^32 updates, out of reach of a test", "anchors": ["src/Common/IpTaggedObject.hpp", "src/Common/IpTaggedObject.cpp: unique_tag"]}
{"id": "C06", "title": "Observers and subjects never hold dangling references", "statement": "At every time an observer lists a live subject exactly as often as this subject lists the observer; after either of them is destroyed the other no longer refers to it, so no notification is delivered to a destroyed observer.", "quantifier": "every history of attach, detach, notification and destruction", "why_tests_cant": "a dangling pointer shows only for particular destruction orders", "anchors": ["src/Common/IpObserver.hpp: Observer::RequestAttach, RequestDetach, ProcessNotification, ~Observer, Subject::~Subject"]}
{"id": "C07", "title": "Reference counting frees exactly the unreachable objects, once", "statement": "A reference-counted object is deleted exactly when the last SmartPtr to it is reset, reassigned or destroyed; it is never deleted twice and never while a SmartPtr to it exists.", "quantifier": "every sequence of SmartPtr constructions, copies, assignments (self-assignment included) and destructions over any number of objects", "why_tests_cant": "double free/leak needs a specific operation order", "anchors": ["src/Common/IpSmartPtr.hpp", "src/Common/IpReferenced.hpp"]}
{"id": "C08", "title": "Option store: last permitted write wins, names case-insensitive", "statement": "Reading an option returns the value of the last accepted Set call for its name regardless of case, a value set with allow_clobber=false is never changed by later Set or Unset calls, and setting one option leaves all others unchanged.", "quantifier": "all histories of Set/Unset/Get calls", "why_tests_cant": "history dependent", "anchors": ["src/Common/IpOptionsList.cpp: SetStringValue, SetIntegerValue, UnsetValue, find_tag, will_allow_clobber, lowercase"]}
{"id": "C09", "title": "Prefixed option values take precedence, unset options yield the default", "statement": "Get with prefix p returns the value set for p+name if any, otherwise the value set for name, otherwise the registered default; the return flag tells whether a user value was found.", "quantifier": "all option stores, names, prefixes", "why_tests_cant": "combinatorial", "anchors": ["src/Common/IpOptionsList.cpp: find_tag, GetStringValue, GetNumericValue, GetIntegerValue"]}
{"id": "C10", "title": "Only values inside the registered range are accepted", "statement": "A Set call succeeds only for a registered option of matching type with a value inside its (strict or non-strict) bounds or list of valid strings, and a rejected call leaves the store unchanged. (For NaN the range check passes, and the stored six-digit text may fall outside of the range: both refuted.)", "quantifier": "all options, values, stores", "why_tests_cant": "value space is unbounded", "anchors": ["src/Common/IpRegOptions.hpp: IsValidNumberSetting, IsValidIntegerSetting", "src/Common/IpRegOptions.cpp: IsValidStringSetting", "src/Common/IpOptionsList.cpp: SetStringValue, SetNumericValue, SetIntegerValue"]}
{"id": "C11", "title": "Option file tokenizer", "statement": "Reading a file always terminates; whitespace, comments and quoting are handled so that any non-empty names and values written with quotes are read back unchanged, in order; a file ending inside a quoted token or after a name without value is rejected. (An empty quoted value is not read back: refuted.)", "quantifier": "every byte stream", "why_tests_cant": "the input space is unbounded", "anchors": ["src/Common/IpOptionsList.cpp: readnexttoken, ReadFromStream"]}
{"id": "C12", "title": "Integer options keep their value", "statement": "An integer option set through the API is read back unchanged. (For option files: an integer text outside of the 32-bit range is silently wrapped and accepted: refuted.)", "quantifier": "all 32-bit integers; all digit strings", "why_tests_cant": "value space is unbounded", "anchors": ["src/Common/IpOptionsList.cpp: SetIntegerValue, GetIntegerValue, ReadFromStream"]}
{"id": "C13", "title": "Triplet to compressed-row conversion preserves the matrix", "statement": "For every symmetric triplet matrix in which every row from the first to the last non-empty one has an entry, the compressed format has non-decreasing row pointers, strictly increasing column indices per row, and for each position (i,j) exactly the sum of all triplet entries for (i,j) or (j,i). (For a matrix with an empty row between non-empty ones, the row pointers are wrong: refuted.)", "quantifier": "all dimensions, all triplet lists in any order with any duplicates, all values; 0- and 1-based output; triangular and full format", "why_tests_cant": "the data space is unbounded; bugs only show for particular duplicate/empty-row patterns", "anchors": ["src/Algorithm/LinearSolvers/IpTripletToCSRConverter.cpp: InitializeConverter, ConvertValues"]}
{"id": "C14", "title": "Inertia correction stays in range and terminates", "statement": "In every history in which a failed request ends the work on a matrix, the Hessian regularization handed to the linear solver is the same for x and s, never negative and never larger than max_hessian_perturbation, and the constraint regularization is zero or delta_cd(). A successful wrong-inertia request strictly increases the Hessian regularization, except for one restart with regularized constraints. If no request repeats the previous perturbation, the number of requests for one matrix is bounded (20470 with increase factors of at least 2), provided delta_cd() > 0 and no subnormal perturbations. (Refuted: the handler does repeat a perturbation for ever after a restart, with jacobian_regularization_value=0 and with subnormal perturbations; the caller ignores a failing first request and hands an uninitialised perturbation to the solver.)", "quantifier": "all option values in their valid ranges and all sequences of solver outcomes, over any number of matrices", "why_tests_cant": "sequences of solver verdicts are unbounded", "anchors": ["src/Algorithm/IpPDPerturbationHandler.cpp: ConsiderNewSystem, PerturbForSingularity, PerturbForWrongInertia, get_deltas_for_wrong_inertia", "src/Algorithm/IpPDFullSpaceSolver.cpp: SolveOnce"]}
{"id": "C15", "title": "A new matrix is perturbed right away only after three observations", "statement": "The first attempt on a new matrix is unperturbed (apart from perturb_always_cd) unless before at least three times a perturbed matrix was found not to be singular; the conclusions about Hessian and Jacobian are never 'undetermined' for one and 'degenerate' for the other. (Refuted: the three observations come from different matrices; the conclusion 'not degenerate' is final.)", "quantifier": "all sequences of calls", "why_tests_cant": "history dependent", "anchors": ["src/Algorithm/IpPDPerturbationHandler.cpp: finalize_test, ConsiderNewSystem"]}
{"id": "C16", "title": "Solve_Succeeded is reported only within all tolerances", "statement": "The convergence test reports convergence only if the scaled overall error and the unscaled dual infeasibility, constraint violation and complementarity are all within their tolerances (or, without free variables, if the constraint violation is). NaN measures never count as converged.", "quantifier": "all values of the error measures incl. NaN/infinities, all tolerances, all iterations", "why_tests_cant": "real-valued input space", "anchors": ["src/Algorithm/IpOptErrorConvCheck.cpp: CheckConvergence"]}
{"id": "C17", "title": "Acceptable-level termination needs the requested number of consecutive acceptable iterates", "statement": "Termination at an acceptable point is reported only if the last acceptable_iter convergence tests all found an acceptable point; it is disabled by acceptable_iter=0.", "quantifier": "all iterate histories", "why_tests_cant": "history dependent", "anchors": ["src/Algorithm/IpOptErrorConvCheck.cpp: CheckConvergence, CurrentIsAcceptable"]}
{"id": "C18", "title": "Iteration limit", "statement": "The main loop performs at most max_iter iterations whatever the search does, and reports the limit with the matching status.", "quantifier": "all executions", "why_tests_cant": "unbounded executions", "anchors": ["src/Algorithm/IpIpoptAlg.cpp: Optimize", "src/Algorithm/IpOptErrorConvCheck.cpp: CheckConvergence"]}
{"id": "C19", "title": "Monotone barrier update", "statement": "With mode monotone the barrier parameter never falls below max(mu_target, min(tol, compl_inf_tol)/(barrier_tol_factor+1)) (or mu_init if smaller), never increases once it is above it, the fraction-to-boundary parameter lies in [tau_min, 1] and below 1 unless mu < 2^-53; every update ends, after logarithmically many passes, and returns only if the barrier test fails or mu cannot be changed.", "quantifier": "all option values in range, all sequences of barrier errors, any pow", "why_tests_cant": "unbounded histories", "anchors": ["src/Algorithm/IpMonotoneMuUpdate.cpp: UpdateBarrierParameter, CalcNewMuAndTau"]}
{"id": "C20", "title": "Fraction-to-the-boundary rule", "statement": "For non-negative x and any step d the computed step length is in [0,1], keeps every component x+alpha*d >= (1-tau)*x, and is the largest such number in [0,1] (exact arithmetic). In doubles the step is in [0,1] and the rule holds up to two roundings unless tau/|d_i| overflows; then the new point can leave the feasible interior (refuted).", "quantifier": "all vectors, all tau in (0,1]", "why_tests_cant": "real-valued, any dimension", "anchors": ["src/LinAlg/IpDenseVector.cpp: FracToBoundImpl", "src/LinAlg/IpCompoundVector.cpp: FracToBoundImpl"]}
{"id": "C21", "title": "Accepted line-search steps satisfy the filter rule", "statement": "A trial point accepted by the filter line search is within the constraint violation limit, acceptable to the filter, and satisfies the Armijo condition (if the switching condition holds at a nearly feasible point) or sufficient reduction of violation or barrier function.", "quantifier": "all reference and trial values, all filter contents", "why_tests_cant": "real-valued input and history", "anchors": ["src/Algorithm/IpFilterLSAcceptor.cpp: CheckAcceptabilityOfTrialPoint, IsFtype, ArmijoHolds, IsAcceptableToCurrentIterate, AugmentFilter"]}
{"id": "C22", "title": "Filter resets are limited by max_filter_resets", "statement": "During one solve the filter is reset by the reset heuristic at most max_filter_resets times. (The counter is never incremented: refuted.)", "quantifier": "all sequences of trial points", "why_tests_cant": "needs long executions", "anchors": ["src/Algorithm/IpFilterLSAcceptor.cpp: CheckAcceptabilityOfTrialPoint, n_filter_resets_"]}
{"id": "C23", "title": "Homogeneous vector storage is unobservable", "statement": "Every vector operation, in every program of operations, has its documented element-wise effect, whether its operands are stored as one repeated value or element by element. (False for: AddTwoVectors(0,v1,1,v2,1), AddTwoVectors on an operand that is the target, ElementWiseSelect with selectors other than -1,0,1, CopyToPos from a homogeneous vector; in doubles also Axpy(0,x) with infinite x and the rounding of sums: each refuted by a witness.)", "quantifier": "all dimensions, all element values, all combinations of storage forms, all operation sequences", "why_tests_cant": "storage combinations times values times histories", "anchors": ["src/LinAlg/IpDenseVector.cpp", "src/LinAlg/IpDenseVector.hpp"]}
{"id": "C24", "title": "Compound vectors behave as concatenations", "statement": "Every operation on a compound vector equals the same operation on the concatenation of its components, for any partition into components (nested compounds included). (In doubles: sums only up to rounding; Max of all -inf and Amax with NaN are refuted.)", "quantifier": "all partitions and values", "why_tests_cant": "unbounded", "anchors": ["src/LinAlg/IpCompoundVector.cpp"]}
{"id": "C25", "title": "Expansion matrices pick and place components", "statement": "Multiplying by an expansion matrix places each small-space component at its position in the large space and nothing else; the transpose picks these components; picking after placing is the identity; fused operations equal their unfused definition.", "quantifier": "all position lists without repetition, all vectors", "why_tests_cant": "unbounded", "anchors": ["src/LinAlg/IpExpansionMatrix.cpp"]}
{"id": "C26", "title": "Variables: user space and algorithm space correspond", "statement": "Each user variable is either fixed (lower bound equal to upper bound, value kept exactly) or appears exactly once among the algorithm's variables, with exactly its finite bounds; every algorithm iterate shown to the user has the fixed variables at their fixed value.", "quantifier": "all bound vectors and iterates, all sizes, both fixed-variable treatments", "why_tests_cant": "unbounded sizes and combinations", "anchors": ["src/Interfaces/IpTNLPAdapter.cpp: GetSpaces, GetBoundsInformation, ResortX"]}
{"id": "C27", "title": "Constraints: user space and algorithm space correspond", "statement": "Each user constraint is exactly once an equality (with matching right-hand side) or an inequality (with exactly its finite bounds); multipliers returned to the user are those of the corresponding internal constraint.", "quantifier": "all bound vectors, all sizes", "why_tests_cant": "unbounded", "anchors": ["src/Interfaces/IpTNLPAdapter.cpp: GetSpaces, ResortG, Eval_c, Eval_d"]}
{"id": "C28", "title": "Jacobian and Hessian entries are routed to the right place", "statement": "Each user Jacobian/Hessian entry whose variables are not fixed appears exactly once in the internal matrices, at the corresponding row and column; entries of fixed variables are dropped.", "quantifier": "all sparsity patterns", "why_tests_cant": "unbounded", "anchors": ["src/Interfaces/IpTNLPAdapter.cpp: GetSpaces, Eval_jac_c, Eval_jac_d, Eval_h"]}
{"id": "C29", "title": "Final status mapping", "statement": "Each internal termination reason is reported to the application as the documented return status, and every termination reason has one.", "quantifier": "all termination reasons and exceptions", "why_tests_cant": "many rare exits cannot be triggered in tests", "anchors": ["src/Interfaces/IpIpoptApplication.cpp: call_optimize", "src/Algorithm/IpIpoptAlg.cpp: Optimize"]}
{"id": "C30", "title": "Starting point is moved strictly inside the bounds", "statement": "The initial primal point is strictly between its (relaxed) bounds, at the required distance from each bound, and points already there are not moved.", "quantifier": "all starting points, bounds, push parameters in range", "why_tests_cant": "real-valued, any dimension", "anchors": ["src/Algorithm/IpDefaultIterateInitializer.cpp: push_variables"]}
{"id": "C31", "title": "Bound relaxation only enlarges the feasible set", "statement": "Relaxed bounds contain the original ones and differ by at most bound_relax_factor*max(1,|bound|), capped by constr_viol_tol.", "quantifier": "all bounds", "why_tests_cant": "real-valued", "anchors": ["src/Algorithm/IpOrigIpoptNLP.cpp: relax_bounds"]}
{"id": "C32", "title": "Slacks used by the algorithm are positive", "statement": "Slack values after the safe-slack correction are strictly positive for every iterate, and corrections only enlarge them.", "quantifier": "all iterates, bounds, mu", "why_tests_cant": "real-valued", "anchors": ["src/Algorithm/IpIpoptCalculatedQuantities.cpp: CalculateSafeSlack"]}
{"id": "C33", "title": "Scaling is transparent", "statement": "Whatever scaling factors are used, the problem the algorithm works on is the user's problem in other units: point, objective, constraint values and multipliers handed back are those of the user's problem; gradient, Jacobian and Hessian products are the derivatives of the scaled functions; a point is stationary / within bounds for one exactly if it is for the other (refuted for negative variable factors: bounds are not swapped). Without scaling nothing changes, bit for bit. Gradient-based factors are min(1, max_gradient / largest derivative), never above 1 nor below the minimum value (unless the target options are used), and positive except for one documented corner.", "quantifier": "all problems, scaling factors, points, multipliers; all gradients and Jacobians for the factors", "why_tests_cant": "real-valued, unbounded dimensions", "anchors": ["src/Algorithm/IpNLPScaling.cpp", "src/Algorithm/IpGradientScaling.cpp", "src/Algorithm/IpUserScaling.cpp", "src/Algorithm/IpOrigIpoptNLP.cpp", "src/LinAlg/IpScaledMatrix.cpp", "src/LinAlg/IpSymScaledMatrix.cpp"]}
{"id": "C34", "title": "Messages reach a journal exactly according to its print levels", "statement": "After any sequence of calls, a journal contains exactly the texts of the messages whose level was at most the journal's level for their category at that moment (the latest level set for it), in order, each once, while the journal was registered; changing one category or journal leaves the others alone; names of registered journals are different; print_level, output_file, file_print_level and suppress_all_output decide what console and file show. Refuted: SetAllPrintLevels sets all categories; a new file_print_level works for a file already open.", "quantifier": "all sequences of calls, levels, categories and messages", "why_tests_cant": "combinatorial histories", "anchors": ["src/Common/IpJournalist.cpp", "src/Interfaces/IpIpoptApplication.cpp Initialize", "src/Interfaces/IpIpoptApplication.cpp OpenOutputFile"]}
{"id": "C35", "title": "Limited-memory history is bounded and only curvature-safe pairs enter", "statement": "The quasi-Newton update never stores more than limited_memory_max_history pairs, keeps the most recent ones in order, and skips pairs failing the curvature test.", "quantifier": "all histories", "why_tests_cant": "history dependent", "anchors": ["src/Algorithm/IpLimMemQuasiNewtonUpdater.cpp"]}
{"id": "C36", "title": "A problem made through the C interface is a value", "statement": "CreateIpoptProblem returns a problem exactly for valid arguments; afterwards the solver sees exactly the sizes, bounds and callbacks given there, the scaling of the last SetIpoptProblemScaling before the solve, and the starting point that was in the arrays when IpoptSolve was called, whatever the caller does to its arrays; the interface neither leaks nor misuses memory. (Refuted: not every problem that is created can be solved: eval_h must be given, and eval_g and eval_jac_g even without constraints.)", "quantifier": "all argument combinations, all histories of caller actions, API calls and solver requests (also from inside callbacks)", "why_tests_cant": "aliasing and lifetime errors depend on the history", "anchors": ["src/Interfaces/IpStdCInterface.cpp", "src/Interfaces/IpStdInterfaceTNLP.cpp"]}
{"id": "C37", "title": "Backtracking ends", "statement": "Every line search ends: the number of trial step sizes is finite for every problem, objective and constraint values. (Holds for alpha_red_factor <= 1/2, and for any factor below 1 while the smallest step size is at least 2^-1022; refuted for alpha_red_factor = 0.9.)", "quantifier": "all problems, all evaluation results, all options in range", "why_tests_cant": "non-termination cannot be observed by tests; depends on rounding", "anchors": ["src/Algorithm/IpBacktrackingLineSearch.cpp: DoBacktrackingLineSearch, FindAcceptableTrialPoint", "src/Algorithm/IpFilterLSAcceptor.cpp: CalculateAlphaMin"]}
{"id": "C38", "title": "Watchdog steps are bounded and paid back", "statement": "At most watchdog_trial_iter_max successive steps are taken without passing the acceptance test, and a watchdog sequence ends either with a step that passes the test for the iterate at which it started or with a return to that iterate.", "quantifier": "all sequences of line searches", "why_tests_cant": "depends on long histories", "anchors": ["src/Algorithm/IpBacktrackingLineSearch.cpp: StartWatchDog, StopWatchDog, FindAcceptableTrialPoint"]}
{"id": "C39", "title": "Soft restoration is bounded and makes progress", "statement": "Between resets at most max_soft_resto_iters+1 successive soft restoration steps are taken, each reduces the primal-dual error by the option's factor, and the step that ends the phase satisfies the filter rule.", "quantifier": "all sequences of line searches", "why_tests_cant": "depends on long histories", "anchors": ["src/Algorithm/IpBacktrackingLineSearch.cpp: TrySoftRestoStep, FindAcceptableTrialPoint"]}
{"id": "C40", "title": "Acceptable point reached means an acceptable point", "statement": "When the line search gives up with 'acceptable point reached', the iterate it leaves is one at which the acceptable-level test was satisfied.", "quantifier": "all sequences of line searches", "why_tests_cant": "depends on rare failures after long histories", "anchors": ["src/Algorithm/IpBacktrackingLineSearch.cpp: StoreAcceptablePoint, RestoreAcceptablePoint"]}
{"id": "C41", "title": "Evaluations deliver the user's functions at the right point", "statement": "After any history of evaluations (also failed ones), an evaluation of objective, gradient, constraints, Jacobian or Hessian for a vector x returns what the user's routine gives at the user's point belonging to x (and multipliers belonging to y), and a failing routine makes the evaluation fail. (Refuted for the constraints: after a failed evaluation a second request at the same point reports success.)", "quantifier": "all histories of evaluations at any points, all user routines including failing ones", "why_tests_cant": "depends on arbitrarily long histories of cached evaluations", "anchors": ["src/Interfaces/IpTNLPAdapter.cpp: Eval_f, Eval_grad_f, Eval_c, Eval_d, Eval_jac_c, Eval_jac_d, Eval_h, internal_eval_g, internal_eval_jac_g, update_local_x"]}
{"id": "C42", "title": "The new_x and new_lambda flags are right", "statement": "new_x is false only if an evaluation routine was called before with the same x; new_lambda is false only if the previous eval_h call had the same multipliers. (The stronger reading 'the previous call had the same x' and calls made during finalisation are refuted.)", "quantifier": "all histories of evaluations", "why_tests_cant": "depends on histories", "anchors": ["src/Interfaces/IpTNLP.hpp: eval_f", "src/Interfaces/IpTNLPAdapter.cpp: update_local_x, update_local_lambda, FinalizeSolution"]}
{"id": "C44", "title": "Finite-difference derivatives", "statement": "With finite-difference gradient or Jacobian every entry for a variable with l<u is the difference quotient at the current point with step findiff_perturbation*max(1,|x_i|), all other components exactly at the current point; the perturbed component never exceeds the upper bound. (It may violate the lower bound: refuted.)", "quantifier": "all points, bounds, sparsity patterns, histories", "why_tests_cant": "real-valued and history dependent", "anchors": ["src/Interfaces/IpTNLPAdapter.cpp: Eval_grad_f, internal_eval_jac_g"]}
{"id": "C43", "title": "Bound multipliers returned for fixed variables", "statement": "For a variable whose two bounds agree, the two bound multipliers returned to the user are nonnegative, at most one is nonzero, and together with the returned constraint multipliers they satisfy the stationarity equation of the user's problem for that variable.", "quantifier": "all problems, all multipliers and derivative values", "why_tests_cant": "real-valued, any dimension and sparsity", "anchors": ["src/Interfaces/IpTNLPAdapter.cpp: ResortBoundMultipliers"]}
{"id": "C45", "title": "Multipliers of fixed variables accompany every reported point", "statement": "Whenever finalize_solution gets the final point, the bound multipliers it gets for fixed (removed) variables have been computed from the final point's derivatives. (Refuted for the CPU and wall-clock time limits, where they are left zero/uncomputed.)", "quantifier": "all ways a solve can end", "why_tests_cant": "needs every exit path of the solver", "anchors": ["src/Interfaces/IpTNLPAdapter.cpp: FinalizeSolution", "src/Interfaces/IpIpoptApplication.cpp: call_optimize"]}
{"id": "C46", "title": "honor_original_bounds returns a point inside the user's bounds", "statement": "With honor_original_bounds=yes and bound_relax_factor>0 the x given to finalize_solution satisfies the user's bounds exactly in double precision, and is unchanged if it did before. (Refuted for bound_relax_factor=0, where the point is not projected although slack corrections may have moved the bounds.)", "quantifier": "all final points and bounds", "why_tests_cant": "exactness over all doubles", "anchors": ["src/Algorithm/IpOrigIpoptNLP.cpp: FinalizeSolution"]}
{"id": "C47", "title": "Bound multipliers of accepted iterates stay within the kappa_sigma neighbourhood", "statement": "For kappa_sigma>=1 each bound multiplier of an accepted iterate is the value nearest to the computed one with mu/kappa_sigma <= slack*multiplier <= kappa_sigma*mu, and the reported maximal correction is the largest change; kappa_sigma<1 switches this off.", "quantifier": "all multipliers, slacks, mu", "why_tests_cant": "real-valued vectors of any length", "anchors": ["src/Algorithm/IpIpoptAlg.cpp: correct_bound_multiplier"]}
{"id": "C48", "title": "Unscaled errors are those of the user's problem", "statement": "The unscaled dual infeasibility, constraint violation and complementarity that decide about convergence (dual_inf_tol, constr_viol_tol, compl_inf_tol) and are printed in the summary are the residuals of the user's own problem at the returned point with the returned multipliers, for every choice of scaling factors.", "quantifier": "all problems, scaling factors, points and multipliers", "why_tests_cant": "real-valued, unbounded dimensions", "anchors": ["src/Algorithm/IpIpoptCalculatedQuantities.cpp unscaled_curr_dual_infeasibility, unscaled_curr_nlp_constraint_violation, unscaled_curr_complementarity", "src/Algorithm/IpOrigIpoptNLP.cpp"]}
{"id": "C49", "title": "Starting point and multipliers are understood in the user's units", "statement": "The starting point and multipliers given by the user describe the same point for the scaled problem: handing them back unchanged returns what was given, and a starting point that is optimal for the user's problem is stationary for the scaled problem. Holds when variables are not scaled; with variable factors the bound multipliers are scaled the wrong way round (refuted).", "quantifier": "all problems, scaling factors, starting points", "why_tests_cant": "real-valued", "anchors": ["src/Algorithm/IpOrigIpoptNLP.cpp InitializeStructures", "src/Algorithm/IpOrigIpoptNLP.cpp FinalizeSolution"]}
{"id": "C50", "title": "Long texts are broken into lines without losing anything", "statement": "PrintStringOverLines prints the text broken at spaces, or inside words longer than a line with a hyphen, no line longer than the given length, all lines but the first indented; it ends and stays inside its buffer (for line lengths of at least 2; with length 1 it never ends on a word of two letters).", "quantifier": "all texts, indentations and line lengths", "why_tests_cant": "unbounded texts; buffer safety", "anchors": ["src/Common/IpJournalist.cpp PrintStringOverLines"]}
{"id": "C51", "title": "The limited-memory BFGS matrix is the BFGS matrix, positive definite, and satisfies the secant equation", "statement": "With hessian_approximation=limited-memory and the BFGS update, after every sequence of iterates the Hessian approximation W equals the matrix the textbook BFGS formula gives when applied to the stored pairs starting from sigma*I; it is symmetric and positive definite; after a used pair (s,y) it satisfies W s = y; a skipped pair leaves it unchanged and limited_memory_max_skipping successive skips reset it. (Refuted for the restoration phase.)", "quantifier": "all sequences of iterates, gradients, Jacobians and multipliers; all option values in range", "why_tests_cant": "algebraic identity over all histories and sizes", "anchors": ["src/Algorithm/IpLimMemQuasiNewtonUpdater.cpp: UpdateHessian, UpdateInternalData, SetW", "src/LinAlg/IpLowRankUpdateSymMatrix.cpp: MultVectorImpl"]}
{"id": "C52", "title": "The limited-memory SR1 matrix satisfies the secant equation unless skipped", "statement": "With the SR1 update, each call leaves the approximation unchanged (skip), resets it to a multiple of the identity, or makes it satisfy W s = y for the newest pair; it is always symmetric, and at most limited_memory_max_history pairs are stored. (Refuted when the first update follows a regularised step: the backup used then was never initialised; a reset does not clear the backup.)", "quantifier": "all sequences of iterates", "why_tests_cant": "algebraic identity over all histories and sizes", "anchors": ["src/Algorithm/IpLimMemQuasiNewtonUpdater.cpp: UpdateHessian, SplitEigenvalues, StoreInternalDataBackup, RestoreInternalDataBackup"]}
{"id": "C53", "title": "C callbacks get the right point and results arrive", "statement": "Each evaluation callback of the C interface finds in its argument x the point for which the solver wants the value (if the solver's new_x flags are right and no callback writes into x; refuted otherwise); the results are stored in exactly the arrays passed to IpoptSolve that are not NULL; the current iterate is available exactly inside the intermediate callback.", "quantifier": "all sequences of evaluations, results and caller actions", "why_tests_cant": "depends on the history of new_x flags and on aliasing", "anchors": ["src/Interfaces/IpStdInterfaceTNLP.cpp: apply_new_x, eval_*, finalize_solution, intermediate_callback", "src/Interfaces/IpStdCInterface.cpp: IpoptSolve, GetIpoptCurrentIterate"]}
{"id": "C54", "title": "Matrix objects behave like the matrices they stand for", "statement": "For every matrix the library can build (triplet, diagonal, identity, zero, expansion, scaled, sum, compound, transposed, multi-vector and low-rank matrices, nested in any way), MultVector and TransMultVector compute beta*y + alpha*M*x and beta*y + alpha*M^T*x of the matrix of its entries, for every block structure and representation of the vectors, also if y has no values and beta=0; NRows/NCols are its dimensions, symmetric classes are symmetric, and MultVector and TransMultVector are adjoint. (Refuted for a block-diagonal compound matrix with a missing empty block.)", "quantifier": "all nestings, sizes, block structures, sparsity patterns, values, vectors, alpha, beta", "why_tests_cant": "unbounded nesting and sizes", "anchors": ["src/LinAlg/IpCompoundMatrix.cpp", "src/LinAlg/IpCompoundSymMatrix.cpp", "src/LinAlg/IpSumMatrix.cpp", "src/LinAlg/IpSumSymMatrix.cpp", "src/LinAlg/IpScaledMatrix.cpp", "src/LinAlg/IpSymScaledMatrix.cpp", "src/LinAlg/TMatrices/IpGenTMatrix.cpp", "src/LinAlg/TMatrices/IpSymTMatrix.cpp", "src/LinAlg/IpExpandedMultiVectorMatrix.cpp", "src/LinAlg/IpMultiVectorMatrix.cpp", "src/LinAlg/IpLowRankUpdateSymMatrix.cpp", "src/LinAlg/IpTransposeMatrix.hpp"]}
{"id": "C55", "title": "Fused matrix operations equal their definition", "statement": "AddMSinvZ computes X + alpha*M*S^-1*Z and SinvBlrmZMTdBr computes S^-1*(R + alpha*Z*M^T*D), for every matrix of C54, although expansion, identity and compound matrices use special code. (Refuted for an IdentityMatrix with a factor other than one and for block-diagonal matrices with more block columns than block rows.)", "quantifier": "all matrices, vectors and scalars", "why_tests_cant": "unbounded nesting and sizes", "anchors": ["src/LinAlg/IpMatrix.cpp: AddMSinvZImpl, SinvBlrmZMTdBrImpl", "src/LinAlg/IpCompoundMatrix.cpp", "src/LinAlg/IpExpansionMatrix.cpp", "src/LinAlg/IpIdentityMatrix.cpp"]}
{"id": "C56", "title": "Triplet arrays describe the matrix", "statement": "GetNumberEntries/FillRowCol/FillValues turn a matrix of any supported class, nested to any depth, into triplet arrays that describe exactly this matrix (a symmetric one by one triangle), write exactly the announced number of entries and nothing else, and give the same index arrays whatever the numbers in the matrix are; FillValuesFromVector and PutValuesInVector are inverse to each other. (Refuted for a symmetric matrix stored by one triangle inside of a general matrix.)", "quantifier": "all matrices built from the supported classes, all offsets and target arrays", "why_tests_cant": "unbounded nesting and sizes; out-of-bounds writes", "anchors": ["src/LinAlg/TMatrices/IpTripletHelper.cpp"]}
{"id": "C57", "title": "Function values, derivatives and infeasibilities belong to the present iterates", "statement": "After any history of questions, new trial points, accepted points, changed barrier parameters, moved bounds and forgotten results, objective, gradient, constraints, Jacobians, Hessian, Jacobian products, primal infeasibility and violation of the original bounds that are reported for the current or trial iterate are those of the values this iterate has now; asking changes neither iterates nor any existing vector.", "quantifier": "all histories, all problems", "why_tests_cant": "depends on arbitrarily long histories of cached results", "anchors": ["src/Algorithm/IpIpoptCalculatedQuantities.cpp: curr_f, trial_f, curr_grad_f, curr_c, curr_d, curr_jac_c, curr_exact_hessian, curr_primal_infeasibility, unscaled_curr_orig_bounds_violation"]}
{"id": "C58", "title": "The gradient of the Lagrangian and the dual infeasibility belong to the present iterates", "statement": "In every history the reported gradient of the Lagrangian (with and without damping) and the scaled and unscaled dual infeasibility are those of the present iterate, if the objective does not depend on the barrier parameter or the barrier parameter stays the same. (Refuted for an objective that depends on mu, as in the restoration phase: after a change of mu the old gradient is reported.)", "quantifier": "all histories, all problems", "why_tests_cant": "depends on histories of cached results", "anchors": ["src/Algorithm/IpIpoptCalculatedQuantities.cpp: curr_grad_lag_x, curr_grad_lag_with_damping_x, curr_dual_infeasibility, unscaled_curr_dual_infeasibility"]}
{"id": "C59", "title": "Barrier function, complementarity and the optimality errors are what the documentation says", "statement": "In every history with interior iterates and unchanged bounds, slacks, barrier function with damping, its gradient (the true derivative), directional derivative, complementarity, centrality, Sigma, constraint violation, and the overall, unscaled, barrier and primal-dual errors have their documented values at the present iterate. (Refuted when bounds are moved: the constraint violation is that of the old bounds.)", "quantifier": "all histories, problems and options in range", "why_tests_cant": "real-valued, history dependent", "anchors": ["src/Algorithm/IpIpoptCalculatedQuantities.cpp: curr_slack_x_L, curr_barrier_obj, curr_grad_barrier_obj_x, curr_complementarity, curr_centrality_measure, curr_nlp_error, unscaled_curr_nlp_error, curr_barrier_error, curr_primal_dual_system_error"]}
{"id": "C60", "title": "Step sizes are the largest that respect the fraction to the boundary", "statement": "primal_frac_to_the_bound, dual_frac_to_the_bound and uncached_slack_frac_to_the_bound return the largest step in [0,1] after which every slack or multiplier keeps the fraction 1-tau of its value; with tau<1 no slack becomes zero or negative.", "quantifier": "all iterates, directions, tau in [0,1], histories", "why_tests_cant": "real-valued, any dimension, cached", "anchors": ["src/Algorithm/IpIpoptCalculatedQuantities.cpp: primal_frac_to_the_bound, dual_frac_to_the_bound, uncached_slack_frac_to_the_bound, CalcFracToBound", "src/LinAlg/IpDenseVector.cpp: FracToBoundImpl"]}
{"id": "C61", "title": "Slacks that are too small are corrected as documented", "statement": "A slack below machine precision times min(1,mu) is replaced by min(max(mu/multiplier, that limit), slack+slack_move*max(1,|bound|)), all other slacks stay; the result is positive, not smaller than before, and the number of corrections is reported. (Asking a second time reports zero corrections.)", "quantifier": "all vectors, bounds, multipliers, mu", "why_tests_cant": "real-valued, any dimension", "anchors": ["src/Algorithm/IpIpoptCalculatedQuantities.cpp: CalculateSafeSlack, trial_slack_x_L, AdjustedTrialSlacks"]}
{"id": "C62", "title": "An accepted point with corrected slacks is strictly inside the moved bounds", "statement": "If the slacks of a new trial point are asked for once and the point is then accepted, the bounds in use have been moved so that the point is strictly inside, outwards only, at most by slack_move*max(1,|bound|) beyond the point, not at all where the slack was large enough, and every later reported slack is the distance to the moved bound. (Refuted if some slack is asked for twice: the bounds stay, the reported slack is positive while the point is on its bound.)", "quantifier": "all histories, problems and trial points", "why_tests_cant": "history dependent, real-valued", "anchors": ["src/Algorithm/IpIpoptAlg.cpp: AcceptTrialPoint", "src/Algorithm/IpIpoptCalculatedQuantities.cpp: trial_slack_x_L, CalculateSafeSlack", "src/Algorithm/IpOrigIpoptNLP.cpp: AdjustVariableBounds"]}
{"id": "C63", "title": "The reduction to the augmented system loses nothing", "statement": "The right-hand side handed to the linear solver and the back substitution are equivalent to the full eight-block primal-dual system: an exact answer gives an exact solution, every solution comes from one, and for any answer whatsoever the linearised complementarity conditions hold exactly and the remaining rows are off by exactly what the solver's answer is off.", "quantifier": "all matrices, perturbations, right-hand sides, solver answers, dimensions", "why_tests_cant": "algebraic identity over all data", "anchors": ["src/Algorithm/IpPDFullSpaceSolver.cpp: SolveOnce", "src/LinAlg/IpExpansionMatrix.cpp: AddMSinvZImpl, SinvBlrmZMTdBrImpl"]}
{"id": "C64", "title": "Residuals and iterative refinement", "statement": "The residual is (system matrix with the current perturbations)*solution - rhs, zero exactly for solutions; with an exact linear solver one refinement step leads from any point to a solution, and Solve returns alpha*solution+beta*old value after exactly min_refinement_steps refinement steps without pretending singularity.", "quantifier": "all systems, starting vectors, handlers, options", "why_tests_cant": "algebra and loop over arbitrary solvers", "anchors": ["src/Algorithm/IpPDFullSpaceSolver.cpp: ComputeResiduals, Solve, SolveOnce"]}
{"id": "C65", "title": "What a successful linear solve guarantees", "statement": "Whatever the linear solver answers, if Solve returns true then the residual is within residual_ratio_max, or more than min_refinement_steps refinement steps were made and either it is below residual_ratio_singular with all quality improvements used up, or the system has been treated as singular once. (Refuted: that residual_ratio_singular always holds; that alpha=0 gives 0*solution+beta*old.)", "quantifier": "all solvers, handlers, systems, options in range", "why_tests_cant": "quantifies over all behaviours of the linear solver", "anchors": ["src/Algorithm/IpPDFullSpaceSolver.cpp: Solve, ComputeResidualRatio"]}
{"id": "C66", "title": "A linear solve is bounded work", "statement": "Solve makes at most three passes and at most max_refinement_steps+1 refinement steps in each, at least min_refinement_steps in total when it succeeds, always returns if the single solves do, and reports failure only if a single solve failed. (Refuted: that max_refinement_steps is never exceeded.)", "quantifier": "all solvers, handlers, systems, options in range", "why_tests_cant": "termination over all behaviours of the linear solver", "anchors": ["src/Algorithm/IpPDFullSpaceSolver.cpp: Solve, SolveOnce"]}
{"id": "C67", "title": "Directions come from matrices with checked inertia", "statement": "After any history of calls, a successful Solve used a perturbed matrix for which the linear solver has confirmed the number of negative eigenvalues (unless the curvature test replaces this check), as long as no earlier call with the same matrix failed. (Refuted without this proviso: after a failure the same matrix is used unchecked.)", "quantifier": "all call histories, solvers, handlers", "why_tests_cant": "history dependent", "anchors": ["src/Algorithm/IpPDFullSpaceSolver.cpp: SolveOnce"]}
{"id": "C68", "title": "The search direction is the Newton step for the barrier problem", "statement": "ComputeSearchDirection returns, given exact linear solves, the Newton step of the perturbed primal-dual equations at the present iterate (with Mehrotra's second-order terms if asked for); a direction that is already there is kept or improved as requested; at a feasible point without constraint regularisation the slope of the barrier function along the step is minus the quadratic form, so it is a descent direction whenever that form is positive.", "quantifier": "all problems, iterates, barrier parameters, Hessians, histories of cached quantities", "why_tests_cant": "algebra over all data", "anchors": ["src/Algorithm/IpPDSearchDirCalc.cpp: ComputeSearchDirection", "src/Algorithm/IpPDFullSpaceSolver.cpp", "src/Algorithm/IpIpoptCalculatedQuantities.cpp"]}
{"id": "C69", "title": "The linear solver always gets the matrix of the present arguments", "statement": "In any sequence of calls of the augmented system solver (arguments may be NULL, objects may change, come back, or be replaced) the matrix handed to the symmetric linear solver represents the augmented system of this call's arguments; it is the same matrix object as in the previous call exactly if nothing was changed (then the factorisation may be reused), otherwise a new one; right-hand sides, answers and status are passed through.", "quantifier": "all call histories, arguments, right-hand sides, linear solvers", "why_tests_cant": "depends on arbitrarily long histories and object identities", "anchors": ["src/Algorithm/IpStdAugSystemSolver.cpp: MultiSolve, CreateAugmentedSpace, CreateAugmentedSystem, AugmentedSystemRequiresChange"]}
{"id": "C70", "title": "Least-square multipliers minimise the gradient of the Lagrangian", "statement": "The estimates of the constraint multipliers are either zero or, given exact linear solves, minimise the Euclidean norm of the gradient of the Lagrangian over all multipliers for the given bound multipliers, with no entry larger than constr_mult_init_max; nothing else of the point is changed.", "quantifier": "all problems, points, solvers", "why_tests_cant": "optimality over all multiplier vectors", "anchors": ["src/Algorithm/IpLeastSquareMults.cpp: CalculateMultipliers", "src/Algorithm/IpDefaultIterateInitializer.cpp: least_square_mults"]}
{"id": "C71", "title": "Least-square initialisation of all dual variables", "statement": "With least_square_init_duals the computed multipliers make the gradient of the Lagrangian vanish (objective gradient at the pushed starting point, Jacobians at the user's point) and have the smallest bound multipliers among all that do. (Refuted: that gradient and Jacobian belong to the same point.)", "quantifier": "all problems, points, exact solvers", "why_tests_cant": "optimality over all multiplier vectors", "anchors": ["src/Algorithm/IpDefaultIterateInitializer.cpp: CalculateLeastSquareDuals"]}
{"id": "C72", "title": "Least-square initialisation of the primal variables", "statement": "With least_square_init_primal the computed (x,s) is the smallest with J_c x + c(x0) = 0, J_d x + d(x0) = s; it satisfies the constraints linearised at x0 if x0 = 0. (Refuted: that it satisfies them for every x0, as documented.)", "quantifier": "all problems, user points, exact solvers", "why_tests_cant": "optimality over all points", "anchors": ["src/Algorithm/IpDefaultIterateInitializer.cpp: CalculateLeastSquarePrimals"]}
{"id": "C73", "title": "The starting point has positive bound multipliers and bounded constraint multipliers", "statement": "Whatever the linear solver answers, the initial x is the pushed user point (or the pushed least-square point if asked for), s is the pushed d(x), all bound multipliers are positive, and without least_square_init_duals all constraint multipliers are at most constr_mult_init_max in magnitude.", "quantifier": "all problems, options, linear solver behaviours", "why_tests_cant": "quantifies over all solver answers", "anchors": ["src/Algorithm/IpDefaultIterateInitializer.cpp: SetInitialIterates, CalculateLeastSquareDuals, least_square_mults"]}
{"id": "C74", "title": "The linear systems of the restoration phase are solved through those of the original problem", "statement": "Given a solver of the original problem's augmented system whose successful answers are solutions, the successful answers of the restoration system solver solve the augmented system of the restoration problem (with the slack variables n, p), every solution of the larger system arises this way, and an unsuccessful call writes nothing. (Refuted: the same when a D_d term is given, and when the Hessian factor is 0 - the D_R^2 part of the Hessian is not multiplied by it, so least-squares multipliers in the restoration phase are weighted with I + D_R^2.)", "quantifier": "all systems with nonzero diagonal entries for n and p, all right-hand sides and solvers", "why_tests_cant": "equivalence of linear systems of all sizes", "anchors": ["src/Algorithm/IpAugRestoSystemSolver.cpp: Solve, Neg_Omega_c_plus_D_c, Neg_Omega_d_plus_D_d, Sigma_tilde_*_inv, D_x_plus_wr_d, Rhs_cR, Rhs_dR"]}
{"id": "C75", "title": "The restoration problem and its derivatives", "statement": "The functions of the restoration NLP are rho*sum(n+p) + eta(mu)/2*||D_R(x-x_R)||^2 and c(x)+n_c-p_c, d(x)+n_d-p_d; gradient, Jacobians, transposed products and Hessian of the Lagrangian are the derivatives of these functions whenever those of the original problem are right; minimising over n, p >= 0 for fixed x, s gives rho times the l1 norm of the constraint violation plus the proximity term.", "quantifier": "all problems, points, directions, multipliers, reference points, mu", "why_tests_cant": "derivatives and minima over all points", "anchors": ["src/Algorithm/IpRestoIpoptNLP.cpp: f, grad_f, c, d, jac_c, jac_d, h, Eta"]}
{"id": "C76", "title": "The restoration phase starts strictly feasible and on the central path for n and p", "statement": "The first iterate of the restoration phase has x and s of the current iterate, positive n and p for which the restoration constraints hold, multipliers of n and p with z*n = mu, other bound multipliers cut at rho, mu the maximum of the current mu and the constraint violations; and n, p minimise the barrier function for the given x, s.", "quantifier": "all problems, iterates, mu > 0, rho > 0 (exact arithmetic)", "why_tests_cant": "optimality over all n, p", "anchors": ["src/Algorithm/IpRestoIterateInitializer.cpp: SetInitialIterates, solve_quadratic"]}
{"id": "C77", "title": "What a finished restoration phase leaves behind", "statement": "After success the trial point has the restored x and s, positive bound multipliers (all 1, or the old ones plus the largest common step in [0,1] of the linearised complementarity that keeps the fraction 1-tau and none above bound_mult_reset_threshold), constraint multipliers zero or least-squares and at most constr_mult_reset_threshold; after failure the current iterate is the last one of the restoration phase; 'converged to a feasible point' is only reported with infeasibility at most the threshold, 'locally infeasible' only otherwise or on the inner solver's word, the limits and user stops under their own names. (Refuted: 'square problem solved' after a successful restoration means the restored point meets constr_viol_tol - the point before the restoration is tested.)", "quantifier": "all results of the inner solver, iterates, options, linear solvers", "why_tests_cant": "all outcomes and iterates", "anchors": ["src/Algorithm/IpRestoMinC_1Nrm.cpp: PerformRestoration, ComputeBoundMultiplierStep"]}
{"id": "C78", "title": "The barrier parameter of the adaptive strategy stays in its range", "statement": "With mu_strategy=adaptive, the barrier parameter is positive after every call of the update; when it is set in free mode or at a switch to fixed mode it is at most mu_max (the user's value, or mu_max_fact times the average complementarity at the first call) and at least mu_min (or mu_max, if that is smaller); in fixed mode it changes only when the barrier problem is solved to barrier_tol_factor*mu or after a tiny step, to max(min(linear*mu, mu^power), tolerance/(barrier_tol_factor+1)); the fraction-to-the-boundary parameter is between tau_min and 1. (Refuted: it never goes below the mu_min the user set - reductions in fixed mode ignore it; after a reduction in fixed mode tau is max(tau_min, 1-mu) for the new mu.)", "quantifier": "all histories of calls, iterates, options within the registry, values returned by the oracles", "why_tests_cant": "invariant of all histories of calls", "anchors": ["src/Algorithm/IpAdaptiveMuUpdate.cpp: UpdateBarrierParameter, NewFixedMu, lower_mu_safeguard, min_ref_val, max_ref_val, InitializeImpl"]}
{"id": "C79", "title": "Free and fixed mode of the adaptive strategy", "statement": "After a call the mode is free exactly if the iterate made enough progress over the points accepted in free mode before, no tiny step was detected and (in free mode) the line search was not skipped. With kkt-error, the error at the points accepted falls geometrically, so that below every eps>0 it gets after a number of accepted points that is the same for all runs; with obj-constr-filter every accepted point improves on every earlier one, in objective or violation, by the margin; never-monotone-mode never leaves free mode. The line search is reset at each change of mu, the iterate changes only at a switch to fixed mode with adaptive_mu_restore_previous_iterate, to the point accepted last. No undefined behaviour if adaptive_mu_kkterror_red_iters >= 1 and the first call is neither after a tiny nor a skipped step. (Refuted for adaptive_mu_kkterror_red_iters = 0, which the registry admits.)", "quantifier": "all histories of calls, iterates, progress measures, options", "why_tests_cant": "histories of any length", "anchors": ["src/Algorithm/IpAdaptiveMuUpdate.cpp: CheckSufficientProgress, RememberCurrentPointAsAccepted, CheckSkippedLineSearch, quality_function_pd_system"]}
{"id": "C80", "title": "The golden section search of the quality function oracle", "statement": "The centering parameter found lies in the interval searched, with at most quality_function_max_section_steps+3 evaluations, all inside the interval; for a unimodal quality function it is within max(section_sigma_tol*sigma_up, ((sqrt 5-1)/2)^steps*(sigma_up-sigma_lo)) of the minimiser (with qf_tol 0); it is the best of the points evaluated if the values passed for the ends are right or unknown; the barrier parameter is in [mu_min, mu_max] if the limits for sigma enclose 1. (Refuted: in general - the oracle returns more than mu_max or less than mu_min; the sigma found is no worse than sigma=1, where the function has been evaluated; the value passed for the upper end is the value there.)", "quantifier": "all quality functions, intervals, tolerances, step limits (exact arithmetic)", "why_tests_cant": "all functions and iteration counts", "anchors": ["src/Algorithm/IpQualityFunctionMuOracle.cpp: CalculateMu, PerformGoldenSection"]}
{"id": "C81", "title": "The LOQO rule", "statement": "The barrier parameter of mu_oracle=loqo is in [mu_min, mu_max]; its centering parameter is between 0 and 0.8, falls as the complementarity products get more uniform, and for perfectly uniform complementarity the barrier parameter is mu_min.", "quantifier": "all average complementarities and centrality measures", "why_tests_cant": "all real inputs", "anchors": ["src/Algorithm/IpLoqoMuOracle.cpp: CalculateMu"]}
{"id": "C82", "title": "The probing oracle", "statement": "With mu_oracle=probing, the step computed is the Newton step for the barrier parameter zero at the current iterate (also after a perturbation of the system, for the perturbed system; with the linear solver of the algorithm); the barrier parameter returned is max(mu_min, min(mu_max, avg * min(sigma_max, (avg_aff/avg)^3))), where avg is the average complementarity now and avg_aff that of the point the largest admissible steps of that direction lead to, whose slacks and multipliers are nonnegative; it is in [mu_min, mu_max] and at most max(mu_min, sigma_max*avg). For equal steps alpha, avg_aff is (1-alpha)*avg plus the second order term; if the full step is admissible and the second order terms cancel, the answer is mu_min. The oracle fails exactly if the linear solve fails.", "quantifier": "all problems, iterates with positive slacks and multipliers, steps, options (exact arithmetic)", "why_tests_cant": "all iterates and directions of any dimension", "anchors": ["src/Algorithm/IpProbingMuOracle.cpp: CalculateMu, CalculateAffineMu"]}
{"id": "C83", "title": "The quality function", "statement": "With mu_oracle=quality-function, the affine step is the Newton step for barrier parameter zero and the step handed to the line search is the Newton step for the barrier parameter returned. For every centering parameter the value of the quality function is that of the point reached from the iterate by the Newton step for sigma*avg with the largest step lengths that satisfy the fraction-to-the-boundary rule: norm of the linearised dual and primal infeasibility, the exact complementarity and the exact centrality there, combined as the options say; the value is positive; for affine linear problems it is the quality of the new point itself. Returned mu is in [mu_min, mu_max] if the limits for sigma enclose 1. (Refuted: for nonlinear problems the infeasibilities are those of the new point.)", "quantifier": "all problems, iterates, centering parameters, norms, centrality and balancing terms (no damping and no perturbation of the system for the value; exact arithmetic)", "why_tests_cant": "all iterates and centering parameters", "anchors": ["src/Algorithm/IpQualityFunctionMuOracle.cpp: CalculateMu, CalculateQualityFunction"]}
{"id": "C84", "title": "Solutions of the symmetric linear solver are solutions of the matrix given", "statement": "After any sequence of cold or warm initializations, solves and quality increases, a solve that returns SYMSOLVER_SUCCESS leaves in every solution vector the exact solution of the given symmetric matrix for the corresponding right hand side: the matrix as assembled from the (possibly duplicate) triplets, in whatever storage format the sparse solver asks for, with or without (on demand) scaling, also if the solver asked to be called again. No array is accessed outside of its bounds.", "quantifier": "all histories, matrices in triplet form, right hand sides, storage formats, scaling methods with nonzero factors, sparse solvers that do what their interface documents (exact arithmetic)", "why_tests_cant": "all histories of the object and all matrices", "anchors": ["src/Algorithm/LinearSolvers/IpTSymLinearSolver.cpp: InitializeImpl, MultiSolve, InitializeStructure, GiveMatrixToSolver, IncreaseQuality", "src/Algorithm/LinearSolvers/IpTripletToCSRConverter.cpp"]}
{"id": "C85", "title": "Protocol between the symmetric linear solver and the sparse solver", "statement": "In any history the sparse solver is told the structure before it is given values or asked to solve; the values are complete and are written directly before every solve for a new matrix and again before it is called again; a solve that reuses the factorization only follows an answer that allows it. A factorization is asked for exactly if the matrix is not the one of the last solve or scaling has been switched on since; the structure is told exactly once after an initialization.", "quantifier": "all histories of initializations, solves and quality increases", "why_tests_cant": "all call histories", "anchors": ["src/Algorithm/LinearSolvers/IpTSymLinearSolver.cpp: MultiSolve, InitializeStructure, GiveMatrixToSolver, IncreaseQuality", "src/Algorithm/LinearSolvers/IpSparseSymLinearSolverInterface.hpp"]}
{"id": "C86", "title": "Slack-based scaling factors", "statement": "With linear_system_scaling=slack-based, the scaling factor of every row of the augmented system that belongs to a bounded slack is min(1, slack) (the sum of the slacks if both bounds exist), positive and at most 1, and 1 for all other rows of x, y_c, y_d. (Refuted: the factors are nonzero if an inequality has no bound.)", "quantifier": "all dimensions, sets of bounded slacks and positive slacks", "why_tests_cant": "all dimensions and slack values", "anchors": ["src/Algorithm/LinearSolvers/IpSlackBasedTSymScalingMethod.cpp: ComputeSymTScalingFactors"]}
{"id": "C87", "title": "The MA27 interface", "statement": "The MA27 interface fulfils what the symmetric linear solver assumes of a sparse solver, if the Fortran routines do what they document: after any history, also with enlarged work spaces, changed pivot tolerance, calls repeated and warm starts, a solve that reports success returns exact solutions for the matrix given last; the Fortran routines never work on an array shorter than they are told. (Refuted: also after a warm start that follows an exception between writing the values and factorizing.)", "quantifier": "all histories, matrices, work space sizes, answers of the Fortran routines, right hand sides (ignore_singularity=no; exact arithmetic)", "why_tests_cant": "all call histories and all answers of the factorization", "anchors": ["src/Algorithm/LinearSolvers/IpMa27TSolverInterface.cpp: InitializeImpl, MultiSolve, GetValuesArrayPtr, InitializeStructure, SymbolicFactorization, Factorization, Backsolve, IncreaseQuality"]}
{"id": "C88", "title": "The reduced problem: sizes, bounds, scaling, starting point", "statement": "A TNLPReducer in C style presents, in every state it can reach, exactly the problem without the given constraints and bounds: number of constraints and of Jacobian entries, bounds of the kept constraints, variable bounds removed where asked, variables fixed at their starting value, scaling, linearity and starting multipliers of the kept constraints; no array is accessed outside. (Refuted: for TNLPs in Fortran style; for lists with duplicates; for a second get_nlp_info after eval_jac_g failed in the first.)", "quantifier": "all TNLPs, all lists of constraints, bounds, fixed variables without duplicates, all call histories", "why_tests_cant": "all problems and lists", "anchors": ["src/Interfaces/IpTNLPReducer.cpp: TNLPReducer, get_nlp_info, get_bounds_info, get_scaling_parameters, get_constraints_linearity, get_starting_point"]}
{"id": "C89", "title": "The reduced problem: function values and derivatives", "statement": "Constraint values of the reduced problem are the values of the kept constraints, from one call of the original function with the same arguments; Jacobian structure and values, asked for at any time, together are the Jacobian of the kept constraints (also with duplicate entries); the Hessian of the Lagrangian is the original one with multiplier zero for the constraints left out, and with these multipliers the Lagrangians agree.", "quantifier": "all TNLPs in C style, lists, points, multipliers, call histories", "why_tests_cant": "all problems, points and lists", "anchors": ["src/Interfaces/IpTNLPReducer.cpp: eval_g, eval_jac_g, eval_h"]}
{"id": "C90", "title": "The reduced problem: final answer", "statement": "The original TNLP's finalize_solution is called once, with the final point, bound multipliers and objective value unchanged, the values of all its constraints at that point, and multipliers that are those found for the kept constraints and zero for the others.", "quantifier": "all TNLPs in C style, lists, final points and multipliers", "why_tests_cant": "all problems and lists", "anchors": ["src/Interfaces/IpTNLPReducer.cpp: finalize_solution"]}
{"id": "C91", "title": "A warm start begins strictly inside the bounds", "statement": "With warm_start_init_point=yes, whatever point and multipliers the user hands in: every variable and slack begins at the nearest point (if warm_start_target_mu is off) with the distance from its bounds that the options ask for, hence strictly inside; bounds are unchanged; bound multipliers are limited by warm_start_mult_init_max and then at least warm_start_mult_bound_push; constraint multipliers are moved to the nearest values in [-warm_start_mult_init_max, warm_start_mult_init_max]; without a full iterate slacks are the constraint values, v_L and v_U the parts of y_d. An option that is set is used. (Refuted: one that is not set has its documented default 1e-3; it has the value of bound_push or bound_frac.)", "quantifier": "all numbers of variables and constraints, bounds, given iterates, option values", "why_tests_cant": "all inputs", "anchors": ["src/Algorithm/IpWarmStartIterateInitializer.cpp: InitializeImpl, SetInitialIterates"]}
{"id": "C92", "title": "warm_start_target_mu", "statement": "With warm_start_target_mu > 0, slack and multiplier of every bound of a variable with one bound (slack not below the safeguard) are changed to positive numbers whose product is the target; the larger of the two is kept if it is more than 10000 times the other and remains the larger one, otherwise both become the root of the target; the point pushed away from the bounds keeps the product if the push does not act. (Refuted for variables with two bounds: only the upper one is on target.)", "quantifier": "all inputs, option values", "why_tests_cant": "all inputs", "anchors": ["src/Algorithm/IpWarmStartIterateInitializer.cpp: process_target_mu, adapt_to_target_mu, SetInitialIterates"]}
{"id": "C93", "title": "Bounds as inequalities: the same problem", "statement": "The problem that NLPBoundsRemover presents has no bounds on variables, the same feasible points, and equivalent first-order optimality conditions: the multipliers that finalize_solution is given (z_L with changed sign, z_U, y_d) satisfy the conditions of the original problem exactly if those of the inequalities satisfy the conditions of the problem presented. (Refuted: starting multipliers z_L are passed on without the change of sign.)", "quantifier": "all problems, positions and values of bounds, points and multipliers", "why_tests_cant": "all problems and points", "anchors": ["src/Algorithm/IpNLPBoundsRemover.cpp: GetSpaces, GetBoundsInformation, Eval_d, Eval_jac_d, GetStartingPoint, FinalizeSolution"]}
{"id": "C94", "title": "Bounds as inequalities: scaling and admission", "statement": "A bound turned into an inequality has the user's scaling factor of its variable (1 if only constraints are scaled); no scaling is reported if the user gives none. A problem is refused (INVALID_NLP) exactly if two-sided inequalities are not allowed and some inequality does not have exactly one bound.", "quantifier": "all problems, scalings, bounds", "why_tests_cant": "all problems", "anchors": ["src/Algorithm/IpNLPBoundsRemover.cpp: GetScalingParameters, GetBoundsInformation"]}
