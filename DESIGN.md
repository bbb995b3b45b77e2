# Formal model of coin-or/Ipopt in Rocq (Coq 8.16.1)

Sources: `/repo` (pinned commit, read as text only). Development: `rocq/theories`.

## 1. Layout

For each area `X` there are up to three files:

* `XModel.v`  – executable Gallina definitions, function by function, each with a comment citing
  file and lines in `/repo` and naming every simplification;
* `XProofs.v` – lemmas;
* `XProps.v`  – the property theorems only: a small independent specification (if needed), the
  theorem statements, each closed by `exact lemma`, a non-vacuity `Example` beside each, and
  `Print Assumptions`.

`Num.v` is the shared number model.

## 2. Numbers

`Number` is `double` (IpTypes.h). Two number models are used, and each model file says which one:

* **binary64**: `Num.num := binary_float 53 1024` (Flocq `BinarySingleNaN`), with the IEEE-754
  operations rounding to nearest even, and the C++ comparison operators (`<`, `<=`, `==` false on
  NaN). It is used for decision logic (filter, tolerances, option ranges, ...), so that NaN,
  infinities, signed zeros and rounding are in the model.
* **reals** `R`: used where the English property is about exact arithmetic (sums, norms, step
  lengths). Rounding is then not modelled and the theorem is about exact arithmetic; this is said
  in the model file and in the MANIFEST note.
* Models in which no law of arithmetic is needed are polymorphic in an arbitrary record of
  operations, so that the theorem holds for IEEE arithmetic as well.

`Index` is `int`; models use `nat`/`Z` (no overflow) unless the property is about wrap-around.

## 3. Plan per property

| id | model | proof |
|----|-------|-------|
| C01, C02 | `Filter`: list of entries over binary64; `Acceptable`, `Dominated`, `AddEntry`, `Clear` | invariant over the history: stored entries are a dominating subset of the history |
| C03–C06 | `Cache`: heap of tagged objects, tags with `mod 2^32`, observers' and subjects' lists, caches | state-machine invariant by induction over operation lists |
| C07 | `SmartPtr`: heap of counters, pointer variables | invariant count = number of pointers |
| C08–C12 | `Options`: finite map from lower-cased names, registered options, tokenizer on byte lists, `%g`/`strtol` text conversion | refinement to a map from names to values; round trips; refutations by computation |
| C13 | `Csr`: sorting, compression loop, full-format loop, `ConvertValues` over arrays as lists | loop invariants; result equals matrix semantic of the triplets |
| C14, C15 | `Perturb`: the handler's state machine over binary64, `pow` as an oracle | invariant + strict increase |
| C16–C18 | `ConvCheck`, `MainLoop` | decision rule; induction over iterations |
| C19 | `MonotoneMu` | invariant, loop with well-founded argument |
| C20, C23, C24 | `DenseVec`, `CompoundVec` | refinement to plain lists |
| C21, C22 | `Ls` (acceptor and backtracking line search as one state machine; evaluations, directions, restoration as an environment) | decision rule; invariant over histories of calls |
| C37 | same | fuel is enough: step sizes leave the representable range; divergence by a fixed point |
| C38–C40 | same | invariant over histories |
| C25 | `Expansion` | loops over index lists |
| C26–C28 | `Adapter` | loops over index lists, permutation/bijection |
| C43 | `Adapter` over reals | sum over the fixed columns |
| C41, C42, C44 | `AdEval`: evaluation caches of the adapter as a state machine with a log of user calls | invariant over histories of calls; refutations |
| C29, C45 | `Status` | finite case analysis |
| C30–C32, C46, C47 | `Init`: push_variables, relax_bounds, CalculateSafeSlack, AcceptTrialPoint, correct_bound_multiplier, honor_original_bounds; polymorphic in the numbers | exact reals for distances, binary64 for signs and bounds; refutations by witness |
| C33, C48, C49 | `Scal`: StandardScalingBase apply/unapply, gradient-based and user factors, OrigIpoptNLP evaluation/start/finalize, ScaledMatrix, SymScaledMatrix, unscaled error measures | exact reals, derivatives along directions; binary64 for the factors and the unscaled case; refutations by witness |
| C34, C50 | `Jrn`: Journalist, Journal, FileJournal, application's Initialize/OpenOutputFile, PrintStringOverLines with its buffer | refinement to a specification over histories; induction over the text |
| C35, C51, C52 | `Lm`: LimMemQuasiNewtonUpdater with its incrementally updated arrays, LowRankUpdateSymMatrix product | data = history of pairs (invariant over all sequences of iterates); compact representation = BFGS recursion (`LmCompact`); Cholesky in exact arithmetic constructed in `LmChol` so that the assumption on LAPACK is met |
| C36, C53 | `CI`: C interface and StdInterfaceTNLP over a memory with addresses; the solver, the callbacks and the caller are an arbitrary list of events | refinement to a machine over values (invariant: every allocated block has exactly one owner), corollaries over histories |
| C54, C55 | `Mat`: one inductive type of matrices with all classes of src/LinAlg except the dense ones; products and fused operations with checked array accesses | entries defined separately (`den`), shapes (`conf`); one induction over the matrix for products, one for each fused operation |
| C56 | `Trip`: GetNumberEntries, FillRowCol, FillValues, FillValuesFromVector, PutValuesInVector for all classes, on arrays with checked accesses | one list of triplets per matrix; every loop writes a segment of it; sums of the triplets give the entries `den` of C54 |
| C57–C60 | `CQ`: every quantity of IpIpoptCalculatedQuantities.cpp with its caches (sizes, keys, curr/trial cross lookups), a store of tagged vectors | formulas in `CQSpec`; an invariant saying what each cache entry means, preserved by every question and every step of a history; barrier gradient checked against derivable_pt_lim |
| C61, C62 | `CQSlack`, `CQAcc`: CalculateSafeSlack element by element; the bound adjustment of AcceptTrialPoint | symbolic execution of the four slack questions from a state without cached slacks; concrete counterexample for a second question |
| C63, C64 | `PdModel`: right hand side, back substitution, residual on the vectors and matrices of `CQModel` | block elimination with finite sums; linearity of the Newton operator |
| C65-C67 | `PdModel`: Solve, SolveOnce, perturbation loop with an arbitrary solver and handler (state machines), ghost trace | induction over the fuel of the three nested loops; invariants on the trace; concrete 1x1 counterexamples |
| C68 | `PdSearch`: ComputeSearchDirection on the answers of `CQModel` | linear algebra; transposition of sums |
| C69 | `AugModel`: StdAugSystemSolver with tags over an arbitrary linear solver | invariant over call histories |
| C70-C73 | `AugModel`: LeastSquareMultipliers, DefaultIterateInitializer over an arbitrary augmented system solver | normal equations; adjoint identity |
| C74 | `RstModel`: AugRestoSystemSolver over an arbitrary solver | Schur complement, row by row, both directions |
| C75 | `RstModel`: RestoIpoptNLP over the original NLP | expansion along lines; `derivable_pt_lim` |
| C76 | `RstModel`: RestoIterateInitializer | quadratic formula; concavity of ln |
| C77 | `RstModel`: PerformRestoration for every result of the inner algorithm | case analysis, fraction to the boundary, C70 |
| C78 | `AmuModel`: AdaptiveMuUpdate over arbitrary problem quantities and oracles | invariant of the histories of calls |
| C79 | `AmuModel`: progress checks, reference values, accepted point | same invariant: lists of references are the last accepted points; geometric decay by strong induction |
| C80 | `AmuModel`: golden section over an arbitrary function | bracket invariant (width, bracketing of the minimiser, best value) |
| C81 | `AmuModel`: LOQO formula | real arithmetic |
| C82 | `QfModel`: ProbingMuOracle over the linear solver and the quantities of `CQ` | linearity of the Newton system; fraction-to-the-boundary lemmas; sums over all bounds |
| C83 | `QfModel`: QualityFunctionMuOracle::CalculateMu, CalculateQualityFunction | the combined step is a Newton step by linearity, so the infeasibilities scale; measures of scaled families |
| C84 | `TsModel`: TSymLinearSolver over an abstract sparse solver and scaling method; CsrModel for the conversion | invariant over all histories: what the values last written denote; scaling D A D and unscaling; CSR correctness of C13 |
| C85 | the same model with a log of calls | invariant on the log |
| C86 | `TsModel.slack_factors`: SlackBasedTSymScalingMethod | positions of the expansion matrices |
| C87 | `Ma27Model`: Ma27TSolverInterface over the four Fortran routines, undefined behaviour as an arbitrary function | the wrapper is an instance of the contract of C84 (a_ holds the values / factors of the last matrix; its length is la_ unless a new array is pending) |
| C88 | `TredModel`: TNLPReducer over an arbitrary TNLP with state | the sorted list with a moving pointer is membership; g_keep_map_ numbers the kept constraints; invariant over all calls |
| C89 | the same | scattered values are the kept ones; triplets of row k are those of the k-th kept row |
| C90 | the same | expansion of multipliers |
| C91 | `WarmModel`: WarmStartIterateInitializer on top of `InitModel` | push_variables is a map to the nearest point (C30); clamps |
| C92 | the same | safeguarded slacks are the slacks (C32); case analysis of adapt_to_target_mu |
| C93 | `BremModel`: NLPBoundsRemover on problems given by functions | conditions on appended lists split; stationarity of the appended Jacobian; slack equations give the multipliers of the bounds |
| C94 | the same | sums of columns of expansion matrices count the bounds |

Section 5 (kept up to date) lists what is modelled, what is not, and the findings.

## 4. Trusted base

* Coq 8.16.1 kernel (and `vm_compute`).
* Axioms reported by `Print Assumptions` – only those of Coq's standard library real numbers
  (`ClassicalDedekindReals.sig_forall_dec`, `ClassicalDedekindReals.sig_not_dec`,
  `FunctionalExtensionality.functional_extensionality_dep`) and `Classical_Prop.classic`, used by
  theorems over `R` or over Flocq's binary64. Theorems over lists and integers are closed.
* The reading of the C++ text into Gallina; nothing in `/repo` was executed.

## 5. What is modelled, what is not, and findings

Every definition in the `*Model.v` files cites the lines it models. What follows is the summary.

| area | modelled | not modelled |
|------|----------|--------------|
| `Filter` | Filter, FilterEntry, filter margins | printing |
| `Cache` | TaggedObject, Observer/Subject, CachedResults, dependency lists | threads |
| `SmartPtr` | ReferencedObject, SmartPtr copy/assign/release | weak misuse through raw pointers |
| `Opt` | OptionsList (Set*/Get*, prefix lookup, ReadFromStream), RegisteredOptions ranges, string settings | documentation printing |
| `Csr` | TripletToCSRConverter (both formats, values) | |
| `Perturb` | PDPerturbationHandler | |
| `Conv` | OptimalityErrorConvergenceCheck, main iteration counter | MaxCpuTime clocks are inputs |
| `Mu` | MonotoneMuUpdate | AdaptiveMuUpdate |
| `Vec` | DenseVector, CompoundVector operations | BLAS summation order (a left fold) |
| `Ls` | BacktrackingLineSearch + FilterLSAcceptor | CG-penalty and penalty acceptors, evaluation errors inside corrections are environment inputs |
| `Exp` | ExpansionMatrix | |
| `Ad`, `AdEval` | TNLPAdapter: variable/constraint splitting, structure, evaluation caches, finite differences, finalisation | warm_start_same_structure, dependency detector (an input) |
| `Stat` | IpoptApplication::OptimizeNLP / call_optimize, IpoptAlgorithm::Optimize exits | |
| `Init` | push_variables, bound relaxation, slacks, AcceptTrialPoint, multiplier safeguards | least-square multipliers |
| `Scal` | NLPScaling, gradient-based and user scaling, OrigIpoptNLP scaling of evaluations, unscaled errors | equilibration scaling (MC19) |
| `Jrn` | Journalist, journals, output file options, PrintStringOverLines | printf formatting |
| `CI` | IpStdCInterface.cpp, IpStdInterfaceTNLP.cpp (memory, pointers, callbacks) | option setters (see `Opt`), re-entrant solves, foreign C++ exceptions |
| `Lm` | LimMemQuasiNewtonUpdater (BFGS and SR1, regular phase; BFGS in restoration without special structure) | limited_memory_special_for_resto, reduced space P_LM, rounding |
| `Mat` | GenT, SymT, Diag, Identity, Zero, ZeroSym, Expansion, Scaled, SymScaled, Sum, SumSym, Compound, CompoundSym, Transpose, ExpandedMultiVector, MultiVector, LowRankUpdateSym matrices: products, fused operations | DenseGen/DenseSym matrices, aliasing of operand and target, printing |
| `Trip` | TripletHelper | overlap of the caller's arrays, integer overflow |
| `CQ`, `CQAcc` | all of IpIpoptCalculatedQuantities.cpp with its caches; the bound adjustment in IpoptAlgorithm::AcceptTrialPoint | rounding, output, in-place changes of tagged vectors (iterates are const), division by a zero multiplier |
| `Pd` (IpPDFullSpaceSolver.cpp, IpPDSearchDirCalc.cpp) | Solve, SolveOnce, ComputeResiduals, ComputeResidualRatio, ComputeSearchDirection, all branches incl. quality increase, pretending singularity, negative curvature test, Mehrotra right hand side, improve_solution and allow_inexact | rounding, timing, journal, info strings; the linear solver and the handler are parameters (the handler itself: C14, C15) |
| `Aug` (IpStdAugSystemSolver.cpp, IpLeastSquareMults.cpp, IpDefaultIterateInitializer.cpp) | MultiSolve, CreateAugmentedSystem, AugmentedSystemRequiresChange; CalculateMultipliers; CalculateLeastSquarePrimals/Duals, least_square_mults, SetInitialIterates without warm start | warm_start_same_structure, recalc_y paths, bound_mult_reset, output |
| `Rst` (IpAugRestoSystemSolver.cpp, IpRestoIpoptNLP.cpp, IpRestoIterateInitializer.cpp, IpRestoMinC_1Nrm.cpp) | Solve; f, grad_f, c, d, jac_*, h; SetInitialIterates; PerformRestoration | limited memory Hessian spaces, evaluate_orig_obj_at_resto_trial, least squares multipliers at the start of the restoration, time limits, output |
| `Amu` (IpAdaptiveMuUpdate.cpp, IpQualityFunctionMuOracle.cpp, IpLoqoMuOracle.cpp) | InitializeImpl, UpdateBarrierParameter, CheckSufficientProgress, RememberCurrentPointAsAccepted, NewFixedMu, lower_mu_safeguard, quality_function_pd_system; CalculateMu and PerformGoldenSection over an arbitrary quality function; LOQO CalculateMu | ProbingMuOracle and the evaluation of the quality function (see `Qf`), the Cauchy/cubic centrality variants with their own safeguards, output |
| `Qf` (IpProbingMuOracle.cpp, IpQualityFunctionMuOracle.cpp) | CalculateMu, CalculateAffineMu, CalculateQualityFunction | timing, output, evaluation counter; probing_iteration bookkeeping of AdaptiveMuUpdate (in `Amu`) |
| `Ts` (IpTSymLinearSolver.cpp, IpSlackBasedTSymScalingMethod.cpp) | all functions | timing, output, asserts; GetRhsSol debugging output; NumberOfNegEVals is the solver's |
| `Ma27` (IpMa27TSolverInterface.cpp) | InitializeImpl, MultiSolve, GetValuesArrayPtr, InitializeStructure, SymbolicFactorization, Factorization, Backsolve, IncreaseQuality | bad_alloc; overflow of Index in ComputeMemIncrease; DetermineDependentRows; library loading; printing |
| `Tred` (IpTNLPReducer.cpp) | all functions except those that only hand on their arguments | memory leaks; asserts |
| `Warm` (IpWarmStartIterateInitializer.cpp) | options, SetInitialIterates, process_target_mu, adapt_to_target_mu, over the reals | warm_start_same_structure; rounding; failure of the NLP; output |
| `Brem` (IpNLPBoundsRemover.cpp) | spaces, bounds, d and its Jacobian, starting multipliers, final multipliers, scaling | failing evaluations; Hessian (handed on); rounding |

Findings (places where the code does not do what its documentation or comments say; those marked with
a property number are proved as `_refuted` theorems):

* Line search: `n_filter_resets_` is never incremented; the fallback path may augment the filter with
  stale reference values; in a watchdog the Armijo test uses the current step size because
  `watchdog_alpha_primal_test_` is overwritten; after StopWatchDog `CalculateAlphaMin` uses
  `IpData().delta()` with the stored iterate; the three soft-restoration attempts use the same step;
  backtracking need not end for `alpha_red_factor` 0.9 when alpha_min is 0 (C37).
* Perturbation handler: debug assertions that fail in reachable states.
* Barrier update: MonotoneMuUpdate may change mu without resetting the line search; `mu_init` below
  the lower limit makes mu increase; tau can become 1 for tiny `tol`.
* Convergence: a larger `resto.max_iter` lets the number of iterations exceed `max_iter`.
* Vectors: `AddTwoVectors(0,v1,1,v2,1)` adds `Dim()*v2` for some homogeneous cases; CopyToPos of a
  homogeneous vector copies the target's scalar; ElementWiseSelect is wrong for selectors other than
  -1, 0, 1; compound Max starts from -DBL_MAX; Amax ignores NaN.
* ExpansionMatrix: AddMSinvZ with a homogeneous zero Z skips the division (0/0 is not NaN).
* TNLPAdapter: RELAX_BOUNDS never relaxes fixed variables (C26); x_not_fixed_map partly unset under
  RELAX_BOUNDS; degrees-of-freedom test ignores added constraints; finite differences leave entries of
  kept fixed variables unset; a step at an upper bound may go below the lower bound (C44); full_g of
  dropped constraints can be unset with MAKE_CONSTRAINT; failure of eval_g resets the wrong tag (C41);
  new_x can be false after another point was evaluated (C42); multipliers of fixed variables missing
  at time limits (C45).
* Status: ReOptimizeNLP lets an exception escape; return code and finalize status can disagree; several
  build-phase errors give Unrecoverable_Exception (C29).
* Initialisation: `slack_move=0` leaves a zero slack; second request of trial slacks loses the bound
  correction (C32); rounding can leave the start on a bound (C30); relaxation has no effect for huge
  bounds (C31); honor_original_bounds is inactive for bound_relax_factor=0 (C46).
* Scaling: initial bound multipliers are scaled with dx instead of 1/dx (C49); negative x scaling does
  not swap bounds, objective factor can be zero (C33).
* Journals: SetAllPrintLevels skips user categories, re-opening an output file ignores the level (C34);
  PrintStringOverLines does not end for max_length 1 (C50).
* C interface: CreateIpoptProblem accepts problems that IpoptSolve refuses (no eval_h; no eval_g for m=0;
  any index style) (C36); a callback sees an old point if new_x is wrongly false (C53).
* Limited memory: RecalcY gets S_ instead of D_R S_ in the restoration phase (C51); V_ is not
  recomputed when eta changes; limited_memory_max_history=0 in the restoration phase dereferences a
  null D_; SR1 restores a backup that was never written, a reset does not clear it (C52);
  DenseSymMatrix::ComputeRowAMax reads column-major storage as packed rows.
* Matrices: a block-diagonal CompoundMatrix dereferences an empty block that MatricesValid() allows to be
  missing (C54); IdentityMatrix::AddMSinvZ ignores its factor, SinvBlrmZMTdBr of a "diagonal" compound
  matrix with more block columns than rows reads out of range (C55).
* TripletHelper: a SymTMatrix or CompoundSymMatrix inside of a general matrix (Sum, Scaled, Compound,
  Transpose) is written by one triangle only (C56).
* Calculated quantities: curr_grad_lag_x, curr_grad_lag_with_damping_x, the dual infeasibilities and the errors built
  from them have no mu in their cache keys although the objective may depend on mu (restoration phase): stale after a
  mu change (C58). The slacks are cached by x alone although the correction uses mu, the bounds and multipliers;
  curr_nlp_constraint_violation is stale after AdjustVariableBounds (C59). trial_slack_* sets the number of
  corrections to 0 on every call, also on a cache hit, so a second question makes AcceptTrialPoint skip the bound
  adjustment (C61, C62). Harmless: curr/trial_compl_s_L/s_U call GetCachedResult2Dep where AddCachedResult2Dep is
  meant (2341, 2361, 2381, 2401), curr_barrier_error looks up with mu (3173) and adds without (3193), so neither is
  ever found again.
* PDFullSpaceSolver: max_refinement_steps is exceeded by one step in each pass (C66); after the system has been
  treated as singular any residual is accepted (C65); alpha = 0 leaves the solution unscaled (C65); after a failed
  SolveOnce the matrix stays in dummy_cache_, so the next call with it is solved without inertia check (C67). By
  reading: ComputeResidualRatio divides by zero when the right hand side is 0 and the solution is not (the model keeps
  Inf and NaN apart; NaN only for a zero residual, so the decision is right); the return value of ConsiderNewSystem is
  not looked at; the FATAL_ERROR return skips the End() of a timer.
* DefaultIterateInitializer: least_square_init_primal solves J x = -c(x0), a step from 0, but uses it in place of x0, so
  the linearised constraints hold only if J x0 = 0 (C72 refuted); least_square_init_duals combines the Jacobians of the
  user's point with the objective gradient of the pushed point (C71 refuted) and is not subject to constr_mult_init_max.
* Restoration: AugRestoSystemSolver overwrites the Schur terms with D_d if D_d is given (395; C74 refuted) and multiplies only
  the original part of the Hessian by W_factor, so the least squares multipliers of the restoration phase, which pass
  W_factor = 0, are weighted with I + D_R^2 (C74 refuted). PerformRestoration tests the old current point, not the restored
  trial point, before it reports FEASIBILITY_PROBLEM_SOLVED (C77 refuted). By reading: in floating point the smaller root
  of the quadratic in RestoIterateInitializer can cancel to 0 for a large c*rho/mu.
* Adaptive barrier update: a reduction in fixed mode ignores mu_min (C78 refuted) and sets tau from the old mu (C78
  refuted); adaptive_mu_kkterror_red_iters = 0 is accepted and leads to undefined behaviour at the first call (C79
  refuted). QualityFunctionMuOracle: when sigma_lo >= sigma_up it returns the limit that violates the other one, so mu can
  exceed mu_max (AdaptiveMuUpdate clips it later, but the search direction stored is for the unclipped value); the value
  at 1 - 1e-4 is passed as the value at sigma_up also when mu_max has cut sigma_up (C80 refuted); the result can be worse
  than sigma = 1 (C80 refuted). By reading: the option registered as adaptive_mu_kkt_norm_type is never read
  (quality_function_norm_type is), and the documented default of mu_min differs from the code (0.5*min(tol,
  compl_inf_tol)).
* Quality function oracle (C82, C83): infeasibilities are linearised, so the value is not that of the new point for
  nonlinear problems (C83 refuted); with kappa_d > 0 the damping terms enter the centring right hand side but not the
  predicted dual infeasibility, and a perturbed system does not reduce the infeasibilities by 1-alpha, so the value is exact
  only without both. AdaptiveMuUpdate clips the mu the oracle returns, but the step left in delta is for the unclipped one.
* TSymLinearSolver / MA27 (C84, C85, C87): a matrix whose factorization failed as singular and that is given a second time with
  the same tag is not factorized again; the solver backsolves with what the failed factorization left and reports
  SYMSOLVER_SUCCESS (C84 refuted). The callers in Ipopt always perturb the matrix (a new tag) after SYMSOLVER_SINGULAR.
* MA27: GetValuesArrayPtr replaces the work array by one of nonzeros_ elements when la_increase_ is set, relying on
  Factorization to enlarge it. If the scaling method throws in between and the object is initialized with
  warm_start_same_structure=yes, la_increase_ is reset and ma27b works beyond the end of the array (C87 refuted).
* Slack-based scaling: the factor of a slack without bounds is 0, so the scaled matrix is singular (C86 refuted).
* TNLPReducer (C88): get_nlp_info counts the Jacobian entries with `g_keep_map_[iRow[i]]`, without the offset for Fortran style
  that eval_jac_g uses: for a TNLP in Fortran style whose last constraint has an entry it reads behind the array; otherwise the
  number of nonzeros is wrong and eval_jac_g writes behind the arrays or leaves entries unset (C88 refuted, three theorems).
* TNLPReducer: a constraint listed twice stops the others behind it from being left out; after a failure of eval_jac_g in the
  first get_nlp_info the next one answers true with uninitialized numbers of nonzeros.
* Warm start: the documented defaults (1e-3) of warm_start_bound_push, warm_start_bound_frac, warm_start_slack_bound_push and
  warm_start_slack_bound_frac are never used: unset, they take the values of bound_push and bound_frac (default 1e-2), also the ones
  for slacks, documented as "same as slack_bound_push" (C91_defaults_refuted).
* warm_start_target_mu: for a variable with two bounds the step for the upper bound undoes that for the lower one (C92_two_sided_refuted).
* NLPBoundsRemover: GetStartingPoint writes the user's z_L into y_d without changing the sign, FinalizeSolution does change it: a
  warm start with the multipliers of a solution does not start at the solution (C93_warm_start_sign_refuted).
