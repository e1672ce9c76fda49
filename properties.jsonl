{"id": "C01", "title": "Options objects always hold exactly the keys of their default tree", "statement": "After an options object is built and after any sequence of item assignments and updates with plain Python dictionaries, whether each of them succeeded or raised, every key of the default tree is still present at its level and no key outside the default tree is present at any level.", "quantifier": "all default trees, all initial option dictionaries, all finite sequences of assignments and updates with scalar or plain-dict values", "why_tests_cant": "The set of nested dictionaries and operation histories is infinite; a test exercises a handful of trees and never failing histories followed by further operations.", "anchors": ["sporco/cdict.py:ConstrainedDict.__init__", "sporco/cdict.py:ConstrainedDict.update", "sporco/cdict.py:ConstrainedDict.__setitem__"]}
{"id": "C02", "title": "Reading an option back gives the value that was set, and setting one option disturbs no other", "statement": "If opt[path] = v succeeds for a non-dict v then opt[path] == v, and opt[q] is unchanged for every path q which is neither path nor below or above it. If an assignment of a single non-dict value raises, the object is unchanged.", "quantifier": "all option trees, paths, values and other paths", "why_tests_cant": "Frame conditions quantify over every other path; tests check one or two of them.", "anchors": ["sporco/cdict.py:ConstrainedDict.__setitem__", "sporco/cdict.py:ConstrainedDict.__getitem__", "sporco/cdict.py:ConstrainedDict.getparent"]}
{"id": "C03", "title": "Invalid options are rejected, valid ones accepted, exactly", "statement": "An assignment of a non-dict value to a path is accepted if and only if the path names an entry of the default tree whose default is not itself a dictionary; an unknown path gives an unknown-key error and a scalar where a sub-dictionary is expected gives an invalid-value error. The same holds for each entry of a nested plain dictionary, at every depth.", "quantifier": "all default trees, all paths, all values", "why_tests_cant": "Acceptance and rejection have to be complementary on an infinite input space.", "anchors": ["sporco/cdict.py:ConstrainedDict.check", "sporco/cdict.py:ConstrainedDict.getparent", "sporco/cdict.py:keycmp"]}
{"id": "C04", "title": "Bulk option update is all or nothing", "statement": "If updating an options object from a dictionary raises, the options object is left as it was before the update.", "quantifier": "all option trees and update dictionaries", "why_tests_cant": "Atomicity is a statement about every failing prefix of every update.", "anchors": ["sporco/cdict.py:ConstrainedDict.update"]}
{"id": "C05", "title": "A valid options object stays usable: an existing options object is unaffected by creating another one", "statement": "The set of option keys that an options object accepts is determined by the arguments with which that object was created and does not change when other options objects are created later.", "quantifier": "all histories of option object creations and assignments", "why_tests_cant": "Needs all interleavings of creations and assignments on objects sharing class-level state.", "anchors": ["sporco/dictlrn/cbpdndl.py:ConvBPDNDictLearn.Options.__init__", "sporco/cdict.py:ConstrainedDict.__init__"]}
{"id": "C06", "title": "Elapsed time of a timer label is exactly the total time it was running", "statement": "For every history of start, stop and reset calls, the total elapsed time reported for a label is the measure of the time instants since the last reset at which the label was running; repeated starts or repeated stops have no effect.", "quantifier": "all finite histories of timer operations with non-decreasing clock readings and all labels", "why_tests_cant": "Requires all histories of interleaved operations on several labels.", "anchors": ["sporco/util.py:Timer.start", "sporco/util.py:Timer.stop", "sporco/util.py:Timer.reset", "sporco/util.py:Timer.elapsed"]}
{"id": "C07", "title": "Timer labels are independent and errors are precise", "statement": "An operation that names some labels leaves the elapsed time of every other label unchanged; stop or reset of a label that does not exist raises a key error, and elapsed of the default label which does not exist is zero; reported times are never negative and never decrease as long as no reset intervenes.", "quantifier": "all histories, all pairs of labels, all clock readings", "why_tests_cant": "Non-interference and monotonicity hold over all histories.", "anchors": ["sporco/util.py:Timer"]}
{"id": "C08", "title": "A context timer charges exactly the body of its with-block", "statement": "A with-block under a start-stop context timer on an idle label adds exactly the duration of the block to the label, whether or not the block raised, and lets exceptions propagate; with a stop-start context timer the block is excluded from a running label.", "quantifier": "all timer states, all block durations, all outcomes of the block", "why_tests_cant": "Exceptional and nested use cannot be enumerated.", "anchors": ["sporco/util.py:ContextTimer"]}
{"id": "C09", "title": "Network fetch retries only on timeouts and at most maxtry times", "statement": "Fetching a URL makes at most maxtry attempts, returns the content of the first successful attempt, raises immediately on an error that is not a timeout, raises the last timeout if every attempt timed out, and raises a value error with no attempt made when maxtry is not positive.", "quantifier": "all sequences of network outcomes and all values of maxtry", "why_tests_cant": "The network behaviour is an arbitrary infinite sequence of outcomes.", "anchors": ["sporco/util.py:netgetdata"]}
{"id": "C10", "title": "Grid search returns a true optimum of the grid and consistent indices", "statement": "Grid search returns a grid point whose function value is optimal among all grid points with a non-NaN value, the returned value and index and parameter vector agree with the returned table of values, and among ties the first point in lexicographic order is chosen; the result does not depend on the number of processes.", "quantifier": "all grids with any number of axes, all functions (including NaN values), min and max", "why_tests_cant": "Functions and grids are unbounded.", "anchors": ["sporco/util.py:grid_search"]}
{"id": "C11", "title": "MPI grid search partitions the work and agrees with the serial search", "statement": "The index ranges given to the ranks are contiguous, disjoint, in rank order, cover all points and differ in length by at most one, so that the gathered table is the serial table.", "quantifier": "all numbers of points and ranks", "why_tests_cant": "The partition must be exact for every number of points and ranks.", "anchors": ["sporco/mpiutil.py:_get_rank_limits", "sporco/mpiutil.py:grid_search"]}
{"id": "C12", "title": "Iteration statistics survive transposition", "statement": "Transposing a list of named tuples gives a named tuple of arrays whose entry for field f and row i is field f of tuple i, and conversion of a list of named tuples to an array and back is the identity.", "quantifier": "all lists of named tuples", "why_tests_cant": "Unbounded numbers of rows and fields.", "anchors": ["sporco/array.py:ntpl2array", "sporco/array.py:array2ntpl", "sporco/array.py:transpose_ntpl_list"]}
{"id": "C13", "title": "Sliding windows and strided samples address the right elements, inside the array", "statement": "The rolling window view satisfies y[i,j] = x[i+j] and has exactly the windows lying inside the array; the subsampled view satisfies y[i,p] = x[i+step*p]; every address formed by the strides lies inside the buffer of the input.", "quantifier": "all shapes, window shapes and steps", "why_tests_cant": "Memory safety of a strided view depends on the inequality for every shape; an out-of-range view usually reads plausible data.", "anchors": ["sporco/array.py:rolling_window", "sporco/array.py:subsample_array"]}
{"id": "C14", "title": "Extracting blocks and averaging them back reproduces the signal", "statement": "Every block returned by block extraction is the corresponding block of the signal, in the documented order; averaging (or combining with any function which maps constant lists to the constant) the unmodified blocks reproduces the signal at every position covered by some block, and positions covered by none are reported as undefined.", "quantifier": "all signals, block shapes and steps of any dimension", "why_tests_cant": "Coverage depends on arithmetic relations between shape, block and step.", "anchors": ["sporco/array.py:extract_blocks", "sporco/array.py:average_blocks", "sporco/array.py:combine_blocks"]}
{"id": "C15", "title": "The l1 proximal operator is soft thresholding and minimises its objective", "statement": "prox_l1(v, alpha) is the unique minimiser of 1/2||x-v||^2 + ||alpha*x||_1 for nonnegative (possibly element-wise) alpha; it is nonexpansive and odd.", "quantifier": "all real vectors of any length and all nonnegative thresholds", "why_tests_cant": "Minimality is a statement over all competitor vectors.", "anchors": ["sporco/prox/_lp.py:prox_l1", "sporco/prox/_lp.py:norm_l1"]}
{"id": "C16", "title": "The l0 proximal operator minimises its objective", "statement": "prox_l0(v, alpha) minimises 1/2||x-v||^2 + alpha*||x||_0 over all x, for every alpha >= 0.", "quantifier": "all real vectors and all nonnegative alpha", "why_tests_cant": "Minimality over all competitor vectors, including ties.", "anchors": ["sporco/prox/_lp.py:prox_l0", "sporco/prox/_lp.py:norm_l0"]}
{"id": "C17", "title": "The l2 proximal operator and projection are exact", "statement": "prox_l2(v, alpha) is the unique minimiser of 1/2||x-v||^2 + alpha*||x||_2; proj_l2(v, gamma) lies in the ball of radius gamma, equals v when v is in the ball, and is the unique nearest point of the ball; linalg.proj_l2ball likewise for a ball with any centre.", "quantifier": "all real vectors and nonnegative radii", "why_tests_cant": "Minimality and feasibility over all vectors.", "anchors": ["sporco/prox/_lp.py:prox_l2", "sporco/prox/_lp.py:proj_l2", "sporco/linalg.py:proj_l2ball"]}
{"id": "C18", "title": "Projection onto the l1 ball is exact for both algorithms", "statement": "proj_l1(v, gamma) has l1 norm at most gamma, equals v when v is already in the ball, and is the nearest point of the ball; the sort-based and the root-finding algorithm agree.", "quantifier": "all real vectors of any length and all nonnegative gamma", "why_tests_cant": "The threshold index depends on the sorted data; every vector has to be covered.", "anchors": ["sporco/prox/_l1proj.py:proj_l1", "sporco/prox/_l1proj.py:_proj_l1_sortsum", "sporco/prox/_l1proj.py:_proj_l1_scalar_root"]}
{"id": "C19", "title": "The l1 plus l2 (group) proximal operator minimises its objective", "statement": "prox_sl1l2(v, alpha, beta) minimises 1/2||x-v||^2 + alpha||x||_1 + beta||x||_2 on each group.", "quantifier": "all real vectors and nonnegative alpha, beta", "why_tests_cant": "Minimality over all competitor vectors.", "anchors": ["sporco/prox/_l21.py:prox_sl1l2"]}
{"id": "C20", "title": "The l1 minus l2 proximal operator minimises its non-convex objective", "statement": "prox_dl1l2(v, alpha, beta) is a global minimiser of 1/2||x-v||^2 + alpha(||x||_1 - beta||x||_2).", "quantifier": "all real vectors, alpha > 0 and 0 <= beta <= 1", "why_tests_cant": "Global minimality of a non-convex function cannot be tested.", "anchors": ["sporco/prox/_dl1l2.py:prox_dl1l2"]}
{"id": "C21", "title": "Diagonal block plus identity systems are solved exactly", "statement": "solvedbi_sm(a, rho, b) satisfies (rho I + a a^H) x = b, solvedbd_sm(a, d, b) satisfies (D + a a^H) x = b, with or without the cached coefficient.", "quantifier": "all complex vectors of any length, rho > 0, d > 0", "why_tests_cant": "Exactness for all data and sizes.", "anchors": ["sporco/linalg.py:solvedbi_sm", "sporco/linalg.py:solvedbi_sm_c", "sporco/linalg.py:solvedbd_sm", "sporco/linalg.py:solvedbd_sm_c"]}
{"id": "C22", "title": "Iterated Sherman-Morrison solves the multiple-block system", "statement": "solvemdbi_ism(ah, rho, b) and solvemdbi_rsm satisfy (rho I + sum_k a_k a_k^H) x = b.", "quantifier": "all numbers of blocks K, all vector lengths, all complex data, rho > 0", "why_tests_cant": "An induction over the number of blocks is needed.", "anchors": ["sporco/linalg.py:solvemdbi_ism", "sporco/linalg.py:solvemdbi_rsm"]}
{"id": "C23", "title": "Factorised linear solvers use the right system in both shape cases", "statement": "lu_solve_ATAI and cho_solve_ATAI return x with (A^T A + rho I) x = b, and the AATI variants return x with x (A A^T + rho I) = b, whether A is tall, square or wide.", "quantifier": "all matrix sizes and data for which the factorised matrix is invertible", "why_tests_cant": "Two branches with different algebra (matrix inversion lemma) for all shapes.", "anchors": ["sporco/linalg.py:lu_factor", "sporco/linalg.py:lu_solve_ATAI", "sporco/linalg.py:lu_solve_AATI", "sporco/linalg.py:cho_factor", "sporco/linalg.py:cho_solve_ATAI", "sporco/linalg.py:cho_solve_AATI"]}
{"id": "C24", "title": "The symmetric Sylvester solver solves its equation", "statement": "solve_symmetric_sylvester(A, B, C, alpha) returns X with A X B + alpha X = C for symmetric A and B.", "quantifier": "all sizes and all symmetric matrices and alpha such that the equation is uniquely solvable", "why_tests_cant": "Depends on the signs of the eigenvalues.", "anchors": ["sporco/linalg.py:solve_symmetric_sylvester"]}
{"id": "C25", "title": "The finite difference operator and its adjoint are adjoint", "statement": "<grad(x, axis), y> = <x, gradT(y, axis)> for arrays of matching shape.", "quantifier": "all arrays with at least two samples along the axis", "why_tests_cant": "Boundary handling for all lengths.", "anchors": ["sporco/signal.py:grad", "sporco/signal.py:gradT"]}
{"id": "C26", "title": "The total variation constraint operators are adjoint for any choice of axes", "statement": "In the total variation solvers, <A x, y> = <x, A^T y> for the constraint operators used in the residuals and x-step.", "quantifier": "all arrays and all tuples of axes", "why_tests_cant": "Depends on the choice of axes, usually tested with the default only.", "anchors": ["sporco/admm/tvl2.py:TVL2Denoise.cnst_A", "sporco/admm/tvl2.py:TVL2Denoise.cnst_AT", "sporco/admm/tvl1.py:TVL1Denoise.cnst_A", "sporco/admm/tvl1.py:TVL1Denoise.cnst_AT"]}
{"id": "C27", "title": "Total variation x-step: fixed points of the relaxation step solve the linear system", "statement": "An array is unchanged by the Gauss-Seidel step of the TV denoising solvers if and only if it solves the normal equations of the x sub-problem.", "quantifier": "all arrays, weights and penalty parameters", "why_tests_cant": "Universally quantified equivalence.", "anchors": ["sporco/admm/tvl2.py:TVL2Denoise.GaussSeidelStep", "sporco/admm/tvl2.py:TVL2Denoise.LaplaceCentreWeight"]}
{"id": "C28", "title": "The half-spectrum norm equals the signal norm", "statement": "rfl2norm2 of a real signal's half spectrum equals the squared l2 norm of the signal, for even and odd lengths.", "quantifier": "all real signals of any length", "why_tests_cant": "The weighting differs between even and odd lengths, for all lengths and data.", "anchors": ["sporco/fft.py:rfl2norm2", "sporco/fft.py:fl2norm2"]}
{"id": "C29", "title": "DFT-domain convolution is circular convolution", "statement": "fftconv(a, b, origin) at position n is sum_m a[m] b[n + origin - m] with indices taken modulo the padded size.", "quantifier": "all signals, kernels and origins", "why_tests_cant": "All lengths, data and origins.", "anchors": ["sporco/fft.py:fftconv"]}
{"id": "C30", "title": "Convolutional array layouts are inferred consistently", "statement": "For every admissible dictionary and signal shape, the inferred numbers of channels, signals and filters multiply to the array sizes, the canonical shapes have the documented axis order, and inadmissible combinations are rejected.", "quantifier": "all shapes of dictionary and signal and values of dimK", "why_tests_cant": "Case analysis over all shapes.", "anchors": ["sporco/cnvrep.py:CSC_ConvRepIndexing", "sporco/cnvrep.py:CDU_ConvRepIndexing", "sporco/cnvrep.py:DictionarySize"]}
{"id": "C31", "title": "Dictionary constraint projection gives a feasible, nearest dictionary", "statement": "The dictionary projection returned for given settings yields filters with support inside the filter support, with unit norm unless zero, with zero mean if requested; applying it twice is the same as once; and no feasible filter is nearer to the argument.", "quantifier": "all filter dictionaries, supports and channel numbers", "why_tests_cant": "Feasibility and nearness over all competitors.", "anchors": ["sporco/cnvrep.py:getPcn", "sporco/cnvrep.py:_Pcn", "sporco/cnvrep.py:_Pcn_zm", "sporco/cnvrep.py:_Pcn_crp", "sporco/cnvrep.py:_Pcn_zm_crp"]}
{"id": "C32", "title": "Solver iteration accounting", "statement": "Each call of solve performs at most MaxMainIter iterations, the iteration counter after solve is the total number of iterations performed over all calls, and the recorded statistics are numbered consecutively 0,1,2,... over all calls, one per iteration performed.", "quantifier": "all problems, option settings and sequences of solve calls, all stopping behaviours", "why_tests_cant": "Restarts, early stopping and callbacks interact over arbitrary histories.", "anchors": ["sporco/admm/admm.py:ADMM.solve", "sporco/pgm/pgm.py:PGM.solve", "sporco/dictlrn/dictlrn.py:DictLearn.solve"]}
{"id": "C33", "title": "A solver stops early only for a documented reason", "statement": "If solve returns after fewer than MaxMainIter iterations then in the last iteration the callback returned true or both residuals were below their thresholds; if it does not stop early, this was so in none of the earlier iterations.", "quantifier": "all problems, options and callbacks", "why_tests_cant": "All executions.", "anchors": ["sporco/admm/admm.py:ADMM.solve", "sporco/pgm/pgm.py:PGM.solve"]}
{"id": "C34", "title": "Adaptive penalty updates keep the unscaled dual variable and keep rho positive", "statement": "Every adaptive update leaves rho*U unchanged, keeps rho positive, changes rho by a factor between 1/Scaling and Scaling, increases it only when the primal residual dominates and decreases it only when the dual residual dominates; with adaptation disabled rho never changes.", "quantifier": "all residual values (including zero), options and iteration numbers", "why_tests_cant": "All residual histories.", "anchors": ["sporco/admm/admm.py:ADMM.update_rho"]}
{"id": "C35", "title": "Specialised residuals agree with the general ADMM definitions", "statement": "The residuals, their normalisations and the relaxation step of the equality, two-block and consensus solver classes coincide with those of the general class for the constraint operators that they define.", "quantifier": "all iterates, relaxation parameters and block sizes", "why_tests_cant": "Equality of functions on all iterates.", "anchors": ["sporco/admm/admm.py:ADMM", "sporco/admm/admm.py:ADMMEqual", "sporco/admm/admm.py:ADMMTwoBlockCnstrnt", "sporco/admm/admm.py:ADMMConsensus", "sporco/admm/admm.py:WeightedADMMConsensus"]}
{"id": "C36", "title": "A stationary ADMM iterate is an optimal solution", "statement": "If an ADMM iteration leaves the iterates unchanged then the point is a global minimiser of the stated optimisation problem, for the basis pursuit denoising family, total variation, robust PCA and consensus problems.", "quantifier": "all problem data, penalty and relaxation parameters", "why_tests_cant": "Optimality over all competitors for all data.", "anchors": ["sporco/admm/admm.py:ADMM.solve", "sporco/admm/bpdn.py:BPDN", "sporco/admm/bpdn.py:ElasticNet", "sporco/admm/rpca.py:RobustPCA"]}
{"id": "C37", "title": "Each ADMM sub-step minimises the augmented Lagrangian", "statement": "The x and y steps of the sparse coding, dictionary update, robust PCA and constrained solvers minimise the augmented Lagrangian in their block.", "quantifier": "all problem data and iterates", "why_tests_cant": "Minimality over all competitors.", "anchors": ["sporco/admm/bpdn.py:GenericBPDN.xstep", "sporco/admm/bpdn.py:BPDN.ystep", "sporco/admm/bpdn.py:BPDNJoint.ystep", "sporco/admm/rpca.py:RobustPCA", "sporco/admm/bpdn.py:MinL1InL2Ball.ystep"]}
{"id": "C38", "title": "ADMM iterates approach every solution monotonically", "statement": "For convex problems with fixed penalty and no relaxation, the weighted distance of the (Y,U) iterates to every saddle point never increases, and the residuals tend to zero.", "quantifier": "all convex problems, all starting points, all numbers of iterations", "why_tests_cant": "A convergence theorem over infinite executions.", "anchors": ["sporco/admm/admm.py:ADMM.solve", "sporco/admm/admm.py:ADMM.ustep"]}
{"id": "C39", "title": "Monotone proximal gradient never increases the objective", "statement": "With the monotone option enabled the recorded objective never increases from one iteration to the next and is the objective value of the returned solution.", "quantifier": "all problems, step sizes and numbers of iterations", "why_tests_cant": "All executions.", "anchors": ["sporco/pgm/pgm.py:PGM.solve", "sporco/pgm/pgm.py:PGM.on_iteration_start", "sporco/pgm/pgm.py:PGMDFT"]}
{"id": "C40", "title": "Backtracking terminates with a valid majorisation", "statement": "The backtracking line search makes at most maxiter trials, never decreases L below its starting value in the standard variant, and on exit either the quadratic upper bound holds at the accepted point or the trial limit was reached; if the gradient is Lipschitz with constant Lf then L never exceeds max(L0, gamma*Lf) when enough trials are permitted.", "quantifier": "all objective functions and parameters", "why_tests_cant": "All functions.", "anchors": ["sporco/pgm/backtrack.py:BacktrackStandard.update", "sporco/pgm/backtrack.py:BacktrackRobust.update"]}
{"id": "C41", "title": "Momentum sequences have the properties needed for acceleration", "statement": "The Nesterov coefficients satisfy t_{k+1}^2 - t_{k+1} = t_k^2 and t_k >= (k+2)/2, and all momentum variants satisfy t_{k+1}^2 - t_{k+1} <= t_k^2 in their documented parameter ranges.", "quantifier": "all iteration numbers and parameters", "why_tests_cant": "Induction over all iterations.", "anchors": ["sporco/pgm/momentum.py"]}
{"id": "C42", "title": "Stationary proximal gradient iterates are optimal, and steps descend", "statement": "A point unchanged by the proximal gradient step is a global minimiser; a step from a point with valid majorisation does not increase the objective, and the accelerated method with valid majorisations has objective gap at most 2 L ||x0-x*||^2/(k+1)^2.", "quantifier": "all convex problems, all starting points, all iterations", "why_tests_cant": "Convergence theorem over all executions.", "anchors": ["sporco/pgm/pgm.py:PGM.xstep", "sporco/pgm/pgm.py:PGM.ystep", "sporco/pgm/bpdn.py:BPDN"]}
{"id": "C43", "title": "Default solver parameters documented for a class take effect", "statement": "When the user leaves a parameter unset, the default of the most specific class takes effect; when the user sets it, the user's value does.", "quantifier": "all class hierarchies of initialisers and option values", "why_tests_cant": "Depends on the order of calls in the initialiser chain.", "anchors": ["sporco/common.py:IterativeSolver.set_attr", "sporco/common.py:IterativeSolver.set_dtype", "sporco/admm/bpdn.py:BPDN.__init__", "sporco/admm/cmod.py:CnstrMOD.__init__", "sporco/pgm/ccmod.py:ConvCnstrMOD.__init__"]}
{"id": "C44", "title": "Caching for memory-intensive solves does not change the solution", "statement": "With the high-memory option the x-step computes the same result as without it, in every iteration, for every history of dictionary changes and penalty updates.", "quantifier": "all histories of setdict calls, penalty updates and x-steps", "why_tests_cant": "Cache consistency is an invariant over histories.", "anchors": ["sporco/admm/cbpdn.py:GenericConvBPDN", "sporco/admm/cbpdn.py:ConvBPDN.__init__", "sporco/admm/cbpdn.py:ConvElasticNet", "sporco/admm/cbpdn.py:ConvBPDNGradReg"]}
{"id": "C45", "title": "Parallel sparse coding is independent of scheduling", "statement": "The result of a parallel iteration over filter groups is the same for every order and interleaving of the group steps, and equals the sequential group-by-group result; the groups partition the filters.", "quantifier": "all schedules of all numbers of groups and filters", "why_tests_cant": "The number of interleavings is exponential.", "anchors": ["sporco/admm/parcbpdn.py:par_stepgrp", "sporco/admm/parcbpdn.py:ParConvBPDN.__init__", "sporco/admm/parcbpdn.py:ParConvBPDN.solve"]}
{"id": "C46", "title": "The parallel solver's data-fidelity step is exact", "statement": "The joint update of the auxiliary variables of all filter groups minimises the masked data-fidelity term plus the quadratic penalty terms.", "quantifier": "all numbers of groups, masks, penalty parameters and data", "why_tests_cant": "Minimality over all competitors.", "anchors": ["sporco/admm/parcbpdn.py:y0astep", "sporco/admm/parcbpdn.py:par_y0bstep"]}
{"id": "C47", "title": "The parallel solver performs the same iteration as its specification in every iteration number", "statement": "Every iteration of the parallel solver updates X, then Y, then U, and the reported residuals and objective refer to the iterates of that iteration, for every starting iteration number and number of iterations.", "quantifier": "all iteration numbers and restarts", "why_tests_cant": "Depends on identity comparison of integers, which changes behaviour above a bound.", "anchors": ["sporco/admm/parcbpdn.py:ParConvBPDN.solve"]}
{"id": "C48", "title": "Solver objects do not interfere", "statement": "The iterates computed by one parallel solver object are unaffected by the construction or use of another.", "quantifier": "all interleavings of operations on several solver objects", "why_tests_cant": "All interleavings.", "anchors": ["sporco/admm/parcbpdn.py", "sporco/dictlrn/prlcnscdl.py"]}
{"id": "C49", "title": "Parallel consensus dictionary learning is independent of scheduling", "statement": "The result of a parallel consensus dictionary learning iteration is the same for every order and interleaving of the per-signal steps and equals the sequential result.", "quantifier": "all schedules, numbers of signals", "why_tests_cant": "Exponentially many interleavings.", "anchors": ["sporco/dictlrn/prlcnscdl.py:step_group", "sporco/dictlrn/prlcnscdl.py:ConvBPDNDictLearn_Consensus.step"]}
{"id": "C50", "title": "Dictionary learning alternation is coherent", "statement": "After every iteration of dictionary learning the sparse coding stage holds the dictionary produced by the dictionary update, which satisfies the dictionary constraint, and the dictionary update was computed for the coefficient maps of the same iteration.", "quantifier": "all numbers of iterations, sub-solvers and callbacks", "why_tests_cant": "Invariant over all executions.", "anchors": ["sporco/dictlrn/dictlrn.py:DictLearn.solve", "sporco/dictlrn/dictlrn.py:DictLearn.post_xstep", "sporco/dictlrn/dictlrn.py:DictLearn.post_dstep"]}
{"id": "C51", "title": "Online dictionary learning keeps a feasible dictionary and a decreasing step size", "statement": "After every call of the online solver the dictionary satisfies the constraint, and the step size is eta_a/(j+eta_b) with j the number of completed updates, positive and strictly decreasing, with divergent sum.", "quantifier": "all sequences of input signals", "why_tests_cant": "All histories of signals.", "anchors": ["sporco/dictlrn/onlinecdl.py:OnlineConvBPDNDictLearn.solve", "sporco/dictlrn/onlinecdl.py:OnlineConvBPDNDictLearn.dstep"]}
{"id": "C52", "title": "Iteration statistics columns match their values", "statement": "Every record of iteration statistics has exactly one value per declared field in the declared order, and every displayed column resolves to a declared field, for every solver class, method combination and option setting.", "quantifier": "all solver classes, methods and option settings", "why_tests_cant": "Product of methods and options; name and position agreement.", "anchors": ["sporco/common.py:IterativeSolver.itstat_fields", "sporco/dictlrn/common.py", "sporco/dictlrn/dictlrn.py:IterStatsConfig.iterstats", "sporco/admm/admm.py:ADMM.iteration_stats"]}
{"id": "C53", "title": "Status display separators and columns have consistent width", "statement": "The header line, the separator and each formatted status line whose values fit their fields have the same length.", "quantifier": "all header texts and field width settings", "why_tests_cant": "All header texts.", "anchors": ["sporco/common.py:solve_status_str"]}
{"id": "C54", "title": "Interpolation points and Lanczos kernels", "statement": "interpolation_points(N) returns the points k/N with k from -((N-1)//2) to N//2: spacing 1/N, all in (-1/2, 1/2], each residue of k/N modulo one exactly once; without zero it returns non-zero points k/(N+1) in [-1/2, 1/2]. The Lanczos kernel is even, vanishes outside (-a, a), is 1 at 0 and 0 at every other integer, and the Lanczos filters sum to one.", "quantifier": "all M, a and real arguments", "why_tests_cant": "All arguments.", "anchors": ["sporco/interp.py:interpolation_points", "sporco/interp.py:lanczos_kernel"]}
{"id": "C55", "title": "Robust regression by linear programming is exact", "statement": "lstabsdev and lstmaxdev return minimisers of the l1 and l-infinity norm of A x - b if the linear programming solver is exact.", "quantifier": "all matrices and vectors", "why_tests_cant": "Minimality over all competitors.", "anchors": ["sporco/interp.py:lstabsdev", "sporco/interp.py:lstmaxdev"]}
{"id": "C56", "title": "Image quality metrics behave as distances", "statement": "mae and mse are nonnegative, symmetric, and zero exactly when the images coincide; snr and psnr are strictly decreasing in the mean squared error and shift consistently under scaling.", "quantifier": "all pairs of images", "why_tests_cant": "All inputs.", "anchors": ["sporco/metric.py:mae", "sporco/metric.py:mse", "sporco/metric.py:snr", "sporco/metric.py:psnr"]}
{"id": "C57", "title": "Dictionary tiling shows every atom exactly once", "statement": "In the tiled image of a dictionary every filter occupies its own cell, cells do not overlap, and the grid has room for all filters.", "quantifier": "all numbers and sizes of filters", "why_tests_cant": "Arithmetic of floor and ceiling square roots for all N.", "anchors": ["sporco/util.py:tiledict"]}
{"id": "C58", "title": "Constructing a solver with valid options does not fail", "statement": "A solver whose options object was accepted, including starting values for the auxiliary variable, is constructed without attribute errors.", "quantifier": "all option combinations accepted by the options class", "why_tests_cant": "Product of options; depends on order of attribute initialisation along the class chain.", "anchors": ["sporco/admm/cbpdn.py:ConvBPDN.uinit", "sporco/admm/bpdn.py:MinL1InL2Ball.uinit", "sporco/admm/cbpdn.py:ConvBPDNMaskDcpl.uinit", "sporco/admm/spline.py:SplineL1.uinit"]}
{"id": "C59", "title": "Boundary-crossing suppression affects only boundary coefficients", "statement": "With the option that suppresses filters crossing the boundary, exactly the coefficients whose filter would cross the signal boundary are set to zero.", "quantifier": "all signal and filter sizes", "why_tests_cant": "Corner cases of slice arithmetic for all sizes.", "anchors": ["sporco/admm/cbpdn.py:GenericConvBPDN.ystep", "sporco/pgm/cbpdn.py:ConvBPDN"]}
{"id": "C60", "title": "Nuclear norm proximal operator", "statement": "prox_nuclear(v, alpha) is the minimiser of 1/2||x-v||_F^2 + alpha||x||_* given an exact singular value decomposition.", "quantifier": "all matrices and alpha >= 0", "why_tests_cant": "Minimality over all competitors.", "anchors": ["sporco/prox/_nuclear.py:prox_nuclear"]}
{"id": "C61", "title": "Splitting a signal into low-pass and high-pass components loses nothing", "statement": "tikhonov_filter returns components that sum to the input signal; local contrast normalisation is inverted by its returned mean and scale.", "quantifier": "all signals and parameters", "why_tests_cant": "All inputs.", "anchors": ["sporco/signal.py:tikhonov_filter", "sporco/signal.py:local_contrast_normalise"]}
{"id": "C62", "title": "Flattening for norms is reversible", "statement": "ndfrom2d(ndto2d(x, axis)) = x, and the flattened rows are exactly the fibres of x along the chosen axes.", "quantifier": "all arrays and axis choices", "why_tests_cant": "Index permutation over all shapes.", "anchors": ["sporco/prox/_util.py:ndto2d", "sporco/prox/_util.py:ndfrom2d"]}
{"id": "C63", "title": "Solver timers are balanced", "statement": "After solve returns, however it stopped, all solver timers are stopped, and the time excluding function evaluation and residuals never exceeds the total solve time.", "quantifier": "all executions with arbitrary clock readings", "why_tests_cant": "All executions.", "anchors": ["sporco/admm/admm.py:ADMM.solve", "sporco/pgm/pgm.py:PGM.solve", "sporco/util.py:Timer"]}
{"id": "C64", "title": "The l1 proximal operator on complex arrays minimises its objective", "statement": "prox_l1 of a complex array is, entry by entry, the minimiser of |x|*alpha + |x - v|^2/2.", "quantifier": "all complex arrays and non-negative thresholds", "why_tests_cant": "The claim is an inequality over all complex candidates; zero entries involve a 0/0 which sampled tests with random data never meet.", "anchors": ["sporco/prox/_lp.py:prox_l1"]}
{"id": "C65", "title": "Constructing a solver does not change the caller's options object", "statement": "After constructing a dictionary learning object with an options object, that options object has the same contents as before.", "quantifier": "all option settings and classes", "why_tests_cant": "Aliasing of nested dictionaries is not visible in the result of a single construction; it needs reasoning about which objects are shared.", "anchors": ["sporco/dictlrn/bpdndl.py", "sporco/dictlrn/cbpdndl.py", "sporco/dictlrn/cbpdndlmd.py", "sporco/dictlrn/wbpdndl.py"]}
{"id": "C66", "title": "Weight and mask arrays are laid out compatibly with the internal arrays", "statement": "An l1 weight array with the axes of S and a filter axis, and a mask array with the axes of S, are reshaped so that each axis meets the corresponding axis of the internal coefficient or signal array, and other shapes are rejected.", "quantifier": "all shapes of signals, dictionaries and weights", "why_tests_cant": "The number of combinations of axes is large and tests exercise only a few; compatibility is a statement about all sizes.", "anchors": ["sporco/cnvrep.py:l1Wshape", "sporco/cnvrep.py:mskWshape"]}
{"id": "C67", "title": "Initial dual variable for a supplied Y0 is dual-optimal", "statement": "When a user supplies an initial auxiliary variable through the option Y0, the initial dual variable U chosen by the solver class satisfies the dual optimality criterion 0 in dg(Y0) + rho B^T U that the source comments promise (\"initial U is chosen so that the relevant dual optimality criterion is satisfied\").", "quantifier": "every Y0, rho, lambda, weight array, for each solver class that overrides uinit", "why_tests_cant": "A warm start from a wrong dual variable still converges, so a test on the final iterate passes; only the subgradient inequality over all points decides the claim.", "anchors": ["sporco/admm/bpdn.py:435-443", "sporco/admm/rpca.py:150-158", "sporco/admm/cmod.py:199-207", "sporco/admm/tvl2.py:223-233", "sporco/admm/spline.py:176-185", "sporco/admm/cbpdn.py:2003-2015"]}
{"id": "C70", "title": "The x-step of convolutional sparse coding with total variation terms solves its linear system", "statement": "For every dictionary, penalty parameter and total variation weighting accepted by the options, the x-step of ConvBPDNScalarTV and ConvBPDNVectorTV returns the solution of the normal equations of its sub-problem.", "quantifier": "all dictionaries, right hand sides and weights, uniform or one per filter", "why_tests_cant": "The error only shows for weights that differ between filters, and only in the residual of the linear system.", "anchors": ["sporco/admm/cbpdntv.py:ConvBPDNScalarTV.xstep", "sporco/linalg.py:solvedbi_sm"]}
{"id": "C69", "title": "The dictionary update of online learning is a gradient step for the signals of the call", "statement": "The step added to the dictionary by one call of the online solver is minus eta times the gradient, at the current dictionary, of the data fidelity of the signals passed in that call with the coefficients just computed.", "quantifier": "all dictionaries, coefficients and signals, all accepted numbers of channels and signals, and all sequences of calls", "why_tests_cant": "A wrong gradient still gives a feasible dictionary and often a decreasing objective; only comparing with the objective at all displacements decides it, for every combination of axes and of earlier calls.", "anchors": ["sporco/dictlrn/onlinecdl.py:OnlineConvBPDNDictLearn.dstep", "sporco/dictlrn/onlinecdl.py:OnlineConvBPDNDictLearn.setcoef", "sporco/dictlrn/onlinecdl.py:OnlineConvBPDNDictLearn.init_vars"]}
{"id": "C68", "title": "Reported data fidelity and reconstruction are the spatial-domain quantities", "statement": "The data fidelity value recorded by the convolutional sparse coding solvers, which is computed from half spectra, equals half the squared norm of the residual between the signal and the sum of circular convolutions of filters and coefficient maps; reconstruct returns that sum.", "quantifier": "all dictionaries, signals and coefficient arrays, all sizes of the filtered axes, even or odd, and both choices of the variable at which the objective is evaluated", "why_tests_cant": "The half spectrum weights differ between even and odd sizes and the value is compared with nothing else in a run; equality is over all inputs.", "anchors": ["sporco/admm/cbpdn.py:GenericConvBPDN.obfn_dfd", "sporco/admm/cbpdn.py:GenericConvBPDN.reconstruct", "sporco/fft.py:rfl2norm2"]}
{"id": "C71", "title": "The frequency-domain x-step minimises the spatial-domain sub-problem", "statement": "The x-step of ConvBPDN, ConvElasticNet, ConvBPDNGradReg and the two-block classes returns the unique real array minimising the quadratic sub-problem of ADMM as it is written in the documentation, with circular convolutions, ridge and gradient terms in the spatial domain.", "quantifier": "all dictionaries, single- or multi-channel, signals, Y, U, rho, mu and sizes of the filtered axes", "why_tests_cant": "Being the minimiser over all arrays is an inequality quantified over an infinite set, and discarding the redundant half of the spectrum is only right because of a symmetry of the solution.", "anchors": ["sporco/admm/cbpdn.py:GenericConvBPDN.xstep", "sporco/admm/cbpdn.py:ConvElasticNet.xstep", "sporco/admm/cbpdn.py:ConvBPDNGradReg.xstep", "sporco/admm/cbpdn.py:ConvTwoBlockCnstrnt.xstep", "sporco/linalg.py:solvedbi_sm", "sporco/linalg.py:solvemdbi_ism"]}
{"id": "C72", "title": "The iteration of convolutional sparse coding solves the documented problem", "statement": "With a fixed penalty parameter, the ADMM iteration of ConvBPDN, ConvElasticNet and, for filtered axes of at least two samples, ConvBPDNGradReg, with or without the options NonNegCoef and NoBndryCross: an iterate that the iteration leaves unchanged minimises the documented spatial-domain objective over the allowed arrays, and from any start, with relaxation in (0,2), the residuals tend to zero and the objective of the returned array tends to the minimum whenever the problem has a solution.", "quantifier": "all dictionaries, single- or multi-channel, signals, weights, lmbda, mu, rho, start values and sizes", "why_tests_cant": "Convergence is a statement about the limit of an infinite sequence, and optimality about all arrays; a test sees finitely many iterations and no certificate.", "anchors": ["sporco/admm/cbpdn.py:GenericConvBPDN", "sporco/admm/cbpdn.py:ConvBPDN.ystep", "sporco/admm/cbpdn.py:ConvElasticNet", "sporco/admm/cbpdn.py:ConvBPDNGradReg", "sporco/admm/admm.py:ADMM.solve"]}
{"id": "C73", "title": "Mask-decoupled and l2-constrained convolutional sparse coding solve their problems", "statement": "ConvBPDNMaskDcpl computes coefficients that minimise 1/2 sum_c ||W (sum_m d_m * x_m - s)||^2 + lambda sum |w x| over the coefficients allowed by NonNegCoef and NoBndryCross, and ConvMinL1InL2Ball computes coefficients that minimise the weighted l1 norm subject to ||sum_m d_m * x_m - s||_2 <= epsilon: an iterate left unchanged by the iteration is a solution, and from any start the primal residual tends to zero and the objective of the coefficients returned by solve tends to its minimum.", "quantifier": "all signals of any dimensions and sizes, any number and support of filters, single- and multi-channel dictionaries, all masks, weights, penalty and relaxation parameters, initial states", "why_tests_cant": "limits of the iteration and global optimality over all coefficient arrays are not observable on finitely many runs; existing tests compare a few iterations of one problem with a tolerance", "anchors": ["sporco/admm/cbpdn.py:1401", "sporco/admm/cbpdn.py:1830", "sporco/admm/cbpdn.py:2024", "sporco/admm/cbpdn.py:2066", "sporco/admm/cbpdn.py:2244"]}
{"id": "C74", "title": "The arrays computed by the sparse coding solvers converge to a solution, and a solution exists", "statement": "With a fixed penalty parameter and relaxation in (0,2), from any start, X and Y of BPDN, ElasticNet, BPDNJoint and BPDNProjL1 (without NonNegCoef), MinL1InL2Ball, ConvBPDN, ConvElasticNet, ConvBPDNGradReg, ConvBPDNMaskDcpl and ConvMinL1InL2Ball converge, entry by entry, to one and the same minimiser of the documented problem (not only in objective value).  Such a minimiser exists when lmbda and the l1 weights, or mu of the elastic net, are positive; for the l2-ball classes when some allowed coefficients have their residual strictly inside the ball.", "quantifier": "all dictionaries, signals, weights, parameters, start states and sizes", "why_tests_cant": "Convergence of an infinite sequence and existence of a minimiser cannot be observed on finitely many runs; residuals below a tolerance do not imply that the iterates are near a solution.", "anchors": ["sporco/admm/bpdn.py:BPDN", "sporco/admm/bpdn.py:BPDNJoint", "sporco/admm/bpdn.py:ElasticNet", "sporco/admm/bpdn.py:BPDNProjL1", "sporco/admm/bpdn.py:MinL1InL2Ball", "sporco/admm/cbpdn.py:ConvBPDN", "sporco/admm/cbpdn.py:ConvElasticNet", "sporco/admm/cbpdn.py:ConvBPDNGradReg", "sporco/admm/cbpdn.py:ConvBPDNMaskDcpl", "sporco/admm/cbpdn.py:ConvMinL1InL2Ball", "sporco/admm/admm.py:ADMM.solve"]}
{"id": "C75", "title": "Total variation deconvolution (TVL2Deconv, TVL1Deconv) solves its problem", "statement": "For real data, any blur that does not remove the mean and any axes, TVL2Deconv and TVL1Deconv minimise the documented spatial-domain problem (1/2)||A*x - S||^2 + lmbda sum_i w_i sqrt(sum over axes and channels of squared periodic differences), respectively with the weighted l1 misfit: when Y and U stop changing X is a minimiser, with a fixed penalty and relaxation in (0,2) the iterates converge to a minimiser from any start, a minimiser exists for positive weights, the x-step quotient never divides by zero, the constraint operator is the vector of periodic backward differences (and the blur), and the reported regularisation value is that of the problem.", "quantifier": "all images, blurs, shapes, numbers of axes and channels, weights, parameters and start states", "why_tests_cant": "The solver works in the Fourier domain and its result is an infinite limit: a finite run shows neither optimality nor convergence, and the exceptional blurs, axes and weight shapes are not found by running examples.", "anchors": ["sporco/admm/tvl2.py:TVL2Deconv", "sporco/admm/tvl1.py:TVL1Deconv", "sporco/signal.py:gradient_filters", "sporco/prox/_lp.py:prox_l2"]}
{"id": "C76", "title": "Convolutional sparse coding with total variation terms solves the documented problem", "statement": "ConvBPDNScalarTV and ConvBPDNVectorTV minimise 1/2 ||sum_m d_m * x_m - s||^2 + lmbda sum w |x| + mu TV(x), where TV is the sum over filters and pixels (scalar), or over pixels (vector), of the norm of the vector of weighted periodic differences: when Y and U stop changing X is a minimiser, with a fixed penalty and relaxation in (0,2) the iterates converge to a minimiser from any start, and the reported l1 term is that of the problem.", "quantifier": "all dictionaries, single- or multi-channel, signals, weights, parameters, sizes and start states", "why_tests_cant": "Whether the array approached by the iteration minimises the documented objective is a statement about all arrays and an infinite limit; a test run only sees a decreasing functional, also when the iteration solves a different problem.", "anchors": ["sporco/admm/cbpdntv.py:ConvBPDNScalarTV", "sporco/admm/cbpdntv.py:ConvBPDNVectorTV", "sporco/prox/_lp.py:prox_l2"]}
{"id": "C77", "title": "Step size policies of the proximal gradient solvers give usable steps", "statement": "With StepSizePolicyCauchy the step 1/L of an iteration is the exact line search of the data fidelity term along the negative gradient; with StepSizePolicyBB the value L lies between the smallest and the largest curvature of the data fidelity term; both are defined whenever they are used, and a run with either policy does not diverge.", "quantifier": "all dictionaries, signals, weights, momentum rules, start values and iterations", "why_tests_cant": "Test problems are few and well scaled: wrong curvature information only shows as slow convergence or divergence for particular weights, and 0/0 only for particular signals.", "anchors": ["sporco/pgm/stepsize.py:StepSizePolicyCauchy", "sporco/pgm/stepsize.py:StepSizePolicyBB", "sporco/pgm/pgm.py:PGM.xstep", "sporco/pgm/bpdn.py:WeightedBPDN"]}
{"id": "C78", "title": "Mask simulation with additional impulse filters solves the masked sparse coding problem", "statement": "The coefficients computed by AddMaskSim around ConvBPDN converge to a minimiser of the masked problem 1/2 || W (sum_m d_m * x_m - s) ||^2 + lmbda || x ||_1 with the zero-one mask W, under NonNegCoef and NoBndryCross, for every mask which the documentation allows: its singleton dimensions are broadcast over the channels and the signals.", "quantifier": "all dictionaries, signals, masks, shapes, numbers of axes, channels and signals, weights, penalty and relaxation parameters, and initial states", "why_tests_cant": "Tests use one channel and one signal, and compare a few iterations with a reconstruction error; that the limit solves the masked problem is a statement about an infinite iteration and all signals.", "anchors": ["sporco/admm/cbpdn.py:AddMaskSim.__init__", "sporco/admm/cbpdn.py:AddMaskSim.ystep", "sporco/admm/cbpdn.py:AddMaskSim.solve", "sporco/cnvrep.py:mskWshape"]}
{"id": "C79", "title": "The l1-l1 convolutional solver with gradient regularisation minimises its documented functional", "statement": "For ConvL1L1Grd without the NonNegCoef and NoBndryCross options, the primary variable and the coefficient block of the auxiliary variable both converge, from every initial state and for every fixed penalty parameter rho > 0 and relaxation parameter in (0, 2), to a minimiser of || W (sum_m d_m * x_m - s) ||_1 + lmbda || w . x ||_1 + (mu / 2) sum_i sum_m || wgrd_m G_i x_m ||^2, stated with spatial convolutions and differences; a minimiser exists if lmbda and all l1 weights are positive, whatever the mask; and a state that an iteration leaves unchanged is optimal.", "quantifier": "all dictionaries, signals, shapes, numbers of axes and channels, non-negative mask, l1 and gradient weights, parameters and initial states", "why_tests_cant": "The unit tests run a few iterations and compare a reconstruction error with a threshold; the identity of the limit, and the exactness of the Fourier domain solution with a diagonal that differs between filters, are statements about all data and an infinite iteration.", "anchors": ["sporco/admm/cbpdn.py:ConvL1L1Grd.__init__", "sporco/admm/cbpdn.py:ConvL1L1Grd.setdict", "sporco/admm/cbpdn.py:ConvL1L1Grd.xstep", "sporco/admm/cbpdn.py:ConvL1L1Grd.ystep", "sporco/admm/cbpdn.py:ConvL1L1Grd.eval_objfn"]}
{"id": "C80", "title": "What the dictionary update solvers solve", "statement": "The dictionary update solvers ccmod.ConvCnstrMOD_IterSM, ccmod.ConvCnstrMOD_Consensus and pgm.ccmod.ConvCnstrMOD solve the problem they document: minimise 1/2 sum_k || sum_m z_{k,m} * d_m - s_k ||^2 over dictionaries whose filters have the requested support, zero mean if requested, and unit norm.  Each x-step is the exact minimiser of the fit (of all signals, respectively of one signal) plus the proximity term; the dictionaries at which an iteration changes nothing are the same for the three solvers and are exactly those satisfying the first order optimality condition of the problem; a proximal gradient step with a large enough L does not increase the fit; every solution of the problem is such a stationary dictionary.  And a dictionary at which the solvers stop is a solution.", "quantifier": "all spatial dimensions and sizes, numbers of channels, filters and signals, filter sizes (including blocks of filters of different sizes), coefficient maps and signals, penalty and relaxation parameters, step sizes, dictionaries and dual variables", "why_tests_cant": "Tests run the solvers on random data and compare with a reference dictionary to a tolerance; they cannot settle what the fixed points are for all data, nor that the three algorithms agree on them.", "anchors": ["sporco/admm/ccmod.py:275-366", "sporco/admm/ccmod.py:496-505", "sporco/admm/ccmod.py:787-845", "sporco/pgm/ccmod.py:231-323", "sporco/pgm/pgm.py:796-799", "sporco/cnvrep.py (getPcn)"]}
{"id": "C81", "title": "Sparse coding with the total variation of the reconstruction", "statement": "ConvBPDNRecTV solves the problem of its documentation: the iterates converge to a minimiser of the data fidelity, plus lmbda times the weighted l1 norm of the coefficient maps, plus mu times the total variation of the reconstruction from the maps weighted by TVWeight (periodic differences, norm taken jointly over directions and channels), for single and multi-channel signals and dictionaries and any number of signals; cnst_A computes the differences of that reconstruction.", "quantifier": "all dictionaries, signals, array sizes (at least two samples along each filtered axis), numbers of filters, channels and signals, weights, penalty parameters, relaxation parameters in (0,2) and initial states", "why_tests_cant": "Convergence to the minimiser for all data is not observable by running; the defect depends on whether NumPy can express a reshaped array as a view, i.e. on the combination of the numbers of signals and channels, and the tests use one signal only.", "anchors": ["sporco/admm/cbpdntv.py:904-969", "sporco/admm/cbpdntv.py:973-1020", "sporco/admm/cbpdntv.py:1024-1106", "sporco/admm/cbpdntv.py:1261-1343"]}
{"id": "C82", "title": "Dictionary update with mask decoupling", "statement": "The dictionary update solvers with mask decoupling solve the masked problem of their documentation, minimise 1/2 sum_k || W (sum_m d_m * x_k,m - s_k) ||^2 subject to the filters having the given support, unit norm and, if requested, zero mean: a stationary dictionary satisfies the first order conditions of that problem, every solution is stationary for a penalty parameter large enough, both residuals are zero exactly when this is so, the objective recorded is the masked fit of the current dictionary, and the mask is applied to the signals and channels it is given for.", "quantifier": "all coefficient maps, signals, masks (with any axes of length one broadcast), array sizes, numbers of filters, channels and signals, filter supports, penalty and relaxation parameters and solver states", "why_tests_cant": "The set of dictionaries is not convex and the solvers are compared in tests with a reference for a few random problems only; the equivalence with the first order conditions concerns all problems and states.", "anchors": ["sporco/admm/ccmodmd.py:27-567", "sporco/admm/ccmodmd.py:573-652", "sporco/admm/ccmodmd.py:766-1036", "sporco/cnvrep.py:554-605"]}
{"id": "C83", "title": "The proximal gradient convolutional solvers minimise the convolutional sparse coding problem in any number of dimensions", "statement": "For pgm.cbpdn.ConvBPDN and ConvBPDNMask, with any number of spatial axes, channels, filters and signals: grad_f applied to the transformed coefficients is the transform of the gradient of 1/2 sum || W (sum_m d_m * x_m - s) ||^2 stated with periodic convolutions in the signal domain; obfn_dfd, computed from half of the spectrum, is the value of that data term; hessian_f is the derivative of grad_f; reconstruct returns the sum of the convolutions. With a step parameter L at least the largest gain of the dictionary over the frequencies (times the largest squared mask entry), the coefficients after K iterations have an objective within 2 L ||X0 - x*||^2 / (K + 1)^2 of every minimiser over the coefficients allowed by NonNegCoef and NoBndryCross, and an iteration leaves a start unchanged exactly if the start is optimal.", "quantifier": "for all sizes of the spatial axes, numbers of axes, channels, filters and signals, all real dictionaries, signals, masks, weights, starts, all L above the gain and all numbers of iterations", "why_tests_cant": "a test compares one run with stored values or checks that the objective is small; it cannot establish the gradient and the value for all shapes and data, nor a rate for all starts", "anchors": ["sporco/pgm/cbpdn.py:192-381 (ConvBPDN)", "sporco/pgm/cbpdn.py:412-508 (ConvBPDNMask)", "sporco/pgm/pgm.py:708-894 (PGMDFT)"]}
{"id": "C84", "title": "Product dictionary sparse coding solves its documented problem; setdict(B=...) breaks it", "statement": "ConvProdDictBPDN (admm/pdcsc.py) diagonalises B^T B and solves a Sherman-Morrison system per eigenvalue and frequency. The x step so computed is the unique minimiser of 1/2 sum_c || sum_b B_cb sum_m d_m * x_bm - s_c ||^2 + rho/2 || x - y + u ||^2 in the spatial domain; an iteration which changes nothing has X = Y and Y minimises the documented objective; from any start with RelaxParam in (0,2) the residuals vanish, the objective of Y tends to the minimum and X and Y converge to a minimiser, which exists if lmbda and the weights are positive. The same holds for ConvProdDictBPDNJoint without NonNegCoef (l1 plus l2,1 over the channels). reconstruct returns the product synthesis and obfn_dfd half its squared distance from the signal. setdict with a new D (with or without a new B) leaves the object ready for the new dictionaries, whereas setdict(B=...) alone keeps the products with the old B, so that the next x steps minimise nothing the user asked for.", "quantifier": "for all signal sizes, numbers of axes, channels, filters, matrices B and D, signals, weights, rho > 0, relaxation in (0,2), starting states, and every eigendecomposition eigh may return", "why_tests_cant": "tests run a few iterations on small random arrays and compare the result with a generating sparse code up to a tolerance; they cannot establish optimality or convergence for all inputs, and no test calls setdict with B", "anchors": ["sporco/admm/pdcsc.py:80-192", "sporco/admm/pdcsc.py:255-287", "sporco/admm/cbpdn.py:300-344", "sporco/linalg.py:92-143", "sporco/linalg.py:266-273"]}
{"id": "C85", "title": "Product dictionary coding with an l1 data term minimises the documented functional, but its own dual residual does not tend to zero", "statement": "ConvProdDictL1L1Grd and ConvProdDictL1L1GrdJoint (admm/pdcsc.py): if an iteration leaves Y and U unchanged, X minimises || W (D X B^T - S) ||_1 + lmbda || X ||_1 (or the weighted l2,1 norm over the channels) + mu/2 sum || G_l X ||^2; for 0 < RelaxParam < 2 X and the array returned by getcoef converge to a minimiser, which exists for positive lmbda and weights.  At convergence the dual residual reported by the class is zero, as the stopping test of ADMM.solve requires: REFUTED, it converges to the negative of the gradient of the mu term at the solution.", "quantifier": "all real signals, shapes and numbers of axes, filters and channels; all B (with an orthogonal eigendecomposition of B^T B), masks and weights that are not negative, all rho > 0, all starting states", "why_tests_cant": "The limit of an iteration cannot be reached by a test, and a test of the stopping rule with a loose tolerance passes although the residual does not vanish.", "anchors": ["sporco/admm/pdcsc.py:289-703", "sporco/admm/cbpdn.py:2640-2770", "sporco/admm/admm.py:437-458"]}
{"id": "C86", "title": "The plug and play solvers find (consensus) equilibria, the ADMM and the proximal gradient version the same ones", "statement": "admm.ppp.PPP: for every pair of firmly non-expansive agents with an equilibrium (x, u), i.e. proxf(x - u) = x and proxg(x + u) = x, the iterates converge to an equilibrium from any initial Y0, U0 with 0 < RelaxParam < 2; zero residuals mean that the variables are an equilibrium, for any agents; with proximal operators it minimises f + g.  admm.ppp.PPPConsensus: all blocks converge to one multi-agent consensus equilibrium with the weights mu.  pgm.ppp.PPP: a zero residual means a fixed point of the step, and the fixed points with step parameter L are the equilibria of the ADMM version with rho = L.  The solution does not depend on rho when f and the denoiser do not: REFUTED.  Option Monotone leads to the same solution: REFUTED.", "quantifier": "all array sizes, numbers of agents, positive weights, penalty parameters, starting states and firmly non-expansive operators", "why_tests_cant": "Plug and play denoisers are arbitrary functions; tests use one linear or proximal example and a few iterations.", "anchors": ["sporco/admm/ppp.py:22-299", "sporco/pgm/ppp.py:23-152", "sporco/admm/admm.py:1713-1872", "sporco/pgm/pgm.py:393-515"]}
{"id": "C87", "title": "SplineL1 computes the l1 spline of its documentation", "statement": "SplineL1 applied to an array with any number of dimensions, any set of distinct axes, non-negative lambda and data weights, and a fixed positive penalty parameter solves the documented problem || W(x - s) ||_1 + lambda/2 || D x ||^2, where D is the second difference operator with reflecting ends (rows (-1 1), (1 -2 1), ..., (1 -1)), summed over the axes. In particular: dctii and idctii are inverse to each other; multiplication with Alpha in the cosine domain is D; the x step is the only minimiser of its sub-problem and satisfies the equation checked by LinSolveCheck exactly; a state that an iteration does not change is a solution with Y = X - S; for relaxation parameters in (0, 2) the iterates converge from any starting point to a solution whenever one exists (always for positive weights), as does the recorded objective function with gEvalY true or false.", "quantifier": "all array shapes, axes, signals, weights, parameters, starting points; all iterations", "why_tests_cant": "Tests compare with a given result on a few fixed arrays within a tolerance; whether the cosine-domain formulas implement the documented operator with reflecting ends for every length and axis set, and whether the limit is a minimiser, quantifies over all signals and infinite executions.", "anchors": ["sporco/admm/spline.py:130-291", "sporco/fft.py:318-372", "sporco/admm/admm.py:334-346"]}
{"id": "C88", "title": "RobustPCA converges to a solution of the robust PCA problem", "statement": "For every matrix S, every lmbda >= 0, every positive fixed penalty parameter, every relaxation parameter in (0, 2) and every starting state, the two matrices X and Y returned by RobustPCA.solve converge, as the number of iterations grows, to L and E with L + E = S minimising ||L||_* + lmbda ||E||_1; a solution always exists. The recorded objective function converges to the minimum for each of the four settings of fEvalX and gEvalY and the recorded constraint violation to zero. For lmbda >= 1 the pair (S, 0) is a solution, for lmbda <= 1/sqrt(MN) the pair (0, S); in particular the default lmbda always has the trivial solution (0, S) for a matrix of one column.", "quantifier": "all matrices, parameters, starting states; all iterations", "why_tests_cant": "The unit tests check one random low-rank plus sparse matrix; convergence from every state and minimality against every competing decomposition quantify over infinite sets and executions.", "anchors": ["sporco/admm/rpca.py:115-262", "sporco/prox/_nuclear.py:41-67", "sporco/admm/admm.py:334-346"]}
{"id": "C89", "title": "TVL2Denoise and TVL1Denoise converge to the total variation solution although their x step is only a few relaxation sweeps, provided MaxGSIter is even", "statement": "With GSTol = 0 (the default) and an even MaxGSIter (the default is 2), from any starting state, for any fixed rho > 0 and relaxation parameter in (0, 2), X of TVL2Denoise converges to the minimiser of 1/2 ||W_df (x - S)||^2 + lmbda ||sqrt(sum of squared forward differences over axes and channels)||_{1,W_tv}, which exists and is unique when no data weight is zero, Y converges to the differences of that image, the dual variable converges and the recorded objective converges to the minimum; X of TVL1Denoise converges to a minimiser of the problem with the weighted l1 data term. With MaxGSIter = 1 this is false: there is a two pixel signal and a lmbda for which TVL2Denoise, everything else default, oscillates forever.", "quantifier": "all image shapes, numbers of channels and of differenced axes (the first K axes, each of length at least 2), all signals, non-negative weights, lmbda >= 0, rho > 0, relaxation parameters in (0, 2), even MaxGSIter >= 2, starting states; all iterations", "why_tests_cant": "The x step is never solved exactly, so no finite run shows whether the iteration tends to the solution; the failure for one sweep is a three-cycle that looks like slow convergence in a short run.", "anchors": ["sporco/admm/tvl2.py:118-125", "sporco/admm/tvl2.py:183-371", "sporco/admm/tvl1.py:240-365", "sporco/linalg.py:906-910"]}
{"id": "C90", "title": "ConvBPDNInhib: what the lateral and self inhibition weights are, which problem a converged solution solves, and that it is not the documented functional", "statement": "Constructing ConvBPDNInhib fails exactly when the inhibition window, its length made odd, exceeds the signal along some axis; otherwise the weighting array is non-zero only within the window radius of the origin and is there the geometric mean of the window samples, and the self inhibition array is the same with zero at the origin. With a 0/1 group matrix the lateral weight computed in an iteration is the sum over the other filters of the number of common groups times the windowed activity of that filter (plus exponential smoothing), the self weight is the windowed activity of the filter itself, no threshold is ever negative, and with no groups or mu = 0 and gamma = 0 the solver is ConvBPDN. If Y and the dual variable converge, X and Y have the same limit and it minimises the sparse coding objective in which the weights are held fixed at those of that limit; conversely every such point is a stationary state. For a symmetric window such a point is a first order stationary point of the documented functional with HALF of the inhibition terms; it need not be one of the documented functional itself. With group memberships strictly between 0 and 1 a filter excites itself (negative thresholds).", "quantifier": "all signal shapes and axes, dictionaries, signals, window lengths and non-negative window samples, group matrices (0/1 for the positive results), lmbda, mu, gamma >= 0, smoothing in [0,1), rho > 0, options NonNegCoef and NoBndryCross, all iterations", "why_tests_cant": "The documented problem has weights that depend on the unknown; a test sees the objective value of one run but not which problem the fixed points solve, nor that halving mu and gamma is what makes the documentation right.", "anchors": ["sporco/admm/cbpdnin.py:26-66", "sporco/admm/cbpdnin.py:207-352", "sporco/admm/cbpdn.py:614-631"]}
{"id": "C91", "title": "The dictionary updates CnstrMOD (ADMM and proximal gradient, with and without weights) and their constraint projection", "statement": "The projection of cmod.py returns, for every column, the nearest column of norm one in the allowed set (all, zero mean, non-negative), except that columns which are constant (ZeroMean), without positive entry (NonNegCoef) or zero are sent to the zero column; ZeroMean and NonNegCoef together raise ValueError. The x step is the unique minimiser of its quadratic subproblem. The dictionaries at which the ADMM solver with penalty rho stops changing are exactly those satisfying the first order condition of the documented problem with multipliers below rho, for the proximal gradient solvers exactly those with multipliers below L; if the iterates converge (ADMM: Y and U; proximal gradient: X, any bounded momentum) the limit satisfies the first order condition with multipliers at most rho (L). A proximal gradient step from a feasible dictionary does not increase the misfit when L is at least the curvature, for which max(W) * sum Z^2 is a bound. A solution is stationary when L exceeds the curvature; a stationary dictionary with non-positive multipliers is a solution, one with a positive multiplier need not be. An atom that is not used and not initialised stays zero for ever and the constraint statistic Cnstr, which is zero exactly for allowed columns of norm one or zero, does not show it.", "quantifier": "all sizes, Z, S, non-negative weights W, penalty and relaxation parameters, L > 0, initial states, all iterations", "why_tests_cant": "The constraint set is not convex, so test runs end at points whose status (solution, stationary, stuck) cannot be read off the statistics.", "anchors": ["sporco/admm/cmod.py:147-342", "sporco/pgm/cmod.py:110-232", "sporco/pgm/cmod.py:291-407", "sporco/pgm/pgm.py:393-441"]}
{"id": "C92", "title": "Nearest Kronecker products, the Kronecker product SVD, principal components and block circulant matrices", "statement": "nkp returns B and C with ||A - B (x) C|| no larger than for any other pair of those shapes, and both factors have the same norm. kpsvd returns orthonormal B_i, orthonormal C_i and descending non-negative weights with A equal to the weighted sum of the products, and for every n the first n terms are a best approximation among all sums of n Kronecker products. Both raise ValueError exactly when the shapes do not multiply to that of A, or B has a single row or column, or C is empty. The basis of pca is orthonormal, its columns are eigenvectors of the scatter matrix of the (centred) data with the returned eigenvalues, which descend and sum to the energy of the data; its first n columns give the best n-dimensional subspace and, with centering, together with the mean the best affine subspace; B.T followed by B reproduces the data, and every vector when there are at least as many observations as variables. Block (i, k) of block_circulant(A) is A[(i - k) mod n], so that its product with a vector is a circular convolution of blocks; it raises exactly for an empty tuple or a block that cannot be stretched to the shape of the first.", "quantifier": "all sizes, matrices, competing factors and subspaces, numbers of terms, whatever valid decomposition numpy.linalg.svd returns", "why_tests_cant": "Optimality quantifies over all competing factors and subspaces; tests compare one result with one reconstruction.", "anchors": ["sporco/linalg.py:204-228", "sporco/linalg.py:914-945", "sporco/linalg.py:949-986", "sporco/linalg.py:990-1033", "sporco/array.py:324-334"]}
{"id": "C93", "title": "Which arrays the solvers share with the caller and which they overwrite", "statement": "No solver writes into an array the caller passed in (signal, dictionary, coefficients, weights, mask), however long it is run and also when the same array is passed twice. The array returned by solve, getmin, getcoef or getdict keeps its content when the object is run further: this holds for the solvers that bind their result to a new array in every iteration (BPDN, ConvBPDN and its variants, AddMaskSim, the two-block solvers, RobustPCA, TVL2Denoise and TVL1Denoise, the ADMM dictionary updates from their first iteration on, PGM BPDN and CnstrMOD, dictionary learning with 'ism' or 'cg'); it fails for ADMMConsensus and ConvCnstrMOD_Consensus, ConvBPDNScalarTV/VectorTV/RecTV without ReturnX, the PGM convolutional solvers, OnlineConvBPDNDictLearn, and dictionary learning with 'cns' or 'pgm', which overwrite it. The copies of the previous iterate made at the start of an iteration are intact at its end in all of them.", "quantifier": "all argument arrays and aliasings between them, all options and branch outcomes, all numbers of iterations and inner loop rounds, all interleaved setdict/setcoef calls, all array contents", "why_tests_cant": "Tests compare the result right after solve; they do not keep a result and run the object again, and cannot cover all option combinations and iteration counts.", "anchors": ["sporco/admm/admm.py:262-272", "sporco/admm/admm.py:334", "sporco/admm/admm.py:437", "sporco/admm/admm.py:573", "sporco/admm/admm.py:877-885", "sporco/admm/admm.py:1585-1591", "sporco/admm/ccmod.py:298-307", "sporco/admm/cmod.py:198-207", "sporco/admm/cbpdntv.py:314-321", "sporco/admm/cbpdntv.py:1098-1106", "sporco/pgm/pgm.py:779-811", "sporco/pgm/stepsize.py:109-120", "sporco/pgm/backtrack.py:162-208", "sporco/dictlrn/onlinecdl.py:310-350", "sporco/dictlrn/dictlrn.py:379-410"]}
{"id": "C94", "title": "ADMM.solve stops by its tolerances after a number of iterations that can be computed beforehand, and the tolerances bound the error of the objective", "statement": "For a convex problem with a saddle point, a fixed penalty rho (AutoRho disabled) and 0 < RelaxParam < 2, with an x step and a y step that minimise the augmented Lagrangian: (1) once Y and U fit each other (always after one iteration, and from the start if solve() starts with the zero arrays of BPDN), K iterations leave a primal residual of at most (1+RelaxParam)*q and a dual residual of at most rho*|A|*RelaxParam*q, where q^2 is the initial squared distance from the solution divided by RelaxParam*(2-RelaxParam)*K; without relaxation r^2 + |B(Y-Yprev)|^2 never increases and is at most distance/K. (2) Both settings of AutoRho.StdResiduals apply the documented criterion r < sqrt(Nc)*AbsStopTol + RelStopTol*rn and s < sqrt(Nx)*AbsStopTol + RelStopTol*sn, except that the normalised form replaces a zero normaliser by one. (3) With AbsStopTol > 0 the call solve() therefore ends with its tolerances met, at the first iteration that meets them and after at most K iterations for every K above an explicit bound (for BPDN in terms of the solution p and the gradient of the data term at p), if MaxMainIter allows K. (4) After any iteration the objective at (X, Y) differs from the minimum by at most rho*|U|*r + |2-RelaxParam|*s*|X - x*| + |1-RelaxParam|*rho*r*|A(X - x*)| upwards and rho*|u*|*r downwards. With AbsStopTol = 0, the default, (3) fails: for a BPDN problem whose solution is zero the relative primal residual is 1 in every iteration, and solve() always uses up MaxMainIter.", "quantifier": "all convex problems with a saddle point, linear constraints, starting arrays, tolerances, relaxation parameters in (0,2), MaxMainIter, numbers of iterations", "why_tests_cant": "A test observes the iteration count of one problem; the rate and the guarantee at the stopping point are statements about all problems and all iteration counts, and the failure for zero solutions is a statement about every MaxMainIter.", "anchors": ["sporco/admm/admm.py:293-389", "sporco/admm/admm.py:441-458", "sporco/admm/admm.py:462-486", "sporco/admm/admm.py:722-775", "sporco/admm/bpdn.py:197-199", "sporco/admm/bpdn.py:436-454"]}
{"id": "C95", "title": "ParConvBPDN, run for long enough, solves the convolutional sparse coding problem whatever the division into groups", "statement": "For a single-channel dictionary, with 0 < RelaxParam < 2, rho > 0 and alpha non-zero, the array returned by ParConvBPDN.solve tends to a minimiser of 1/2 ||W(sum_m d_m * x_m - s)||^2 + lmbda sum_m ||w_m x_m||_1 over the coefficient maps allowed by NonNegCoef and NoBndryCross, for every number of groups and every schedule of the worker processes: for every eps there is a number of iterations after which any history of calls of solve with at least that many iterations in total (none ending at its limit with iteration 256 before another call) has every coefficient within eps of that minimiser, and its objective value within eps of the minimum. Objects constructed for the same problem with different ngrp, alpha, rho, RelaxParam or initial arrays give reconstructions that agree in the limit wherever the mask W is not zero. A minimiser exists whenever lmbda and the weights are positive.", "quantifier": "for all dictionaries, signals, masks, weights, options NonNegCoef and NoBndryCross, divisions into groups, parameters, initial memories, schedules of the workers, and divisions of the iterations into calls", "why_tests_cant": "A test runs a finite number of iterations for a few group counts and compares with the serial solver up to a tolerance; it cannot show that the limit exists, that it is a minimiser, or that it does not depend on grouping and scheduling.", "anchors": ["sporco/admm/parcbpdn.py:132-263", "sporco/admm/parcbpdn.py:267-314", "sporco/admm/parcbpdn.py:686-702", "sporco/admm/parcbpdn.py:728-835"]}
{"id": "C96", "title": "reconstruct() returns the signal that the given coefficients and dictionary represent", "statement": "Every solver class has a method reconstruct. Passing coefficient maps (or, for a dictionary update class, a dictionary) returns the signal they represent with the dictionary (coefficients) of the object, i.e. the sum of circular convolutions, and calling it without an argument returns the signal represented by what solve returned.", "quantifier": "all sizes, axes, numbers of filters and channels, dictionaries, coefficient maps and object states", "why_tests_cant": "the tests call reconstruct on one or two random arrays without comparing with a convolution; the statement quantifies over all shapes, the combinations of signal and filter size decide between a correct result, an exception and a silently wrong signal, and the default argument matters only when the two ADMM variables differ", "anchors": ["sporco/admm/cbpdn.py:373-380", "sporco/admm/cbpdn.py:1801-1810", "sporco/admm/cbpdn.py:2896-2905", "sporco/admm/cbpdntv.py:563-571", "sporco/admm/ccmod.py:418-427", "sporco/admm/ccmodmd.py:544-553", "sporco/pgm/ccmod.py:394-403", "sporco/pgm/cbpdn.py:374-381", "sporco/pgm/bpdn.py:237-242", "sporco/pgm/cmod.py:227-232", "sporco/dictlrn/cbpdndl.py:488-498"]}
{"id": "C97", "title": "The conjugate gradient dictionary updates solve their linear system to the requested accuracy", "statement": "linalg.solvemdbi_cg (used by ConvCnstrMOD_CG and ConvCnstrMODMaskDcpl_CG) solves (rho I + sum_k a_k a_k^H) x = b independently at every frequency to the relative accuracy given by the tolerance, returns the number of CG iterations, and a dictionary update that no longer changes is a solution of its problem.", "quantifier": "all numbers of frequencies, filters and signals, all coefficient spectra, right hand sides, initial solutions, tolerances, iteration limits, rho > 0, and every implementation of cg that keeps the documented contract", "why_tests_cant": "the test compares one random system at a tight tolerance; accuracy for all systems, uniqueness of the solution and the effect of the warm start on stationary iterates are statements about all inputs", "anchors": ["sporco/linalg.py:515-579", "sporco/admm/ccmod.py:587-600", "sporco/admm/ccmodmd.py:741-756"]}
{"id": "C98", "title": "The initial value options Y0, Y1, U0 and U1 of ParConvBPDN take effect", "statement": "ParConvBPDN accepts the options Y0, Y1, U0 and U1. A solve of the object starts from the arrays given, and from zero for those not given, whatever other objects were constructed or solved earlier in the process.", "quantifier": "all shapes, all option values, all histories of constructions and solves in the process", "why_tests_cant": "no test sets these options for ParConvBPDN, and what happens depends on the history of the process, of which there are infinitely many", "anchors": ["sporco/admm/parcbpdn.py:64-67", "sporco/admm/parcbpdn.py:84-128", "sporco/admm/parcbpdn.py:638-679", "sporco/admm/parcbpdn.py:770-771"]}
{"id": "C99", "title": "The helpers for test data: random masks, salt and pepper noise, conversion to grey", "statement": "rndmask(shp, frc, dtype) returns an array of zeros and ones of the given type in which an entry is zero with probability frc. spnoise(s, frc, smn, smx) replaces an entry by smn or by smx with probability frc/2 each and leaves the others unchanged. rgb2gray(rgb) is a weighted mean of the channels: it lies between the smallest and the largest channel, keeps grey pixels and is linear.", "quantifier": "all fractions between 0 and 1, all draws of the generator, all images, all data types", "why_tests_cant": "the draws are random, so a test sees a few of them and can only check frequencies approximately; the tests use real types only", "anchors": ["sporco/signal.py:42-66", "sporco/signal.py:70-91", "sporco/signal.py:95-111"]}
{"id": "C100", "title": "The perceptual metrics pamse and gmsd", "statement": "pamse(vref, vcmp) is non-negative and at most the mean squared error (of the rescaled images), with equality for a constant difference. gmsd(vref, vcmp) lies between 0 and 1/2 and its quality map in (0, 1]; it is 0 for identical images and only for similar ones; it ignores a constant added to the compared image and, with rescaling, a common positive factor. Both are symmetric in the two images.", "quantifier": "all image sizes, all real images, with and without rescaling", "why_tests_cant": "the tests compare a few images; bounds and invariances are statements about all pairs of images", "anchors": ["sporco/metric.py:202-236", "sporco/metric.py:240-300"]}
{"id": "C101", "title": "The checks of linear algebra: valid_adjoint accepts exactly adjoint pairs and rrs measures a relative residual", "statement": "valid_adjoint(A, AT, ...) returns True when AT is the adjoint of A and False when it is not. rrs(ax, b) lies between 0 and 2, is 0 exactly when ax = b, is symmetric, and controls the relative residual ||ax - b|| / ||b||.", "quantifier": "all sizes, all real and complex matrices, all draws of the generator, all tolerances", "why_tests_cant": "the check draws one pair of random vectors, so a test sees one draw of one operator", "anchors": ["sporco/linalg.py:147-200", "sporco/linalg.py:883-910"]}
{"id": "C102", "title": "The array products inner and dot", "statement": "linalg.inner(x, y, axis) is equivalent to np.sum(x * y, axis=axis, keepdims=True), broadcasting included, for every axis. linalg.dot(a, b, axis) is the matrix product of a with the given axis of b: entry (.., i, ..) is the sum over k of a[i, k] b[.., k, ..], and sizes that do not match raise.", "quantifier": "all shapes and numbers of dimensions, all entries, all values of axis", "why_tests_cant": "shapes, broadcasting and axis values combine in infinitely many ways; the tests use a few shapes with equal numbers of dimensions", "anchors": ["sporco/linalg.py:41-88", "sporco/linalg.py:92-143"]}
{"id": "C103", "title": "The array helpers zpad, zdivide, atleast_nd and split", "statement": "zpad(x, (a, b), ax) puts a zeros before and b zeros behind x on the axis ax. zdivide(x, y) is x / y with 0 where y is 0. atleast_nd(n, u) has at least n dimensions and the entries of u. split(u, axis) is the list of the slices of u on the axis, from which u can be put together again; an axis that does not exist raises.", "quantifier": "all shapes and numbers of dimensions, all entries, all values of the axis", "why_tests_cant": "shapes and axis values combine in infinitely many ways, and the tests use a few of them", "anchors": ["sporco/array.py:95-115", "sporco/array.py:119-136", "sporco/array.py:189-212", "sporco/array.py:216-243"]}
{"id": "C104", "title": "Demosaicing by bilinear interpolation", "statement": "bilinear_demosaic(img) returns an image with three channels in which the values measured by the colour filter array are kept, no entry is NaN, and every missing value is the bilinear interpolation of the neighbouring measured values of its colour, so that values stay in the range of the measured ones. It works for any image that contains samples of each colour.", "quantifier": "all image sizes and all pixel values, all Delaunay triangulations the library may choose", "why_tests_cant": "the only test compares the result for one smooth image with a loose tolerance, so that it cannot tell bilinear from cubic interpolation", "anchors": ["sporco/interp.py:24-92"]}
{"id": "C105", "title": "Promotion of half precision arrays", "statement": "promote16(u) has the values of u and a type that linear algebra functions accept; promote16(u, fn) returns the values fn computes, converted back to float16 only if u is of that type. So norm_nuclear and prox_nuclear give, for arrays of every element type, the nuclear norm and its proximal operator applied to the values of the array.", "quantifier": "all element types, all matrices, all functions returning one or several arrays, all exact singular value decompositions", "why_tests_cant": "the tests use floating point random matrices only; the effect for integer matrices depends on all entries of the singular vectors", "anchors": ["sporco/array.py:140-185", "sporco/prox/_nuclear.py:prox_nuclear", "sporco/prox/_nuclear.py:norm_nuclear"]}
