{"id": "C01", "title": "PCR block schedule covers the system", "statement": "For every number of blocks n >= 1 the schedule computed for parallel cyclic reduction is a list of (start,end) ranges such that: the first starts at 0, the last ends exactly at n, each range starts one before the previous one ends (overlap of exactly one block), every range length is a power of two, lengths never increase, and each length is the largest power of two that fits in what remains. The computation terminates for every n; n = 0 is rejected.", "quantifier": "every number of blocks n", "why_tests_cant": "tests try n = 1..30 only; an off-by-one at some larger remainder would silently drop block rows", "anchors": ["pyoptmat/chunktime.py:BidiagonalPCRFactorization._pow2"]}
{"id": "C02", "title": "Thomas factorization solves the block-bidiagonal system", "statement": "For every number of blocks, block size, batch size, every batch of non-singular diagonal blocks A_i and arbitrary sub-diagonal blocks B_i and every right-hand side b, applying BidiagonalThomasFactorization(A,B) to b returns the x with A_0 x_0 = b_0 and B_{i-1} x_{i-1} + A_i x_i = b_i, and x is the only solution.", "quantifier": "all sizes, all non-singular block bidiagonal matrices, all right-hand sides", "why_tests_cant": "tests sample random matrices of at most 30 blocks", "anchors": ["pyoptmat/chunktime.py:thomas_solve", "pyoptmat/chunktime.py:BidiagonalThomasFactorization", "pyoptmat/chunktime.py:LUFactorization.forward"]}
{"id": "C03", "title": "Parallel cyclic reduction solves the block-bidiagonal system", "statement": "Same as C02 for BidiagonalPCRFactorization: the in-place, strided, multi-block cyclic reduction returns the exact solution for every number of blocks (not only powers of two).", "quantifier": "all sizes, all non-singular block bidiagonal matrices, all right-hand sides", "why_tests_cant": "the algorithm works through aliasing strided views whose index arithmetic changes with the binary expansion of nblk; tests sample 30 sizes", "anchors": ["pyoptmat/chunktime.py:BidiagonalPCRFactorization.matvec", "pyoptmat/chunktime.py:BidiagonalPCRFactorization._solve_block", "pyoptmat/chunktime.py:BidiagonalPCRFactorization._cyclic_shift"]}
{"id": "C04", "title": "Hybrid PCR/Thomas solves the block-bidiagonal system", "statement": "Same as C02 for BidiagonalHybridFactorization for every min_size: PCR is used exactly on the leading schedule ranges of length greater than min_size, Thomas on the rest, and the result is the exact solution.", "quantifier": "all sizes, all min_size values, all systems", "why_tests_cant": "the switch point depends on nblk and min_size jointly; tests sample three strategies", "anchors": ["pyoptmat/chunktime.py:BidiagonalHybridFactorization.matvec", "pyoptmat/chunktime.py:BidiagonalHybridFactorization._pcr_blocks"]}
{"id": "C05", "title": "All linear solution strategies agree", "statement": "For every non-singular block bidiagonal operator and right-hand side, solve_method dense and direct, and direct solvers thomas, pcr and hybrid (any min_size), return the same vector.", "quantifier": "all systems, all strategies", "why_tests_cant": "agreement must hold for every operator, tests compare on random ones", "anchors": ["pyoptmat/chunktime.py:ChunkTimeOperatorSolverContext.solve", "pyoptmat/chunktime.py:BidiagonalForwardOperator.inverse"]}
{"id": "C06", "title": "A factorization object can be applied repeatedly", "statement": "Applying the same factorization object to several right-hand sides one after the other gives for each the solution of the original system.", "quantifier": "every sequence of right-hand sides", "why_tests_cant": "tests apply each object once; only a history of calls shows state leaking between solves", "anchors": ["pyoptmat/chunktime.py:BidiagonalPCRFactorization.matvec", "pyoptmat/chunktime.py:BidiagonalThomasFactorization.matvec"]}
{"id": "C07", "title": "The forward operator is multiplication by the dense matrix it represents", "statement": "For every A, B and vector v, BidiagonalForwardOperator(A,B)(v) equals to_diag().to_dense() times v in every batch, and applying inverse() after the forward operator gives v back when the diagonal blocks are non-singular.", "quantifier": "all sizes, batches, blocks and vectors", "why_tests_cant": "index/layout errors depend on the combination of sizes", "anchors": ["pyoptmat/chunktime.py:BidiagonalForwardOperator.forward", "pyoptmat/chunktime.py:BidiagonalForwardOperator.to_diag", "pyoptmat/chunktime.py:SquareBatchedBlockDiagonalMatrix.to_dense"]}
{"id": "C08", "title": "Dense and COO forms of a block-diagonal matrix agree", "statement": "For every set of distinct diagonals, in any order, to_dense puts block k of diagonal d at block position (k-d,k) or (k,k+d) and zero elsewhere; to_batched_coo lists exactly nnz in-range entries whose sum at each position is the to_dense entry.", "quantifier": "all sizes, all lists of distinct diagonals in any order", "why_tests_cant": "tests use one 3x3 block matrix", "anchors": ["pyoptmat/chunktime.py:SquareBatchedBlockDiagonalMatrix.__init__", "pyoptmat/chunktime.py:SquareBatchedBlockDiagonalMatrix.to_dense", "pyoptmat/chunktime.py:SquareBatchedBlockDiagonalMatrix.to_batched_coo", "pyoptmat/chunktime.py:SquareBatchedBlockDiagonalMatrix.nnz"]}
{"id": "C09", "title": "to_unrolled_csr keeps the logical shape", "statement": "to_unrolled_csr returns one n-by-n matrix per batch entry, whatever diagonals are filled.", "quantifier": "all lists of diagonals", "why_tests_cant": "only matrices whose last block row and column are both populated are tested", "anchors": ["pyoptmat/chunktime.py:SquareBatchedBlockDiagonalMatrix.to_unrolled_csr"]}
{"id": "C10", "title": "Chunked Newton solve: bounded work and truthful success", "statement": "newton_raphson_chunk calls the residual at most miter+1 times, performs at most miter updates, and when it finishes without using up miter and no residual norm is NaN, then at the returned point every batch norm is <= atol or every batch norm is <= rtol times its starting norm. A starting point that already satisfies the test is returned unchanged.", "quantifier": "every residual function, linear solver, tolerance, starting point", "why_tests_cant": "depends on the whole iteration history of an arbitrary nonlinear function", "anchors": ["pyoptmat/chunktime.py:newton_raphson_chunk"]}
{"id": "C11", "title": "A NaN residual is never reported as success", "statement": "If the residual norm at the returned point is NaN in some batch entry then the Newton solve warns or raises.", "quantifier": "every residual function and history", "why_tests_cant": "tests never produce NaN residuals", "anchors": ["pyoptmat/chunktime.py:newton_raphson_chunk", "pyoptmat/solvers.py:newton_raphson", "pyoptmat/solvers.py:newton_raphson_bt"]}
{"id": "C12", "title": "throw_on_fail raises exactly when the tolerances were not met", "statement": "With throw_on_fail=True newton_raphson_chunk raises if and only if the tolerances are not met after miter iterations; with throw_on_fail=False it never raises and returns the same point with a warning.", "quantifier": "every residual function, every miter", "why_tests_cant": "convergence exactly at the last permitted iteration is a single point of the input space", "anchors": ["pyoptmat/chunktime.py:newton_raphson_chunk"]}
{"id": "C13", "title": "newton_raphson returns a consistent (x, J) pair", "statement": "newton_raphson returns x together with the Jacobian evaluated at that same x, with the same bounded-work and success guarantees as C10; problems of size one and linsolver='diag' use the diagonal solve, 'lu' the full solve, any other name is rejected.", "quantifier": "every residual function, size, linsolver string", "why_tests_cant": "tests sample a few functions", "anchors": ["pyoptmat/solvers.py:newton_raphson", "pyoptmat/solvers.py:lu_linear_solve", "pyoptmat/solvers.py:jacobi_iteration_linear_solve"]}
{"id": "C14", "title": "Backtracking Newton: bounded line search and monotone residual unless exhausted", "statement": "newton_raphson_bt calls the residual at most 1 + miter*(max_bt+2) times; each accepted update either strictly reduces every batch residual norm or was accepted only after the line search used up max_bt; the line-search scale of an entry is 2^-j for some j <= max_bt+1, where j counts exactly the trials at which that entry's residual norm exceeded its current one by more than atol; the returned Jacobian is that of the returned point, and every step of the path uses the configured linear solver.", "quantifier": "every residual function and tolerance", "why_tests_cant": "worst-case line-search histories cannot be enumerated", "anchors": ["pyoptmat/solvers.py:newton_raphson_bt"]}
{"id": "C15", "title": "Newton solvers leave the caller's starting point alone", "statement": "After newton_raphson, newton_raphson_bt or newton_raphson_chunk returns, the tensor passed as x0 still holds its original values.", "quantifier": "every call", "why_tests_cant": "tests never look at x0 after the call", "anchors": ["pyoptmat/solvers.py:newton_raphson", "pyoptmat/solvers.py:newton_raphson_bt", "pyoptmat/chunktime.py:newton_raphson_chunk"]}
{"id": "C16", "title": "Newton solves affine systems in one update", "statement": "If the residual is affine with a non-singular matrix and the supplied Jacobian is exact, one update from any starting point gives residual exactly zero (lu solver).", "quantifier": "every size, affine system and starting point", "why_tests_cant": "tests sample", "anchors": ["pyoptmat/solvers.py:newton_raphson", "pyoptmat/chunktime.py:newton_raphson_chunk"]}
{"id": "C17", "title": "GMRES stops only on convergence or at maxiter", "statement": "gmres returns after at most maxiter iterations; if it stops before maxiter then every batch residual norm ||b - A x|| of the returned x is below tol; otherwise the returned x is the iterate of the reported iteration, at which the residual was actually checked (every check-th iteration, or the last); a starting guess already below tol is returned unchanged with iteration count 0; for maxiter >= 1 the reported count is below maxiter.", "quantifier": "every matrix, right-hand side, preconditioner, check interval", "why_tests_cant": "control flow depends on the residual history", "anchors": ["pyoptmat/solvers.py:gmres", "pyoptmat/solvers.py:lu_gmres", "pyoptmat/solvers.py:jacobi_gmres"]}
{"id": "C18", "title": "integrate fills every requested time exactly once", "statement": "For every number of times and block_size >= 1, the integration writes the result at every time index exactly once, in increasing blocks, starting from y0 at index 0; the last block may be short; nothing outside is written.", "quantifier": "all numbers of times and block sizes", "why_tests_cant": "remainder handling depends on both numbers", "anchors": ["pyoptmat/ode.py:FixedGridBlockSolver.integrate"]}
{"id": "C19", "title": "Backward Euler results satisfy the implicit update to tolerance", "statement": "For every right-hand side function, times, initial condition, block size, linear solver and guess: if no block solve warned and no norm was NaN, every step of the result of odeint(method='backward-euler') satisfies |y_k - y_{k-1} - (t_k - t_{k-1}) f(t_k, y_k)| <= atol, or <= rtol times the block's starting residual norm, in every component of every batch entry.", "quantifier": "all functions, time grids, block sizes, solver strategies", "why_tests_cant": "universally quantified over ODEs and time grids", "anchors": ["pyoptmat/ode.py:BackwardEulerScheme.form_operators", "pyoptmat/ode.py:FixedGridBlockSolver.block_update", "pyoptmat/ode.py:odeint"]}
{"id": "C20", "title": "Forward Euler results satisfy the explicit update to tolerance", "statement": "Same as C19 for method='forward-euler' with f evaluated at (t_{k-1}, y_{k-1}).", "quantifier": "all functions, time grids, block sizes, solver strategies", "why_tests_cant": "universally quantified over ODEs and time grids", "anchors": ["pyoptmat/ode.py:ForwardEulerScheme.form_operators", "pyoptmat/ode.py:FixedGridBlockSolver.block_update", "pyoptmat/ode.py:odeint"]}
{"id": "C21", "title": "The answer does not depend on block_size", "statement": "When block solves are exact, forward Euler results equal the step-by-step recursion for every block size, and backward Euler results equal those of block_size 1 whenever each implicit step has a unique solution.", "quantifier": "all functions, grids and pairs of block sizes", "why_tests_cant": "tests compare a handful of block sizes", "anchors": ["pyoptmat/ode.py:FixedGridBlockSolver.integrate", "pyoptmat/ode.py:FixedGridBlockSolver.block_update"]}
{"id": "C22", "title": "Block assembly is the Jacobian of the block residual", "statement": "The bidiagonal operator returned by form_operators is the derivative of the block residual with respect to the increments, for both schemes, whenever the function returns its own Jacobian.", "quantifier": "all functions, block sizes and points", "why_tests_cant": "must hold at every point", "anchors": ["pyoptmat/ode.py:BackwardEulerScheme.form_operators", "pyoptmat/ode.py:ForwardEulerScheme.form_operators"]}
{"id": "C23", "title": "Forward Euler block solves finish exactly after at most block_size updates", "statement": "For the forward Euler scheme, starting from any guess and for any supplied Jacobian (even a wrong one), after j Newton updates the first j steps of the block are exact, so n updates solve a block of n steps exactly.", "quantifier": "every function, Jacobian, guess, block size", "why_tests_cant": "finite termination is a statement about all iteration histories", "anchors": ["pyoptmat/ode.py:ForwardEulerScheme.form_operators", "pyoptmat/chunktime.py:newton_raphson_chunk"]}
{"id": "C24", "title": "The initial guess always has the size of the block", "statement": "For every number of times, block size and guess_type the initial guess produced for a block has one increment per time step in that block, zero for 'zero' and the last increments of the previous block for 'previous'; other names are rejected.", "quantifier": "all numbers of times, block sizes and blocks", "why_tests_cant": "depends on the remainder of ntime-1 by block_size", "anchors": ["pyoptmat/ode.py:FixedGridBlockSolver._initial_guess"]}
{"id": "C25", "title": "Adjoint gradients are exact for backward Euler", "statement": "For every parameterised ODE, loss sensitivity, grid and block size, the parameter gradient and initial-condition gradient returned by odeint_adjoint's backward pass equal the derivative of the weighted sum of the backward Euler outputs with respect to parameters and y0.", "quantifier": "all ODEs, grids, block sizes, output gradients", "why_tests_cant": "tests compare with AD/finite differences on a few ODEs", "anchors": ["pyoptmat/ode.py:BackwardEulerScheme.update_adjoint", "pyoptmat/ode.py:BackwardEulerScheme.accumulate", "pyoptmat/ode.py:FixedGridBlockSolver.rewind"]}
{"id": "C26", "title": "Adjoint gradients are exact for forward Euler", "statement": "Same as C25 for the forward Euler scheme.", "quantifier": "all ODEs, grids, block sizes, output gradients", "why_tests_cant": "tests compare with AD/finite differences on a few ODEs", "anchors": ["pyoptmat/ode.py:ForwardEulerScheme.update_adjoint", "pyoptmat/ode.py:ForwardEulerScheme.accumulate", "pyoptmat/ode.py:FixedGridBlockSolver.rewind"]}
{"id": "C27", "title": "Adjoint results do not depend on block_size or on the direct solver", "statement": "The adjoint history and gradients computed by the backward pass are the same for every block_size and for thomas, pcr and hybrid.", "quantifier": "all pairs of block sizes and solvers", "why_tests_cant": "tests compare a few block sizes", "anchors": ["pyoptmat/ode.py:FixedGridBlockSolver.rewind"]}
{"id": "C28", "title": "Gradient slots line up with the differentiated inputs", "statement": "odeint_adjoint's backward pass returns exactly one entry per argument given to the autograd function: None for solver and times, one gradient per function parameter then per extra parameter in order, and the y0 gradient last exactly when y0 requires gradients; odeint and odeint_adjoint produce the same forward values.", "quantifier": "all numbers of parameters, extra parameters, requires_grad flags", "why_tests_cant": "argument-order errors show only for particular combinations", "anchors": ["pyoptmat/ode.py:IntegrateWithAdjoint", "pyoptmat/ode.py:odeint_adjoint"]}
{"id": "C29", "title": "Unknown solver options are rejected before integrating", "statement": "The solver constructor accepts exactly linear_solve_method in {dense,direct} and direct_solve_method in {thomas,pcr,hybrid} and method in {backward-euler,forward-euler}; any other string raises.", "quantifier": "all strings", "why_tests_cant": "all strings cannot be tried", "anchors": ["pyoptmat/ode.py:FixedGridBlockSolver.__init__", "pyoptmat/chunktime.py:ChunkTimeOperatorSolverContext.__init__", "pyoptmat/ode.py:int_methods"]}
{"id": "C30", "title": "ArbitraryBatchTimeSeriesInterpolator is piecewise linear interpolation", "statement": "For strictly increasing times in every batch entry and any queries inside the time range, the interpolator returns for every query and batch entry the piecewise linear interpolant of that entry's data (in particular the data values at the nodes).", "quantifier": "all grids, data, query tensors", "why_tests_cant": "boundary and node hits are measure-zero in random tests", "anchors": ["pyoptmat/utility.py:ArbitraryBatchTimeSeriesInterpolator"]}
{"id": "C31", "title": "Out-of-range queries are rejected by ArbitraryBatchTimeSeriesInterpolator", "statement": "If times are strictly increasing and at least one query is outside the time range of its batch entry, the call raises instead of returning a tensor.", "quantifier": "all grids and query tensors", "why_tests_cant": "tests query inside the range only", "anchors": ["pyoptmat/utility.py:ArbitraryBatchTimeSeriesInterpolator.forward"]}
{"id": "C32", "title": "The precached and one-shot batch interpolators agree with linear interpolation in range", "statement": "BatchTimeSeriesInterpolator, timeseries_interpolate_batch_times and timeseries_interpolate_single_times return the piecewise linear interpolant for every query in the closed time range, hence agree with each other and with ArbitraryBatchTimeSeriesInterpolator there.", "quantifier": "all grids, data and in-range queries", "why_tests_cant": "index wrap-around happens only at the last node", "anchors": ["pyoptmat/utility.py:BatchTimeSeriesInterpolator", "pyoptmat/utility.py:timeseries_interpolate_batch_times", "pyoptmat/utility.py:timeseries_interpolate_single_times"]}
{"id": "C33", "title": "The structured-problem interpolator is right when the batch shares brackets", "statement": "CheaterBatchTimeSeriesInterpolator returns the linear interpolant for batch entry 0 for every in-range query, and for every other entry whose query lies in the bracket of the same index.", "quantifier": "all grids, data, queries", "why_tests_cant": "the shared-index shortcut is valid only under a relation between batch columns", "anchors": ["pyoptmat/utility.py:CheaterBatchTimeSeriesInterpolator"]}
{"id": "C34", "title": "InelasticModel returns the rate form and its exact Jacobians", "statement": "For every flow rule whose own derivatives are correct, InelasticModel returns [E(erate - flow), history rate], its full Jacobian with respect to [stress, history], and its derivative with respect to the strain rate.", "quantifier": "all flow rules, states, rates, temperatures", "why_tests_cant": "derivative identities must hold at every point", "anchors": ["pyoptmat/models.py:InelasticModel.forward"]}
{"id": "C35", "title": "DamagedInelasticModel returns the damaged rate form and its exact Jacobian", "statement": "For every correct flow rule and damage model and d < 1, DamagedInelasticModel returns [(1-d)E(erate - flow(s/(1-d))), history rate at s/(1-d), damage rate at s/(1-d)] and the exact Jacobian of that vector with respect to [stress, history, damage] and the strain rate.", "quantifier": "all flow rules, damage models, states", "why_tests_cant": "derivative identities must hold at every point; test magnitudes hide missing terms below tolerance", "anchors": ["pyoptmat/models.py:DamagedInelasticModel.forward"]}
{"id": "C36", "title": "Stress control reproduces the requested stress rate with an exact Jacobian", "statement": "When the inner solve is exact, StressBasedModel returns a strain rate for which the base model at the prescribed stress produces exactly the prescribed stress rate, together with history rates at that strain rate, and the Jacobian of this implicitly defined rate with respect to the state.", "quantifier": "all base models, states, stress histories", "why_tests_cant": "implicit-function derivatives must hold at every point", "anchors": ["pyoptmat/models.py:StressBasedModel.forward"]}
{"id": "C37", "title": "Mixed control integrates each experiment under its own control mode", "statement": "BothBasedModel returns for each experiment the strain-controlled rate and Jacobian if control is 0 and the stress-controlled ones if control is 1, independent of the control of all other experiments; other control codes give zero rates.", "quantifier": "all batches and control assignments", "why_tests_cant": "all mixtures cannot be tried", "anchors": ["pyoptmat/models.py:BothBasedModel.forward"]}
{"id": "C38", "title": "Elastic strain-controlled simulations track the strain exactly", "statement": "For a model with zero inelastic flow and constant modulus E, exact backward Euler integration via solve_strain gives stress_k = E (strain_k - strain_0) at every time, for every strictly increasing time grid and block size.", "quantifier": "all strain histories, grids and block sizes", "why_tests_cant": "end-to-end statement about interpolation, rates and integration", "anchors": ["pyoptmat/models.py:ModelIntegrator.solve_strain", "pyoptmat/models.py:StrainBasedModel.forward"]}
{"id": "C39", "title": "A damage model that never damages changes nothing", "statement": "With NoDamage and zero damage, DamagedInelasticModel's stress and history rates equal InelasticModel's and the damage rate is zero, so damage stays zero along any Euler integration.", "quantifier": "all flow rules, states, step sequences", "why_tests_cant": "holds along whole trajectories", "anchors": ["pyoptmat/models.py:DamagedInelasticModel", "pyoptmat/damage.py:NoDamage"]}
{"id": "C40", "title": "Perfect viscoplasticity: value, derivative and dissipation", "statement": "For rate sensitivity n >= 1 and eta > 0 the flow rate is (|s|/eta)^n sign(s), the second return value is its exact derivative at every stress including zero, the rate is odd, monotone and never opposes the stress.", "quantifier": "all stresses and parameters", "why_tests_cant": "derivative at the kink and at extreme stresses", "anchors": ["pyoptmat/flowrules.py:PerfectViscoplasticity"]}
{"id": "C41", "title": "Isotropic/kinematic viscoplasticity has exact derivatives", "statement": "For n > 1, eta > 0 and any hardening models with correct derivatives, every derivative returned by IsoKinViscoplasticity (flow wrt stress, history, rate; history rate wrt stress, history, rate) is exact, inside, on and outside the yield surface.", "quantifier": "all hardening models, states and parameters", "why_tests_cant": "the yield surface is measure zero in random tests", "anchors": ["pyoptmat/flowrules.py:IsoKinViscoplasticity"]}
{"id": "C42", "title": "No inelastic flow inside the elastic range", "statement": "IsoKinViscoplasticity gives zero flow exactly when |s - x| <= s0 + k (for n > 0), otherwise flow in the direction of s - x with magnitude ((|s-x|-s0-k)/eta)^n.", "quantifier": "all states", "why_tests_cant": "boundary case", "anchors": ["pyoptmat/flowrules.py:IsoKinViscoplasticity.flow_rate", "pyoptmat/utility.py:macaulay"]}
{"id": "C43", "title": "Superimposed flow rules add and keep their histories separate", "statement": "SuperimposedFlowRule's rate is the sum of the component rates, each evaluated on its own slice of the history; its history rate is the concatenation; all derivatives are exact if the components' are; history Jacobian is block diagonal.", "quantifier": "all lists of components, any history sizes including zero", "why_tests_cant": "offset arithmetic over arbitrary lists", "anchors": ["pyoptmat/flowrules.py:SuperimposedFlowRule"]}
{"id": "C44", "title": "Rate-independent wrapper: limits, homogeneity and derivatives", "statement": "RateIndependentFlowRuleWrapper with lambda = 0 is the base rule; with lambda = 1 and a base rule independent of the strain rate, scaling the strain rate by c > 0 scales all rates by c; derivatives are exact at non-zero strain rate.", "quantifier": "all base rules, states, rates", "why_tests_cant": "homogeneity is a universal statement", "anchors": ["pyoptmat/flowrules.py:RateIndependentFlowRuleWrapper"]}
{"id": "C45", "title": "Kocks-Mecking hard switch selects a complete model pointwise", "statement": "KocksMeckingRegimeFlowRule returns for each point all quantities from model 1 if the activation energy is <= g0 and all from model 2 otherwise; models with different numbers of internal variables are rejected; a faster strain rate never moves a point from model 1 to model 2 (positive modulus, temperature).", "quantifier": "all component models and points", "why_tests_cant": "mixed batches, threshold equality", "anchors": ["pyoptmat/flowrules.py:KocksMeckingRegimeFlowRule"]}
{"id": "C46", "title": "Kocks-Mecking soft blend is a convex combination with exact derivatives", "statement": "SoftKocksMeckingRegimeFlowRule returns (1-f) M1 + f M2 with 0 < f < 1, f increasing with activation energy and equal to 1/2 at the threshold; all returned derivatives including the strain-rate ones are exact at non-zero strain rate.", "quantifier": "all component models and points", "why_tests_cant": "derivative identities at all points", "anchors": ["pyoptmat/flowrules.py:SoftKocksMeckingRegimeFlowRule"]}
{"id": "C47", "title": "Isotropic hardening models have exact derivatives", "statement": "For Voce, Theta0Voce and Theta0RecoveryVoce every derivative returned is the exact derivative of the history rate / value.", "quantifier": "all states, rates and parameters in the physical range", "why_tests_cant": "pointwise derivative identities", "anchors": ["pyoptmat/hardening.py:VoceIsotropicHardeningModel", "pyoptmat/hardening.py:Theta0VoceIsotropicHardeningModel", "pyoptmat/hardening.py:Theta0RecoveryVoceIsotropicHardeningModel"]}
{"id": "C48", "title": "Kinematic hardening models have exact derivatives", "statement": "For Frederick-Armstrong (with and without recovery), Chaboche (with and without recovery), no hardening and superimposed models every derivative returned is exact.", "quantifier": "all states, numbers of backstresses, parameters", "why_tests_cant": "pointwise derivative identities over any number of backstresses", "anchors": ["pyoptmat/hardening.py:FAKinematicHardeningModel", "pyoptmat/hardening.py:FAKinematicHardeningModelNoRecovery", "pyoptmat/hardening.py:ChabocheHardeningModel", "pyoptmat/hardening.py:ChabocheHardeningModelRecovery", "pyoptmat/hardening.py:SuperimposedKinematicHardening", "pyoptmat/hardening.py:NoKinematicHardeningModel"]}
{"id": "C49", "title": "Equivalent hardening formulations agree", "statement": "Theta0Voce(tau,theta) equals Voce(R=tau,d=theta/tau); Theta0RecoveryVoce with r1=0 equals Theta0Voce; FA with default b,r equals FA without recovery; Chaboche equals superimposed FA models; ChabocheRecovery with b=0 equals Chaboche.", "quantifier": "all states and parameters", "why_tests_cant": "equalities of functions", "anchors": ["pyoptmat/hardening.py:Theta0VoceIsotropicHardeningModel", "pyoptmat/hardening.py:FAKinematicHardeningModel", "pyoptmat/hardening.py:SuperimposedKinematicHardening"]}
{"id": "C50", "title": "Hardening variables stay within their saturation bounds", "statement": "Under backward Euler integration with any step sizes and any inelastic strain rates, Voce hardening started in [0,R] stays in [0,R] and moves monotonically toward R, and every backstress started in [-C/g,C/g] stays there.", "quantifier": "all step sequences of any length", "why_tests_cant": "invariant over unbounded histories", "anchors": ["pyoptmat/hardening.py:VoceIsotropicHardeningModel.history_rate", "pyoptmat/hardening.py:ChabocheHardeningModel.history_rate", "pyoptmat/hardening.py:FAKinematicHardeningModelNoRecovery.history_rate"]}
{"id": "C51", "title": "Damage models return exact derivatives of their damage rates", "statement": "For NoDamage, ConstantDamage, HayhurstLeckie and LarsonMiller the second value of damage_rate is the derivative with respect to damage, d_damage_rate_d_s the derivative with respect to stress, d_damage_rate_d_e with respect to strain rate.", "quantifier": "all stresses, damage values below one, parameters", "why_tests_cant": "test magnitudes fall below the comparison tolerance, hiding missing factors", "anchors": ["pyoptmat/damage.py:HayhurstLeckie", "pyoptmat/damage.py:LarsonMillerDamage", "pyoptmat/damage.py:ConstantDamage", "pyoptmat/damage.py:NoDamage"]}
{"id": "C52", "title": "Damage never heals", "statement": "For all damage models (with positive parameters) the damage rate is >= 0 for d < 1, hence damage is non-decreasing along any forward Euler history.", "quantifier": "all states and histories", "why_tests_cant": "invariant over histories", "anchors": ["pyoptmat/damage.py:HayhurstLeckie.damage_rate", "pyoptmat/damage.py:LarsonMillerDamage.damage_rate"]}
{"id": "C53", "title": "Bounded scaling stays in bounds, is monotone and inverts", "statement": "BoundedScalingFunction with clamp maps every real into [l,u], is non-decreasing, maps 0 to l and 1 to u; unscale(scale(x)) = x for x in [0,1] and scale(unscale(y)) = y for y in [l,u]; without clamp the round trips hold for all reals.", "quantifier": "all bounds l < u and all values", "why_tests_cant": "tests check one interior value", "anchors": ["pyoptmat/scaling.py:BoundedScalingFunction"]}
{"id": "C54", "title": "Log-bounded scaling stays in bounds, is monotone and inverts", "statement": "Same as C53 for LogBoundedScalingFunction with 0 < l < u.", "quantifier": "all bounds 0 < l < u and all values", "why_tests_cant": "tests check one interior value", "anchors": ["pyoptmat/scaling.py:LogBoundedScalingFunction"]}
{"id": "C55", "title": "Simple scaling inverts", "statement": "SimpleScalingFunction with s != 0: unscale(scale(x)) = x and scale(unscale(y)) = y; scale_mean is the scaled location.", "quantifier": "all values", "why_tests_cant": "sampled", "anchors": ["pyoptmat/scaling.py:SimpleScalingFunction"]}
{"id": "C56", "title": "scale_mean returns the transformed mean in parameter space", "statement": "For every scaling function scale_mean(loc, scale) is the value scale(loc) of the actual parameter (in the unclamped range). scale_stat reports the loc and scale of the parameter (of its logarithm for the log-bounded function), and for the log-bounded function also the expected value of the parameter when the scaled parameter is normally distributed.", "quantifier": "all bounds and values", "why_tests_cant": "not tested at all", "anchors": ["pyoptmat/scaling.py:LogBoundedScalingFunction.scale_mean", "pyoptmat/scaling.py:BoundedScalingFunction.scale_mean"]}
{"id": "C57", "title": "Scaling classes are drop-in replacements for the optimize helpers", "statement": "bounded_scale_function((l,u)) equals BoundedScalingFunction(l,u).scale; with min_bound the result is additionally never below min_bound; bound_factor(mean,f) keeps values within mean*(1-f) and mean*(1+f) in either sign of mean, and honours min_bound in the same way; clamp_scale_function, bound_and_scale, log_bound_and_scale always return values in their bounds and are the identity/quotient/exponential when inside and the violated bound when outside.", "quantifier": "all bounds and values", "why_tests_cant": "sampled", "anchors": ["pyoptmat/optimize.py:bounded_scale_function", "pyoptmat/optimize.py:bound_factor", "pyoptmat/optimize.py:clamp_scale_function", "pyoptmat/optimize.py:bound_and_scale", "pyoptmat/optimize.py:log_bound_and_scale"]}
{"id": "C58", "title": "Polynomial scaling is numpy.polyval", "statement": "PolynomialScaling(coefs)(T) equals sum_i coefs[i] T^(n-1-i) for every list of coefficients and temperature.", "quantifier": "all coefficient lists and temperatures", "why_tests_cant": "all lengths", "anchors": ["pyoptmat/temperature.py:PolynomialScaling"]}
{"id": "C59", "title": "Piecewise scaling is linear interpolation on the control points", "statement": "For strictly increasing control temperatures and temperatures inside the range, PiecewiseScaling returns the piecewise linear interpolant for each temperature; temperatures outside raise.", "quantifier": "all control points, values, temperature batches", "why_tests_cant": "node and end-point hits", "anchors": ["pyoptmat/temperature.py:PiecewiseScaling"]}
{"id": "C60", "title": "Kocks-Mecking rate sensitivity is clipped and consistent with the viscosity", "statement": "KMRateSensitivityScaling always returns a value in [1,cutoff], equal to -mu b^3/(kTA) when that is in range; KMViscosityScaling equals exp(B) mu eps0^(-1/n) with the n that KMRateSensitivityScaling (default cutoff) reports.", "quantifier": "all parameters and temperatures", "why_tests_cant": "clipping and cutoff differences only show for some parameters", "anchors": ["pyoptmat/temperature.py:KMRateSensitivityScaling", "pyoptmat/temperature.py:KMViscosityScaling"]}
{"id": "C61", "title": "Arrhenius scalings are bounded and monotone", "statement": "For A > 0, Q > 0, T > 0: ArrheniusScaling is in (0,A) and increasing in T, InverseArrheniusScaling is A minus it, in (0,A) and decreasing; T log(value/A) is -Q at every temperature.", "quantifier": "all parameters and temperatures", "why_tests_cant": "inequalities over all reals", "anchors": ["pyoptmat/temperature.py:ArrheniusScaling", "pyoptmat/temperature.py:InverseArrheniusScaling"]}
{"id": "C62", "title": "MTS and shear-modulus scalings", "statement": "ShearModulusScalingExp(A) equals ShearModulusScaling(exp A); MTSScaling lies in [0,tau0], is tau0 at T = 0, 0 where kT = mu b^3 g0, and non-increasing in T for constant modulus; in between, the strength y satisfies mu b^3 g0 (1 - (y/tau0)^p)^q = kT.", "quantifier": "all parameters and temperatures", "why_tests_cant": "inequalities over all reals", "anchors": ["pyoptmat/temperature.py:ShearModulusScaling", "pyoptmat/temperature.py:ShearModulusScalingExp", "pyoptmat/temperature.py:MTSScaling"]}
{"id": "C63", "title": "convert_results processes each experiment by its own type", "statement": "convert_results gives column j exactly the post-processing of the type of column j applied to that column, independent of other columns and of column order.", "quantifier": "all batches mixing all types", "why_tests_cant": "combinations of types", "anchors": ["pyoptmat/experiments.py:convert_results", "pyoptmat/experiments.py:exp_fns_num"]}
{"id": "C64", "title": "Cyclic post-processing gives each point the maximum of its own cycle", "statement": "For each experiment of a cyclic type, each entry of the processed result is the maximum of the predictions over the time points of that experiment with the same cycle number.", "quantifier": "all batches of cyclic tests", "why_tests_cant": "tests do not mix different cycle listings in a batch", "anchors": ["pyoptmat/experiments.py:format_cyclic"]}
{"id": "C65", "title": "Relaxation post-processing zeroes the loading and references the hold", "statement": "For each creep/relaxation experiment the processed result is zero where the cycle flag is not 1 and otherwise the prediction minus the prediction at the first flagged time of that experiment.", "quantifier": "all batches of relaxation tests", "why_tests_cant": "tests do not mix different listings in a batch", "anchors": ["pyoptmat/experiments.py:format_relaxation"]}
{"id": "C66", "title": "Abstract tensile post-processing", "statement": "format_abstract_tensile gives per experiment 0 where cycles = 0, the prediction at the first time with cycles = 1 where cycles = 1, and the maximum prediction where cycles = 2.", "quantifier": "all inputs", "why_tests_cant": "sampled", "anchors": ["pyoptmat/experiments.py:format_abstract_tensile"]}
{"id": "C67", "title": "Generated tension tests have the requested rate and limit", "statement": "make_tension_tests returns for each test nsteps points starting at time 0, strain 0, ending at the strain limit, with strain = rate * time at every point, constant temperature, non-decreasing time, cycle 0.", "quantifier": "all batches, rates, limits, step counts", "why_tests_cant": "all sizes", "anchors": ["pyoptmat/experiments.py:make_tension_tests", "pyoptmat/experiments.py:sample_tension"]}
{"id": "C68", "title": "Generated creep tests load then hold with increasing time", "statement": "make_creep_tests returns stresses that go linearly from 0 to the target during loading (cycle 0) and stay there (cycle 1), with strictly increasing times whenever nsteps_load >= 2 and the target is positive.", "quantifier": "all batches, targets, rates, hold times, step counts", "why_tests_cant": "the relation between loading time and hold time is not sampled", "anchors": ["pyoptmat/experiments.py:make_creep_tests"]}
{"id": "C69", "title": "Sampled cycles are periodic, continuous and rate-limited", "statement": "sample_cycle_normalized_times returns 1 + N*(4 nload + 2 nhold) points with non-decreasing times, cycle k covers [k*period,(k+1)*period], strain stays between the smallest and largest of 0, max_strain and R*max_strain, is zero at each cycle end, and changes at most strain_rate * dt between neighbouring samples.", "quantifier": "all cycles, N, nload, nhold", "why_tests_cant": "all sizes and degenerate cycles", "anchors": ["pyoptmat/experiments.py:sample_cycle_normalized_times"]}
{"id": "C70", "title": "load_results puts driving and response quantities in the right slots", "statement": "load_results gives for strain-controlled experiments data[2] = strain and results = stress and for stress-controlled the reverse; times, temperatures and cycles are passed through; unknown type or control names raise.", "quantifier": "all data sets and control assignments", "why_tests_cant": "mixtures", "anchors": ["pyoptmat/experiments.py:load_results"]}
{"id": "C71", "title": "Per-type weights and noise go to the right experiments", "statement": "_make_weight_tensor gives each experiment the weight configured for its type (1 for all known types by default, 0 for types not listed); type-specific noise gives each experiment the noise of its type.", "quantifier": "all type lists, weight dictionaries", "why_tests_cant": "all combinations", "anchors": ["pyoptmat/optimize.py:HierarchicalStatisticalModel._make_weight_tensor", "pyoptmat/optimize.py:StatisticalModel.forward"]}
{"id": "C72", "title": "The guide covers exactly the model's latent sites", "statement": "For every list of distinct parameter names and the default suffixes, the guide samples exactly the latent sites the model samples (two top-level and one bottom-level per parameter, eps iff include_noise), and after the guide has run once get_extra_params succeeds and lists one tensor per parameter in order; before, it raises.", "quantifier": "all name lists, flags", "why_tests_cant": "name collisions depend on the strings", "anchors": ["pyoptmat/optimize.py:HierarchicalStatisticalModel"]}
{"id": "C73", "title": "Macaulay bracket and Heaviside", "statement": "macaulay(x) = max(x,0) and heaviside(x) is 0, 1/2, 1 for negative, zero, positive x.", "quantifier": "all reals", "why_tests_cant": "sampled", "anchors": ["pyoptmat/utility.py:macaulay", "pyoptmat/utility.py:heaviside"]}
{"id": "C74", "title": "Finite-difference helpers are exact on affine functions", "statement": "differentiate, new_differentiate and batch_differentiate return the exact slope of an affine function at every point and for every eps > 0 (scalar case).", "quantifier": "all points and slopes", "why_tests_cant": "the point zero is special", "anchors": ["pyoptmat/utility.py:differentiate", "pyoptmat/utility.py:new_differentiate", "pyoptmat/utility.py:batch_differentiate"]}
{"id": "C75", "title": "NeuralODE returns the Jacobian with respect to the state", "statement": "NeuralODE's second output is the Jacobian of the network output with respect to the state part of its input, of shape n by n, for any state and forcing sizes.", "quantifier": "all networks and sizes", "why_tests_cant": "sizes", "anchors": ["pyoptmat/neuralode.py:NeuralODE.forward"]}
{"id": "C76", "title": "Applying a factorization leaves the caller's right-hand side alone", "statement": "After M = operator.inverse(); M(v), the tensor v passed by the caller holds its original values, for every batch size and number of blocks.", "quantifier": "all batch sizes, block counts, methods", "why_tests_cant": "whether .contiguous() copies depends on the sizes; tests use batches larger than one", "anchors": ["pyoptmat/chunktime.py:LUFactorization.forward", "pyoptmat/chunktime.py:thomas_solve"]}
{"id": "C77", "title": "Preconditioner reuse never changes what a successful solve means", "statement": "Over any history of solves by one PreconditionerReuseNonlinearSolver, the stored preconditioner after a solve is either the one it had before or one built from a Jacobian the residual function returned (and the first solve always builds one); it is rebuilt exactly on the first solve and after each linear solve that took more than 2n/3 iterations, from the Jacobian at the new point, and each solve starts from the preconditioner the previous ones left; every solve returns (x, J) with J the Jacobian at x, warns exactly when miter was used up, and otherwise meets the tolerances unless a norm is NaN.", "quantifier": "all residual functions, histories of solves, inner linear solver results", "why_tests_cant": "state carried between calls", "anchors": ["pyoptmat/solvers.py:PreconditionerReuseNonlinearSolver"]}
{"id": "C78", "title": "A frozen or unused parameter makes the adjoint backward pass raise", "statement": "odeint_adjoint's backward pass over two or more times raises whenever some function or extra parameter does not require gradients or does not enter the rate; otherwise it succeeds.", "quantifier": "all lists of parameters and flags", "why_tests_cant": "needs every combination of flags", "anchors": ["pyoptmat/ode.py:FixedGridBlockSolver.rewind", "pyoptmat/ode.py:FixedGridBlockSolver._get_param_partial"]}
{"id": "C79", "title": "Backward Euler always succeeds on linear ODEs", "statement": "For y' = K(t) y + c(t) with I - h K non-singular at every step, odeint(method='backward-euler') with miter >= 2 never warns or raises, and with zero tolerances returns the unique backward Euler solution for every block size, linear solver and guess.", "quantifier": "all linear ODEs, time grids, block sizes", "why_tests_cant": "infinitely many systems and block sizes", "anchors": ["pyoptmat/ode.py:FixedGridBlockSolver.integrate", "pyoptmat/chunktime.py:newton_raphson_chunk"]}
{"id": "C80", "title": "Interpolators without a range check extrapolate sensibly", "statement": "For queries before the first time, BatchTimeSeriesInterpolator and timeseries_interpolate_batch_times continue the first segment (as they continue the last one for queries after the last time).", "quantifier": "all grids, data, out-of-range queries", "why_tests_cant": "the wrapped index only shows for queries outside the range", "anchors": ["pyoptmat/utility.py:BatchTimeSeriesInterpolator", "pyoptmat/utility.py:timeseries_interpolate_batch_times"]}
{"id": "C81", "title": "Backstress evolution follows the documented law", "statement": "The Frederick-Armstrong models evolve the backstress by the documented dx/dt = (2/3) C dep/dt - g x |dep/dt| (- recovery).", "quantifier": "all states, rates and parameters", "why_tests_cant": "a test written from the code would not notice a factor in the documentation", "anchors": ["pyoptmat/hardening.py:FAKinematicHardeningModel", "pyoptmat/hardening.py:FAKinematicHardeningModelNoRecovery"]}
{"id": "C82", "title": "Regime switches honour the modulus' numerical scaling", "statement": "The Kocks-Mecking regime flow rules compute the activation energy with the modulus mu(T) the rest of the library sees (numerical scaling applied).", "quantifier": "all moduli with a scaling function, temperatures, rates", "why_tests_cant": "tests use unscaled moduli", "anchors": ["pyoptmat/flowrules.py:KocksMeckingRegimeFlowRule.g", "pyoptmat/flowrules.py:SoftKocksMeckingRegimeFlowRule.g"]}
{"id": "C83", "title": "The damaged model follows its documented stress rate", "statement": "DamagedInelasticModel's stress rate is the documented E (de/dt - (1 - d) de_in/dt).", "quantifier": "all states with 0 <= d < 1, strain rates, flow rules, damage models", "why_tests_cant": "a test written from the code would encode the same deviation; the claim ranges over all flow rules and damage values", "anchors": ["pyoptmat/models.py:DamagedInelasticModel.forward"]}
{"id": "C84", "title": "Creep tests hold for the requested hold time", "statement": "In the tests generated by make_creep_tests the time between the end of loading and the end of the test is the requested hold time.", "quantifier": "all targets, rates, hold times and step counts", "why_tests_cant": "the doc string calls the argument a hold time, tests compare to the code's own formula", "anchors": ["pyoptmat/experiments.py:make_creep_tests"]}
{"id": "C85", "title": "add_id adds the identity to square Jacobians only", "statement": "add_id(df) adds one to every diagonal entry of every batch matrix and changes nothing else; it is an error exactly for non-empty non-square Jacobians.", "quantifier": "all batch sizes and matrix sizes", "why_tests_cant": "sizes", "anchors": ["pyoptmat/utility.py:add_id"]}
{"id": "C86", "title": "Perfect viscoplasticity under strain control saturates, relaxes and is block independent", "statement": "Simulating InelasticModel with PerfectViscoplasticity through solve_strain on strictly increasing times: the stress magnitude never exceeds the largest steady flow stress eta*|rate|^(1/n) of the strain rates imposed so far; in a hold (strain rate zero) the stress magnitude never grows and never changes sign; and the answer of two exact runs is the same whatever the block size, linear solver, guess and iteration limit. For rate sensitivity n=1 every such run succeeds.", "quantifier": "all strain histories, temperatures, time tables, parameters and integrator settings", "why_tests_cant": "A test follows a few histories with one block size.", "anchors": ["pyoptmat/models.py:ModelIntegrator.solve_strain", "pyoptmat/flowrules.py:PerfectViscoplasticity", "pyoptmat/ode.py:FixedGridBlockSolver.integrate"]}
{"id": "C87", "title": "Hardening variables follow their documented evolution laws", "statement": "Each hardening model's value is its documented function of its own variables (the variable itself, or the sum of the backstresses) and each variable's rate is the documented expression of the inelastic rate, the variable and the parameters at the current temperature: Voce d(R-h)|p|, theta0(1-h/tau)|p|, the latter plus static recovery r1 (R0-h)|R0-h|^(r2-1), Frederick-Armstrong and Chaboche C p - g x |p| with optional recovery - b |x|^(r-1) x (C being the code's coefficient, see C81); superimposed models add their values and keep their own rates.", "quantifier": "every state, rate, temperature and parameter function", "why_tests_cant": "a wrong coefficient or sign still passes derivative checks", "anchors": ["pyoptmat/hardening.py"]}
{"id": "C88", "title": "The Voce/Chaboche viscoplastic model follows its documented rate equations", "statement": "InelasticModel with IsoKinViscoplasticity, Voce isotropic hardening and any number of Chaboche backstresses returns exactly: no inelastic rate while |s - sum x| <= s0 + K, otherwise <(|s - sum x| - s0 - K)/eta>^n in the direction of the overstress; stress rate E (strain rate - p); K rate d(R-K)|p|; backstress rates C_i p - g_i x_i |p|; and these equations determine the rates.", "quantifier": "every state with s0 + K >= 0, every strain rate, temperature, n > 0, eta > 0, number of backstresses", "why_tests_cant": "composition of flow rule, hardening models and slicing over all states", "anchors": ["pyoptmat/models.py:InelasticModel.forward", "pyoptmat/flowrules.py:IsoKinViscoplasticity", "pyoptmat/hardening.py:VoceIsotropicHardeningModel", "pyoptmat/hardening.py:ChabocheHardeningModel"]}
{"id": "C89", "title": "Damage rates follow their documented laws", "statement": "HayhurstLeckie's rate is (|s|/A)^xi (1-d)^(xi-phi), LarsonMillerDamage's is 10^(C-B/T) (|s|(1-d))^(-A/T), ConstantDamage's is its rate at the temperature, NoDamage's is zero.", "quantifier": "every stress, damage, temperature for which the powers are finite", "why_tests_cant": "a wrong exponent still passes derivative checks", "anchors": ["pyoptmat/damage.py"]}
{"id": "C90", "title": "solve_both generalises solve_strain and solve_stress", "statement": "A batch in which every test is strain controlled (flag 0) gives through solve_both exactly what solve_strain gives (results, warnings, failures), and a batch in which every test is stress controlled (flag 1) exactly what solve_stress gives.", "quantifier": "all models, tables, batch sizes, schemes, linear solvers, tolerances, guesses, block sizes", "why_tests_cant": "equality over all inputs and failure modes", "anchors": ["pyoptmat/models.py:ModelIntegrator.solve_both", "pyoptmat/models.py:ModelIntegrator.solve_strain", "pyoptmat/models.py:ModelIntegrator.solve_stress", "pyoptmat/models.py:BothBasedModel.forward"]}
{"id": "C91", "title": "Stress-controlled simulations satisfy the model's creep equations", "statement": "In a stress-controlled simulation the strain and history start at zero and over each step the strain advances by the stress increment over E plus dt times the inelastic rate at the tabulated stress (up to the 1e-10 tolerance of the inner solve), history and damage advancing with their rates at the tabulated stress; hence elastic models return stress over E, constant stress gives steady creep at the documented rate, and models without history always solve.", "quantifier": "all flow rules that do not depend on the strain rate, stress histories, time tables, temperatures, batch and block sizes, linear solvers and guesses", "why_tests_cant": "all histories; batch-coupled inner solve", "anchors": ["pyoptmat/models.py:ModelIntegrator.solve_stress", "pyoptmat/models.py:StressBasedModel.forward", "pyoptmat/ode.py:FixedGridBlockSolver.integrate"]}
{"id": "C92", "title": "Mixed-control batches keep each test under its own control", "statement": "In a batch mixing strain- and stress-controlled tests, each strain-controlled test satisfies the equations of a strain-controlled simulation of its own table and each stress-controlled test those of a stress-controlled simulation, whatever the other tests are; tests with any other flag stay at zero; for perfect viscoplasticity the strain-controlled entries equal those of a pure solve_strain run.", "quantifier": "all batch compositions, flags, tables, block sizes, linear solvers", "why_tests_cant": "cross-talk depends on the whole batch", "anchors": ["pyoptmat/models.py:ModelIntegrator.solve_both", "pyoptmat/models.py:BothBasedModel.forward"]}
{"id": "C93", "title": "The explicit scheme applies the imposed strain rate over the step it is imposed on", "statement": "A strain-controlled simulation with the forward Euler scheme imposes, over the step from time k-1 to time k, the strain increment tabulated for that step, so an elastic material's stress is the modulus times the tabulated strain at every time.", "quantifier": "every rate-form model, every table of times, strains and temperatures with increasing times, every batch size, block size, linear solver and guess", "why_tests_cant": "Only a table whose strain rate varies shows the lag, and only at the level of the whole simulation; tests use the implicit scheme or constant rates.", "anchors": ["pyoptmat/models.py: ModelIntegrator.solve_strain", "pyoptmat/ode.py: ForwardEulerTimeStep", "pyoptmat/utility.py: ArbitraryBatchTimeSeriesInterpolator"]}
{"id": "C94", "title": "A deterministic model is built from its current parameter values, in the order of their names", "statement": "Evaluating a DeterministicModel calls the maker with exactly one value per name, in the order in which the names were given, each being the value currently stored for that name; a name for which no initial condition was given is an error at evaluation, never a silent default; of a repeated name the last value counts.", "quantifier": "every list of names and of initial conditions, of equal or different lengths, with or without repetitions", "why_tests_cant": "The order of arguments is positional and unnamed: a permutation is only visible for particular lengths and values.", "anchors": ["pyoptmat/optimize.py: DeterministicModel.__init__, DeterministicModel.get_params, DeterministicModel.forward"]}
{"id": "C95", "title": "Evaluating a model on a loaded data set reproduces the data it generated", "statement": "Loading a data set and evaluating a DeterministicModel on it simulates every test with its own times, temperatures, control and controlled quantity: an elastic model returns the modulus times the recorded strain for every strain-controlled tensile test, whatever the other tests of the set are; and a model evaluated at the parameters that generated a test's stresses returns those stresses exactly, in a batch of any composition.", "quantifier": "every data set (any number and mixture of test types and controls, any table lengths), every exact converged simulation, every linear solver, block size and guess", "why_tests_cant": "Needs loading, integration, control dispatch and conversion to agree for all mixtures of tests.", "anchors": ["pyoptmat/experiments.py: load_results, convert_results", "pyoptmat/optimize.py: DeterministicModel.forward", "pyoptmat/models.py: ModelIntegrator.solve_both"]}
{"id": "C96", "title": "Simulated creep and relaxation tests return the change since the start of the hold", "statement": "Evaluating a model on a data set with creep or relaxation tests (mixed with any others, tests of one such type sharing their cycle counts) returns zero before the hold; for a creep test of a power-law (perfectly viscoplastic) material held at a constant stress and temperature it returns during the hold the creep strain since its start, elapsed time times the power-law rate, with the sign of the stress; for a relaxation test held at constant strain it returns a monotone change of stress starting from zero.", "quantifier": "every data set, batch composition and table, every exact converged simulation, all material parameters, every linear solver, block size and guess", "why_tests_cant": "It needs loading, control dispatch, implicit integration, the inner stress solve and the conversion to agree for all mixtures and parameters.", "anchors": ["pyoptmat/optimize.py: DeterministicModel.forward", "pyoptmat/experiments.py: load_results, convert_results, format_relaxation", "pyoptmat/models.py: ModelIntegrator.solve_both, StressBasedModel.forward"]}
{"id": "C97", "title": "GMRES result quality", "statement": "For every batch of linear systems, preconditioner, shift eps > 0 and check interval, an entry with a nonzero initial residual comes back as finite numbers whose residual is at most sqrt(k+1) times the initial residual (k the returned iteration index); without the shift (eps = 0) and with a linear preconditioner M, as long as r, AMr, .., (AM)^k r are independent the result has the smallest residual over x0 + M span(r, AMr, .., (AM)^(k-1) r).", "quantifier": "all batches, matrices, right-hand sides, initial guesses, preconditioners, tolerances, maxiter, check intervals and least-squares solvers that return a minimiser", "why_tests_cant": "optimality over a Krylov space quantifies over infinitely many vectors and all matrices", "anchors": ["pyoptmat/solvers.py:gmres", "pyoptmat/solvers.py:NoOp"]}
{"id": "C98", "title": "Exact preconditioners", "statement": "With a preconditioner that inverts each matrix exactly and maxiter >= 2, the returned residual of gmres is exactly eps^2/(1+eps^2) times the initial residual in every entry, reached in the second iteration when that is below tol and check = 1; in particular lu_gmres on nonsingular matrices and jacobi_gmres on diagonal ones with nonzero diagonal.", "quantifier": "all batches of nonsingular systems, initial guesses with nonzero residual, eps > 0, tolerances, maxiter and check intervals", "why_tests_cant": "all matrices and sizes; tests try a handful of random matrices", "anchors": ["pyoptmat/solvers.py:lu_gmres", "pyoptmat/solvers.py:jacobi_gmres", "pyoptmat/solvers.py:LUPreconitionerOperator", "pyoptmat/solvers.py:JacobiPreconitionerOperator", "pyoptmat/solvers.py:gmres"]}
{"id": "C99", "title": "Iterations needed by GMRES", "statement": "gmres with maxiter = n should solve every nonsingular n x n system (full GMRES terminates in n steps).", "quantifier": "all nonsingular systems, preconditioners, tolerances, check intervals and small eps", "why_tests_cant": "termination depends on the dimension of Krylov spaces for all matrices", "anchors": ["pyoptmat/solvers.py:gmres"]}
{"id": "C100", "title": "Already solved batch entries in GMRES", "statement": "A batch entry whose initial guess is already exact keeps finite values equal to a solution, and does not prevent the rest of the batch from converging.", "quantifier": "all batches, preconditioners, tolerances, maxiter and check intervals", "why_tests_cant": "batches mixing solved and unsolved entries are not in the tests and the effect depends on NaN propagation for every input", "anchors": ["pyoptmat/solvers.py:gmres"]}
{"id": "C101", "title": "An entry's answer does not depend on what else is in the batch", "statement": "The value odeint computes for one batch entry is the same, up to the solver tolerances, whatever the other entries of the batch are and whichever batch size, block size, linear solver, initial guess, iteration limit or tolerance is chosen: two unwarned runs differ after k steps by at most rho^k (difference of the starts + k (tol + tol')), rho = 1 for dissipative rates under backward Euler; with zero tolerances they are equal.", "quantifier": "every rate function (one-sided Lipschitz for backward Euler, Lipschitz for forward Euler; any rate for exact forward Euler), every pair of batches sharing one problem, every time grid, start, block size, linear solver, guess type, tolerance, number of steps", "why_tests_cant": "the convergence test couples the entries of a batch (iteration continues until every entry converged), so the answer of an entry really changes with its companions; a test compares a few batches at default tolerances", "anchors": ["pyoptmat/ode.py:FixedGridBlockSolver.integrate", "pyoptmat/chunktime.py:newton_raphson_chunk", "pyoptmat/ode.py:odeint"]}
{"id": "C102", "title": "The density StatisticalModel defines", "statement": "With its sites fixed at given values, StatisticalModel has log density = the sum over the distinct parameter names of the normal prior of that parameter + the sum over tests and times of the normal density of the measurement around the result the deterministic model computes with the same parameters, with standard deviation eps (or eps of the test's own type). Comparing parameters therefore is penalised least squares, data generated by a parameter set is most likely under it, and a repeated name is one parameter with the last prior.", "quantifier": "every list of names, priors, noise values (scalar or per type), data set, parameter values and measurements, whatever the material model", "why_tests_cant": "the density is a sum over all parameters, tests and times; a test only samples from it", "anchors": ["pyoptmat/optimize.py:StatisticalModel.forward", "pyoptmat/optimize.py:StatisticalModel.get_params", "pyoptmat/optimize.py:DeterministicModel.forward"]}
{"id": "C103", "title": "The training loss of the hierarchical model", "statement": "One evaluation of the SVI loss with the guide of make_guide equals minus the weighted log posterior at the stored parameters: priors of the population means and scales (and of inferred noise) counted once, plus for each test its type's weight times (density of its own parameters given the population + density of its measurements given the simulation with its parameters). Measurements of tests with weight zero do not matter; the first evaluation is at the prior means; at fixed population the loss is weighted penalised least squares; the stored test parameters only serve data sets with the same number of tests.", "quantifier": "every set of names, priors, suffixes, weights, noise setting, data set and parameter store, whatever the material model", "why_tests_cant": "depends on every entry of every tensor of the store and on the nesting of plates and scales; the tests only check that the loss can be evaluated", "anchors": ["pyoptmat/optimize.py:HierarchicalStatisticalModel.forward", "pyoptmat/optimize.py:HierarchicalStatisticalModel.make_guide", "pyoptmat/optimize.py:HierarchicalStatisticalModel._make_weight_tensor"]}
{"id": "C104", "title": "Convergence to the exact solution", "statement": "The history odeint returns converges to the solution of the differential equation y' = f(t, y) as the time steps and the tolerances go to zero, with first order in the step: for backward Euler with one-sided Lipschitz constant L, forward Euler with Lipschitz constant L, and any exact solution whose rate changes by at most M per unit time, the error at time t_k is at most exp(c L T) (initial error + T M H + k tol), T = t_k - t_0, H the largest step. Strain-controlled simulations converge in the same way to the model's response to the piecewise linear strain and temperature history; for a viscoplastic model without history whose flow grows with stress, without the exponential factor.", "quantifier": "every rate function, exact solution, batch, time grid (also non-uniform and repeated times), block size, linear solver, tolerance and number of steps, and every constitutive model and loading history for solve_strain", "why_tests_cant": "an error bound over all grids, rates and solutions; tests compare a few problems against one analytic solution at one step size", "anchors": ["pyoptmat/ode.py:BackwardEuler", "pyoptmat/ode.py:ForwardEuler", "pyoptmat/ode.py:odeint", "pyoptmat/models.py:ModelIntegrator.solve_strain"]}
{"id": "C105", "title": "Newton's method converges quadratically near a solution", "statement": "newton_raphson started close enough to a regular solution finds it: if on the ball of radius r around the guess the supplied Jacobian is the derivative of the residual, is Lipschitz with constant K and has an inverse bounded by beta, with K beta r and the first residual small enough, then every iterate stays in the ball, the residual falls like (1/16)^(2^k - 1), the solve stops within the number of iterations after which that bound meets the absolute tolerance, without a warning, and the point returned is within 2 beta |residual| of the solution, which is the only one in the ball.", "quantifier": "every batched nonlinear system, guess, constants, linear solver selection (the lu solver or the scalar shortcut), tolerance and iteration limit", "why_tests_cant": "a statement about all smooth systems and all starting points; tests run a handful of systems", "anchors": ["pyoptmat/solvers.py:newton_raphson"]}
{"id": "C106", "title": "Small steps never fail and converge", "statement": "With the zero guess and a rate that, near the initial state, is bounded with a bounded, Lipschitz Jacobian, backward Euler with sufficiently small steps never fails, warns or leaves the region, whatever the absolute tolerance, linear solver, block size and initial content of memory; each block takes at most one Newton iteration to meet the relative tolerance. On N equal steps the result differs from the solution by at most C (1/N + N atol) at every time, for every N large enough.", "quantifier": "every rate function, initial state, region, time interval, block size, relative tolerance between 0 and 1, absolute tolerance, linear solver and number of steps from some number on", "why_tests_cant": "an existence and convergence statement about unboundedly fine grids", "anchors": ["pyoptmat/ode.py:FixedGridBlockSolver.integrate", "pyoptmat/ode.py:FixedGridBlockSolver.block_update", "pyoptmat/chunktime.py:newton_raphson_chunk"]}
{"id": "C107", "title": "Refining the time grid improves the result", "statement": "For given tolerances, refining the time grid brings the result closer to the solution of the differential equation.", "quantifier": "every rate function, initial state, scheme, block size, tolerance and grid", "why_tests_cant": "grids fine enough to show the failure have too many steps to run", "anchors": ["pyoptmat/ode.py:FixedGridBlockSolver.integrate", "pyoptmat/chunktime.py:newton_raphson_chunk"]}
{"id": "C108", "title": "Random strain-controlled tests respect the requested ranges", "statement": "random_tension returns the requested maximum strain and a positive rate between the given rates; random_cycle returns values each between its given ends; sampling them gives histories of the promised length with non-decreasing times, strains bounded by the drawn maximum strain, whose slope never exceeds the largest requested rate, and with the promised peak and R ratio in every cycle.", "quantifier": "all ranges, all draws of the random generator, all numbers of cycles and points", "why_tests_cant": "tests draw a few seeds; the claim ranges over every draw and every range, including reversed ranges", "anchors": ["pyoptmat/experiments.py: random_tension, random_cycle, sample_tension, sample_cycle"]}
{"id": "C109", "title": "Variance bands cover the promised fraction of the curves", "statement": "The band drawn for a tail probability alpha is defined for every batch of curves, its lower edge never exceeds its upper edge, both edges are values of curves, and at least the fraction 1 - 2 alpha of the curves lies inside it at every time.", "quantifier": "all batches of curves, all tail probabilities in [0, 1/2]", "why_tests_cant": "a counting statement about order statistics for every batch size and every rounding of n alpha", "anchors": ["pyoptmat/utility.py: visualize_variance"]}
{"id": "C110", "title": "Cyclic tests are compared by the peak of each cycle, end to end", "statement": "Loading a data set and evaluating a model on it gives, at every row of a cyclic test, the maximum of the simulated response over that row's own cycle. For a history generated from a cycle description the times increase strictly so that it can be simulated; an elastic material under strain control gives the modulus times the largest strain of the cycle at every row of every cycle; a perfectly viscoplastic material never exceeds the flow stress at the cycle's strain rate, whatever the temperature history.", "quantifier": "all data sets, mixed test types and controls, batch sizes, cycle descriptions, numbers of cycles and samples, block sizes, linear solvers", "why_tests_cant": "a test compares a few stored histories; the claim spans the loader, the integrator, the converter and the cycle generator for every data set", "anchors": ["pyoptmat/optimize.py: DeterministicModel.forward", "pyoptmat/experiments.py: load_results, convert_results, format_cyclic, sample_cycle_normalized_times", "pyoptmat/models.py: ModelIntegrator.solve_both"]}
{"id": "C111", "title": "Internal variables and stress stay bounded in every simulation", "statement": "For viscoplasticity with Voce isotropic hardening and any number of Chaboche backstresses, in every simulation that is solved without warnings the isotropic hardening stays between zero and the largest saturation value met, every backstress within the largest C/g met, and under strain control the stress never exceeds the saturated yield stress plus the viscous overstress at the imposed strain rate.", "quantifier": "all material parameters (functions of temperature), batches, mixed controls, loading and temperature histories, block sizes, linear solvers", "why_tests_cant": "boundedness concerns every load history and every step size; a test samples a few", "anchors": ["pyoptmat/models.py:ModelIntegrator.solve_both", "pyoptmat/flowrules.py:IsoKinViscoplasticity", "pyoptmat/hardening.py:VoceIsotropicHardeningModel", "pyoptmat/hardening.py:ChabocheHardeningModel"]}
{"id": "C112", "title": "Second law: simulated work is at least the energy stored", "statement": "In every isothermal (or constant moduli) simulation of a viscoplastic model with independent backstresses the work done on the material between any two times is at least the increase of the energy stored elastically and in the backstresses (up to the inner tolerance under stress control), so from the virgin state the work is never negative.", "quantifier": "all isotropic hardening models, backstress parameters, recovery, batches, controls, loading histories, intervals of time", "why_tests_cant": "a violation would show only for particular cyclic histories and step sizes", "anchors": ["pyoptmat/models.py:ModelIntegrator.solve_both", "pyoptmat/flowrules.py:IsoKinViscoplasticity", "pyoptmat/hardening.py:ChabocheHardeningModelRecovery"]}
{"id": "C113", "title": "Simulated damage never decreases", "statement": "In every solved simulation of a damaged model the damage of every batch entry starts at zero and never decreases as long as it stays below one, under strain or stress control.", "quantifier": "all flow rules, damage models with non-negative rate, batches, controls, histories", "why_tests_cant": "monotonicity along every history", "anchors": ["pyoptmat/models.py:DamagedInelasticModel.forward", "pyoptmat/damage.py:HayhurstLeckie", "pyoptmat/models.py:ModelIntegrator.solve_both"]}
{"id": "C114", "title": "Tests within the elastic range are always solved, and elastically", "statement": "A batch of tests none of which leaves the initial elastic range is always solved without warnings, whatever the hardening models; internal variables stay zero, strain-controlled entries return the elastic stress (exactly for zero tolerances, within one absolute tolerance per step otherwise) and stress-controlled ones the elastic strain up to that and the inner tolerance.", "quantifier": "all hardening models at rest without flow, exponents above one, batches, mixed controls, temperature histories, block sizes, linear solvers, iteration limits of at least two", "why_tests_cant": "success of the Newton iteration for every batch and every block size", "anchors": ["pyoptmat/models.py:ModelIntegrator.solve_both", "pyoptmat/ode.py:FixedGridBlockSolver.block_update", "pyoptmat/solvers.py:newton_raphson_chunk"]}
{"id": "C115", "title": "The exact simulation of a hardening material is unique and exists", "statement": "For a viscoplastic material with Voce isotropic and Chaboche kinematic hardening, admissible parameters and saturation values that never drop along the test's temperature history, there is exactly one strain-controlled backward Euler history satisfying every step equation, and every simulation that converges exactly returns it. Two such simulations of the same test agree entry by entry whatever the other tests of their batches (strain or stress controlled), block size, linear solver, initial guess and iteration limit.", "quantifier": "all material parameters and their temperature dependence (no softening of the saturation values), numbers of backstresses, batches, tables, block sizes, linear solvers, guesses, controls", "why_tests_cant": "uniqueness of the solution of a nonlinear system is a statement about all candidate solutions, not about the one a run finds", "anchors": ["pyoptmat/models.py:ModelIntegrator.solve_strain", "pyoptmat/models.py:ModelIntegrator.solve_both", "pyoptmat/flowrules.py:IsoKinViscoplasticity", "pyoptmat/hardening.py:VoceIsotropicHardeningModel", "pyoptmat/hardening.py:ChabocheHardeningModel"]}
{"id": "C116", "title": "Calibration gradients of simulated hardening materials are exact", "statement": "For a strain-controlled simulation of the viscoplastic model with Voce isotropic and any number of Chaboche backstresses, whose material parameters depend continuously differentiably on a vector of calibrated parameters (rate sensitivity above one, positive threshold, admissible saturation values), the loss as a function of that vector is differentiable along every line, and the gradient that the backward pass returns from the stored forward simulation is its exact derivative - for any differentiable loss of the simulated history, any linear solver and any block size of the backward pass, and any solver, guess and block size of each forward run that converged to zero tolerance.  Nothing about invertibility of the Newton matrices or differentiability of the solution is assumed: both follow from the material model.", "quantifier": "all parameterisations, parameter lines, numbers of backstresses, batches, times, strain and temperature histories, losses, linear solvers, block sizes", "why_tests_cant": "A finite-difference comparison samples a few parameter vectors and cannot distinguish an exact gradient from one that is only close, nor establish that the solution is differentiable in the parameters.", "anchors": ["pyoptmat/ode.py:BackwardEulerODE", "pyoptmat/ode.py:IntegrateWithAdjoint", "pyoptmat/ode.py:FixedGridBlockSolver.rewind", "pyoptmat/models.py:InelasticModel", "pyoptmat/flowrules.py:IsoKinViscoplasticity", "pyoptmat/hardening.py:VoceIsotropicHardeningModel", "pyoptmat/hardening.py:ChabocheHardeningModel"]}
{"id": "C117", "title": "Simulated tension, relaxation and creep curves have the right shape", "statement": "For the Voce/Chaboche hardening material at one temperature: under monotonic tension at a non-decreasing strain rate the stress, the inelastic strain and all hardening variables never decrease; when the strain is held after monotonic loading the stress decays, ever more slowly, and stays above the (non-negative, growing) sum of the backstresses; when the stress is held after monotonic loading the strain never decreases and creep never speeds up. The exact solution of the backward Euler equations has these shapes, and every simulation that converged has them up to its tolerance (creep: simulations converged exactly, up to the tolerance of the inner strain rate solve).", "quantifier": "all admissible material parameters, any number of backstresses, time grids, monotonic loading histories, batches, block sizes, linear solvers and tolerances", "why_tests_cant": "A test simulates one curve of one material; the shape is claimed for every material, grid and loading history.", "anchors": ["pyoptmat/models.py:ModelIntegrator.solve_strain", "pyoptmat/models.py:ModelIntegrator.solve_both", "pyoptmat/models.py:InelasticModel.forward", "pyoptmat/flowrules.py:IsoKinViscoplasticity", "pyoptmat/hardening.py:VoceIsotropicHardeningModel", "pyoptmat/hardening.py:ChabocheHardeningModel"]}
{"id": "C118", "title": "Converged simulations are close to the exact solution of their step equations", "statement": "For the Voce/Chaboche hardening material under strain control there is one exact backward Euler history, and every simulation of the test that converges without warning lies close to it: at time k the stress and all internal variables together differ from it by at most (number of components) x tol x (L + ... + L^k), where tol bounds the solver tolerance in force and L = 2 + (d Rs + 2 sum C)/E. So two simulations of the same test with different solvers, tolerances, block sizes or batches agree up to their tolerances, and every accuracy is reached by tightening the tolerances.", "quantifier": "all admissible material parameters (saturation values not dropping with temperature along the test, threshold stress at least nt x tol), strain and temperature histories, batches, solvers, tolerances, block sizes, initial guesses", "why_tests_cant": "The Newton iterates of a test run depend on every one of these settings; a test compares a few settings on a few histories.", "anchors": ["pyoptmat/models.py:ModelIntegrator.solve_both", "pyoptmat/ode.py:FixedGridBlockSolver.integrate", "pyoptmat/chunktime.py:newton_raphson_chunk", "pyoptmat/flowrules.py:IsoKinViscoplasticity"]}
{"id": "C119", "title": "Simulations respect reversal of the loading and changes of units", "statement": "For the Voce/Chaboche hardening material under strain control: reversing the sign of the strain history reverses the stress and the backstresses and leaves the isotropic hardening unchanged; expressing all stresses in another unit (E, eta, s0, Rs, C scaled by c) and all times in another unit (times scaled by q, eta scaled by q^(1/n)), or shifting the origin of time or strain, gives the same results in the new units. This holds exactly for the exact histories and up to the tolerances for simulations that converged.", "quantifier": "all admissible materials, strain and temperature histories, time grids, scale factors, batches, solvers and tolerances", "why_tests_cant": "A test compares one pair of simulations; the symmetry is claimed for every history and material.", "anchors": ["pyoptmat/models.py:ModelIntegrator.solve_strain", "pyoptmat/models.py:InelasticModel.forward", "pyoptmat/flowrules.py:IsoKinViscoplasticity", "pyoptmat/hardening.py:VoceIsotropicHardeningModel", "pyoptmat/hardening.py:ChabocheHardeningModel"]}
{"id": "C120", "title": "Perfectly viscoplastic simulations always succeed when enough Newton iterations are allowed", "statement": "For the perfectly viscoplastic model with rate exponent at least 1 and positive modulus and viscosity at the tabulated temperatures, on increasing times, under strain control or any mixture of strain and stress control: whatever the step sizes, block size, linear solver, initial guess and relative tolerance, and for every positive absolute tolerance, there is a number of iterations from which on the simulation raises no exception, issues no warning, and returns the same values. No fixed number is enough for all tests: for every iteration limit there is a loading step that exceeds it.", "quantifier": "all temperature-dependent parameters, tables, batches, step sizes, block sizes, linear solvers, guesses, tolerances, iteration limits", "why_tests_cant": "Convergence of Newton's method from a poor guess is a statement about an unbounded iteration on arbitrary data; a test runs a few cases with one limit.", "anchors": ["pyoptmat/models.py:ModelIntegrator.solve_both", "pyoptmat/models.py:ModelIntegrator.solve_strain", "pyoptmat/chunktime.py:newton_raphson_chunk", "pyoptmat/flowrules.py:PerfectViscoplasticity", "pyoptmat/ode.py:FixedGridBlockSolver.integrate"]}
{"id": "C121", "title": "Linear viscosity (n = 1)", "statement": "With the rate exponent of IsoKinViscoplasticity equal to one, the derivatives returned for the flow rule and the implicit solution behave as for any other exponent: they are exact, and an elastic step from rest is solved within the iteration limit.", "quantifier": "every temperature-dependent parameter set with n(T)=1, every hardening model, stress and internal variables; for the solve every modulus, viscosity, yield stress, step length, elastic strain increment, linear solver, tolerance, iteration limit and block size", "why_tests_cant": "a test tries a few states and parameters; the failure is at every state inside the yield surface, and the number of iterations needed grows without bound with E dt / eta", "anchors": ["pyoptmat/flowrules.py:IsoKinViscoplasticity.flow_rate", "pyoptmat/ode.py:BackwardEulerODE", "pyoptmat/chunktime.py:newton_raphson_chunk"]}
{"id": "C122", "title": "Later rows cannot influence earlier results", "statement": "Simulating a test is causal in whole blocks: if two tests of a material have the same times, data and temperatures up to row q*block_size, then solve_strain, solve_both and solve_stress return the same states and warnings up to that row, whatever comes after (different loading, more or fewer rows). Cutting a test off at the end of a block gives the same rows, and if the shortened test raises, the full one raises the same error. Inside a block this is not so: the stopping test is shared by the rows of a block.", "quantifier": "every material model, integration scheme, linear solver, tolerance, iteration limit, throw flag, guess type, block size, number of blocks, batch size, mixture of strain and stress controlled entries, and every pair of tables that agree up to the row", "why_tests_cant": "a test compares two particular histories; the claim is about every continuation of a history and every iteration count of the Newton solves", "anchors": ["pyoptmat/ode.py:FixedGridBlockSolver.integrate", "pyoptmat/ode.py:FixedGridBlockSolver.block_update", "pyoptmat/chunktime.py:newton_raphson_chunk", "pyoptmat/models.py:ModelIntegrator.solve_strain", "pyoptmat/models.py:ModelIntegrator.solve_both", "pyoptmat/models.py:ModelIntegrator.solve_stress", "pyoptmat/models.py:StressBasedModel.forward"]}
{"id": "C123", "title": "The order of the tests in a batch and repeated tests are irrelevant", "statement": "If the tests of a batch are put in another order, or some are given several times, every test gets exactly the same result: the run fails with the same error, or entry b of the new batch is entry sigma(b) of the old one at every time in every component, and the same warnings are issued.", "quantifier": "every material, every batch of strain-controlled, stress-controlled or mixed tests with strictly increasing times, every rearrangement sigma onto the batch (permutations, repetitions), both schemes, every linear solver, tolerance, iteration limit, guess type and block size", "why_tests_cant": "the convergence test couples the tests of a batch; that the coupling is blind to order and multiplicity is a statement about all batches and all iterations", "anchors": ["pyoptmat/models.py:ModelIntegrator.solve_strain", "pyoptmat/models.py:ModelIntegrator.solve_both", "pyoptmat/models.py:ModelIntegrator.solve_stress", "pyoptmat/chunktime.py:newton_raphson_chunk", "pyoptmat/ode.py:FixedGridBlockSolver.integrate"]}
{"id": "C124", "title": "Resetting the clock changes nothing", "statement": "Adding a constant to the times of a test (a different one for every test of the batch) does not change any computed value, warning or error: none of the library's material models depends on the origin of time.", "quantifier": "every material built from the library's hardening, flow, damage and model classes (and every other one whose laws do not mention the time), every batch with strictly increasing times, every shift, control, scheme, solver, tolerance", "why_tests_cant": "the time is passed to every law and enters the interpolation of data and rates; a test tries one shift", "anchors": ["pyoptmat/models.py:ModelIntegrator.solve_strain", "pyoptmat/models.py:ModelIntegrator.solve_both", "pyoptmat/utility.py:ArbitraryBatchTimeSeriesInterpolator", "pyoptmat/hardening.py", "pyoptmat/flowrules.py", "pyoptmat/damage.py"]}
{"id": "C125", "title": "Reversing the load reverses the response exactly", "statement": "If the prescribed strain (stress) history is replaced by its negative, the computed stress (strain) and every backstress change sign and every isotropic variable and the damage stay the same, exactly and in every row, with the same warnings or the same error: no tolerance is involved.", "quantifier": "every material built from the library's isotropic and kinematic hardening models, flow rules (perfect, isokin, superposition, rate-independent wrapper, Kocks-Mecking switches between rules with the same backstresses), damage models, with and without damage; every batch, control, scheme, solver, tolerance, guess type, block size", "why_tests_cant": "requires every sign, absolute value and derivative of every law, and every comparison of the iteration, to be symmetric for all states", "anchors": ["pyoptmat/models.py:InelasticModel", "pyoptmat/models.py:DamagedInelasticModel", "pyoptmat/hardening.py", "pyoptmat/flowrules.py", "pyoptmat/damage.py", "pyoptmat/ode.py:odeint"]}
{"id": "C126", "title": "A rate-independent material does not feel the speed of loading", "statement": "For a material whose flow rule is the rate-independent wrapper with lambda = 1 around rules that do not depend on the strain rate (or a superposition of such), a strain-controlled backward Euler simulation gives exactly the same result, warnings and errors for any other increasing times attached to the same strains and temperatures; forward Euler gives the same result when each test is run uniformly faster or slower.", "quantifier": "every wrapped perfect or isokin rule with any of the library's hardening models, every superposition, every strain table, every two increasing time tables (a positive factor and a shift per test for forward Euler), every solver, tolerance, guess type and block size", "why_tests_cant": "invariance under all re-timings of all histories; a test compares a couple of rates up to a tolerance and cannot tell exact invariance from a weak rate effect", "anchors": ["pyoptmat/flowrules.py:RateIndependentFlowRuleWrapper", "pyoptmat/models.py:ModelIntegrator.solve_strain", "pyoptmat/ode.py:BackwardEulerODE", "pyoptmat/ode.py:ForwardEulerODE"]}
{"id": "C127", "title": "Mixed batches have one history and exact calibration gradients", "statement": "For a Voce/Chaboche material with admissible parameters and increasing time tables, a batch in which every test is either strain or stress controlled has exactly one backward Euler history (stress controlled: the table's stress, with the strain rate that makes the model's stress rate the table's). What solve_both returns at zero tolerance without a convergence warning is that history, provided in every step the strain of some stress-controlled test changes (or no test is stress controlled). If the material parameters depend continuously differentiably on a calibrated vector, the adjoint backward pass run on such a simulation - which re-evaluates the whole model, inner strain-rate solve included, block by block - succeeds and returns the exact derivative of any differentiable loss of the histories with respect to the calibrated vector, for every block size and linear solver, provided in every step some stress-controlled test strains faster than the tolerance of the inner solve.", "quantifier": "all admissible Voce/Chaboche materials with any number of backstresses, all families of materials, batches, control flags, tables, block sizes, linear solvers, initial guesses, differentiable losses and directions in parameter space", "why_tests_cant": "the derivative is a limit over infinitely many nearby simulations, for every material, batch, control flag and loss; the inner solve couples all points of a call, so no finite set of batches shows independence of it", "anchors": ["pyoptmat/models.py: ModelIntegrator.solve_both, BothBasedModel.forward, StressBasedModel.forward", "pyoptmat/ode.py: FixedGridBlockSolver.integrate, rewind, update_adjoint, accumulate", "pyoptmat/solvers.py: newton_raphson"]}
{"id": "C128", "title": "What the gradient of a batch is made of", "statement": "For an integration whose implicit steps are solvable, the adjoint backward pass is linear in the incoming gradient; its parameter gradient is the sum over the tests of the batch of the gradient each test gives when integrated alone, and the derivative with respect to a test's initial state is that test's own; selecting, reordering or repeating tests selects, reorders or repeats the terms of the sum; a test the loss does not look at contributes nothing; and rows after the last one the loss looks at can be cut off without changing the result. All of this for both schemes, and even when the passes compared use different block sizes and direct solvers.", "quantifier": "all right-hand sides that act on each test separately, batches, histories, incoming gradients, selections of tests, cut-off rows, block sizes and direct solvers", "why_tests_cant": "quantifies over all batches, incoming gradients and selections; the batched block-tridiagonal solves mix all tests and rows in one call, so agreement on some batches does not show separation", "anchors": ["pyoptmat/ode.py: FixedGridBlockSolver.rewind, update_adjoint, accumulate, _get_param_partial", "pyoptmat/chunktime.py: BidiagonalForwardOperator.inverse, BidiagonalThomasFactorization, BidiagonalPCRFactorization, BidiagonalHybridFactorization"]}
{"id": "C129", "title": "Gradients of simulations that converged only to the solver's tolerances tend to the exact derivative of the loss", "statement": "The gradient the backward pass returns depends continuously on the parameters, on the history it is run on and on the incoming gradient, near any history at which the implicit steps are solvable. For a hardening material (Chaboche flow rule, Voce and Chaboche hardening) under strain control and a loss of the simulated history with continuous derivatives - such as the squared error - there is, for every accuracy, a tolerance such that the gradient computed from any simulation that converged to that tolerance is within that accuracy of the derivative of the loss of the exact simulations.", "quantifier": "all parameters, strain and temperature histories, losses with continuous derivatives, accuracies, linear solvers, block sizes, guesses, iteration limits and tolerances below the bound", "why_tests_cant": "A finite-difference comparison at a few parameter values shows neither that the error of the gradient goes to zero with the tolerances nor that there is no input at which a small residual in the forward run ruins the gradient.", "anchors": ["pyoptmat/ode.py:IntegrateWithAdjoint.backward", "pyoptmat/ode.py:BackwardEulerODE.rewind_adjoint", "pyoptmat/models.py:ModelIntegrator.solve_strain"]}
{"id": "C130", "title": "Changing units changes nothing but the numbers", "statement": "Express a strain-controlled simulation in other units of stress and time by converting the parameters of the material (E, eta, s0, Voce and Chaboche parameters, recovery coefficients, Kocks-Mecking and rate-independent reference rates, Larson-Miller and constant damage rates), the times and the absolute tolerance of the solver: the simulation makes the same decisions (errors, warnings, numbers of iterations) and every result is exactly the converted one, in both schemes, with every linear solver, block size and initial guess. A change of the unit of time alone needs no change of the tolerances and also covers damaged models. The absolute tolerance must be converted with the stresses: left alone, a bar can stay unstressed in one unit and not in the other. Hayhurst-Leckie damage is excluded because the stress derivative it returns does not convert with its rate.", "quantifier": "all materials built from the library's classes except Hayhurst-Leckie damage, all positive conversion factors, strain histories, temperatures, tolerances, solvers", "why_tests_cant": "needs all materials, histories and conversion factors, and exact equality of whole runs", "anchors": ["pyoptmat/ode.py:BlockODEIntegrator", "pyoptmat/chunktime.py:newton_raphson_chunk", "pyoptmat/models.py:ModelIntegrator", "pyoptmat/flowrules.py", "pyoptmat/hardening.py", "pyoptmat/damage.py"]}
{"id": "C131", "title": "Neural ODEs: one history, exact training gradients", "statement": "A NeuralODE whose network is Lipschitz in the state (a perceptron always is, with a constant computed from its weights) and time steps short compared with that constant: backward Euler has exactly one history; every run that converged without warning to a tolerance is within a stated multiple of the tolerance of it, whatever linear solver, block size and initial guess; and the adjoint pass returns the derivative of the loss sum(og * results) of that history with respect to the network's parameters and the initial states, the gradients of converged runs tending to it as the tolerance is tightened.", "quantifier": "all Lipschitz networks (all one-hidden-layer perceptrons with a C1 activation of slope at most one such as tanh), forcing functions, batches, time grids with 2 h L <= 1, initial states, losses, linear solvers, block sizes, guesses, tolerances", "why_tests_cant": "needs existence and uniqueness of solutions and derivatives over all networks and runs", "anchors": ["pyoptmat/neuralode.py:NeuralODE.forward", "pyoptmat/ode.py:BackwardEuler", "pyoptmat/ode.py:IntegrateWithAdjoint", "pyoptmat/chunktime.py:newton_raphson_chunk"]}
{"id": "C132", "title": "Stopping and resuming", "statement": "An integration stopped at the end of a block and resumed from the last state is the uninterrupted integration: the same rows, the same warnings or the same error, in both schemes, for every rate, linear solver and tolerance, with the default initial guess. At any other row, and with different solvers, block sizes, guesses or tolerances in the two stages, two converged stages together are as close to the exact history of the whole test as a single run (rates that are Lipschitz in the state, short steps). Backpropagating stage by stage, handing the derivative with respect to the second stage's initial state to the first stage as the gradient of its last row, gives the same parameter gradient and initial-state derivative as one backward pass, whatever the row, block sizes and direct solvers. With the guess 'previous' the interrupted and the uninterrupted run can differ.", "quantifier": "all ODEs, batches, time grids, stopping rows, block sizes, linear solvers, tolerances, losses, both schemes", "why_tests_cant": "needs all stopping points, all rates and exact equality of whole runs and gradients", "anchors": ["pyoptmat/ode.py:BlockODEIntegrator.integrate", "pyoptmat/ode.py:BlockODEIntegrator._initial_guess", "pyoptmat/ode.py:BlockODEIntegrator.rewind"]}
{"id": "C133", "title": "Nested models", "statement": "Backstresses of a Chaboche model with the same recovery rate act together as one backstress with the sum of their moduli, and a backstress with zero modulus is never felt: the exact simulation of the model with more terms has the same stress and isotropic variable as that of the model with fewer, the backstresses of the smaller model being the sums of their parts; simulations converged to tight enough tolerances agree as closely as wanted. So the order of the terms is irrelevant and calibration with more terms can fit no worse: every admissible smaller model is contained in an admissible larger one. Without threshold, isotropic hardening and backstresses the model is perfect viscoplasticity.", "quantifier": "all Voce/Chaboche materials with admissible temperature-dependent parameters, numbers and groupings of backstresses, strain histories, batches, solvers and tolerances", "why_tests_cant": "needs all parameters, groupings and strain histories", "anchors": ["pyoptmat/hardening.py:ChabocheHardeningModel", "pyoptmat/hardening.py:VoceIsotropicHardeningModel", "pyoptmat/flowrules.py:IsoKinViscoplasticity", "pyoptmat/flowrules.py:PerfectViscoplasticity", "pyoptmat/models.py:ModelIntegrator.solve_strain"]}
{"id": "C134", "title": "Perfectly viscoplastic tests compare the way a user expects", "statement": "For InelasticModel with PerfectViscoplasticity: of two strain-driven backward Euler tests of the same material at the same times and temperatures, the one whose strain increments are at least as large at every step never ends a step with less stress, whatever the loading (cycles included). In tension the comparison also holds when the stronger-loaded test is faster and its drag stress eta larger (by parameters or temperature). Of two stress-driven tests starting unloaded, the one with higher stress, longer steps, smaller eta and smaller modulus never has less strain. The comparison holds up to one pair of solver tolerances per step (exactly when the solver is exact), across batches, block sizes, linear solvers and guesses. (A larger modulus is not in the strain-controlled list: it may relax faster.)", "quantifier": "all materials with positive parameters, all strain/stress histories ordered as stated, all batches, solvers, block sizes and tolerances of unwarned runs", "why_tests_cant": "the ordering ranges over every pair of histories and every number of steps; tests compare a few curves", "anchors": ["pyoptmat/models.py:InelasticModel", "pyoptmat/models.py:ModelIntegrator.solve_strain", "pyoptmat/models.py:ModelIntegrator.solve_stress", "pyoptmat/flowrules.py:PerfectViscoplasticity", "pyoptmat/ode.py:BackwardEulerODE"]}
{"id": "C135", "title": "Training steps go downhill and stop where they should", "statement": "For a strain-driven Voce/Chaboche material whose parameters are continuously differentiable functions of a calibrated vector, and any differentiable loss of the simulated history: the vector the adjoint backward pass returns (the same for every linear solver and block size) predicts descent, i.e. stepping along any direction with negative inner product with it - against it in particular, unless it is zero - lowers the loss of the exact simulation for every sufficiently small learning rate. At a local minimum of the loss it is zero; in particular, for data the model itself produced, the (weighted) squared error is zero at the producing parameters, no history has a smaller one, and the gradient is exactly zero. With gradients from simulations converged only to a tolerance: unless the exact gradient is zero, once the tolerance is tight enough every small step against the computed gradient still lowers the exact loss.", "quantifier": "all admissible material families, batches, histories, losses, directions and all sufficiently small learning rates; all unwarned runs at tight enough tolerances", "why_tests_cant": "a unit test compares gradients with finite differences at a point; descent and stationarity quantify over all losses, parameter points and step sizes", "anchors": ["pyoptmat/ode.py:odeint_adjoint", "pyoptmat/ode.py:IntegrateWithAdjoint.backward", "pyoptmat/optimize.py:DeterministicModel", "pyoptmat/models.py:InelasticModel"]}
{"id": "C136", "title": "Relaxation with the explicit scheme", "statement": "For InelasticModel with PerfectViscoplasticity (n >= 1) integrated with method forward-euler under strain control, once the strain is held at constant material properties: if the steps are at most h long with E h (|s|/eta)^n <= |s| at the start of the hold, the stress keeps its sign and never grows in magnitude; if they are at least h long with E h (|s|/eta)^n >= (1+r)|s|, r >= 1, the stress changes sign in every step and grows by a factor of at least r per step. The instability is silent: explicit runs with one step per block always succeed without a warning, and for every r there are such runs whose stress exceeds every multiple of the held one.", "quantifier": "all materials with E, eta > 0 and n >= 1, all runs without warnings at zero tolerance, all loading before the hold, all step lengths and numbers of steps", "why_tests_cant": "growth over arbitrarily many steps and the absence of warnings for all step sizes cannot be sampled", "anchors": ["pyoptmat/ode.py:ForwardEulerODE", "pyoptmat/models.py:InelasticModel", "pyoptmat/flowrules.py:PerfectViscoplasticity", "pyoptmat/models.py:ModelIntegrator.solve_strain"]}
{"id": "C137", "title": "Training with the explicit scheme", "statement": "With the forward-Euler scheme and zero tolerances, odeint succeeds for every model, initial state, linear solver, initial guess and block size smaller than the number of Newton iterations, always with the same result; and wherever the supplied Jacobians and parameter derivatives are the derivatives of the rate along that simulation, the adjoint pass succeeds and returns the derivative of every differentiable loss of the simulated results with respect to the parameters and the initial states, so that small training steps against it decrease the loss. No condition on step sizes, Lipschitz constants or stiffness is needed: it holds for every differentiable neural ODE with at least one forcing term, and for the Voce/Chaboche material under strain control as long as its isotropic hardening has not become negative.", "quantifier": "every rate, parameter vector, initial state, time grid, loss, solver, block size and number of steps", "why_tests_cant": "the exactness is a statement about derivatives along all curves through all parameter vectors, for every model and number of steps; a test can only compare finite differences at a few points.", "anchors": ["pyoptmat/ode.py: FixedGridBlockSolver.integrate, rewind, odeint_adjoint, ForwardEuler; pyoptmat/neuralode.py: NeuralODE.forward; pyoptmat/models.py: ModelIntegrator.solve_strain"]}
{"id": "C138", "title": "Internal variables with the explicit scheme", "statement": "In a strain-controlled simulation of the Voce/Chaboche material with the forward-Euler scheme, each step multiplies the distance of every internal variable to its saturation value (the isotropic hardening to its saturation stress, each backstress to C/g in the direction of flow) by one minus the product of its rate constant and the inelastic strain of the step. So steps for which these products do not exceed one keep the isotropic hardening between zero and its saturation value and every backstress within C/g, exactly as the implicit scheme does for all steps, and the calibration gradients of such runs are exact; a longer step overshoots the saturation value, and it does so if and only if the product exceeds one.", "quantifier": "every material, temperature history, batch entry, load history, time grid, number of steps, solver and block size", "why_tests_cant": "the bound must hold after every step of every run, and the overshoot criterion is an equivalence over all materials and steps; a test can only sample runs.", "anchors": ["pyoptmat/models.py: ModelIntegrator.solve_strain, InelasticModel.forward; pyoptmat/hardening.py: VoceIsotropicHardeningModel.history_rate, ChabocheHardeningModel.history_rate; pyoptmat/ode.py: ForwardEuler"]}
{"id": "C139", "title": "Stress-controlled and mixed simulations with the explicit scheme", "statement": "When a stress-controlled or mixed batch is integrated with the forward-Euler scheme (zero tolerances, no warnings), each step from time k to time k+1 of a stress-controlled entry uses the time, temperature, applied stress and history at time k, and the strain rate that produces the stress rate of the previous step (zero for the first): the strain of an InelasticModel advances by the step times (previous stress rate over the modulus plus the inelastic rate), up to the inner solver's 1e-10, and the history advances with its rates there; for the damaged model the same holds with the damaged equations. Strain-controlled entries of the batch take the explicit strain-controlled steps whatever the other entries are; other flags stay at zero. Hence on an even time grid the elastic strain lags one step behind stress over modulus (so it does not track the load), and during a hold creep is steady at the perfectly viscoplastic rate from the second step on. Models without history variables always run.", "quantifier": "all InelasticModel / DamagedInelasticModel with rate-free flow rules, tables, batch sizes and control flags, block sizes, linear solvers, initial guesses", "why_tests_cant": "The statement ranges over all load histories and batch compositions, and the inner stress solve couples all rows and batch entries of a block.", "anchors": ["/repo/pyoptmat/models.py: ModelIntegrator.solve_stress, solve_both, StressBasedModel.forward, BothBasedModel.forward", "/repo/pyoptmat/ode.py: FixedGridBlockSolver, ForwardEuler"]}
{"id": "C140", "title": "The explicit scheme converges in spite of its lag", "statement": "A strain-controlled simulation with the forward-Euler scheme differs from the exact solution of the model (driven by the strain and temperature histories interpolated linearly between the given points) by at most exp(L t) times (the initial difference + t M H + P H V + number of steps times the solver tolerance in force), where H is the largest step, L a Lipschitz constant of the state rate, M the speed at which the exact rate changes, P how much the state rate changes per unit of strain rate, and V the total variation of the imposed strain rate, the jump from rest included. So the one-step lag costs a first-order error and the computed stresses converge to the exact ones as the steps are refined; the lag term cannot be improved (an elastic test at constant rate is off by exactly that much). A linearly viscous material pulled at a constant rate converges to eta r (1 - exp(-E t / eta)).", "quantifier": "all models (the error bound), tables, batch sizes, block sizes, solvers, tolerances, initial guesses, step sizes", "why_tests_cant": "A convergence statement ranges over all step sizes and histories; a test only sees one refinement.", "anchors": ["/repo/pyoptmat/models.py: ModelIntegrator.solve_strain", "/repo/pyoptmat/ode.py: FixedGridBlockSolver, ForwardEuler"]}
{"id": "C141", "title": "Calibration gradients of perfectly viscoplastic simulations are exact", "statement": "Every strain-controlled simulation of InelasticModel with PerfectViscoplasticity (modulus not negative, rate sensitivity at least one, positive reference stress) has exactly one exact backward Euler history, whatever the strain histories. When modulus, rate sensitivity (above one) and reference stress are continuously differentiable functions of a calibrated parameter vector and arbitrary functions of temperature, then for every loss of the simulated stresses the adjoint backward pass run on the simulation succeeds and its result, contracted with any direction, is the derivative of the loss along that direction, including where the stress is zero, for every direct linear solver and block size, and for what solve_strain returns when it reports no failure at zero tolerance.", "quantifier": "all parameter families, batches, time grids, strain and temperature histories, losses, directions, linear solvers and block sizes", "why_tests_cant": "a finite-difference test samples a few parameters, loadings and step sizes, and cannot see the points where the flow rate is only once differentiable", "anchors": ["pyoptmat/ode.py:BackwardEulerTimeIntegrationScheme, FixedGridBlockSolver.rewind; pyoptmat/flowrules.py:PerfectViscoplasticity; pyoptmat/models.py:InelasticModel, StrainBasedModel"]}
{"id": "C142", "title": "Training steps go downhill: mixed batches, perfectly viscoplastic materials, neural ODEs with backward Euler", "statement": "For mixed strain/stress-controlled batches of Voce/Chaboche materials (as calibration runs them), for strain-controlled perfectly viscoplastic materials, and for neural ODEs with short steps, and any differentiable loss of the simulated history: the adjoint backward pass on the simulation succeeds with one and the same vector for every linear solver and block size; that vector's inner product with a direction is the derivative of the loss of the exact simulations along it; whenever it is negative all sufficiently small steps along the direction lower the loss, so every small enough step against the vector does unless it is zero; and it is zero at local minima. If the data were produced by the model, squared error and gradient vanish at the producing parameters. A one-hidden-layer perceptron with a C1 activation of slope at most one needs only steps short compared with the size of its current weights: then the simulations exist for all weights nearby.", "quantifier": "all parameter families, batches, control flags, time grids, loads, losses, directions, learning rates below a positive threshold, linear solvers and block sizes", "why_tests_cant": "needs every direction and all small learning rates, and exact derivatives of whole simulations", "anchors": ["pyoptmat/ode.py:IntegrateWithAdjoint", "pyoptmat/ode.py:BackwardEuler", "pyoptmat/models.py:ModelIntegrator.solve_both", "pyoptmat/flowrules.py:PerfectViscoplasticity", "pyoptmat/neuralode.py:NeuralODE.forward", "pyoptmat/optimize.py:DeterministicModel.forward"]}
{"id": "C143", "title": "Perfectly viscoplastic simulations to tolerance and calibration with them", "statement": "A strain-controlled run of InelasticModel with PerfectViscoplasticity that reports no failure is within as many solver tolerances of the exact backward Euler simulation as steps were taken, however stiff the material and long the steps. For every accuracy there is a tolerance for which every such run yields, through the adjoint pass, a gradient of any continuously differentiable loss within that accuracy of the derivative of the exact simulations. Unless that derivative is zero in all directions, there is a threshold such that with relative tolerance zero, any positive absolute tolerance below the threshold and enough Newton iterations the simulation succeeds without a warning, the backward pass succeeds, and every sufficiently small step against the gradient it returns lowers the loss of the exact simulation.", "quantifier": "all materials with positive modulus and reference stress and rate sensitivity above one, parameter families, batches, strain and temperature histories, losses, linear solvers, guesses, block sizes, tolerances below the threshold", "why_tests_cant": "needs existence of converged runs for all inputs and limits of gradients as tolerances shrink", "anchors": ["pyoptmat/flowrules.py:PerfectViscoplasticity", "pyoptmat/models.py:ModelIntegrator.solve_strain", "pyoptmat/chunktime.py:newton_raphson_chunk", "pyoptmat/ode.py:IntegrateWithAdjoint", "pyoptmat/optimize.py:DeterministicModel.forward"]}
{"id": "C144", "title": "The gradient of a mixed strain/stress calibration is continuous in the simulation it is computed from", "statement": "The adjoint pass through ModelIntegrator.solve_both, run on any history close enough to the exact simulation of a batch that mixes strain- and stress-controlled tests, and on any loss derivative close enough to the exact one, returns for every block size and linear solver a gradient within any prescribed accuracy of the derivative of the loss of the exact simulations. Hence unless that loss is stationary there is an accuracy such that every sufficiently small step against a gradient computed from histories at least that accurate lowers the loss of the exact simulation.", "quantifier": "all Voce/Chaboche parameter families, batches mixing strain and stress control, test and temperature histories, losses, linear solvers, block sizes, accuracies", "why_tests_cant": "a limit statement about gradients under arbitrary small perturbations of the simulated histories", "anchors": ["pyoptmat/models.py:ModelIntegrator.solve_both", "pyoptmat/models.py:StressBasedModel.forward", "pyoptmat/ode.py:IntegrateWithAdjoint", "pyoptmat/optimize.py:DeterministicModel.forward"]}
{"id": "C145", "title": "Mixed calibrations work at positive tolerances", "statement": "For a batch mixing strain- and stress-controlled tests of a Voce/Chaboche material with positive yield stress and a loading under which every step strains some stress-controlled test, every accuracy has a tolerance such that every run of ModelIntegrator.solve_both at that tolerance that reports no failure is within the accuracy of the exact history in all stresses, strains and internal variables, although the strain rates of the stress-controlled tests come from an inner Newton solve of their own. Hence the gradients of the runs converge to the derivative of the exact loss as the tolerance shrinks, and unless the loss is stationary there is a tolerance for which every sufficiently small step against the gradient of every run lowers the exact loss.", "quantifier": "all Voce/Chaboche parameters and families, batches, test and temperature histories, losses, linear solvers, guesses, block sizes, iteration limits, tolerances", "why_tests_cant": "a limit over tolerances; the inner solve stops by its own absolute tolerance, so convergence has to exclude runs in which it never acts", "anchors": ["pyoptmat/models.py:ModelIntegrator.solve_both", "pyoptmat/models.py:StressBasedModel.forward", "pyoptmat/chunktime.py:newton_raphson_chunk", "pyoptmat/ode.py:IntegrateWithAdjoint", "pyoptmat/optimize.py:DeterministicModel.forward"]}
{"id": "C146", "title": "Creep calibration through solve_stress: one history, exact gradients, training at positive tolerances", "statement": "For a Voce/Chaboche material with admissible parameters and increasing time tables, a batch of stress-controlled tests has exactly one backward Euler history (the model at the table's stress, with the strain rate that makes the model's stress rate the table's). ModelIntegrator.solve_stress at zero tolerance returns that history when it reports no failure and in every step some strain moves; with positive yield stress and strains moving faster than the inner tolerance, for every accuracy there is a tolerance at which every run without failure is within that accuracy in strains and internal variables. The adjoint backward pass through solve_stress, inner strain-rate solve included, returns the exact derivative of any differentiable loss of the exact histories with respect to the calibrated vector; gradients of runs to tolerance converge to it; and unless the loss is stationary there is a tolerance for which every sufficiently small step against the gradient of any such run lowers the exact loss.", "quantifier": "all Voce/Chaboche parameter families, stress and temperature histories, time tables, batch sizes, losses, linear solvers, guesses, block sizes, accuracies", "why_tests_cant": "a derivative and a limit over all tolerances; unit tests compare a few gradients with finite differences", "anchors": ["pyoptmat/models.py:ModelIntegrator.solve_stress", "pyoptmat/models.py:StressBasedModel.forward", "pyoptmat/ode.py:IntegrateWithAdjoint.backward"]}
{"id": "C147", "title": "Perfectly viscoplastic calibration in mixed and creep batches", "statement": "For the perfectly viscoplastic material with positive modulus and reference stress and rate sensitivity at least one, a batch mixing strain- and stress-controlled tests has exactly one backward Euler history. ModelIntegrator.solve_both at zero tolerance returns that history when it reports no failure and in each step some stress-controlled test strains faster than the tolerance of the inner strain-rate solve (or no test is stress-controlled). In creep batches solve_stress always succeeds and returns it, for every linear solver, block size and initial iterate. For modulus, sensitivity (above one) and reference stress that are continuously differentiable functions of a calibrated vector, the adjoint backward pass, inner solve included, returns the exact derivative of any differentiable loss of the histories along any line of vectors; in creep batches this holds for the losses of what the simulations return.", "quantifier": "all perfectly viscoplastic parameter families, data, control and temperature tables, time tables, batch sizes, losses, linear solvers, guesses, block sizes", "why_tests_cant": "uniqueness and a derivative over all parameter vectors and histories; unit tests compare a few gradients with finite differences", "anchors": ["pyoptmat/models.py:ModelIntegrator.solve_both", "pyoptmat/models.py:ModelIntegrator.solve_stress", "pyoptmat/flowrules.py:PerfectViscoplasticity", "pyoptmat/ode.py:IntegrateWithAdjoint.backward"]}
{"id": "C148", "title": "Perfectly viscoplastic mixed and creep batches at positive tolerances", "statement": "For the perfectly viscoplastic material, a run of ModelIntegrator.solve_both that reports no failure at tolerances of at most tol is, at time step k, within k tol of the batch's exact history in every stress of a strain-controlled and every strain of a stress-controlled test - however stiff the material and however long the steps - if the history strains some stress-controlled test faster than the inner tolerance in every step (or there is none). The gradient the adjoint pass returns on such runs converges to the derivative of the loss of the exact histories as tol goes to zero; steps against the gradient of exact histories lower the loss; and unless the loss is stationary there is a tolerance such that every sufficiently small step against the gradient of any run to that tolerance lowers the exact loss. In creep batches nothing need be assumed of the runs: below that threshold every absolute tolerance, linear solver, block size and initial iterate gives a simulation that succeeds and a gradient that improves.", "quantifier": "all perfectly viscoplastic parameter families, data, control and temperature tables, time tables, batch sizes, losses, linear solvers, guesses, block sizes, tolerances", "why_tests_cant": "a bound and a limit over all tolerances and materials; unit tests run at one tolerance", "anchors": ["pyoptmat/models.py:ModelIntegrator.solve_both", "pyoptmat/models.py:ModelIntegrator.solve_stress", "pyoptmat/flowrules.py:PerfectViscoplasticity", "pyoptmat/ode.py:IntegrateWithAdjoint.backward"]}
{"id": "C149", "title": "A creep test's strain depends on its own test only", "statement": "Simulated under stress control, a perfectly viscoplastic creep test returns Norton's law, whatever the other tests of the batch and the block size. (Refuted: the strain rates of a call are solved together to 1e-10. If in no test of the batch E times the creep rate exceeds 1e-10, solve_stress succeeds and returns zero strain at every time, however long the hold; beside one faster test every test returns Norton's law exactly. So the same test alone and in company, or with block sizes 1 and 3, gives strains further apart than any given bound. What remains true: per unit of time two exact simulations of one test differ by at most 2e-10 over the modulus.)", "quantifier": "all moduli, exponents, drag stresses, batches, held stresses and temperatures, times, linear solvers, block sizes, iteration limits and initial iterates", "why_tests_cant": "Tests use stresses whose creep is fast; the loss shows only where creep is slow in all rows of a call, and its size grows with the hold time.", "anchors": ["pyoptmat/models.py: StressBasedModel.forward (521-562, the inner newton_raphson), ModelIntegrator.solve_stress (370-412)", "pyoptmat/solvers.py: newton_raphson", "pyoptmat/flowrules.py: PerfectViscoplasticity"]}
