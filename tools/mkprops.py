#!/usr/bin/env python3
"""Regenerates /verif/properties.jsonl from the table below (kept as data so that it stays reviewable)."""
import json
P=[]
def p(title,statement,quantifier,why,*anchors):
    P.append(dict(id="C%02d"%(len(P)+1),title=title,statement=statement,quantifier=quantifier,why_tests_cant=why,anchors=list(anchors)))
CT="pyoptmat/chunktime.py"; OD="pyoptmat/ode.py"; SO="pyoptmat/solvers.py"; UT="pyoptmat/utility.py"
MO="pyoptmat/models.py"; FL="pyoptmat/flowrules.py"; HA="pyoptmat/hardening.py"; DA="pyoptmat/damage.py"
SC="pyoptmat/scaling.py"; TE="pyoptmat/temperature.py"; EX="pyoptmat/experiments.py"; OP="pyoptmat/optimize.py"; NE="pyoptmat/neuralode.py"

# ---- chunktime: linear solvers
p("PCR block schedule covers the system",
  "For every number of blocks n >= 1 the schedule computed for parallel cyclic reduction is a list of (start,end) ranges such that: the first starts at 0, the last ends exactly at n, each range starts one before the previous one ends (overlap of exactly one block), every range length is a power of two, lengths never increase, and each length is the largest power of two that fits in what remains. The computation terminates for every n; n = 0 is rejected.",
  "every number of blocks n", "tests try n = 1..30 only; an off-by-one at some larger remainder would silently drop block rows",
  CT+":BidiagonalPCRFactorization._pow2")
p("Thomas factorization solves the block-bidiagonal system",
  "For every number of blocks, block size, batch size, every batch of non-singular diagonal blocks A_i and arbitrary sub-diagonal blocks B_i and every right-hand side b, applying BidiagonalThomasFactorization(A,B) to b returns the x with A_0 x_0 = b_0 and B_{i-1} x_{i-1} + A_i x_i = b_i, and x is the only solution.",
  "all sizes, all non-singular block bidiagonal matrices, all right-hand sides", "tests sample random matrices of at most 30 blocks",
  CT+":thomas_solve", CT+":BidiagonalThomasFactorization", CT+":LUFactorization.forward")
p("Parallel cyclic reduction solves the block-bidiagonal system",
  "Same as C02 for BidiagonalPCRFactorization: the in-place, strided, multi-block cyclic reduction returns the exact solution for every number of blocks (not only powers of two).",
  "all sizes, all non-singular block bidiagonal matrices, all right-hand sides", "the algorithm works through aliasing strided views whose index arithmetic changes with the binary expansion of nblk; tests sample 30 sizes",
  CT+":BidiagonalPCRFactorization.matvec", CT+":BidiagonalPCRFactorization._solve_block", CT+":BidiagonalPCRFactorization._cyclic_shift")
p("Hybrid PCR/Thomas solves the block-bidiagonal system",
  "Same as C02 for BidiagonalHybridFactorization for every min_size: PCR is used exactly on the leading schedule ranges of length greater than min_size, Thomas on the rest, and the result is the exact solution.",
  "all sizes, all min_size values, all systems", "the switch point depends on nblk and min_size jointly; tests sample three strategies",
  CT+":BidiagonalHybridFactorization.matvec", CT+":BidiagonalHybridFactorization._pcr_blocks")
p("All linear solution strategies agree",
  "For every non-singular block bidiagonal operator and right-hand side, solve_method dense and direct, and direct solvers thomas, pcr and hybrid (any min_size), return the same vector.",
  "all systems, all strategies", "agreement must hold for every operator, tests compare on random ones",
  CT+":ChunkTimeOperatorSolverContext.solve", CT+":BidiagonalForwardOperator.inverse")
p("A factorization object can be applied repeatedly",
  "Applying the same factorization object to several right-hand sides one after the other gives for each the solution of the original system.",
  "every sequence of right-hand sides", "tests apply each object once; only a history of calls shows state leaking between solves",
  CT+":BidiagonalPCRFactorization.matvec", CT+":BidiagonalThomasFactorization.matvec")
p("The forward operator is multiplication by the dense matrix it represents",
  "For every A, B and vector v, BidiagonalForwardOperator(A,B)(v) equals to_diag().to_dense() times v in every batch, and applying inverse() after the forward operator gives v back when the diagonal blocks are non-singular.",
  "all sizes, batches, blocks and vectors", "index/layout errors depend on the combination of sizes",
  CT+":BidiagonalForwardOperator.forward", CT+":BidiagonalForwardOperator.to_diag", CT+":SquareBatchedBlockDiagonalMatrix.to_dense")
p("Dense and COO forms of a block-diagonal matrix agree",
  "For every set of distinct diagonals, in any order, to_dense puts block k of diagonal d at block position (k-d,k) or (k,k+d) and zero elsewhere; to_batched_coo lists exactly nnz in-range entries whose sum at each position is the to_dense entry.",
  "all sizes, all lists of distinct diagonals in any order", "tests use one 3x3 block matrix",
  CT+":SquareBatchedBlockDiagonalMatrix.__init__", CT+":SquareBatchedBlockDiagonalMatrix.to_dense", CT+":SquareBatchedBlockDiagonalMatrix.to_batched_coo", CT+":SquareBatchedBlockDiagonalMatrix.nnz")
p("to_unrolled_csr keeps the logical shape",
  "to_unrolled_csr returns one n-by-n matrix per batch entry, whatever diagonals are filled.",
  "all lists of diagonals", "only matrices whose last block row and column are both populated are tested",
  CT+":SquareBatchedBlockDiagonalMatrix.to_unrolled_csr")
# ---- newton
p("Chunked Newton solve: bounded work and truthful success",
  "newton_raphson_chunk calls the residual at most miter+1 times, performs at most miter updates, and when it finishes without using up miter and no residual norm is NaN, then at the returned point every batch norm is <= atol or every batch norm is <= rtol times its starting norm. A starting point that already satisfies the test is returned unchanged.",
  "every residual function, linear solver, tolerance, starting point", "depends on the whole iteration history of an arbitrary nonlinear function",
  CT+":newton_raphson_chunk")
p("A NaN residual is never reported as success",
  "If the residual norm at the returned point is NaN in some batch entry then the Newton solve warns or raises.",
  "every residual function and history", "tests never produce NaN residuals",
  CT+":newton_raphson_chunk", SO+":newton_raphson", SO+":newton_raphson_bt")
p("throw_on_fail raises exactly when the tolerances were not met",
  "With throw_on_fail=True newton_raphson_chunk raises if and only if the tolerances are not met after miter iterations; with throw_on_fail=False it never raises and returns the same point with a warning.",
  "every residual function, every miter", "convergence exactly at the last permitted iteration is a single point of the input space",
  CT+":newton_raphson_chunk")
p("newton_raphson returns a consistent (x, J) pair",
  "newton_raphson returns x together with the Jacobian evaluated at that same x, with the same bounded-work and success guarantees as C10; problems of size one and linsolver='diag' use the diagonal solve, 'lu' the full solve, any other name is rejected.",
  "every residual function, size, linsolver string", "tests sample a few functions",
  SO+":newton_raphson", SO+":lu_linear_solve", SO+":jacobi_iteration_linear_solve")
p("Backtracking Newton: bounded line search and monotone residual unless exhausted",
  "newton_raphson_bt calls the residual at most 1 + miter*(max_bt+2) times; each accepted update either strictly reduces every batch residual norm or was accepted only after the line search used up max_bt; the line-search scale of an entry is 2^-j for some j <= max_bt+1, where j counts exactly the trials at which that entry's residual norm exceeded its current one by more than atol; the returned Jacobian is that of the returned point, and every step of the path uses the configured linear solver.",
  "every residual function and tolerance", "worst-case line-search histories cannot be enumerated",
  SO+":newton_raphson_bt")
p("Newton solvers leave the caller's starting point alone",
  "After newton_raphson, newton_raphson_bt or newton_raphson_chunk returns, the tensor passed as x0 still holds its original values.",
  "every call", "tests never look at x0 after the call",
  SO+":newton_raphson", SO+":newton_raphson_bt", CT+":newton_raphson_chunk")
p("Newton solves affine systems in one update",
  "If the residual is affine with a non-singular matrix and the supplied Jacobian is exact, one update from any starting point gives residual exactly zero (lu solver).",
  "every size, affine system and starting point", "tests sample",
  SO+":newton_raphson", CT+":newton_raphson_chunk")
p("GMRES stops only on convergence or at maxiter",
  "gmres returns after at most maxiter iterations; if it stops before maxiter then every batch residual norm ||b - A x|| of the returned x is below tol; otherwise the returned x is the iterate of the reported iteration, at which the residual was actually checked (every check-th iteration, or the last); a starting guess already below tol is returned unchanged with iteration count 0; for maxiter >= 1 the reported count is below maxiter.",
  "every matrix, right-hand side, preconditioner, check interval", "control flow depends on the residual history",
  SO+":gmres", SO+":lu_gmres", SO+":jacobi_gmres")
# ---- ode
p("integrate fills every requested time exactly once",
  "For every number of times and block_size >= 1, the integration writes the result at every time index exactly once, in increasing blocks, starting from y0 at index 0; the last block may be short; nothing outside is written.",
  "all numbers of times and block sizes", "remainder handling depends on both numbers",
  OD+":FixedGridBlockSolver.integrate")
p("Backward Euler results satisfy the implicit update to tolerance",
  "For every right-hand side function, times, initial condition, block size, linear solver and guess: if no block solve warned and no norm was NaN, every step of the result of odeint(method='backward-euler') satisfies |y_k - y_{k-1} - (t_k - t_{k-1}) f(t_k, y_k)| <= atol, or <= rtol times the block's starting residual norm, in every component of every batch entry.",
  "all functions, time grids, block sizes, solver strategies", "universally quantified over ODEs and time grids",
  OD+":BackwardEulerScheme.form_operators", OD+":FixedGridBlockSolver.block_update", OD+":odeint")
p("Forward Euler results satisfy the explicit update to tolerance",
  "Same as C19 for method='forward-euler' with f evaluated at (t_{k-1}, y_{k-1}).",
  "all functions, time grids, block sizes, solver strategies", "universally quantified over ODEs and time grids",
  OD+":ForwardEulerScheme.form_operators", OD+":FixedGridBlockSolver.block_update", OD+":odeint")
p("The answer does not depend on block_size",
  "When block solves are exact, forward Euler results equal the step-by-step recursion for every block size, and backward Euler results equal those of block_size 1 whenever each implicit step has a unique solution.",
  "all functions, grids and pairs of block sizes", "tests compare a handful of block sizes",
  OD+":FixedGridBlockSolver.integrate", OD+":FixedGridBlockSolver.block_update")
p("Block assembly is the Jacobian of the block residual",
  "The bidiagonal operator returned by form_operators is the derivative of the block residual with respect to the increments, for both schemes, whenever the function returns its own Jacobian.",
  "all functions, block sizes and points", "must hold at every point",
  OD+":BackwardEulerScheme.form_operators", OD+":ForwardEulerScheme.form_operators")
p("Forward Euler block solves finish exactly after at most block_size updates",
  "For the forward Euler scheme, starting from any guess and for any supplied Jacobian (even a wrong one), after j Newton updates the first j steps of the block are exact, so n updates solve a block of n steps exactly.",
  "every function, Jacobian, guess, block size", "finite termination is a statement about all iteration histories",
  OD+":ForwardEulerScheme.form_operators", CT+":newton_raphson_chunk")
p("The initial guess always has the size of the block",
  "For every number of times, block size and guess_type the initial guess produced for a block has one increment per time step in that block, zero for 'zero' and the last increments of the previous block for 'previous'; other names are rejected.",
  "all numbers of times, block sizes and blocks", "depends on the remainder of ntime-1 by block_size",
  OD+":FixedGridBlockSolver._initial_guess")
p("Adjoint gradients are exact for backward Euler",
  "For every parameterised ODE, loss sensitivity, grid and block size, the parameter gradient and initial-condition gradient returned by odeint_adjoint's backward pass equal the derivative of the weighted sum of the backward Euler outputs with respect to parameters and y0.",
  "all ODEs, grids, block sizes, output gradients", "tests compare with AD/finite differences on a few ODEs",
  OD+":BackwardEulerScheme.update_adjoint", OD+":BackwardEulerScheme.accumulate", OD+":FixedGridBlockSolver.rewind")
p("Adjoint gradients are exact for forward Euler",
  "Same as C25 for the forward Euler scheme.",
  "all ODEs, grids, block sizes, output gradients", "tests compare with AD/finite differences on a few ODEs",
  OD+":ForwardEulerScheme.update_adjoint", OD+":ForwardEulerScheme.accumulate", OD+":FixedGridBlockSolver.rewind")
p("Adjoint results do not depend on block_size or on the direct solver",
  "The adjoint history and gradients computed by the backward pass are the same for every block_size and for thomas, pcr and hybrid.",
  "all pairs of block sizes and solvers", "tests compare a few block sizes",
  OD+":FixedGridBlockSolver.rewind")
p("Gradient slots line up with the differentiated inputs",
  "odeint_adjoint's backward pass returns exactly one entry per argument given to the autograd function: None for solver and times, one gradient per function parameter then per extra parameter in order, and the y0 gradient last exactly when y0 requires gradients; odeint and odeint_adjoint produce the same forward values.",
  "all numbers of parameters, extra parameters, requires_grad flags", "argument-order errors show only for particular combinations",
  OD+":IntegrateWithAdjoint", OD+":odeint_adjoint")
p("Unknown solver options are rejected before integrating",
  "The solver constructor accepts exactly linear_solve_method in {dense,direct} and direct_solve_method in {thomas,pcr,hybrid} and method in {backward-euler,forward-euler}; any other string raises.",
  "all strings", "all strings cannot be tried",
  OD+":FixedGridBlockSolver.__init__", CT+":ChunkTimeOperatorSolverContext.__init__", OD+":int_methods")
# ---- interpolation
p("ArbitraryBatchTimeSeriesInterpolator is piecewise linear interpolation",
  "For strictly increasing times in every batch entry and any queries inside the time range, the interpolator returns for every query and batch entry the piecewise linear interpolant of that entry's data (in particular the data values at the nodes).",
  "all grids, data, query tensors", "boundary and node hits are measure-zero in random tests",
  UT+":ArbitraryBatchTimeSeriesInterpolator")
p("Out-of-range queries are rejected by ArbitraryBatchTimeSeriesInterpolator",
  "If times are strictly increasing and at least one query is outside the time range of its batch entry, the call raises instead of returning a tensor.",
  "all grids and query tensors", "tests query inside the range only",
  UT+":ArbitraryBatchTimeSeriesInterpolator.forward")
p("The precached and one-shot batch interpolators agree with linear interpolation in range",
  "BatchTimeSeriesInterpolator, timeseries_interpolate_batch_times and timeseries_interpolate_single_times return the piecewise linear interpolant for every query in the closed time range, hence agree with each other and with ArbitraryBatchTimeSeriesInterpolator there.",
  "all grids, data and in-range queries", "index wrap-around happens only at the last node",
  UT+":BatchTimeSeriesInterpolator", UT+":timeseries_interpolate_batch_times", UT+":timeseries_interpolate_single_times")
p("The structured-problem interpolator is right when the batch shares brackets",
  "CheaterBatchTimeSeriesInterpolator returns the linear interpolant for batch entry 0 for every in-range query, and for every other entry whose query lies in the bracket of the same index.",
  "all grids, data, queries", "the shared-index shortcut is valid only under a relation between batch columns",
  UT+":CheaterBatchTimeSeriesInterpolator")
# ---- models
p("InelasticModel returns the rate form and its exact Jacobians",
  "For every flow rule whose own derivatives are correct, InelasticModel returns [E(erate - flow), history rate], its full Jacobian with respect to [stress, history], and its derivative with respect to the strain rate.",
  "all flow rules, states, rates, temperatures", "derivative identities must hold at every point",
  MO+":InelasticModel.forward")
p("DamagedInelasticModel returns the damaged rate form and its exact Jacobian",
  "For every correct flow rule and damage model and d < 1, DamagedInelasticModel returns [(1-d)E(erate - flow(s/(1-d))), history rate at s/(1-d), damage rate at s/(1-d)] and the exact Jacobian of that vector with respect to [stress, history, damage] and the strain rate.",
  "all flow rules, damage models, states", "derivative identities must hold at every point; test magnitudes hide missing terms below tolerance",
  MO+":DamagedInelasticModel.forward")
p("Stress control reproduces the requested stress rate with an exact Jacobian",
  "When the inner solve is exact, StressBasedModel returns a strain rate for which the base model at the prescribed stress produces exactly the prescribed stress rate, together with history rates at that strain rate, and the Jacobian of this implicitly defined rate with respect to the state.",
  "all base models, states, stress histories", "implicit-function derivatives must hold at every point",
  MO+":StressBasedModel.forward")
p("Mixed control integrates each experiment under its own control mode",
  "BothBasedModel returns for each experiment the strain-controlled rate and Jacobian if control is 0 and the stress-controlled ones if control is 1, independent of the control of all other experiments; other control codes give zero rates.",
  "all batches and control assignments", "all mixtures cannot be tried",
  MO+":BothBasedModel.forward")
p("Elastic strain-controlled simulations track the strain exactly",
  "For a model with zero inelastic flow and constant modulus E, exact backward Euler integration via solve_strain gives stress_k = E (strain_k - strain_0) at every time, for every strictly increasing time grid and block size.",
  "all strain histories, grids and block sizes", "end-to-end statement about interpolation, rates and integration",
  MO+":ModelIntegrator.solve_strain", MO+":StrainBasedModel.forward")
p("A damage model that never damages changes nothing",
  "With NoDamage and zero damage, DamagedInelasticModel's stress and history rates equal InelasticModel's and the damage rate is zero, so damage stays zero along any Euler integration.",
  "all flow rules, states, step sequences", "holds along whole trajectories",
  MO+":DamagedInelasticModel", DA+":NoDamage")
# ---- flow rules
p("Perfect viscoplasticity: value, derivative and dissipation",
  "For rate sensitivity n >= 1 and eta > 0 the flow rate is (|s|/eta)^n sign(s), the second return value is its exact derivative at every stress including zero, the rate is odd, monotone and never opposes the stress.",
  "all stresses and parameters", "derivative at the kink and at extreme stresses",
  FL+":PerfectViscoplasticity")
p("Isotropic/kinematic viscoplasticity has exact derivatives",
  "For n > 1, eta > 0 and any hardening models with correct derivatives, every derivative returned by IsoKinViscoplasticity (flow wrt stress, history, rate; history rate wrt stress, history, rate) is exact, inside, on and outside the yield surface.",
  "all hardening models, states and parameters", "the yield surface is measure zero in random tests",
  FL+":IsoKinViscoplasticity")
p("No inelastic flow inside the elastic range",
  "IsoKinViscoplasticity gives zero flow exactly when |s - x| <= s0 + k (for n > 0), otherwise flow in the direction of s - x with magnitude ((|s-x|-s0-k)/eta)^n.",
  "all states", "boundary case",
  FL+":IsoKinViscoplasticity.flow_rate", UT+":macaulay")
p("Superimposed flow rules add and keep their histories separate",
  "SuperimposedFlowRule's rate is the sum of the component rates, each evaluated on its own slice of the history; its history rate is the concatenation; all derivatives are exact if the components' are; history Jacobian is block diagonal.",
  "all lists of components, any history sizes including zero", "offset arithmetic over arbitrary lists",
  FL+":SuperimposedFlowRule")
p("Rate-independent wrapper: limits, homogeneity and derivatives",
  "RateIndependentFlowRuleWrapper with lambda = 0 is the base rule; with lambda = 1 and a base rule independent of the strain rate, scaling the strain rate by c > 0 scales all rates by c; derivatives are exact at non-zero strain rate.",
  "all base rules, states, rates", "homogeneity is a universal statement",
  FL+":RateIndependentFlowRuleWrapper")
p("Kocks-Mecking hard switch selects a complete model pointwise",
  "KocksMeckingRegimeFlowRule returns for each point all quantities from model 1 if the activation energy is <= g0 and all from model 2 otherwise; models with different numbers of internal variables are rejected; a faster strain rate never moves a point from model 1 to model 2 (positive modulus, temperature).",
  "all component models and points", "mixed batches, threshold equality",
  FL+":KocksMeckingRegimeFlowRule")
p("Kocks-Mecking soft blend is a convex combination with exact derivatives",
  "SoftKocksMeckingRegimeFlowRule returns (1-f) M1 + f M2 with 0 < f < 1, f increasing with activation energy and equal to 1/2 at the threshold; all returned derivatives including the strain-rate ones are exact at non-zero strain rate.",
  "all component models and points", "derivative identities at all points",
  FL+":SoftKocksMeckingRegimeFlowRule")
# ---- hardening
p("Isotropic hardening models have exact derivatives",
  "For Voce, Theta0Voce and Theta0RecoveryVoce every derivative returned is the exact derivative of the history rate / value.",
  "all states, rates and parameters in the physical range", "pointwise derivative identities",
  HA+":VoceIsotropicHardeningModel", HA+":Theta0VoceIsotropicHardeningModel", HA+":Theta0RecoveryVoceIsotropicHardeningModel")
p("Kinematic hardening models have exact derivatives",
  "For Frederick-Armstrong (with and without recovery), Chaboche (with and without recovery), no hardening and superimposed models every derivative returned is exact.",
  "all states, numbers of backstresses, parameters", "pointwise derivative identities over any number of backstresses",
  HA+":FAKinematicHardeningModel", HA+":FAKinematicHardeningModelNoRecovery", HA+":ChabocheHardeningModel", HA+":ChabocheHardeningModelRecovery", HA+":SuperimposedKinematicHardening", HA+":NoKinematicHardeningModel")
p("Equivalent hardening formulations agree",
  "Theta0Voce(tau,theta) equals Voce(R=tau,d=theta/tau); Theta0RecoveryVoce with r1=0 equals Theta0Voce; FA with default b,r equals FA without recovery; Chaboche equals superimposed FA models; ChabocheRecovery with b=0 equals Chaboche.",
  "all states and parameters", "equalities of functions",
  HA+":Theta0VoceIsotropicHardeningModel", HA+":FAKinematicHardeningModel", HA+":SuperimposedKinematicHardening")
p("Hardening variables stay within their saturation bounds",
  "Under backward Euler integration with any step sizes and any inelastic strain rates, Voce hardening started in [0,R] stays in [0,R] and moves monotonically toward R, and every backstress started in [-C/g,C/g] stays there.",
  "all step sequences of any length", "invariant over unbounded histories",
  HA+":VoceIsotropicHardeningModel.history_rate", HA+":ChabocheHardeningModel.history_rate", HA+":FAKinematicHardeningModelNoRecovery.history_rate")
# ---- damage
p("Damage models return exact derivatives of their damage rates",
  "For NoDamage, ConstantDamage, HayhurstLeckie and LarsonMiller the second value of damage_rate is the derivative with respect to damage, d_damage_rate_d_s the derivative with respect to stress, d_damage_rate_d_e with respect to strain rate.",
  "all stresses, damage values below one, parameters", "test magnitudes fall below the comparison tolerance, hiding missing factors",
  DA+":HayhurstLeckie", DA+":LarsonMillerDamage", DA+":ConstantDamage", DA+":NoDamage")
p("Damage never heals",
  "For all damage models (with positive parameters) the damage rate is >= 0 for d < 1, hence damage is non-decreasing along any forward Euler history.",
  "all states and histories", "invariant over histories", DA+":HayhurstLeckie.damage_rate", DA+":LarsonMillerDamage.damage_rate")
# ---- scaling
p("Bounded scaling stays in bounds, is monotone and inverts",
  "BoundedScalingFunction with clamp maps every real into [l,u], is non-decreasing, maps 0 to l and 1 to u; unscale(scale(x)) = x for x in [0,1] and scale(unscale(y)) = y for y in [l,u]; without clamp the round trips hold for all reals.",
  "all bounds l < u and all values", "tests check one interior value", SC+":BoundedScalingFunction")
p("Log-bounded scaling stays in bounds, is monotone and inverts",
  "Same as C53 for LogBoundedScalingFunction with 0 < l < u.",
  "all bounds 0 < l < u and all values", "tests check one interior value", SC+":LogBoundedScalingFunction")
p("Simple scaling inverts",
  "SimpleScalingFunction with s != 0: unscale(scale(x)) = x and scale(unscale(y)) = y; scale_mean is the scaled location.",
  "all values", "sampled", SC+":SimpleScalingFunction")
p("scale_mean returns the transformed mean in parameter space",
  "For every scaling function scale_mean(loc, scale) is the value scale(loc) of the actual parameter (in the unclamped range). scale_stat reports the loc and scale of the parameter (of its logarithm for the log-bounded function), and for the log-bounded function also the expected value of the parameter when the scaled parameter is normally distributed.",
  "all bounds and values", "not tested at all", SC+":LogBoundedScalingFunction.scale_mean", SC+":BoundedScalingFunction.scale_mean")
p("Scaling classes are drop-in replacements for the optimize helpers",
  "bounded_scale_function((l,u)) equals BoundedScalingFunction(l,u).scale; with min_bound the result is additionally never below min_bound; bound_factor(mean,f) keeps values within mean*(1-f) and mean*(1+f) in either sign of mean, and honours min_bound in the same way; clamp_scale_function, bound_and_scale, log_bound_and_scale always return values in their bounds and are the identity/quotient/exponential when inside and the violated bound when outside.",
  "all bounds and values", "sampled", OP+":bounded_scale_function", OP+":bound_factor", OP+":clamp_scale_function", OP+":bound_and_scale", OP+":log_bound_and_scale")
# ---- temperature
p("Polynomial scaling is numpy.polyval",
  "PolynomialScaling(coefs)(T) equals sum_i coefs[i] T^(n-1-i) for every list of coefficients and temperature.",
  "all coefficient lists and temperatures", "all lengths", TE+":PolynomialScaling")
p("Piecewise scaling is linear interpolation on the control points",
  "For strictly increasing control temperatures and temperatures inside the range, PiecewiseScaling returns the piecewise linear interpolant for each temperature; temperatures outside raise.",
  "all control points, values, temperature batches", "node and end-point hits", TE+":PiecewiseScaling")
p("Kocks-Mecking rate sensitivity is clipped and consistent with the viscosity",
  "KMRateSensitivityScaling always returns a value in [1,cutoff], equal to -mu b^3/(kTA) when that is in range; KMViscosityScaling equals exp(B) mu eps0^(-1/n) with the n that KMRateSensitivityScaling (default cutoff) reports.",
  "all parameters and temperatures", "clipping and cutoff differences only show for some parameters", TE+":KMRateSensitivityScaling", TE+":KMViscosityScaling")
p("Arrhenius scalings are bounded and monotone",
  "For A > 0, Q > 0, T > 0: ArrheniusScaling is in (0,A) and increasing in T, InverseArrheniusScaling is A minus it, in (0,A) and decreasing; T log(value/A) is -Q at every temperature.",
  "all parameters and temperatures", "inequalities over all reals", TE+":ArrheniusScaling", TE+":InverseArrheniusScaling")
p("MTS and shear-modulus scalings",
  "ShearModulusScalingExp(A) equals ShearModulusScaling(exp A); MTSScaling lies in [0,tau0], is tau0 at T = 0, 0 where kT = mu b^3 g0, and non-increasing in T for constant modulus; in between, the strength y satisfies mu b^3 g0 (1 - (y/tau0)^p)^q = kT.",
  "all parameters and temperatures", "inequalities over all reals", TE+":ShearModulusScaling", TE+":ShearModulusScalingExp", TE+":MTSScaling")
# ---- experiments
p("convert_results processes each experiment by its own type",
  "convert_results gives column j exactly the post-processing of the type of column j applied to that column, independent of other columns and of column order.",
  "all batches mixing all types", "combinations of types", EX+":convert_results", EX+":exp_fns_num")
p("Cyclic post-processing gives each point the maximum of its own cycle",
  "For each experiment of a cyclic type, each entry of the processed result is the maximum of the predictions over the time points of that experiment with the same cycle number.",
  "all batches of cyclic tests", "tests do not mix different cycle listings in a batch", EX+":format_cyclic")
p("Relaxation post-processing zeroes the loading and references the hold",
  "For each creep/relaxation experiment the processed result is zero where the cycle flag is not 1 and otherwise the prediction minus the prediction at the first flagged time of that experiment.",
  "all batches of relaxation tests", "tests do not mix different listings in a batch", EX+":format_relaxation")
p("Abstract tensile post-processing",
  "format_abstract_tensile gives per experiment 0 where cycles = 0, the prediction at the first time with cycles = 1 where cycles = 1, and the maximum prediction where cycles = 2.",
  "all inputs", "sampled", EX+":format_abstract_tensile")
p("Generated tension tests have the requested rate and limit",
  "make_tension_tests returns for each test nsteps points starting at time 0, strain 0, ending at the strain limit, with strain = rate * time at every point, constant temperature, non-decreasing time, cycle 0.",
  "all batches, rates, limits, step counts", "all sizes", EX+":make_tension_tests", EX+":sample_tension")
p("Generated creep tests load then hold with increasing time",
  "make_creep_tests returns stresses that go linearly from 0 to the target during loading (cycle 0) and stay there (cycle 1), with strictly increasing times whenever nsteps_load >= 2 and the target is positive.",
  "all batches, targets, rates, hold times, step counts", "the relation between loading time and hold time is not sampled", EX+":make_creep_tests")
p("Sampled cycles are periodic, continuous and rate-limited",
  "sample_cycle_normalized_times returns 1 + N*(4 nload + 2 nhold) points with non-decreasing times, cycle k covers [k*period,(k+1)*period], strain stays between the smallest and largest of 0, max_strain and R*max_strain, is zero at each cycle end, and changes at most strain_rate * dt between neighbouring samples.",
  "all cycles, N, nload, nhold", "all sizes and degenerate cycles", EX+":sample_cycle_normalized_times")
p("load_results puts driving and response quantities in the right slots",
  "load_results gives for strain-controlled experiments data[2] = strain and results = stress and for stress-controlled the reverse; times, temperatures and cycles are passed through; unknown type or control names raise.",
  "all data sets and control assignments", "mixtures", EX+":load_results")
# ---- optimize
p("Per-type weights and noise go to the right experiments",
  "_make_weight_tensor gives each experiment the weight configured for its type (1 for all known types by default, 0 for types not listed); type-specific noise gives each experiment the noise of its type.",
  "all type lists, weight dictionaries", "all combinations", OP+":HierarchicalStatisticalModel._make_weight_tensor", OP+":StatisticalModel.forward")
p("The guide covers exactly the model's latent sites",
  "For every list of distinct parameter names and the default suffixes, the guide samples exactly the latent sites the model samples (two top-level and one bottom-level per parameter, eps iff include_noise), and after the guide has run once get_extra_params succeeds and lists one tensor per parameter in order; before, it raises.",
  "all name lists, flags", "name collisions depend on the strings", OP+":HierarchicalStatisticalModel")
# ---- utility
p("Macaulay bracket and Heaviside",
  "macaulay(x) = max(x,0) and heaviside(x) is 0, 1/2, 1 for negative, zero, positive x.",
  "all reals", "sampled", UT+":macaulay", UT+":heaviside")
p("Finite-difference helpers are exact on affine functions",
  "differentiate, new_differentiate and batch_differentiate return the exact slope of an affine function at every point and for every eps > 0 (scalar case).",
  "all points and slopes", "the point zero is special", UT+":differentiate", UT+":new_differentiate", UT+":batch_differentiate")
p("NeuralODE returns the Jacobian with respect to the state",
  "NeuralODE's second output is the Jacobian of the network output with respect to the state part of its input, of shape n by n, for any state and forcing sizes.",
  "all networks and sizes", "sizes", NE+":NeuralODE.forward")
# ---- additions
p("Applying a factorization leaves the caller's right-hand side alone",
  "After M = operator.inverse(); M(v), the tensor v passed by the caller holds its original values, for every batch size and number of blocks.",
  "all batch sizes, block counts, methods", "whether .contiguous() copies depends on the sizes; tests use batches larger than one", CT+":LUFactorization.forward", CT+":thomas_solve")
p("Preconditioner reuse never changes what a successful solve means",
  "Over any history of solves by one PreconditionerReuseNonlinearSolver, the stored preconditioner after a solve is either the one it had before or one built from a Jacobian the residual function returned (and the first solve always builds one); it is rebuilt exactly on the first solve and after each linear solve that took more than 2n/3 iterations, from the Jacobian at the new point, and each solve starts from the preconditioner the previous ones left; every solve returns (x, J) with J the Jacobian at x, warns exactly when miter was used up, and otherwise meets the tolerances unless a norm is NaN.",
  "all residual functions, histories of solves, inner linear solver results", "state carried between calls", SO+":PreconditionerReuseNonlinearSolver")
p("A frozen or unused parameter makes the adjoint backward pass raise",
  "odeint_adjoint's backward pass over two or more times raises whenever some function or extra parameter does not require gradients or does not enter the rate; otherwise it succeeds.",
  "all lists of parameters and flags", "needs every combination of flags", "pyoptmat/ode.py:FixedGridBlockSolver.rewind", "pyoptmat/ode.py:FixedGridBlockSolver._get_param_partial")
p("Backward Euler always succeeds on linear ODEs",
  "For y' = K(t) y + c(t) with I - h K non-singular at every step, odeint(method='backward-euler') with miter >= 2 never warns or raises, and with zero tolerances returns the unique backward Euler solution for every block size, linear solver and guess.",
  "all linear ODEs, time grids, block sizes", "infinitely many systems and block sizes", "pyoptmat/ode.py:FixedGridBlockSolver.integrate", "pyoptmat/chunktime.py:newton_raphson_chunk")
p("Interpolators without a range check extrapolate sensibly",
  "For queries before the first time, BatchTimeSeriesInterpolator and timeseries_interpolate_batch_times continue the first segment (as they continue the last one for queries after the last time).",
  "all grids, data, out-of-range queries", "the wrapped index only shows for queries outside the range", "pyoptmat/utility.py:BatchTimeSeriesInterpolator", "pyoptmat/utility.py:timeseries_interpolate_batch_times")
p("Backstress evolution follows the documented law",
  "The Frederick-Armstrong models evolve the backstress by the documented dx/dt = (2/3) C dep/dt - g x |dep/dt| (- recovery).",
  "all states, rates and parameters", "a test written from the code would not notice a factor in the documentation", "pyoptmat/hardening.py:FAKinematicHardeningModel", "pyoptmat/hardening.py:FAKinematicHardeningModelNoRecovery")
p("Regime switches honour the modulus' numerical scaling",
  "The Kocks-Mecking regime flow rules compute the activation energy with the modulus mu(T) the rest of the library sees (numerical scaling applied).",
  "all moduli with a scaling function, temperatures, rates", "tests use unscaled moduli", "pyoptmat/flowrules.py:KocksMeckingRegimeFlowRule.g", "pyoptmat/flowrules.py:SoftKocksMeckingRegimeFlowRule.g")
p("The damaged model follows its documented stress rate",
  "DamagedInelasticModel's stress rate is the documented E (de/dt - (1 - d) de_in/dt).",
  "all states with 0 <= d < 1, strain rates, flow rules, damage models",
  "a test written from the code would encode the same deviation; the claim ranges over all flow rules and damage values",
  "pyoptmat/models.py:DamagedInelasticModel.forward")
p("Creep tests hold for the requested hold time",
  "In the tests generated by make_creep_tests the time between the end of loading and the end of the test is the requested hold time.",
  "all targets, rates, hold times and step counts",
  "the doc string calls the argument a hold time, tests compare to the code's own formula",
  "pyoptmat/experiments.py:make_creep_tests")
p("add_id adds the identity to square Jacobians only","add_id(df) adds one to every diagonal entry of every batch matrix and changes nothing else; it is an error exactly for non-empty non-square Jacobians.","all batch sizes and matrix sizes","sizes","pyoptmat/utility.py:add_id")
p("Perfect viscoplasticity under strain control saturates, relaxes and is block independent","Simulating InelasticModel with PerfectViscoplasticity through solve_strain on strictly increasing times: the stress magnitude never exceeds the largest steady flow stress eta*|rate|^(1/n) of the strain rates imposed so far; in a hold (strain rate zero) the stress magnitude never grows and never changes sign; and the answer of two exact runs is the same whatever the block size, linear solver, guess and iteration limit. For rate sensitivity n=1 every such run succeeds.","all strain histories, temperatures, time tables, parameters and integrator settings","A test follows a few histories with one block size.","pyoptmat/models.py:ModelIntegrator.solve_strain","pyoptmat/flowrules.py:PerfectViscoplasticity","pyoptmat/ode.py:FixedGridBlockSolver.integrate")
p("Hardening variables follow their documented evolution laws","Each hardening model's value is its documented function of its own variables (the variable itself, or the sum of the backstresses) and each variable's rate is the documented expression of the inelastic rate, the variable and the parameters at the current temperature: Voce d(R-h)|p|, theta0(1-h/tau)|p|, the latter plus static recovery r1 (R0-h)|R0-h|^(r2-1), Frederick-Armstrong and Chaboche C p - g x |p| with optional recovery - b |x|^(r-1) x (C being the code's coefficient, see C81); superimposed models add their values and keep their own rates.","every state, rate, temperature and parameter function","a wrong coefficient or sign still passes derivative checks","pyoptmat/hardening.py")
p("The Voce/Chaboche viscoplastic model follows its documented rate equations","InelasticModel with IsoKinViscoplasticity, Voce isotropic hardening and any number of Chaboche backstresses returns exactly: no inelastic rate while |s - sum x| <= s0 + K, otherwise <(|s - sum x| - s0 - K)/eta>^n in the direction of the overstress; stress rate E (strain rate - p); K rate d(R-K)|p|; backstress rates C_i p - g_i x_i |p|; and these equations determine the rates.","every state with s0 + K >= 0, every strain rate, temperature, n > 0, eta > 0, number of backstresses","composition of flow rule, hardening models and slicing over all states","pyoptmat/models.py:InelasticModel.forward","pyoptmat/flowrules.py:IsoKinViscoplasticity","pyoptmat/hardening.py:VoceIsotropicHardeningModel","pyoptmat/hardening.py:ChabocheHardeningModel")
p("Damage rates follow their documented laws","HayhurstLeckie's rate is (|s|/A)^xi (1-d)^(xi-phi), LarsonMillerDamage's is 10^(C-B/T) (|s|(1-d))^(-A/T), ConstantDamage's is its rate at the temperature, NoDamage's is zero.","every stress, damage, temperature for which the powers are finite","a wrong exponent still passes derivative checks","pyoptmat/damage.py")
p("solve_both generalises solve_strain and solve_stress","A batch in which every test is strain controlled (flag 0) gives through solve_both exactly what solve_strain gives (results, warnings, failures), and a batch in which every test is stress controlled (flag 1) exactly what solve_stress gives.","all models, tables, batch sizes, schemes, linear solvers, tolerances, guesses, block sizes","equality over all inputs and failure modes","pyoptmat/models.py:ModelIntegrator.solve_both","pyoptmat/models.py:ModelIntegrator.solve_strain","pyoptmat/models.py:ModelIntegrator.solve_stress","pyoptmat/models.py:BothBasedModel.forward")
p("Stress-controlled simulations satisfy the model's creep equations","In a stress-controlled simulation the strain and history start at zero and over each step the strain advances by the stress increment over E plus dt times the inelastic rate at the tabulated stress (up to the 1e-10 tolerance of the inner solve), history and damage advancing with their rates at the tabulated stress; hence elastic models return stress over E, constant stress gives steady creep at the documented rate, and models without history always solve.","all flow rules that do not depend on the strain rate, stress histories, time tables, temperatures, batch and block sizes, linear solvers and guesses","all histories; batch-coupled inner solve","pyoptmat/models.py:ModelIntegrator.solve_stress","pyoptmat/models.py:StressBasedModel.forward","pyoptmat/ode.py:FixedGridBlockSolver.integrate")
p("Mixed-control batches keep each test under its own control","In a batch mixing strain- and stress-controlled tests, each strain-controlled test satisfies the equations of a strain-controlled simulation of its own table and each stress-controlled test those of a stress-controlled simulation, whatever the other tests are; tests with any other flag stay at zero; for perfect viscoplasticity the strain-controlled entries equal those of a pure solve_strain run.","all batch compositions, flags, tables, block sizes, linear solvers","cross-talk depends on the whole batch","pyoptmat/models.py:ModelIntegrator.solve_both","pyoptmat/models.py:BothBasedModel.forward")
p("The explicit scheme applies the imposed strain rate over the step it is imposed on",
  "A strain-controlled simulation with the forward Euler scheme imposes, over the step from time k-1 to time k, the strain increment tabulated for that step, so an elastic material's stress is the modulus times the tabulated strain at every time.",
  "every rate-form model, every table of times, strains and temperatures with increasing times, every batch size, block size, linear solver and guess",
  "Only a table whose strain rate varies shows the lag, and only at the level of the whole simulation; tests use the implicit scheme or constant rates.",
  "pyoptmat/models.py: ModelIntegrator.solve_strain","pyoptmat/ode.py: ForwardEulerTimeStep","pyoptmat/utility.py: ArbitraryBatchTimeSeriesInterpolator")
p("A deterministic model is built from its current parameter values, in the order of their names",
  "Evaluating a DeterministicModel calls the maker with exactly one value per name, in the order in which the names were given, each being the value currently stored for that name; a name for which no initial condition was given is an error at evaluation, never a silent default; of a repeated name the last value counts.",
  "every list of names and of initial conditions, of equal or different lengths, with or without repetitions",
  "The order of arguments is positional and unnamed: a permutation is only visible for particular lengths and values.",
  "pyoptmat/optimize.py: DeterministicModel.__init__, DeterministicModel.get_params, DeterministicModel.forward")
p("Evaluating a model on a loaded data set reproduces the data it generated",
  "Loading a data set and evaluating a DeterministicModel on it simulates every test with its own times, temperatures, control and controlled quantity: an elastic model returns the modulus times the recorded strain for every strain-controlled tensile test, whatever the other tests of the set are; and a model evaluated at the parameters that generated a test's stresses returns those stresses exactly, in a batch of any composition.",
  "every data set (any number and mixture of test types and controls, any table lengths), every exact converged simulation, every linear solver, block size and guess",
  "Needs loading, integration, control dispatch and conversion to agree for all mixtures of tests.",
  "pyoptmat/experiments.py: load_results, convert_results","pyoptmat/optimize.py: DeterministicModel.forward","pyoptmat/models.py: ModelIntegrator.solve_both")
p("Simulated creep and relaxation tests return the change since the start of the hold",
  "Evaluating a model on a data set with creep or relaxation tests (mixed with any others, tests of one such type sharing their cycle counts) returns zero before the hold; for a creep test of a power-law (perfectly viscoplastic) material held at a constant stress and temperature it returns during the hold the creep strain since its start, elapsed time times the power-law rate, with the sign of the stress; for a relaxation test held at constant strain it returns a monotone change of stress starting from zero.",
  "every data set, batch composition and table, every exact converged simulation, all material parameters, every linear solver, block size and guess",
  "It needs loading, control dispatch, implicit integration, the inner stress solve and the conversion to agree for all mixtures and parameters.",
  "pyoptmat/optimize.py: DeterministicModel.forward","pyoptmat/experiments.py: load_results, convert_results, format_relaxation","pyoptmat/models.py: ModelIntegrator.solve_both, StressBasedModel.forward")
p("GMRES result quality","For every batch of linear systems, preconditioner, shift eps > 0 and check interval, an entry with a nonzero initial residual comes back as finite numbers whose residual is at most sqrt(k+1) times the initial residual (k the returned iteration index); without the shift (eps = 0) and with a linear preconditioner M, as long as r, AMr, .., (AM)^k r are independent the result has the smallest residual over x0 + M span(r, AMr, .., (AM)^(k-1) r).","all batches, matrices, right-hand sides, initial guesses, preconditioners, tolerances, maxiter, check intervals and least-squares solvers that return a minimiser","optimality over a Krylov space quantifies over infinitely many vectors and all matrices","pyoptmat/solvers.py:gmres","pyoptmat/solvers.py:NoOp")
p("Exact preconditioners","With a preconditioner that inverts each matrix exactly and maxiter >= 2, the returned residual of gmres is exactly eps^2/(1+eps^2) times the initial residual in every entry, reached in the second iteration when that is below tol and check = 1; in particular lu_gmres on nonsingular matrices and jacobi_gmres on diagonal ones with nonzero diagonal.","all batches of nonsingular systems, initial guesses with nonzero residual, eps > 0, tolerances, maxiter and check intervals","all matrices and sizes; tests try a handful of random matrices","pyoptmat/solvers.py:lu_gmres","pyoptmat/solvers.py:jacobi_gmres","pyoptmat/solvers.py:LUPreconitionerOperator","pyoptmat/solvers.py:JacobiPreconitionerOperator","pyoptmat/solvers.py:gmres")
p("Iterations needed by GMRES","gmres with maxiter = n should solve every nonsingular n x n system (full GMRES terminates in n steps).","all nonsingular systems, preconditioners, tolerances, check intervals and small eps","termination depends on the dimension of Krylov spaces for all matrices","pyoptmat/solvers.py:gmres")
p("Already solved batch entries in GMRES","A batch entry whose initial guess is already exact keeps finite values equal to a solution, and does not prevent the rest of the batch from converging.","all batches, preconditioners, tolerances, maxiter and check intervals","batches mixing solved and unsolved entries are not in the tests and the effect depends on NaN propagation for every input","pyoptmat/solvers.py:gmres")
p("An entry's answer does not depend on what else is in the batch",
"The value odeint computes for one batch entry is the same, up to the solver tolerances, whatever the other entries of the batch are and whichever batch size, block size, linear solver, initial guess, iteration limit or tolerance is chosen: two unwarned runs differ after k steps by at most rho^k (difference of the starts + k (tol + tol')), rho = 1 for dissipative rates under backward Euler; with zero tolerances they are equal.",
"every rate function (one-sided Lipschitz for backward Euler, Lipschitz for forward Euler; any rate for exact forward Euler), every pair of batches sharing one problem, every time grid, start, block size, linear solver, guess type, tolerance, number of steps",
"the convergence test couples the entries of a batch (iteration continues until every entry converged), so the answer of an entry really changes with its companions; a test compares a few batches at default tolerances",
"pyoptmat/ode.py:FixedGridBlockSolver.integrate", "pyoptmat/chunktime.py:newton_raphson_chunk", "pyoptmat/ode.py:odeint")
p("The density StatisticalModel defines",
"With its sites fixed at given values, StatisticalModel has log density = the sum over the distinct parameter names of the normal prior of that parameter + the sum over tests and times of the normal density of the measurement around the result the deterministic model computes with the same parameters, with standard deviation eps (or eps of the test's own type). Comparing parameters therefore is penalised least squares, data generated by a parameter set is most likely under it, and a repeated name is one parameter with the last prior.",
"every list of names, priors, noise values (scalar or per type), data set, parameter values and measurements, whatever the material model",
"the density is a sum over all parameters, tests and times; a test only samples from it",
"pyoptmat/optimize.py:StatisticalModel.forward", "pyoptmat/optimize.py:StatisticalModel.get_params", "pyoptmat/optimize.py:DeterministicModel.forward")
p("The training loss of the hierarchical model",
"One evaluation of the SVI loss with the guide of make_guide equals minus the weighted log posterior at the stored parameters: priors of the population means and scales (and of inferred noise) counted once, plus for each test its type's weight times (density of its own parameters given the population + density of its measurements given the simulation with its parameters). Measurements of tests with weight zero do not matter; the first evaluation is at the prior means; at fixed population the loss is weighted penalised least squares; the stored test parameters only serve data sets with the same number of tests.",
"every set of names, priors, suffixes, weights, noise setting, data set and parameter store, whatever the material model",
"depends on every entry of every tensor of the store and on the nesting of plates and scales; the tests only check that the loss can be evaluated",
"pyoptmat/optimize.py:HierarchicalStatisticalModel.forward", "pyoptmat/optimize.py:HierarchicalStatisticalModel.make_guide", "pyoptmat/optimize.py:HierarchicalStatisticalModel._make_weight_tensor")
p("Convergence to the exact solution",
"The history odeint returns converges to the solution of the differential equation y' = f(t, y) as the time steps and the tolerances go to zero, with first order in the step: for backward Euler with one-sided Lipschitz constant L, forward Euler with Lipschitz constant L, and any exact solution whose rate changes by at most M per unit time, the error at time t_k is at most exp(c L T) (initial error + T M H + k tol), T = t_k - t_0, H the largest step. Strain-controlled simulations converge in the same way to the model's response to the piecewise linear strain and temperature history; for a viscoplastic model without history whose flow grows with stress, without the exponential factor.",
"every rate function, exact solution, batch, time grid (also non-uniform and repeated times), block size, linear solver, tolerance and number of steps, and every constitutive model and loading history for solve_strain",
"an error bound over all grids, rates and solutions; tests compare a few problems against one analytic solution at one step size",
"pyoptmat/ode.py:BackwardEuler", "pyoptmat/ode.py:ForwardEuler", "pyoptmat/ode.py:odeint", "pyoptmat/models.py:ModelIntegrator.solve_strain")
p("Newton's method converges quadratically near a solution",
"newton_raphson started close enough to a regular solution finds it: if on the ball of radius r around the guess the supplied Jacobian is the derivative of the residual, is Lipschitz with constant K and has an inverse bounded by beta, with K beta r and the first residual small enough, then every iterate stays in the ball, the residual falls like (1/16)^(2^k - 1), the solve stops within the number of iterations after which that bound meets the absolute tolerance, without a warning, and the point returned is within 2 beta |residual| of the solution, which is the only one in the ball.",
"every batched nonlinear system, guess, constants, linear solver selection (the lu solver or the scalar shortcut), tolerance and iteration limit",
"a statement about all smooth systems and all starting points; tests run a handful of systems",
"pyoptmat/solvers.py:newton_raphson")
p("Small steps never fail and converge",
"With the zero guess and a rate that, near the initial state, is bounded with a bounded, Lipschitz Jacobian, backward Euler with sufficiently small steps never fails, warns or leaves the region, whatever the absolute tolerance, linear solver, block size and initial content of memory; each block takes at most one Newton iteration to meet the relative tolerance. On N equal steps the result differs from the solution by at most C (1/N + N atol) at every time, for every N large enough.",
"every rate function, initial state, region, time interval, block size, relative tolerance between 0 and 1, absolute tolerance, linear solver and number of steps from some number on",
"an existence and convergence statement about unboundedly fine grids",
"pyoptmat/ode.py:FixedGridBlockSolver.integrate", "pyoptmat/ode.py:FixedGridBlockSolver.block_update", "pyoptmat/chunktime.py:newton_raphson_chunk")
p("Refining the time grid improves the result",
"For given tolerances, refining the time grid brings the result closer to the solution of the differential equation.",
"every rate function, initial state, scheme, block size, tolerance and grid",
"grids fine enough to show the failure have too many steps to run",
"pyoptmat/ode.py:FixedGridBlockSolver.integrate", "pyoptmat/chunktime.py:newton_raphson_chunk")
p("Random strain-controlled tests respect the requested ranges",
  "random_tension returns the requested maximum strain and a positive rate between the given rates; random_cycle returns values each between its given ends; sampling them gives histories of the promised length with non-decreasing times, strains bounded by the drawn maximum strain, whose slope never exceeds the largest requested rate, and with the promised peak and R ratio in every cycle.",
  "all ranges, all draws of the random generator, all numbers of cycles and points",
  "tests draw a few seeds; the claim ranges over every draw and every range, including reversed ranges",
  "pyoptmat/experiments.py: random_tension, random_cycle, sample_tension, sample_cycle")
p("Variance bands cover the promised fraction of the curves",
  "The band drawn for a tail probability alpha is defined for every batch of curves, its lower edge never exceeds its upper edge, both edges are values of curves, and at least the fraction 1 - 2 alpha of the curves lies inside it at every time.",
  "all batches of curves, all tail probabilities in [0, 1/2]",
  "a counting statement about order statistics for every batch size and every rounding of n alpha",
  "pyoptmat/utility.py: visualize_variance")
p("Cyclic tests are compared by the peak of each cycle, end to end",
  "Loading a data set and evaluating a model on it gives, at every row of a cyclic test, the maximum of the simulated response over that row's own cycle. For a history generated from a cycle description the times increase strictly so that it can be simulated; an elastic material under strain control gives the modulus times the largest strain of the cycle at every row of every cycle; a perfectly viscoplastic material never exceeds the flow stress at the cycle's strain rate, whatever the temperature history.",
  "all data sets, mixed test types and controls, batch sizes, cycle descriptions, numbers of cycles and samples, block sizes, linear solvers",
  "a test compares a few stored histories; the claim spans the loader, the integrator, the converter and the cycle generator for every data set",
  "pyoptmat/optimize.py: DeterministicModel.forward", "pyoptmat/experiments.py: load_results, convert_results, format_cyclic, sample_cycle_normalized_times", "pyoptmat/models.py: ModelIntegrator.solve_both")
p("Internal variables and stress stay bounded in every simulation",
 "For viscoplasticity with Voce isotropic hardening and any number of Chaboche backstresses, in every simulation that is solved without warnings the isotropic hardening stays between zero and the largest saturation value met, every backstress within the largest C/g met, and under strain control the stress never exceeds the saturated yield stress plus the viscous overstress at the imposed strain rate.",
 "all material parameters (functions of temperature), batches, mixed controls, loading and temperature histories, block sizes, linear solvers",
 "boundedness concerns every load history and every step size; a test samples a few",
 "pyoptmat/models.py:ModelIntegrator.solve_both","pyoptmat/flowrules.py:IsoKinViscoplasticity","pyoptmat/hardening.py:VoceIsotropicHardeningModel","pyoptmat/hardening.py:ChabocheHardeningModel")
p("Second law: simulated work is at least the energy stored",
 "In every isothermal (or constant moduli) simulation of a viscoplastic model with independent backstresses the work done on the material between any two times is at least the increase of the energy stored elastically and in the backstresses (up to the inner tolerance under stress control), so from the virgin state the work is never negative.",
 "all isotropic hardening models, backstress parameters, recovery, batches, controls, loading histories, intervals of time",
 "a violation would show only for particular cyclic histories and step sizes",
 "pyoptmat/models.py:ModelIntegrator.solve_both","pyoptmat/flowrules.py:IsoKinViscoplasticity","pyoptmat/hardening.py:ChabocheHardeningModelRecovery")
p("Simulated damage never decreases",
 "In every solved simulation of a damaged model the damage of every batch entry starts at zero and never decreases as long as it stays below one, under strain or stress control.",
 "all flow rules, damage models with non-negative rate, batches, controls, histories",
 "monotonicity along every history",
 "pyoptmat/models.py:DamagedInelasticModel.forward","pyoptmat/damage.py:HayhurstLeckie","pyoptmat/models.py:ModelIntegrator.solve_both")
p("Tests within the elastic range are always solved, and elastically",
 "A batch of tests none of which leaves the initial elastic range is always solved without warnings, whatever the hardening models; internal variables stay zero, strain-controlled entries return the elastic stress (exactly for zero tolerances, within one absolute tolerance per step otherwise) and stress-controlled ones the elastic strain up to that and the inner tolerance.",
 "all hardening models at rest without flow, exponents above one, batches, mixed controls, temperature histories, block sizes, linear solvers, iteration limits of at least two",
 "success of the Newton iteration for every batch and every block size",
 "pyoptmat/models.py:ModelIntegrator.solve_both","pyoptmat/ode.py:FixedGridBlockSolver.block_update","pyoptmat/solvers.py:newton_raphson_chunk")
p("The exact simulation of a hardening material is unique and exists",
  "For a viscoplastic material with Voce isotropic and Chaboche kinematic hardening, admissible parameters and saturation values that never drop along the test's temperature history, there is exactly one strain-controlled backward Euler history satisfying every step equation, and every simulation that converges exactly returns it. Two such simulations of the same test agree entry by entry whatever the other tests of their batches (strain or stress controlled), block size, linear solver, initial guess and iteration limit.",
  "all material parameters and their temperature dependence (no softening of the saturation values), numbers of backstresses, batches, tables, block sizes, linear solvers, guesses, controls",
  "uniqueness of the solution of a nonlinear system is a statement about all candidate solutions, not about the one a run finds",
  "pyoptmat/models.py:ModelIntegrator.solve_strain", "pyoptmat/models.py:ModelIntegrator.solve_both", "pyoptmat/flowrules.py:IsoKinViscoplasticity", "pyoptmat/hardening.py:VoceIsotropicHardeningModel", "pyoptmat/hardening.py:ChabocheHardeningModel")
p("Calibration gradients of simulated hardening materials are exact",
  "For a strain-controlled simulation of the viscoplastic model with Voce isotropic and any number of Chaboche backstresses, whose material parameters depend continuously differentiably on a vector of calibrated parameters (rate sensitivity above one, positive threshold, admissible saturation values), the loss as a function of that vector is differentiable along every line, and the gradient that the backward pass returns from the stored forward simulation is its exact derivative - for any differentiable loss of the simulated history, any linear solver and any block size of the backward pass, and any solver, guess and block size of each forward run that converged to zero tolerance.  Nothing about invertibility of the Newton matrices or differentiability of the solution is assumed: both follow from the material model.",
  "all parameterisations, parameter lines, numbers of backstresses, batches, times, strain and temperature histories, losses, linear solvers, block sizes",
  "A finite-difference comparison samples a few parameter vectors and cannot distinguish an exact gradient from one that is only close, nor establish that the solution is differentiable in the parameters.",
  "pyoptmat/ode.py:BackwardEulerODE","pyoptmat/ode.py:IntegrateWithAdjoint","pyoptmat/ode.py:FixedGridBlockSolver.rewind","pyoptmat/models.py:InelasticModel","pyoptmat/flowrules.py:IsoKinViscoplasticity","pyoptmat/hardening.py:VoceIsotropicHardeningModel","pyoptmat/hardening.py:ChabocheHardeningModel")
p("Simulated tension, relaxation and creep curves have the right shape",
"For the Voce/Chaboche hardening material at one temperature: under monotonic tension at a non-decreasing strain rate the stress, the inelastic strain and all hardening variables never decrease; when the strain is held after monotonic loading the stress decays, ever more slowly, and stays above the (non-negative, growing) sum of the backstresses; when the stress is held after monotonic loading the strain never decreases and creep never speeds up. The exact solution of the backward Euler equations has these shapes, and every simulation that converged has them up to its tolerance (creep: simulations converged exactly, up to the tolerance of the inner strain rate solve).",
"all admissible material parameters, any number of backstresses, time grids, monotonic loading histories, batches, block sizes, linear solvers and tolerances",
"A test simulates one curve of one material; the shape is claimed for every material, grid and loading history.",
"pyoptmat/models.py:ModelIntegrator.solve_strain","pyoptmat/models.py:ModelIntegrator.solve_both","pyoptmat/models.py:InelasticModel.forward","pyoptmat/flowrules.py:IsoKinViscoplasticity","pyoptmat/hardening.py:VoceIsotropicHardeningModel","pyoptmat/hardening.py:ChabocheHardeningModel")
p("Converged simulations are close to the exact solution of their step equations",
"For the Voce/Chaboche hardening material under strain control there is one exact backward Euler history, and every simulation of the test that converges without warning lies close to it: at time k the stress and all internal variables together differ from it by at most (number of components) x tol x (L + ... + L^k), where tol bounds the solver tolerance in force and L = 2 + (d Rs + 2 sum C)/E. So two simulations of the same test with different solvers, tolerances, block sizes or batches agree up to their tolerances, and every accuracy is reached by tightening the tolerances.",
"all admissible material parameters (saturation values not dropping with temperature along the test, threshold stress at least nt x tol), strain and temperature histories, batches, solvers, tolerances, block sizes, initial guesses",
"The Newton iterates of a test run depend on every one of these settings; a test compares a few settings on a few histories.",
"pyoptmat/models.py:ModelIntegrator.solve_both","pyoptmat/ode.py:FixedGridBlockSolver.integrate","pyoptmat/chunktime.py:newton_raphson_chunk","pyoptmat/flowrules.py:IsoKinViscoplasticity")
p("Simulations respect reversal of the loading and changes of units",
"For the Voce/Chaboche hardening material under strain control: reversing the sign of the strain history reverses the stress and the backstresses and leaves the isotropic hardening unchanged; expressing all stresses in another unit (E, eta, s0, Rs, C scaled by c) and all times in another unit (times scaled by q, eta scaled by q^(1/n)), or shifting the origin of time or strain, gives the same results in the new units. This holds exactly for the exact histories and up to the tolerances for simulations that converged.",
"all admissible materials, strain and temperature histories, time grids, scale factors, batches, solvers and tolerances",
"A test compares one pair of simulations; the symmetry is claimed for every history and material.",
"pyoptmat/models.py:ModelIntegrator.solve_strain","pyoptmat/models.py:InelasticModel.forward","pyoptmat/flowrules.py:IsoKinViscoplasticity","pyoptmat/hardening.py:VoceIsotropicHardeningModel","pyoptmat/hardening.py:ChabocheHardeningModel")
p("Perfectly viscoplastic simulations always succeed when enough Newton iterations are allowed",
"For the perfectly viscoplastic model with rate exponent at least 1 and positive modulus and viscosity at the tabulated temperatures, on increasing times, under strain control or any mixture of strain and stress control: whatever the step sizes, block size, linear solver, initial guess and relative tolerance, and for every positive absolute tolerance, there is a number of iterations from which on the simulation raises no exception, issues no warning, and returns the same values. No fixed number is enough for all tests: for every iteration limit there is a loading step that exceeds it.",
"all temperature-dependent parameters, tables, batches, step sizes, block sizes, linear solvers, guesses, tolerances, iteration limits",
"Convergence of Newton's method from a poor guess is a statement about an unbounded iteration on arbitrary data; a test runs a few cases with one limit.",
"pyoptmat/models.py:ModelIntegrator.solve_both","pyoptmat/models.py:ModelIntegrator.solve_strain","pyoptmat/chunktime.py:newton_raphson_chunk","pyoptmat/flowrules.py:PerfectViscoplasticity","pyoptmat/ode.py:FixedGridBlockSolver.integrate")
p("Linear viscosity (n = 1)",
"With the rate exponent of IsoKinViscoplasticity equal to one, the derivatives returned for the flow rule and the implicit solution behave as for any other exponent: they are exact, and an elastic step from rest is solved within the iteration limit.",
"every temperature-dependent parameter set with n(T)=1, every hardening model, stress and internal variables; for the solve every modulus, viscosity, yield stress, step length, elastic strain increment, linear solver, tolerance, iteration limit and block size",
"a test tries a few states and parameters; the failure is at every state inside the yield surface, and the number of iterations needed grows without bound with E dt / eta",
"pyoptmat/flowrules.py:IsoKinViscoplasticity.flow_rate","pyoptmat/ode.py:BackwardEulerODE","pyoptmat/chunktime.py:newton_raphson_chunk")
p("Later rows cannot influence earlier results",
"Simulating a test is causal in whole blocks: if two tests of a material have the same times, data and temperatures up to row q*block_size, then solve_strain, solve_both and solve_stress return the same states and warnings up to that row, whatever comes after (different loading, more or fewer rows). Cutting a test off at the end of a block gives the same rows, and if the shortened test raises, the full one raises the same error. Inside a block this is not so: the stopping test is shared by the rows of a block.",
"every material model, integration scheme, linear solver, tolerance, iteration limit, throw flag, guess type, block size, number of blocks, batch size, mixture of strain and stress controlled entries, and every pair of tables that agree up to the row",
"a test compares two particular histories; the claim is about every continuation of a history and every iteration count of the Newton solves",
"pyoptmat/ode.py:FixedGridBlockSolver.integrate","pyoptmat/ode.py:FixedGridBlockSolver.block_update","pyoptmat/chunktime.py:newton_raphson_chunk","pyoptmat/models.py:ModelIntegrator.solve_strain","pyoptmat/models.py:ModelIntegrator.solve_both","pyoptmat/models.py:ModelIntegrator.solve_stress","pyoptmat/models.py:StressBasedModel.forward")
p("The order of the tests in a batch and repeated tests are irrelevant",
  "If the tests of a batch are put in another order, or some are given several times, every test gets exactly the same result: the run fails with the same error, or entry b of the new batch is entry sigma(b) of the old one at every time in every component, and the same warnings are issued.",
  "every material, every batch of strain-controlled, stress-controlled or mixed tests with strictly increasing times, every rearrangement sigma onto the batch (permutations, repetitions), both schemes, every linear solver, tolerance, iteration limit, guess type and block size",
  "the convergence test couples the tests of a batch; that the coupling is blind to order and multiplicity is a statement about all batches and all iterations",
  "pyoptmat/models.py:ModelIntegrator.solve_strain","pyoptmat/models.py:ModelIntegrator.solve_both","pyoptmat/models.py:ModelIntegrator.solve_stress","pyoptmat/chunktime.py:newton_raphson_chunk","pyoptmat/ode.py:FixedGridBlockSolver.integrate")
p("Resetting the clock changes nothing",
  "Adding a constant to the times of a test (a different one for every test of the batch) does not change any computed value, warning or error: none of the library's material models depends on the origin of time.",
  "every material built from the library's hardening, flow, damage and model classes (and every other one whose laws do not mention the time), every batch with strictly increasing times, every shift, control, scheme, solver, tolerance",
  "the time is passed to every law and enters the interpolation of data and rates; a test tries one shift",
  "pyoptmat/models.py:ModelIntegrator.solve_strain","pyoptmat/models.py:ModelIntegrator.solve_both","pyoptmat/utility.py:ArbitraryBatchTimeSeriesInterpolator","pyoptmat/hardening.py","pyoptmat/flowrules.py","pyoptmat/damage.py")
p("Reversing the load reverses the response exactly",
  "If the prescribed strain (stress) history is replaced by its negative, the computed stress (strain) and every backstress change sign and every isotropic variable and the damage stay the same, exactly and in every row, with the same warnings or the same error: no tolerance is involved.",
  "every material built from the library's isotropic and kinematic hardening models, flow rules (perfect, isokin, superposition, rate-independent wrapper, Kocks-Mecking switches between rules with the same backstresses), damage models, with and without damage; every batch, control, scheme, solver, tolerance, guess type, block size",
  "requires every sign, absolute value and derivative of every law, and every comparison of the iteration, to be symmetric for all states",
  "pyoptmat/models.py:InelasticModel","pyoptmat/models.py:DamagedInelasticModel","pyoptmat/hardening.py","pyoptmat/flowrules.py","pyoptmat/damage.py","pyoptmat/ode.py:odeint")
p("A rate-independent material does not feel the speed of loading",
  "For a material whose flow rule is the rate-independent wrapper with lambda = 1 around rules that do not depend on the strain rate (or a superposition of such), a strain-controlled backward Euler simulation gives exactly the same result, warnings and errors for any other increasing times attached to the same strains and temperatures; forward Euler gives the same result when each test is run uniformly faster or slower.",
  "every wrapped perfect or isokin rule with any of the library's hardening models, every superposition, every strain table, every two increasing time tables (a positive factor and a shift per test for forward Euler), every solver, tolerance, guess type and block size",
  "invariance under all re-timings of all histories; a test compares a couple of rates up to a tolerance and cannot tell exact invariance from a weak rate effect",
  "pyoptmat/flowrules.py:RateIndependentFlowRuleWrapper","pyoptmat/models.py:ModelIntegrator.solve_strain","pyoptmat/ode.py:BackwardEulerODE","pyoptmat/ode.py:ForwardEulerODE")
p("Mixed batches have one history and exact calibration gradients",
"For a Voce/Chaboche material with admissible parameters and increasing time tables, a batch in which every test is either strain or stress controlled has exactly one backward Euler history (stress controlled: the table's stress, with the strain rate that makes the model's stress rate the table's). What solve_both returns at zero tolerance without a convergence warning is that history, provided in every step the strain of some stress-controlled test changes (or no test is stress controlled). If the material parameters depend continuously differentiably on a calibrated vector, the adjoint backward pass run on such a simulation - which re-evaluates the whole model, inner strain-rate solve included, block by block - succeeds and returns the exact derivative of any differentiable loss of the histories with respect to the calibrated vector, for every block size and linear solver, provided in every step some stress-controlled test strains faster than the tolerance of the inner solve.",
"all admissible Voce/Chaboche materials with any number of backstresses, all families of materials, batches, control flags, tables, block sizes, linear solvers, initial guesses, differentiable losses and directions in parameter space",
"the derivative is a limit over infinitely many nearby simulations, for every material, batch, control flag and loss; the inner solve couples all points of a call, so no finite set of batches shows independence of it",
"pyoptmat/models.py: ModelIntegrator.solve_both, BothBasedModel.forward, StressBasedModel.forward","pyoptmat/ode.py: FixedGridBlockSolver.integrate, rewind, update_adjoint, accumulate","pyoptmat/solvers.py: newton_raphson")
p("What the gradient of a batch is made of",
"For an integration whose implicit steps are solvable, the adjoint backward pass is linear in the incoming gradient; its parameter gradient is the sum over the tests of the batch of the gradient each test gives when integrated alone, and the derivative with respect to a test's initial state is that test's own; selecting, reordering or repeating tests selects, reorders or repeats the terms of the sum; a test the loss does not look at contributes nothing; and rows after the last one the loss looks at can be cut off without changing the result. All of this for both schemes, and even when the passes compared use different block sizes and direct solvers.",
"all right-hand sides that act on each test separately, batches, histories, incoming gradients, selections of tests, cut-off rows, block sizes and direct solvers",
"quantifies over all batches, incoming gradients and selections; the batched block-tridiagonal solves mix all tests and rows in one call, so agreement on some batches does not show separation",
"pyoptmat/ode.py: FixedGridBlockSolver.rewind, update_adjoint, accumulate, _get_param_partial","pyoptmat/chunktime.py: BidiagonalForwardOperator.inverse, BidiagonalThomasFactorization, BidiagonalPCRFactorization, BidiagonalHybridFactorization")
p("Gradients of simulations that converged only to the solver's tolerances tend to the exact derivative of the loss",
"The gradient the backward pass returns depends continuously on the parameters, on the history it is run on and on the incoming gradient, near any history at which the implicit steps are solvable. For a hardening material (Chaboche flow rule, Voce and Chaboche hardening) under strain control and a loss of the simulated history with continuous derivatives - such as the squared error - there is, for every accuracy, a tolerance such that the gradient computed from any simulation that converged to that tolerance is within that accuracy of the derivative of the loss of the exact simulations.",
"all parameters, strain and temperature histories, losses with continuous derivatives, accuracies, linear solvers, block sizes, guesses, iteration limits and tolerances below the bound",
"A finite-difference comparison at a few parameter values shows neither that the error of the gradient goes to zero with the tolerances nor that there is no input at which a small residual in the forward run ruins the gradient.",
"pyoptmat/ode.py:IntegrateWithAdjoint.backward","pyoptmat/ode.py:BackwardEulerODE.rewind_adjoint","pyoptmat/models.py:ModelIntegrator.solve_strain")
p("Changing units changes nothing but the numbers","Express a strain-controlled simulation in other units of stress and time by converting the parameters of the material (E, eta, s0, Voce and Chaboche parameters, recovery coefficients, Kocks-Mecking and rate-independent reference rates, Larson-Miller and constant damage rates), the times and the absolute tolerance of the solver: the simulation makes the same decisions (errors, warnings, numbers of iterations) and every result is exactly the converted one, in both schemes, with every linear solver, block size and initial guess. A change of the unit of time alone needs no change of the tolerances and also covers damaged models. The absolute tolerance must be converted with the stresses: left alone, a bar can stay unstressed in one unit and not in the other. Hayhurst-Leckie damage is excluded because the stress derivative it returns does not convert with its rate.","all materials built from the library's classes except Hayhurst-Leckie damage, all positive conversion factors, strain histories, temperatures, tolerances, solvers","needs all materials, histories and conversion factors, and exact equality of whole runs","pyoptmat/ode.py:BlockODEIntegrator","pyoptmat/chunktime.py:newton_raphson_chunk","pyoptmat/models.py:ModelIntegrator","pyoptmat/flowrules.py","pyoptmat/hardening.py","pyoptmat/damage.py")
p("Neural ODEs: one history, exact training gradients",
"A NeuralODE whose network is Lipschitz in the state (a perceptron always is, with a constant computed from its weights) and time steps short compared with that constant: backward Euler has exactly one history; every run that converged without warning to a tolerance is within a stated multiple of the tolerance of it, whatever linear solver, block size and initial guess; and the adjoint pass returns the derivative of the loss sum(og * results) of that history with respect to the network's parameters and the initial states, the gradients of converged runs tending to it as the tolerance is tightened.",
"all Lipschitz networks (all one-hidden-layer perceptrons with a C1 activation of slope at most one such as tanh), forcing functions, batches, time grids with 2 h L <= 1, initial states, losses, linear solvers, block sizes, guesses, tolerances",
"needs existence and uniqueness of solutions and derivatives over all networks and runs",
"pyoptmat/neuralode.py:NeuralODE.forward","pyoptmat/ode.py:BackwardEuler","pyoptmat/ode.py:IntegrateWithAdjoint","pyoptmat/chunktime.py:newton_raphson_chunk")
p("Stopping and resuming",
"An integration stopped at the end of a block and resumed from the last state is the uninterrupted integration: the same rows, the same warnings or the same error, in both schemes, for every rate, linear solver and tolerance, with the default initial guess. At any other row, and with different solvers, block sizes, guesses or tolerances in the two stages, two converged stages together are as close to the exact history of the whole test as a single run (rates that are Lipschitz in the state, short steps). Backpropagating stage by stage, handing the derivative with respect to the second stage's initial state to the first stage as the gradient of its last row, gives the same parameter gradient and initial-state derivative as one backward pass, whatever the row, block sizes and direct solvers. With the guess 'previous' the interrupted and the uninterrupted run can differ.",
"all ODEs, batches, time grids, stopping rows, block sizes, linear solvers, tolerances, losses, both schemes",
"needs all stopping points, all rates and exact equality of whole runs and gradients",
"pyoptmat/ode.py:BlockODEIntegrator.integrate","pyoptmat/ode.py:BlockODEIntegrator._initial_guess","pyoptmat/ode.py:BlockODEIntegrator.rewind")
p("Nested models",
"Backstresses of a Chaboche model with the same recovery rate act together as one backstress with the sum of their moduli, and a backstress with zero modulus is never felt: the exact simulation of the model with more terms has the same stress and isotropic variable as that of the model with fewer, the backstresses of the smaller model being the sums of their parts; simulations converged to tight enough tolerances agree as closely as wanted. So the order of the terms is irrelevant and calibration with more terms can fit no worse: every admissible smaller model is contained in an admissible larger one. Without threshold, isotropic hardening and backstresses the model is perfect viscoplasticity.",
"all Voce/Chaboche materials with admissible temperature-dependent parameters, numbers and groupings of backstresses, strain histories, batches, solvers and tolerances",
"needs all parameters, groupings and strain histories",
"pyoptmat/hardening.py:ChabocheHardeningModel","pyoptmat/hardening.py:VoceIsotropicHardeningModel","pyoptmat/flowrules.py:IsoKinViscoplasticity","pyoptmat/flowrules.py:PerfectViscoplasticity","pyoptmat/models.py:ModelIntegrator.solve_strain")
p("Perfectly viscoplastic tests compare the way a user expects","For InelasticModel with PerfectViscoplasticity: of two strain-driven backward Euler tests of the same material at the same times and temperatures, the one whose strain increments are at least as large at every step never ends a step with less stress, whatever the loading (cycles included). In tension the comparison also holds when the stronger-loaded test is faster and its drag stress eta larger (by parameters or temperature). Of two stress-driven tests starting unloaded, the one with higher stress, longer steps, smaller eta and smaller modulus never has less strain. The comparison holds up to one pair of solver tolerances per step (exactly when the solver is exact), across batches, block sizes, linear solvers and guesses. (A larger modulus is not in the strain-controlled list: it may relax faster.)","all materials with positive parameters, all strain/stress histories ordered as stated, all batches, solvers, block sizes and tolerances of unwarned runs","the ordering ranges over every pair of histories and every number of steps; tests compare a few curves","pyoptmat/models.py:InelasticModel","pyoptmat/models.py:ModelIntegrator.solve_strain","pyoptmat/models.py:ModelIntegrator.solve_stress","pyoptmat/flowrules.py:PerfectViscoplasticity","pyoptmat/ode.py:BackwardEulerODE")
p("Training steps go downhill and stop where they should","For a strain-driven Voce/Chaboche material whose parameters are continuously differentiable functions of a calibrated vector, and any differentiable loss of the simulated history: the vector the adjoint backward pass returns (the same for every linear solver and block size) predicts descent, i.e. stepping along any direction with negative inner product with it - against it in particular, unless it is zero - lowers the loss of the exact simulation for every sufficiently small learning rate. At a local minimum of the loss it is zero; in particular, for data the model itself produced, the (weighted) squared error is zero at the producing parameters, no history has a smaller one, and the gradient is exactly zero. With gradients from simulations converged only to a tolerance: unless the exact gradient is zero, once the tolerance is tight enough every small step against the computed gradient still lowers the exact loss.","all admissible material families, batches, histories, losses, directions and all sufficiently small learning rates; all unwarned runs at tight enough tolerances","a unit test compares gradients with finite differences at a point; descent and stationarity quantify over all losses, parameter points and step sizes","pyoptmat/ode.py:odeint_adjoint","pyoptmat/ode.py:IntegrateWithAdjoint.backward","pyoptmat/optimize.py:DeterministicModel","pyoptmat/models.py:InelasticModel")
p("Relaxation with the explicit scheme","For InelasticModel with PerfectViscoplasticity (n >= 1) integrated with method forward-euler under strain control, once the strain is held at constant material properties: if the steps are at most h long with E h (|s|/eta)^n <= |s| at the start of the hold, the stress keeps its sign and never grows in magnitude; if they are at least h long with E h (|s|/eta)^n >= (1+r)|s|, r >= 1, the stress changes sign in every step and grows by a factor of at least r per step. The instability is silent: explicit runs with one step per block always succeed without a warning, and for every r there are such runs whose stress exceeds every multiple of the held one.","all materials with E, eta > 0 and n >= 1, all runs without warnings at zero tolerance, all loading before the hold, all step lengths and numbers of steps","growth over arbitrarily many steps and the absence of warnings for all step sizes cannot be sampled","pyoptmat/ode.py:ForwardEulerODE","pyoptmat/models.py:InelasticModel","pyoptmat/flowrules.py:PerfectViscoplasticity","pyoptmat/models.py:ModelIntegrator.solve_strain")
p("Training with the explicit scheme","With the forward-Euler scheme and zero tolerances, odeint succeeds for every model, initial state, linear solver, initial guess and block size smaller than the number of Newton iterations, always with the same result; and wherever the supplied Jacobians and parameter derivatives are the derivatives of the rate along that simulation, the adjoint pass succeeds and returns the derivative of every differentiable loss of the simulated results with respect to the parameters and the initial states, so that small training steps against it decrease the loss. No condition on step sizes, Lipschitz constants or stiffness is needed: it holds for every differentiable neural ODE with at least one forcing term, and for the Voce/Chaboche material under strain control as long as its isotropic hardening has not become negative.","every rate, parameter vector, initial state, time grid, loss, solver, block size and number of steps","the exactness is a statement about derivatives along all curves through all parameter vectors, for every model and number of steps; a test can only compare finite differences at a few points.","pyoptmat/ode.py: FixedGridBlockSolver.integrate, rewind, odeint_adjoint, ForwardEuler; pyoptmat/neuralode.py: NeuralODE.forward; pyoptmat/models.py: ModelIntegrator.solve_strain")
p("Internal variables with the explicit scheme","In a strain-controlled simulation of the Voce/Chaboche material with the forward-Euler scheme, each step multiplies the distance of every internal variable to its saturation value (the isotropic hardening to its saturation stress, each backstress to C/g in the direction of flow) by one minus the product of its rate constant and the inelastic strain of the step. So steps for which these products do not exceed one keep the isotropic hardening between zero and its saturation value and every backstress within C/g, exactly as the implicit scheme does for all steps, and the calibration gradients of such runs are exact; a longer step overshoots the saturation value, and it does so if and only if the product exceeds one.","every material, temperature history, batch entry, load history, time grid, number of steps, solver and block size","the bound must hold after every step of every run, and the overshoot criterion is an equivalence over all materials and steps; a test can only sample runs.","pyoptmat/models.py: ModelIntegrator.solve_strain, InelasticModel.forward; pyoptmat/hardening.py: VoceIsotropicHardeningModel.history_rate, ChabocheHardeningModel.history_rate; pyoptmat/ode.py: ForwardEuler")
p("Stress-controlled and mixed simulations with the explicit scheme","When a stress-controlled or mixed batch is integrated with the forward-Euler scheme (zero tolerances, no warnings), each step from time k to time k+1 of a stress-controlled entry uses the time, temperature, applied stress and history at time k, and the strain rate that produces the stress rate of the previous step (zero for the first): the strain of an InelasticModel advances by the step times (previous stress rate over the modulus plus the inelastic rate), up to the inner solver's 1e-10, and the history advances with its rates there; for the damaged model the same holds with the damaged equations. Strain-controlled entries of the batch take the explicit strain-controlled steps whatever the other entries are; other flags stay at zero. Hence on an even time grid the elastic strain lags one step behind stress over modulus (so it does not track the load), and during a hold creep is steady at the perfectly viscoplastic rate from the second step on. Models without history variables always run.","all InelasticModel / DamagedInelasticModel with rate-free flow rules, tables, batch sizes and control flags, block sizes, linear solvers, initial guesses","The statement ranges over all load histories and batch compositions, and the inner stress solve couples all rows and batch entries of a block.","/repo/pyoptmat/models.py: ModelIntegrator.solve_stress, solve_both, StressBasedModel.forward, BothBasedModel.forward","/repo/pyoptmat/ode.py: FixedGridBlockSolver, ForwardEuler")
p("The explicit scheme converges in spite of its lag","A strain-controlled simulation with the forward-Euler scheme differs from the exact solution of the model (driven by the strain and temperature histories interpolated linearly between the given points) by at most exp(L t) times (the initial difference + t M H + P H V + number of steps times the solver tolerance in force), where H is the largest step, L a Lipschitz constant of the state rate, M the speed at which the exact rate changes, P how much the state rate changes per unit of strain rate, and V the total variation of the imposed strain rate, the jump from rest included. So the one-step lag costs a first-order error and the computed stresses converge to the exact ones as the steps are refined; the lag term cannot be improved (an elastic test at constant rate is off by exactly that much). A linearly viscous material pulled at a constant rate converges to eta r (1 - exp(-E t / eta)).","all models (the error bound), tables, batch sizes, block sizes, solvers, tolerances, initial guesses, step sizes","A convergence statement ranges over all step sizes and histories; a test only sees one refinement.","/repo/pyoptmat/models.py: ModelIntegrator.solve_strain","/repo/pyoptmat/ode.py: FixedGridBlockSolver, ForwardEuler")
p("Calibration gradients of perfectly viscoplastic simulations are exact",
"Every strain-controlled simulation of InelasticModel with PerfectViscoplasticity (modulus not negative, rate sensitivity at least one, positive reference stress) has exactly one exact backward Euler history, whatever the strain histories. When modulus, rate sensitivity (above one) and reference stress are continuously differentiable functions of a calibrated parameter vector and arbitrary functions of temperature, then for every loss of the simulated stresses the adjoint backward pass run on the simulation succeeds and its result, contracted with any direction, is the derivative of the loss along that direction, including where the stress is zero, for every direct linear solver and block size, and for what solve_strain returns when it reports no failure at zero tolerance.",
"all parameter families, batches, time grids, strain and temperature histories, losses, directions, linear solvers and block sizes",
"a finite-difference test samples a few parameters, loadings and step sizes, and cannot see the points where the flow rate is only once differentiable",
"pyoptmat/ode.py:BackwardEulerTimeIntegrationScheme, FixedGridBlockSolver.rewind; pyoptmat/flowrules.py:PerfectViscoplasticity; pyoptmat/models.py:InelasticModel, StrainBasedModel")
p("Training steps go downhill: mixed batches, perfectly viscoplastic materials, neural ODEs with backward Euler",
"For mixed strain/stress-controlled batches of Voce/Chaboche materials (as calibration runs them), for strain-controlled perfectly viscoplastic materials, and for neural ODEs with short steps, and any differentiable loss of the simulated history: the adjoint backward pass on the simulation succeeds with one and the same vector for every linear solver and block size; that vector's inner product with a direction is the derivative of the loss of the exact simulations along it; whenever it is negative all sufficiently small steps along the direction lower the loss, so every small enough step against the vector does unless it is zero; and it is zero at local minima. If the data were produced by the model, squared error and gradient vanish at the producing parameters. A one-hidden-layer perceptron with a C1 activation of slope at most one needs only steps short compared with the size of its current weights: then the simulations exist for all weights nearby.",
"all parameter families, batches, control flags, time grids, loads, losses, directions, learning rates below a positive threshold, linear solvers and block sizes",
"needs every direction and all small learning rates, and exact derivatives of whole simulations",
"pyoptmat/ode.py:IntegrateWithAdjoint","pyoptmat/ode.py:BackwardEuler","pyoptmat/models.py:ModelIntegrator.solve_both","pyoptmat/flowrules.py:PerfectViscoplasticity","pyoptmat/neuralode.py:NeuralODE.forward","pyoptmat/optimize.py:DeterministicModel.forward")
p("Perfectly viscoplastic simulations to tolerance and calibration with them",
"A strain-controlled run of InelasticModel with PerfectViscoplasticity that reports no failure is within as many solver tolerances of the exact backward Euler simulation as steps were taken, however stiff the material and long the steps. For every accuracy there is a tolerance for which every such run yields, through the adjoint pass, a gradient of any continuously differentiable loss within that accuracy of the derivative of the exact simulations. Unless that derivative is zero in all directions, there is a threshold such that with relative tolerance zero, any positive absolute tolerance below the threshold and enough Newton iterations the simulation succeeds without a warning, the backward pass succeeds, and every sufficiently small step against the gradient it returns lowers the loss of the exact simulation.",
"all materials with positive modulus and reference stress and rate sensitivity above one, parameter families, batches, strain and temperature histories, losses, linear solvers, guesses, block sizes, tolerances below the threshold",
"needs existence of converged runs for all inputs and limits of gradients as tolerances shrink",
"pyoptmat/flowrules.py:PerfectViscoplasticity","pyoptmat/models.py:ModelIntegrator.solve_strain","pyoptmat/chunktime.py:newton_raphson_chunk","pyoptmat/ode.py:IntegrateWithAdjoint","pyoptmat/optimize.py:DeterministicModel.forward")
p("The gradient of a mixed strain/stress calibration is continuous in the simulation it is computed from",
"The adjoint pass through ModelIntegrator.solve_both, run on any history close enough to the exact simulation of a batch that mixes strain- and stress-controlled tests, and on any loss derivative close enough to the exact one, returns for every block size and linear solver a gradient within any prescribed accuracy of the derivative of the loss of the exact simulations. Hence unless that loss is stationary there is an accuracy such that every sufficiently small step against a gradient computed from histories at least that accurate lowers the loss of the exact simulation.",
"all Voce/Chaboche parameter families, batches mixing strain and stress control, test and temperature histories, losses, linear solvers, block sizes, accuracies",
"a limit statement about gradients under arbitrary small perturbations of the simulated histories",
"pyoptmat/models.py:ModelIntegrator.solve_both","pyoptmat/models.py:StressBasedModel.forward","pyoptmat/ode.py:IntegrateWithAdjoint","pyoptmat/optimize.py:DeterministicModel.forward")
p("Mixed calibrations work at positive tolerances",
"For a batch mixing strain- and stress-controlled tests of a Voce/Chaboche material with positive yield stress and a loading under which every step strains some stress-controlled test, every accuracy has a tolerance such that every run of ModelIntegrator.solve_both at that tolerance that reports no failure is within the accuracy of the exact history in all stresses, strains and internal variables, although the strain rates of the stress-controlled tests come from an inner Newton solve of their own. Hence the gradients of the runs converge to the derivative of the exact loss as the tolerance shrinks, and unless the loss is stationary there is a tolerance for which every sufficiently small step against the gradient of every run lowers the exact loss.",
"all Voce/Chaboche parameters and families, batches, test and temperature histories, losses, linear solvers, guesses, block sizes, iteration limits, tolerances",
"a limit over tolerances; the inner solve stops by its own absolute tolerance, so convergence has to exclude runs in which it never acts",
"pyoptmat/models.py:ModelIntegrator.solve_both","pyoptmat/models.py:StressBasedModel.forward","pyoptmat/chunktime.py:newton_raphson_chunk","pyoptmat/ode.py:IntegrateWithAdjoint","pyoptmat/optimize.py:DeterministicModel.forward")
p("Creep calibration through solve_stress: one history, exact gradients, training at positive tolerances","For a Voce/Chaboche material with admissible parameters and increasing time tables, a batch of stress-controlled tests has exactly one backward Euler history (the model at the table's stress, with the strain rate that makes the model's stress rate the table's). ModelIntegrator.solve_stress at zero tolerance returns that history when it reports no failure and in every step some strain moves; with positive yield stress and strains moving faster than the inner tolerance, for every accuracy there is a tolerance at which every run without failure is within that accuracy in strains and internal variables. The adjoint backward pass through solve_stress, inner strain-rate solve included, returns the exact derivative of any differentiable loss of the exact histories with respect to the calibrated vector; gradients of runs to tolerance converge to it; and unless the loss is stationary there is a tolerance for which every sufficiently small step against the gradient of any such run lowers the exact loss.","all Voce/Chaboche parameter families, stress and temperature histories, time tables, batch sizes, losses, linear solvers, guesses, block sizes, accuracies","a derivative and a limit over all tolerances; unit tests compare a few gradients with finite differences","pyoptmat/models.py:ModelIntegrator.solve_stress","pyoptmat/models.py:StressBasedModel.forward","pyoptmat/ode.py:IntegrateWithAdjoint.backward")
p("Perfectly viscoplastic calibration in mixed and creep batches","For the perfectly viscoplastic material with positive modulus and reference stress and rate sensitivity at least one, a batch mixing strain- and stress-controlled tests has exactly one backward Euler history. ModelIntegrator.solve_both at zero tolerance returns that history when it reports no failure and in each step some stress-controlled test strains faster than the tolerance of the inner strain-rate solve (or no test is stress-controlled). In creep batches solve_stress always succeeds and returns it, for every linear solver, block size and initial iterate. For modulus, sensitivity (above one) and reference stress that are continuously differentiable functions of a calibrated vector, the adjoint backward pass, inner solve included, returns the exact derivative of any differentiable loss of the histories along any line of vectors; in creep batches this holds for the losses of what the simulations return.","all perfectly viscoplastic parameter families, data, control and temperature tables, time tables, batch sizes, losses, linear solvers, guesses, block sizes","uniqueness and a derivative over all parameter vectors and histories; unit tests compare a few gradients with finite differences","pyoptmat/models.py:ModelIntegrator.solve_both","pyoptmat/models.py:ModelIntegrator.solve_stress","pyoptmat/flowrules.py:PerfectViscoplasticity","pyoptmat/ode.py:IntegrateWithAdjoint.backward")
p("Perfectly viscoplastic mixed and creep batches at positive tolerances","For the perfectly viscoplastic material, a run of ModelIntegrator.solve_both that reports no failure at tolerances of at most tol is, at time step k, within k tol of the batch's exact history in every stress of a strain-controlled and every strain of a stress-controlled test - however stiff the material and however long the steps - if the history strains some stress-controlled test faster than the inner tolerance in every step (or there is none). The gradient the adjoint pass returns on such runs converges to the derivative of the loss of the exact histories as tol goes to zero; steps against the gradient of exact histories lower the loss; and unless the loss is stationary there is a tolerance such that every sufficiently small step against the gradient of any run to that tolerance lowers the exact loss. In creep batches nothing need be assumed of the runs: below that threshold every absolute tolerance, linear solver, block size and initial iterate gives a simulation that succeeds and a gradient that improves.","all perfectly viscoplastic parameter families, data, control and temperature tables, time tables, batch sizes, losses, linear solvers, guesses, block sizes, tolerances","a bound and a limit over all tolerances and materials; unit tests run at one tolerance","pyoptmat/models.py:ModelIntegrator.solve_both","pyoptmat/models.py:ModelIntegrator.solve_stress","pyoptmat/flowrules.py:PerfectViscoplasticity","pyoptmat/ode.py:IntegrateWithAdjoint.backward")
p("A creep test's strain depends on its own test only",
  "Simulated under stress control, a perfectly viscoplastic creep test returns Norton's law, whatever the other tests of the batch and the block size. (Refuted: the strain rates of a call are solved together to 1e-10. If in no test of the batch E times the creep rate exceeds 1e-10, solve_stress succeeds and returns zero strain at every time, however long the hold; beside one faster test every test returns Norton's law exactly. So the same test alone and in company, or with block sizes 1 and 3, gives strains further apart than any given bound. What remains true: per unit of time two exact simulations of one test differ by at most 2e-10 over the modulus.)",
  "all moduli, exponents, drag stresses, batches, held stresses and temperatures, times, linear solvers, block sizes, iteration limits and initial iterates",
  "Tests use stresses whose creep is fast; the loss shows only where creep is slow in all rows of a call, and its size grows with the hold time.",
  "pyoptmat/models.py: StressBasedModel.forward (521-562, the inner newton_raphson), ModelIntegrator.solve_stress (370-412)","pyoptmat/solvers.py: newton_raphson","pyoptmat/flowrules.py: PerfectViscoplasticity")

with open('/verif/properties.jsonl','w') as f:
    for x in P: f.write(json.dumps(x)+"\n")
print(len(P))
