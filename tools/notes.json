{
 "C06": {
  "note": "Thomas proved for every sequence of right-hand sides; PCR and hybrid refuted: matvec leaves self.B overwritten (chunktime.py 223-242, 352-388), so a second application of the same object is wrong."
 },
 "C09": {
  "note": "Proved when the main diagonal is present; refuted in general: to_unrolled_csr gives no size, torch infers it from the largest index."
 },
 "C100": {
  "note": "Refuted: r / norm(r) is 0/0 for an entry with zero initial residual; it comes back NaN and, since NaN < tol is False, the whole batch runs all maxiter iterations (C100_solved_entry_refuted, for every batch). Entries with nonzero initial residual stay finite: C97_residual_bound."
 },
 "C101": {
  "note": "Up to tolerance for both schemes; exactly with zero tolerances. With a non-zero absolute tolerance exact independence fails and C101_tolerance_is_needed shows it; the English claim is 'up to the tolerances', so it is proved."
 },
 "C102": {
  "note": "Scalar parameters. Densities are torch.distributions' formulas over the reals; sampling is not modelled."
 },
 "C103": {
  "note": "Tensor parameters; loc and scale of one shape. The guide's Delta sites contribute log density 0. Weights scale the per-test parameter prior as well as the measurements: this is what the code does and what the theorem says."
 },
 "C104": {
  "note": "Exact real arithmetic; the exact solution and its smoothness are hypotheses (existence of solutions is not proved). Error bounds for any unwarned run, an epsilon-delta convergence theorem, and the strain-controlled pipeline."
 },
 "C105": {
  "note": "Exact real arithmetic; hypotheses are Newton-Kantorovich type. newton_raphson with linsolver 'lu' and the n = 1 diagonal shortcut. C105_ex: sqrt 2 from 1.5 with the default tolerances, at most four iterations."
 },
 "C106": {
  "note": "Backward Euler with the zero guess. C106_small_steps_never_fail gives explicit bounds on the steps, C106_converges the rate C (1/N + N atol). The N atol term cannot be removed: see C107."
 },
 "C107": {
  "note": "Refuted: C107_stagnation: when h |f(y0)| is at most atol / block size the zero guess is accepted in every block and the initial state is returned at every time, without a warning. For y' = 1 with any positive absolute tolerance the result at time 1 is 0 on every sufficiently fine grid (default 1e-8: from 10^8 steps on), while ten steps are accurate to 1e-6. The true statement is C106_converges with its N atol term."
 },
 "C108": {
  "note": "C108_random_tension, C108_random_cycle: every draw, ranges given in either order. C108_R_is_max_over_min_refuted: the docstring of random_cycle calls R the ratio max over min, the generated history has min over max = R."
 },
 "C109": {
  "note": "C109_band_covers holds when n alpha >= 1 and alpha <= 1/2. C109_small_batches_refuted: for n alpha < 1 (fewer than 20 curves with the default alpha) int(n alpha) = 0 and kthvalue raises for every batch."
 },
 "C11": {
  "note": "Refuted: comparisons with NaN are False, so the while loop ends with i < miter and the solve is reported as a success."
 },
 "C110": {
  "note": "C110_zero_hold_refuted: with a zero tension hold (the usual fatigue test) and any samples in it (nhold defaults to 10) the generated times repeat, for every such cycle, so the history has steps of length zero (strain rate 0/0 in the code). C110_times_increase gives the condition under which times increase; C110_peak_of_own_cycle, C110_elastic_generated, C110_viscoplastic_generated are the end-to-end statements (exact solves); C110_elastic_generated_to_tolerance and C110_viscoplastic_generated_to_tolerance are the same for a maker with an absolute tolerance and rtol 0, within one tolerance per time step; all of them for tests of the same type sharing their cycle column (without it: C63_columnwise_refuted, C64_own_cycle_refuted)."
 },
 "C12": {
  "note": "Exact rule proved (raises iff none of the first miter iterates meets the tolerances); the stated rule is refuted: an iterate that meets them after exactly miter updates still raises."
 },
 "C15": {
  "note": "Proved for newton_raphson_bt (res_caller r = x0 in C14_backtracking); refuted for newton_raphson and newton_raphson_chunk, which run x -= dx on the caller's tensor."
 },
 "C24": {
  "note": "Size and content proved for 'zero' always and for 'previous' whenever block_size < number of times; refuted for 'previous' with block_size >= number of times: the guess is too short and the solve raises (ode.py 395-418)."
 },
 "C25": {
  "note": "C25_adjoint_backward_euler: for any differentiable family of exact histories. C25_gradient_of_solution_map: the family need not be given: with a continuously differentiable rate and invertible step matrices the exact histories near the given one form a unique differentiable family, and the adjoint pass returns the derivative of its loss. C25_gradient_of_inexact_run: for a history that is not an exact solution (a run stopped at the solver tolerances), the adjoint pass returns the exact gradient of the loss over the unique nearby family of histories that leave the same residuals in the update equations; C25_residuals_of_a_run: those residuals are within the tolerance."
 },
 "C26": {
  "note": "C26_gradient_of_inexact_run: also for a history that is not an exact solution: the gradient over the unique family of histories leaving the same residuals."
 },
 "C30": {
  "note": "Proved for one- and two-dimensional queries (torch.Tensor.t() rejects more); for a batch of one a one-dimensional query returns a 0-d tensor."
 },
 "C31": {
  "note": "Proved for two-dimensional queries; refuted for one-dimensional ones, where a tensor shorter than the batch is returned (utility.py 342-343)."
 },
 "C35": {
  "note": "Rates and all Jacobian rows except the damage row are exact for every exact flow rule. The (damage, damage) entry lacks d_s*s/(1-d)^2 (models.py 265): C35_damage_row_error gives the exact discrepancy, C35_damage_row_refuted a witness, _partial the case where it is exact."
 },
 "C36": {
  "note": "Values, inner solve and first row proved in general; the full Jacobian is exact for every base model whose flow does not depend on the strain rate. For rate-dependent histories each history row lacks (d hrate/d erate)*(d erate/dy) (C36_history_row_error, refuted by the rate-independent wrapper). C36_strain_rate_row takes the differentiability of the implicit strain rate as a hypothesis."
 },
 "C38": {
  "note": "solve_strain put together from rate table, interpolation, constitutive model and block integrator over the reals. The general theorem is for runs that end with no Newton warning at zero tolerance (exact solves); the elastic case is shown to always reach such a run. Floats and autograd not modelled. With the tolerances in force: C38_increment_to_tolerance, C38_elastic_to_tolerance (at most one tolerance lost per step)."
 },
 "C41": {
  "note": "Exact for n > 1, eta > 0, everywhere except s = x with a negative yield stress s0 + k < 0, where the flow itself jumps."
 },
 "C46": {
  "note": "The docstring's formula f M1 + (1-f) M2 has the weights exchanged; the code (and the theorem) use (1-f) M1 + f M2, consistent with the docstring's text."
 },
 "C51": {
  "note": "NoDamage/ConstantDamage exact. Hayhurst-Leckie's derivatives miss the factors xi/A and (xi-phi): exact iff xi=A and xi-phi=1 (C51_hayhurst_exact_iff). Larson-Miller's stress derivative is off by |s|/(|s|+eps) with eps=1e-10, exact for eps=0."
 },
 "C56": {
  "note": "Proved for simple and bounded scaling; refuted for log-bounded: scale_mean returns log(scale(loc)), always below scale(loc)."
 },
 "C60": {
  "note": "Clipping proved; viscosity consistent with the default rate sensitivity exactly when -mu b^3/(kTA) <= 20; refuted beyond, where KMViscosityScaling uses cutoff 1000 and the reported n uses 20."
 },
 "C63": {
  "note": "Exact column-wise behaviour iff experiments of one relaxation/creep/cyclic type share their cycle column (the code reads column 0 of the group, experiments.py 267, 297); refuted otherwise. Unknown type codes return uninitialised memory (C63_dispatch, last case)."
 },
 "C64": {
  "note": "Proved for groups sharing the cycle column, numbered without gaps; gaps raise; refuted for groups with different cycle columns."
 },
 "C65": {
  "note": "Proved for groups sharing the cycle column with at least one flagged time; no flag raises; refuted for groups with different cycle columns."
 },
 "C68": {
  "note": "Increasing times need load time < hold_time because hold_times is used as the absolute end time; refuted otherwise."
 },
 "C71": {
  "note": "Both directions: default and custom dictionaries, unknown names are KeyErrors; type noise needs at least seven entries, unknown codes keep uninitialised memory."
 },
 "C72": {
  "note": "Proved (sites, plates, event dimensions and order) whenever all derived site names are distinct, which default suffixes guarantee when no name ends in _loc or _scale; refuted for merely distinct names (x, x_loc) and for a parameter named like a method (C72_method_name_refuted: the guide fits it, the model never samples it; C72_class_attributes_not_sampled in general). Pyro's own handlers are modelled: samples cached per call, duplicate sites refused, param store."
 },
 "C74": {
  "note": "new_differentiate and batch_differentiate exact on every affine function and mean-value bounded for differentiable ones; the old differentiate is refuted at x = 0 and for vector inputs (division by the zero entries of dx). Inputs/outputs of rank at most one past the batch."
 },
 "C75": {
  "note": "Holds for forcing size s >= 1; refuted for s = 0 (the slice [:-0] is empty). functorch.jacrev is a parameter assumed to return the exact Jacobian of the network."
 },
 "C76": {
  "note": "Proved for batch and block counts above one; refuted for batch size one, where .contiguous() does not copy and the solve overwrites the caller's tensor."
 },
 "C80": {
  "note": "Refuted: the index wraps to -1, so the last segment (precached) or the chord between last and first point (one-shot) is continued to the left."
 },
 "C81": {
  "note": "Refuted: the code uses C, not 2/3 C; the actual law is proved."
 },
 "C82": {
  "note": "Refuted: mu.value(T) bypasses the scaling (flowrules.py 207, 472); proved for the identity scaling."
 },
 "C83": {
  "note": "Refuted: the code computes (1-d) E (de/dt - de_in/dt); C35_rate_form states what it does compute."
 },
 "C84": {
  "note": "Refuted: hold_times is the end time of the test, so the hold lasts hold_time - stress/rate."
 },
 "C86": {
  "note": "Exact (zero tolerance, no warning) runs; the n=1 case is shown to always produce such a run. With the tolerances in force: C86_saturates_to_tolerance, C86_runs_agree_to_tolerance."
 },
 "C87": {
  "note": "Each law written out in the theorem; powers are specified by power_of, which leaves 0^negative (inf in torch) unspecified."
 },
 "C88": {
  "note": "voce_chaboche_law is the written-out system; C88_law_determines_rates shows it pins the rates."
 },
 "C89": {
  "note": "Powers specified by power_of as in C87; derivative claims are in C51."
 },
 "C90": {
  "note": "Equality of the whole outcome of the modelled pipeline, for both schemes."
 },
 "C91": {
  "note": "Backward Euler, exact outer runs (zero tolerance, no warning); the inner strain-rate solve keeps its 1e-6/1e-10 tolerances. DamagedInelasticModel covered while damage is not exactly 1. With the tolerances in force: C91_*_to_tolerance."
 },
 "C92": {
  "note": "Backward Euler, exact outer runs. With the tolerances in force: C92_*_to_tolerance."
 },
 "C93": {
  "note": "Refuted for the code as it stands: forward Euler evaluates the strain rate at the start of the step, where the interpolator returns the rate of the previous interval (zero for the first). C93_actual_increment states what the code does for every model; C93_elastic_lag that an elastic stress lags one step; C93_elastic_tracks_refuted refutes the claim."
 },
 "C94": {
  "note": "Parameter store modelled as the attribute map of the module; values are opaque."
 },
 "C95": {
  "note": "Partial scope: tests whose result is returned as simulated (tensile, direct_data) and integration without warnings, exact (zero tolerances) or to an absolute tolerance (C95_*_to_tolerance, rtol 0); the synthetic-data theorems are for PerfectViscoplasticity. Format functions for the other test types are C70-C74."
 },
 "C96": {
  "note": "Exact outer integration (zero tolerances, no warnings), for creep also to an absolute tolerance (C96_creep_tests_to_tolerance); the inner stress solve has its own tolerance, hence the error bound 1e-10/E per unit time. Requires tests of the same held type to share their cycle counts (without it the code uses the first test's: C65_own_hold_refuted). C96_relaxation_tests_to_tolerance: with an absolute tolerance the relaxation of a hold may move back, but by at most one tolerance per step of the hold."
 },
 "C97": {
  "note": "Props_Gmres.v; model Gmres.v of the Arnoldi process with the eps-shifted subdiagonal, preconditioned basis, projected least-squares problem and candidate. torch.linalg.lstsq is any function returning a minimiser (existence: best_ok). The optimality hypotheses (linear independence) are stated on the Krylov vectors, not on the computed basis."
 },
 "C98": {
  "note": "Props_Gmres.v. Exact residual factor eps^2/(1+eps^2), caused by the eps added to the Arnoldi subdiagonal."
 },
 "C99": {
  "note": "Refuted as stated: the check of iteration k uses only the first k columns (lines 362-367), so maxiter = 1 returns x0 (C99_one_iteration) and maxiter = n can leave the residual unreduced (C99_n_iterations_refuted: exchange matrix, any eps/lstsq/check). What holds: maxiter >= n+1 suffices for all small enough eps > 0, any check, any batch with nonzero initial residuals and nonsingular matrix preconditioner (C99_enough_iterations); with eps = 0, check = 1, one system, at most n+1 iterations (C99_exact_arithmetic)."
 },
 "C115": {
  "note": "Exact (zero-tolerance, warning-free) runs; parameters E > 0, n > 0, eta > 0, s0, Rs, d, C >= 0, g > 0 along the test and saturation values Rs and C/g non-decreasing from time to time (isothermal tests always qualify). Strains of stress-controlled entries agree up to the hard-coded tolerance of the inner strain-rate solve."
 },
 "C116": {
  "note": "The model's rates are shown continuously differentiable in state and parameters, also where the flow switches on (exponent above one); the step matrices are shown invertible on the reachable states; exact histories are unique (C115). With C25's implicit function argument the adjoint gradient is the derivative of the loss. The parameter derivatives of the rates are an argument specified to be the derivative wherever it exists (autograd)."
 },
 "C117": {
  "note": "VCShape (order arguments on one step and along the history), Props_Shape. Tension and relaxation: for the exact history and, through C118, for every converged run up to the distance C118 allows; examples far beyond the elastic range. Creep: runs converged exactly."
 },
 "C118": {
  "note": "VCClose: a larger flow needs a larger driving stress, so plastic increments of two steps differ by at most distance/E; updates do not expand start values and are Lipschitz in the increment. Props_Close: the bound, agreement of two runs, convergence as the tolerance is tightened. Strain controlled entries of solve_both batches (solve_strain is the all-strain case, C90)."
 },
 "C119": {
  "note": "VCSym: the image of a step under reversal and change of units is a step of the rescaled material; uniqueness (C115) identifies the exact histories, C118 carries it to simulations to tolerance."
 },
 "C120": {
  "note": "Global convergence of the blocked Newton iteration for power-law viscosity (n >= 1), real arithmetic; C120_no_fixed_limit shows the iteration limit cannot be chosen once for all tests."
 },
 "C121": {
  "note": "Refuted: torch evaluates 0**0 as 1, so inside the yield surface the returned derivative is 1/eta instead of 0 (C121_derivative_refuted, every state strictly inside the surface); the Newton error of an elastic step then shrinks only by K/(1+K), K = E dt/eta, per iteration and with everyday numbers and the default settings the run raises (C121_elastic_step_refuted, C121_ex). Proved: strictly outside the yield surface the derivatives are exact for n = 1 (C121_outside_partial; C41 covers every exponent there)."
 },
 "C122": {
  "note": "C122_strain/both/stress: agreement up to the end of any block for any two continuations; C122_truncated: errors of the cut-off test are errors of the whole test and rows agree; C122_blocks_needed: for every absolute tolerance a linear elastic test whose second row is 0 when cut off inside a block and a otherwise, so the restriction to whole blocks cannot be dropped. Strictly increasing times are assumed (the interpolation and the rate table need them)."
 },
 "C123": {
  "note": "C123_strain, C123_both, C123_stress. That the map must reach every test of the old batch cannot be dropped: C101_tolerance_is_needed shows that leaving a companion out can change an entry (within the tolerance)."
 },
 "C124": {
  "note": "C124_strain/both/stress for every autonomous material; C124_library: every material of the inductive family Symmetry.any_model (all classes of hardening.py, flowrules.py, damage.py, models.py) is autonomous."
 },
 "C125": {
  "note": "C125_strain/both/stress for the inductive family Symmetry.library_model, which records which components change sign. C119 proves the corresponding statement for converged runs up to the tolerance and with other symmetric data; here it is exact because the two runs take the same decisions."
 },
 "C126": {
  "note": "C126_backward (any re-timing), C126_uniform (either scheme, uniform factor), C126_library (the materials). C126_uniform_needed: with forward Euler, which uses the previous step's strain rate (C93), an elastic bar strained 0, 1, 2 at the times 0, 1, 1 + r ends at stress r, so the uniformity cannot be dropped. Stress control is not covered: the inner Newton solve stops at an absolute tolerance on the stress rate, which is not invariant."
 },
 "C127": {
  "note": "autograd is modelled by its contract: the derivative of a call with respect to the parameters wherever that derivative exists. The two provisos (strain moves / moves faster than the inner tolerance in each step) are needed because the inner solve accepts its zero guess when every residual is below its tolerance."
 },
 "C128": {
  "note": "Right-hand sides evaluated pointwise (all but the stress-controlled model, whose inner solve couples the points of a call; see C127). Solvable: the matrices 1 - dt J of the backward Euler steps are invertible."
 },
 "C129": {
  "note": "Continuity of the adjoint pass for both schemes and any continuously differentiable rate; combined with C116 and C118 for strain-controlled hardening materials. Squared-error losses are shown to satisfy the hypotheses, and an example run with a positive tolerance exists. Stress control is not covered."
 },
 "C130": {
  "note": "Proved in exact arithmetic for strain control. model_units lists the conversion of every class; runs are proportional entry by entry with equal warnings/errors. C130_tolerance_conversion_needed shows atol must be converted; C130_hayhurst_does_not_convert explains the one exclusion (its stress derivative is not that of its rate, see C51). Stress control is not covered: the inner strain-rate solver has hard-coded absolute tolerances."
 },
 "C131": {
  "note": "C131_exactly_one_history and C131_runs_near_the_history for any rate that is Lipschitz in the state; C131_training_gradient for the code's NeuralODE (network and its autograd Jacobian are parameters: continuously differentiable network, derivative as autograd returns it); C131_perceptron discharges every hypothesis for a one-hidden-layer perceptron, C131_every_perceptron shows that every such perceptron is one of the family's vectors, and C131_ex is a concrete one."
 },
 "C132": {
  "note": "C132_at_a_block_end and C132_backward over an arbitrary field; C132_anywhere over the reals for backward Euler with a Lipschitz rate and 2 h L <= 1; C132_previous_guess shows the restriction to the default guess is needed; C132_ex meets the hypotheses."
 },
 "C133": {
  "note": "Exact histories (C115) of the two models are compared; C133_simulations_agree carries the statement over to converged runs through C118. C133_ex: moduli 60, 40, 0 against 100."
 },
 "C134": {
  "note": "More strain (any loading), tension with rate/strength/temperature, and creep; each up to (number of steps) x (sum of the two runs' tolerances), plus the 1e-10 rate tolerance of the stress-control scalar solve for creep. Runs are the model's solve_strain/solve_stress, any batch/solver/block size."
 },
 "C135": {
  "note": "Descent directions, zero gradient at local minima and at the parameters that generated the data, and descent with gradients of runs converged to tolerance; built on C116/C129. The optimizer itself (torch.optim) is outside the repository; a step is p + lr q."
 },
 "C136": {
  "note": "Runs of the model's solve_strain with ForwardEuler at zero tolerance (any block size and solver); C136_silent exhibits always-successful runs with unbounded stress (block size 1)."
 },
 "C137": {
  "note": "explicit_result, gradients_exact and explicit_simulation are stated in terms of odeint's model (integrate, rewind, solve_strain). C137_neural and C137_kinematic discharge the differentiability hypothesis of C137_training_gradient; C137_hardening leaves only that the simulated isotropic hardening is non-negative."
 },
 "C138": {
  "note": "plastic_step and flow_at are written with the flow rule's own rate. C138_ex runs a concrete test whose hardening ends at dd: within bounds for dd <= 1, beyond saturation for dd > 1."
 },
 "C139": {
  "note": "Forward-Euler counterpart of C91/C92; the lag is the explicit counterpart of C93. C139_does_not_track shows that the implicit law of C91 (elastic strain = stress change over E) fails for this scheme. C139_ex: a perfectly viscoplastic bar under a dead load runs and creeps at (1/2)^5 per unit time."
 },
 "C140": {
  "note": "Complements C93 (the lag itself) and C104 (convergence of forward Euler on ordinary differential equations and of backward Euler under strain control). strain_rate and rate_variation are the separate specification of V. C140_lag_is_sharp: the elastic test attains the lag term. C140_ex: runs exist for every step and block size below the iteration limit."
 },
 "C141": {
  "note": "pv_rate/pv_jac are the strain-controlled rate and Jacobian the solver uses, with the parameters made explicit; dp stands for what autograd computes (the derivative of the rate with respect to the parameters wherever it exists, which it does here). rate sensitivity exactly 1 is covered by the uniqueness and existence statement but not by the gradient statement (the one-sided powers need an exponent above one)."
 },
 "C142": {
  "note": "Real arithmetic. Mixed batches: the stress-controlled entries are given by the exact inner solution, every converged step active (the condition of C127). Perfectly viscoplastic materials: rate sensitivity above one near the parameters. Neural ODEs: 2 h L <= 1. The histories are exact (zero tolerance) ones; C129 and C131 bound the effect of a tolerance on the gradients."
 },
 "C143": {
  "note": "Real arithmetic. The tolerance in force is the larger of atol and rtol times the block's initial residual norm; the last theorem takes rtol = 0. The first bound also covers rate sensitivities between zero and one and zero modulus."
 },
 "C144": {
  "note": "Near the exact history the derivative of every call's rates is that of the continuous problem (mixed_rewind), so the generic continuity lemma near_core of C143 applies. That solve_both's runs to tolerance fall within the required accuracy is C145."
 },
 "C145": {
  "note": "run_to collects what a successful run to tolerance is (no warning, tol_boundG as in C92/C118). Stress-controlled tests: the flow rule is continuous but not Lipschitz, so the closeness of a step is a statement about each exact step (StressClose.creep_close) and the threshold comes from induction over the steps; a run whose inner solve never acts is excluded because the exact history strains (arith_gap)."
 },
 "C146": {
  "note": "Stated for solve_stress and its own block function (StressBasedModel.forward), with a separate specification of the history; obtained from the mixed-batch theorems C127/C144/C145 through the proved identity of solve_both with all flags 1 and solve_stress. Runs at positive tolerance and gradients need every step to strain some test faster than the inner tolerance 1e-10, as for mixed batches. C146_ex gives two slow creep specimens with runs at every positive tolerance."
 },
 "C147": {
  "note": "Zero-tolerance runs. The activity hypothesis is needed because a strain-rate solve whose iterates all start converged is returned after its first check; C147_creep_runs derives success from C91. C147_ex: two creep specimens under a stress ramp, all three constants calibrated together, every hypothesis discharged."
 },
 "C148": {
  "note": "C148_runs_near_the_exact_history gives the explicit error bound; C148_gradient_of_runs_to_tolerance, C148_training_goes_downhill and C148_steps_from_converged_runs follow; C148_creep_training_always_works derives success from C91. C148_ex: one creep specimen, the loss shown not stationary, every hypothesis discharged."
 },
 "C149": {
  "note": "The full statement is refuted (C149_own_result_refuted, C149_block_size_refuted). Proved instead: slow creep is lost (C149_slow_creep_is_lost), exact in company of a faster test (C149_exact_in_company), and the bound on what company changes (C149_company_changes_little). Backward Euler, zero outer tolerances, guess \"zero\"; the inner solve with its own 1e-6/1e-10."
 }
}