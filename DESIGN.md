# Formal model of pyoptmat in Rocq (Coq 8.16.1)

## Layout

`rocq/theories/*.v`.  Model files hold Gallina definitions, each with a comment
citing the file and lines of `/repo` it models and what was simplified.
`Props_X.v` files hold the property theorems (`Theorem Cnn_...`), the small
specification they use, `Print Assumptions` after each theorem and `Example`s
showing that the hypotheses can be met by concrete, non-trivial data.
`properties.jsonl` lists the properties, `MANIFEST.json` maps each to its
theorems, `ASSUMPTIONS.md` lists the axioms of every theorem, `seeded/LOG.jsonl`
records the wrong programs the theorems were tested against.

Names ending in `_refuted` prove that the unchanged code violates the English
statement (with a witness, or for every input of a described class).  Names
ending in `_partial` prove part of a property; what is missing is stated in a
comment and in MANIFEST.json.  Every property with a `_refuted` theorem also
states, where there is something to say, what the code does instead.

| area | model | proofs | theorems |
|---|---|---|---|
| chunktime.py, direct solvers | ChunkModel, BlockDiag | ChunkSpec, ChunkPow2, ChunkSolve, ChunkInst, BlockDiagProofs | Props_Sched, Props_Chunk |
| solvers.py, chunktime.newton_raphson_chunk | NewtonModel, Gmres | NewtonProofs, NewtonConv, GmresProofs, GmresLimit | Props_NewtonConv, Props_Newton, Props_NewtonAffine, Props_Gmres |
| ode.py | Ode, OdeApi, OdeBlock | OdeForward, OdeAdjoint, OdeReal, OdeDiff, OdeAffine, Implicit, Tolerance, Converge, SmallSteps, TolR, AdjLimit (RField, ZmodTac) | Props_Ode, Props_Implicit, Props_Tolerance, Props_Converge, Props_Inexact, Props_SmallSteps, Props_Stagnate, Props_Decompose, Props_GradTol |
| utility.py | Interp, Utility, RandomTests (variance bands) | | Props_Interp, Props_Utility, Props_Random |
| scaling.py, temperature.py, optimize.py 48-112 | Torch, Scaling, Temperature | | Props_Scaling, Props_Stat |
| hardening.py, flowrules.py, damage.py, models.py | Hardening, Flow, Damage, Models, Slices | Deriv, StressR | Props_Hardening, Props_Flow, Props_Models, Props_Laws |
| models.py ModelIntegrator, end to end | Pipeline, PipelineBoth | PipelineR, FullModel, FullTol, FlatRun, NewtonLocal, ChunkRel, OdeLocal, StressLocal, OdeSym, StressSym, Symmetry, RateIndep, PipelineSym, ElasticRange, VCStep, VCHistory, VCExact, SmoothR, SmoothMx, VCSmooth, VCRegular, VCGrad, VCStress, MixedVC, MixedGrad, AdjointBlock, VCShape, VCClose, VCSym | Props_Pipeline, Props_Stress, Props_Explicit, Props_FullModel, Props_FullTol, Props_Unique, Props_Close, Props_Shape, Props_Symmetry, NewtonScalar, NewtonGlobal, PowerTangent, Props_Global, Props_Linear, Props_Causal, Props_Batch, Props_Clock, Props_RateIndep, Props_Gradient, Props_Mixed |
| experiments.py | Experiments, Cycle, RandomTests | HoldR, CycleStrict | Props_Exp, Props_Cycle, Props_Random |
| optimize.py | Inference, Det, Bayes | DetR, BayesFacts | Props_Inference, Props_Det, Props_Hold, Props_CyclicTests, Props_Bayes |
| neuralode.py | Utility | | Props_Utility |

## Each property: what is modelled, how it is proved

| id | modelled | proof |
|---|---|---|
| C01 | `_pow2`, `_pcr_blocks`: lists of ranges, while loops as recursion on fuel with an error value | strong induction on the size; powers of two through Nat.log2 |
| C02 | Thomas factorisation and solve over an abstract block algebra, instantiated with 'M[F]_m over any field | loop invariant on the solved prefix |
| C03 | PCR as in-place updates of storage functions through strided views | invariant: row j holds an equation linking x_j and x_(j-2^i) equivalent to the system, per stride |
| C04 | hybrid = PCR until a stride, then Thomas on each strided subsystem | C01's schedule, C02 and C03's invariants |
| C05 | the three strategies and the dense solve | uniqueness for non-singular blocks |
| C06 | state passing of self.B between applications | Thomas: state unchanged; PCR/hybrid: computed witness |
| C07 | BidiagonalForwardOperator, to_diag, dense form | index arithmetic |
| C08, C09 | SquareBatchedBlockDiagonalMatrix: dense, COO, CSR as entry lists | list permutations; C09 by witness |
| C10-C15 | Newton loops over oracles (residual, Jacobian, solver); norms are numbers, inf or NaN; x0 as a heap cell | induction on the remaining iterations |
| C16 | Newton with a linear residual over any field | one-update computation |
| C17 | GMRES control flow, candidates as an oracle | induction on the loop |
| C18 | FixedGridBlockSolver.integrate: blocks, guess, storage, warnings | induction over blocks |
| C19, C20 | BackwardEuler, ForwardEuler residuals | Newton exit condition of C10 transported through integrate |
| C21 | block-size independence | uniqueness of the explicit recursion; contraction/monotone hypotheses for the implicit one |
| C22 | assembled blocks | derivative of the residual in every direction (derivable_pt_lim) |
| C23 | Newton on a unit lower-triangular block system | induction on the row that is already exact |
| C24 | initial guesses | case analysis, witness |
| C25-C27 | rewind over flipped times; tangent recursions as specification | discrete adjoint identity (summation by parts); C02-C05 for the direct solver; C25_gradient_of_solution_map: implicit function theorem for the backward Euler steps (contraction mapping, Implicit.v), so no differentiable family is assumed; C25/C26_gradient_of_inexact_run (Props_Inexact): a run stopped at tolerance is an exact solution of a rate shifted by its residuals |
| C28, C78 | gradient plumbing of odeint_adjoint | list reasoning |
| C29 | option checks | case analysis |
| C30-C33, C80 | the interpolators, boolean masks, reshape failure as an error | sorted lists, uniqueness of the bracket |
| C34, C35, C83 | InelasticModel, DamagedInelasticModel | chain rule along differentiable curves (Deriv.v) |
| C36, C91 | StressBasedModel with its inner Newton solve | affine inner problem solved in one update; implicit derivative |
| C37, C90, C92 | BothBasedModel, solve_both | row selection, batches |
| C38, C86, C93 | solve_strain end to end | telescoping of increments; monotone implicit step; explicit increments |
| C39 | NoDamage in the damaged model | computation |
| C40-C46, C81, C82 | flowrules.py | derivatives along curves, algebra, regime case analysis |
| C47-C50 | hardening.py | derivatives, monotone bounds on implicit Euler steps |
| C51, C52 | damage.py | derivatives, signs, witnesses |
| C53-C57 | scaling.py and the helpers in optimize.py | clamps, exp/ln; C56 log-normal mean by the Gaussian integral (Coquelicot) |
| C58-C62 | temperature.py | algebra and analysis |
| C63-C70, C84 | experiments.py | list induction |
| C71, C72 | sites, plates, weights of the hierarchical model and its guide | list reasoning; Pyro's handlers are modelled by their documented effect |
| C73, C74, C85 | utility.py helpers | algebra, mean value theorem |
| C75 | NeuralODE | slices; functorch.jacrev returns the exact Jacobian (assumption) |
| C76 | aliasing of the right-hand side | heap cell, witness for batch size one |
| C77 | preconditioner reuse over a history of solves | induction on the history |
| C79 | backward Euler on ODEs linear in the state | Newton finishes in one update per block |
| C87-C89 | documented evolution laws written out | computation |
| C94, C95 | DeterministicModel: parameter store, forward, conversion | association lists, C38 |
| C96 | creep and relaxation tests from loading to converted results | C86/C91 and C65; with absolute tolerances (and C95 likewise) Props_EvalTol.v, from the C92 tolerance theorems |
| C97 | Arnoldi process with the eps shift, projected least squares, candidate | Arnoldi relation, Cauchy-Schwarz; orthonormality for eps = 0; Krylov spaces |
| C98 | LU, Jacobi preconditioners | closed form of basis and minimiser |
| C99 | maxiter | witness; breakdown index by rank; limit eps -> 0 |
| C100 | NaN entries of a batch | control flow |
| C101 | two runs of integrate, different batches and options | residual bound of an unwarned run (C19/C20), discrete Gronwall with (one-sided) Lipschitz rates; witness that the tolerance is needed |
| C102 | StatisticalModel: sites, priors, noise, log density | induction over names; refinement to DeterministicModel.forward |
| C103 | HierarchicalStatisticalModel.forward replayed on make_guide, Trace_ELBO of a Delta guide | site list of Inference.v plus value lookup; sums over plates |
| C104 | integrate / solve_strain against a solution of the ODE | mean value theorem for the truncation error, stability of one step (C101), discrete Gronwall |
| C105 | newton_raphson on a smooth system near a regular root | second order remainder by the mean value theorem, majorant sequence, Cauchy completeness for the root, nr_solve_spec for the loop |
| C106 | integrate (backward Euler, zero guess) with small steps | one Newton step on the block bidiagonal system meets the relative tolerance (quadratic remainder, discrete bound 2^(n+1) on the inverse); tube invariant over blocks; then C104's error recursion |
| C107 | integrate with a fixed absolute tolerance | refuted: the zero guess is accepted when h f is below the tolerance; invariant over the block loop |
| C108 | uniform and log-uniform draws as functions of the unit draw; random_tension, random_cycle followed by sample_* | monotonicity of exp/log between the ends; C67, C69; the docstring's R refuted by a witness |
| C109 | visualize_variance: kthvalue on the sorted batch, int() truncation | counting in sorted lists; refuted for n alpha < 1 |
| C110 | load_results, solve_both, convert_results, sample_cycle_normalized_times together | C63/C64 per column, C92 entries, C69 landmarks; maxima are unique; strictly sorted segment times; zero holds refuted; to tolerance: a perturbed step is an exact one from a shifted stress |
| C111 | solve_both of IsoKinViscoplasticity with Voce and Chaboche hardening | C92 step equations, invariant bounds by induction on the steps (FullModel.voce_step, back_step, vp_bound); with solver tolerances the bounds grow by one tolerance per step (Props_FullTol) |
| C112 | same, any isotropic model, Chaboche with or without recovery | discrete energy inequality per step (FullModel.step_energy), summed; with tolerances plus the residual times the forces carried (Props_FullTol) |
| C113 | solve_both of DamagedInelasticModel | per-step increments of the last state entry; C52 damage rates; to one tolerance per step in Props_FullTol |
| C114 | solve_both, block integrator, newton_raphson_chunk, inner strain-rate solve | FlatRun: the Jacobian vanishes at the guess and the rates are constant along the elastic solution, so one update solves each block, or the guess meets atol and is kept; any rtol < 1 and atol >= 0; the inner solve reads the batch points only (sb_forward_local) |
| C115 | solve_strain, solve_both, Voce/Chaboche model | VCStep reduces the step to one equation in the plastic strain rate f: the shifted stress is non-increasing and the flow stress non-decreasing in f, so it has at most one root; intermediate values give one.  Induction over the steps (VCHistory, VCExact) | proved |
| C116 | rewind, integrate, Voce/Chaboche model with parameters depending on a calibrated vector | SmoothR: closure of continuously differentiable functions of finitely many coordinates, including the flow curve across its switch-on; VCSmooth: the rows of the rate; VCRegular: a vector in the kernel of I - dt J is zero on the reachable range; SmoothMx, VCGrad: hypotheses of C25's implicit function theorem; C115's uniqueness identifies the differentiable branch with the simulations | proved |
| C117 | Voce/Chaboche model, backward Euler histories of solve_strain/solve_both | VCShape: monotonicity of one step and of the whole history (the driving stress stays non-negative, so the flow is ordered); Props_Shape: exact histories, runs to tolerance through C118, creep runs | proved |
| C118 | Voce/Chaboche model, solve_both with tolerances | VCClose: Lipschitz dependence of a backward Euler step on its starting state and residual, with the exact start in range; Props_Close: induction over the steps, triangle inequality, limit | proved |
| C119 | Voce/Chaboche model, backward Euler histories and simulations | VCSym: image of a step; Props_Symmetry: uniqueness of histories (C115) and distance to them (C118) | proved |
| C120 | perfectly viscoplastic model, blocked Newton iteration, solve_both/solve_strain | NewtonScalar: Newton iterates of x + K p(x) = c_j converge for odd p convex on the positive axis and c_j -> c; NewtonGlobal: induction over the rows of a block, then over blocks; PowerTangent: Bernoulli's inequality for the power law; a square-law step defeats any fixed limit | proved |
| C121 | IsoKinViscoplasticity with n = 1, solve_strain | curve inside the yield surface with zero rate against the returned 1/eta; closed form of the Newton iterates of an elastic step (error factor K/(1+K)) | refuted; partial outside the surface |
| C122 | solve_strain/solve_both/solve_stress on two tables that agree up to the end of a block | NewtonLocal: a relation kept by updates and fixing the norms makes two Newton runs take the same decisions; ChunkRel: every direct method reads the first n blocks only; OdeLocal: block, loop and integrate agree; StressLocal: the inner stress solve reads the points of the batch only | proved (a counterexample inside a block shows the alignment is needed) |
| C123 | solve_strain/solve_both/solve_stress on a batch and on a rearranged batch | OdeSym: rows correspond under a map of the entries and a sign per component; the direct solvers, the stopping test, the block and the loop respect this; StressSym: so does the inner stress solve; PipelineSym: so do the interpolated tables | proved |
| C124 | the same with shifted times | Symmetry: every class of the library is autonomous (hd_sym/fl_sym/dm_sym with sign 1), then PipelineSym | proved |
| C125 | the same with the negated load | Symmetry: oddness of every law and the matching law for its derivatives, by induction on the composition of the material, then PipelineSym | proved |
| C126 | solve_strain of rate-independent materials with two time tables | RateIndep: rates and Jacobians of the wrapped rules are proportional to the strain rate, by induction on the composition; the product with the time step is then a function of the strain increment (OdeSym.same_work with equal signs) | proved (strain control) |
| C127 | solve_both of a Voce/Chaboche material with both kinds of control, and the backward pass of ode.py with the block-coupled model (AdjointBlock.rewindG) | MixedVC: a stress-controlled step is a strain-controlled step of zero modulus, so existence, uniqueness and range follow from VCHistory; VCStress: the rates are smooth and the step matrix regular; MixedGrad: an active call returns the pointwise rates, so near the calibrated vector its derivative is the pointwise one and rewindG is rewind; then the implicit function theorem and the discrete adjoint as in C116 | proved |
| C128 | the backward pass (rewind) of ode.py for pointwise right-hand sides | Props_Decompose: OdeAdjoint.rewind_spec gives the pass as a step-by-step recursion and a plain sum; linearity, separation of the batch and the zero prefix are inductions on that recursion | proved |
| C129 | the backward pass (rewind) of ode.py; solve_strain of models.py with Chaboche flow and Voce/Chaboche hardening, at non-zero tolerances | AdjLimit: limits of matrices (products, determinants, inverses) and of the adjoint recursion of OdeAdjoint; Props_GradTol combines them with C116 (the gradient at the exact history is the derivative) and C118 (runs to tolerance are near the exact history) | proved |
| C130 | solve_strain of models.py with any library material, ode.py blocks, chunktime.py Newton tests; conversion of every class's parameters | Units.v: inductive table of conversions, rates and Jacobians convert; OdeScale.v: proportional states make the same Newton decisions (atol converted) and proportional blocks and runs; Props_Units.v: whole runs, a counterexample for an unconverted tolerance, Hayhurst-Leckie's derivative does not convert |
| C131 | neuralode.py NeuralODE.forward with an arbitrary C1 network, ode.py backward Euler blocks and adjoint pass | NeuralR.v: perceptrons, their derivatives and Lipschitz gains; NeuralRun.v: contraction gives existence and uniqueness of a step for 2 h L <= 1, residual-to-distance bound, regular step matrices; then the implicit-function theorem of C25 and the continuity of C129 |
| C132 | ode.py integrate, _initial_guess, rewind | Resume.v: simulation of the block loop by the loop of the truncated and of the shifted run (induction on blocks); the adjoint recursion restarted at a row; residuals of both stages feed the bound of C131; explicit counterexample for the guess "previous" |
| C133 | IsoKinViscoplasticity with Voce and Chaboche hardening, PerfectViscoplasticity, strain-controlled simulations | Lump.v: one backward Euler step commutes with grouping the backstresses; induction over the steps; uniqueness (C115) and closeness of converged runs (C118) |
| C134 | Comparison of perfectly viscoplastic tests (CompareR.v, Props_Compare.v) | one-step comparison of backward Euler steps with a monotone flow rate, induction over the steps of two runs extracted by C38/C91 to tolerance; examples by C120 |
| C135 | Training steps (Props_Descent.v): loss of the exact simulation along a line of parameters | the adjoint gradient is the derivative along every line (C116, C129); sign of a derivative gives decrease for small steps; Fermat's rule at minima; inner product of exact and tolerance-limited gradients is positive for tight tolerances |
| C136 | Stability of explicit relaxation (ExplicitR.v, Props_Stability.v) | step equation from C93; E h f(s)/s is non-decreasing in the stress for n >= 1, so safe (unsafe) steps stay safe (unsafe) by induction; runs exist by fe_never_fails |
| C137 | `integrate`/`rewind` with the explicit scheme for a family of rates; results pinned by C21, gradients by the discrete adjoint (C26) made uniform over all curves of parameters and initial states | forward Euler is an explicit recursion, so its tangent exists without solvability conditions; adjoint identity; `neural_c1` and the smoothness of the Voce/Chaboche rows discharge differentiability; descent as in C135 |
| C138 | Explicit strain-controlled runs of the Voce/Chaboche model, internal variables step by step (Props_ExplicitBounds.v) | step equation from C93; each row is affine in its own variable, giving an exact contraction factor towards saturation; induction over steps; overshoot as an equivalence; short steps discharge the hypothesis of C137_hardening |
| C139 | solve_stress and solve_both with ForwardEuler (ExplicitBoth.v, Props_ExplicitStress.v) | the block-of-rows argument of PipelineBoth.v for the explicit scheme (row j of the call is time k), inner solve by StressR (affine in the strain rate); corollaries by induction over steps; existence for state-independent blocks by the bidiagonal solve |
| C140 | solve_strain with ForwardEuler against the exact solution (Props_ExplicitError.v) | per-step residual against the true rate = tolerance + step times P times the jump of the strain rate; explicit_step (Tolerance.v), truncation (Converge.v) and a telescoping accumulation; linear viscosity as the closed instance |
| C141 | pv_rate, pv_jac: strain_f / strain_J of the inelastic model with the perfect flow, as functions of a calibrated vector; rewind (PVSmooth.v, PVGrad.v, GradHist.v, Props_PerfectGrad.v) | signed power = difference of two one-sided powers, which are continuously differentiable in base and exponent; the scalar step matrix is 1 - dt J with J <= 0; uniqueness by monotonicity of the flow, existence by the intermediate value theorem; implicit function theorem + exact adjoint |
| C142 | rewind / rewindG with the backward Euler scheme on perfectly viscoplastic strain-controlled batches, mixed batches (solve_both calls) and neural ODEs; the loss as a function of the calibrated vector (Props_Training.v) | the exact gradients of C127, C131 and C141 along straight lines in parameter space; a function with derivative < 0 decreases for small steps; the gradient is unique because its inner products with all directions are; noise-free data: the squared error is minimal there |
| C143 | solve_strain at nonzero tolerances and the adjoint pass on its results for the inelastic model with the perfect flow (Props_PerfectTol.v) | one step: the monotone flow adds residual and previous error without amplification; the gradient is a continuous function of the history it is computed on (C129); its inner product with the exact gradient stays positive; C120 supplies the converged runs |
| C144 | the adjoint pass through the calls of solve_both on histories near the exact mixed-control history (Props_MixedTol.v) | a radius around the exact history in which rates stay continuously differentiable and every inner solve takes a step; there the backward pass through solve_both's calls equals the one through the exact rates (rewindG_eq); then near_core |
| C145 | solve_both at positive tolerances, its runs and the adjoint pass on them (StressClose.v, MixedClose.v, Props_MixedRuns.v) | one stress-controlled step: thresholds and driving stresses move the right way, flow_near; induction over the steps; both_rate_alt: the inner solve returned the exact rates or none of its strain rates exceed 1e-10, which the exact history excludes; strain-controlled tests from C118; then C144 |
| C146 | solve_stress (StressBasedModel block function) and its adjoint pass for Voce/Chaboche families; the stress-controlled history is specified on its own | Props_StressCal.v: solve_both with flags all 1 is solve_stress call by call (stress_G_both), then C127, C144, C145 |
| C147 | solve_both and solve_stress of the perfectly viscoplastic model, with the inner strain-rate solve, and their adjoint pass | PVMixed.v: a stress-controlled test is integrated exactly and a strain-controlled one is a monotone scalar equation, so one history; the inner solve is exact in active calls; Props_PerfectMixed.v: implicit differentiation of the history and the adjoint recursion (gradient_history), creep runs from C91 |
| C148 | solve_both and solve_stress of the perfectly viscoplastic model at positive tolerances, and their adjoint pass | Props_PerfectRuns.v: step by step, the flow opposes differences of stress (step_close) and a creep rate does not depend on the strain, so residuals only add up; the backward pass is continuous in the history (near_core) |
| C149 | solve_stress with the inner strain-rate solve on calls whose every row creeps slower than 1e-10/E (SlowCreep.v, Props_SlowCreep.v) | the inner iteration stops at its initial iterate when all residuals are within 1e-10, so every step of such a call adds no strain (induction on steps); beside a faster row the affine inner solve is exact; concrete tables give the unbounded differences between batches and between block sizes; the two error bounds of C91 give the difference bound |

No property is declared "not applicable".

## What is not modelled

* Floating point: arithmetic is over the reals (`R`) or an arbitrary field.
  Norms seen by control flow are extended with inf and NaN where the property
  is about them; elsewhere a division by zero is excluded by a hypothesis or
  described in the definition's comment (`table_rates` gives 0 for x/0, which
  matters only for repeated times).
* torch, numpy, pyro, functorch: primitives are modelled by their mathematical
  meaning, cited per definition.  torch.linalg.lstsq is any function returning
  a minimiser; linear solves are exact; autograd products are exact
  (vector-Jacobian products of the function's Jacobian).  Devices and dtypes
  are ignored.
* Pyro: `pyro.sample`/`plate`/`poutine.mask`/`poutine.scale` are recorded as sites with
  their log densities, and one evaluation of the Trace_ELBO loss for the Delta guide is
  modelled (C103); the optimisers and random sampling are out of scope.
* Plotting (`visualize_variance`), random data generation
  (`generate_random_tension`, sampling in `sample_*`) beyond what C67-C69 state
  for every drawn value, attribute accessors (`device`, `shape`).
* Batches are explicit where the code mixes entries (any/all, masks, sums,
  shared brackets, NaN); otherwise a model is stated for one entry.

## Trusted base

* Coq 8.16.1's kernel and its virtual machine (`vm_compute`).
* Libraries: the standard library, mathcomp (ssreflect, algebra), Coquelicot.
* Axioms: `Print Assumptions` for each theorem is in ASSUMPTIONS.md.  Five
  standard-library axioms occur: `sig_forall_dec`, `sig_not_dec` and
  `functional_extensionality_dep` (the reals), `classic`, and
  `constructive_indefinite_description` (choice on R in RField.v, which makes
  the standard reals a mathcomp field; `best` in GmresProofs.v).  No axiom is
  declared here and no other library's axiom is used.  vcheck's list of
  `library_axioms` also shows fields of modules that the standard library and
  mathcomp seal with a module type (`Rdefinitions.RbaseSymbolsImpl.*`,
  `BigOp.bigop`, ...): they are defined terms, not axioms, and Print
  Assumptions does not list them.
* The reading of the Python code: it was not executed here.
