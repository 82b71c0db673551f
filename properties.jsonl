{"id": "C01", "title": "Fixed-step trajectory", "statement": "odeint with a fixed-step solver and no save_at returns t_eval equal to t_span and exactly len(t_span) states; the first is the initial condition and each next one is exactly one application of the solver's step to the previous state, started at t_span[i] with step size t_span[i+1]-t_span[i].", "quantifier": "every vector field, initial state, solver step function and every well-separated t_span of any length, uniform or not", "why_tests_cant": "the claim ranges over all grids, lengths and step functions; a test fixes one grid and compares against a tolerance", "anchors": ["torchdyn/numerics/odeint.py:_fixed_odeint", "torchdyn/numerics/odeint.py:odeint"]}
{"id": "C02", "title": "save_at selects exactly the requested states", "statement": "With a fixed-step solver and save_at a well-separated sub-grid of t_span, the returned states are the full-grid states at exactly the requested times, one per requested time and in t_span order, and the returned times are save_at itself.", "quantifier": "all t_span, all subsets save_at of it, all solvers", "why_tests_cant": "exponentially many subsets of each of infinitely many grids", "anchors": ["torchdyn/numerics/odeint.py:_fixed_odeint"]}
{"id": "C03", "title": "save_at outside t_span is rejected", "statement": "As the error message says, a save_at containing a time that is not in t_span is rejected rather than silently answered with missing states.", "quantifier": "all t_span and save_at", "why_tests_cant": "a universally quantified rejection; a test would need to guess the accepted bad value", "anchors": ["torchdyn/numerics/odeint.py:_fixed_odeint (assert)"]}
{"id": "C04", "title": "Any increasing grid is accepted", "statement": "odeint with a fixed-step solver accepts every strictly increasing t_span of length at least two, and the exact set of grids on which it raises AssertionError is known.", "quantifier": "all strictly increasing t_span", "why_tests_cant": "the failing grids depend on relative spacing and magnitude; sampling coarse grids never meets them", "anchors": ["torchdyn/numerics/odeint.py:_fixed_odeint (assert, torch.isclose)"]}
{"id": "C05", "title": "Reversed time is negative stepping", "statement": "For a decreasing t_span the states returned by odeint with euler, midpoint or rk4 are the ones obtained by applying the same method along t_span with negative step sizes to the original vector field.", "quantifier": "all vector fields (time varying included), all decreasing t_span", "why_tests_cant": "quantifies over every vector field and grid", "anchors": ["torchdyn/numerics/odeint.py:odeint", "torchdyn/numerics/solvers/ode.py:Euler.step", "torchdyn/numerics/solvers/ode.py:Midpoint.step", "torchdyn/numerics/solvers/ode.py:RungeKutta4.step"]}
{"id": "C06", "title": "Returned times are the requested times", "statement": "t_eval returned by odeint is the time grid the caller asked for, whether t_span is increasing or decreasing.", "quantifier": "all t_span", "why_tests_cant": "a property of all grids and both directions", "anchors": ["torchdyn/numerics/odeint.py:odeint"]}
{"id": "C07", "title": "Restart / semigroup", "statement": "Solving with a fixed-step solver over a grid split at one of its points gives the same states as solving the first part, then restarting from its last state over the second part.", "quantifier": "all grids, all split points, all solvers, all vector fields", "why_tests_cant": "quantifies over all splits of all grids", "anchors": ["torchdyn/numerics/odeint.py:_fixed_odeint"]}
{"id": "C08", "title": "Number of vector field evaluations", "statement": "A fixed-step solve over N intervals evaluates the vector field exactly s*N times (s = 1 for euler, 2 for midpoint, 4 for rk4, 2 for leapfrog); an adaptive dopri5/tsit5 solve evaluates it 2 + 6*(number of attempted steps) times.", "quantifier": "all N, all vector fields, all runs of the adaptive loop", "why_tests_cant": "the count must hold for every run of an unbounded loop", "anchors": ["torchdyn/numerics/odeint.py:_fixed_odeint", "torchdyn/numerics/odeint.py:_adaptive_odeint", "torchdyn/numerics/solvers/ode.py: step functions", "torchdyn/core/defunc.py:DEFunc.forward (nfe)"]}
{"id": "C09", "title": "Adaptive solve returns exactly the requested times", "statement": "When odeint with an adaptive solver and no interpolator returns, t_eval is exactly t_span and there is one state per time, the first being the initial condition.", "quantifier": "all strictly increasing t_span, vector fields, tolerances, initial step sizes and adaptive solvers, for every run that returns", "why_tests_cant": "the loop is unbounded and its path depends on error estimates; no finite set of runs covers the schedules", "anchors": ["torchdyn/numerics/odeint.py:_adaptive_odeint"]}
{"id": "C10", "title": "Adaptive solve with interpolation returns exactly the requested times", "statement": "With an interpolator, t_eval is still exactly t_span with one state per time, even when one accepted step crosses several requested times.", "quantifier": "as above, any number of crossings per step", "why_tests_cant": "same; plus every way of distributing requested times over steps", "anchors": ["torchdyn/numerics/odeint.py:_adaptive_odeint (interpolation branch)"]}
{"id": "C11", "title": "All-evaluation output", "statement": "With return_all_eval the returned times are strictly increasing, start at t_span[0], end at t_span[-1], and contain every time of t_span.", "quantifier": "all runs that return", "why_tests_cant": "unbounded loop", "anchors": ["torchdyn/numerics/odeint.py:_adaptive_odeint (return_all_eval)"]}
{"id": "C12", "title": "Every accepted step meets the tolerance", "statement": "Consecutive returned states of an adaptive solve are connected by a finite chain of solver steps, contiguous in time, each of which has scaled error norm at most 1 for the given atol and rtol.", "quantifier": "all runs that return", "why_tests_cant": "the chain is not observable from outputs of a test, and must hold for all runs", "anchors": ["torchdyn/numerics/odeint.py:_adaptive_odeint", "torchdyn/numerics/utils.py:hairer_norm"]}
{"id": "C13", "title": "Adaptive solve never steps over a requested time nor past the end", "statement": "Without an interpolator no accepted step of an adaptive solve jumps over a requested time, all step sizes are positive, and with or without interpolator no accepted step goes beyond t_span[-1].", "quantifier": "all runs, all iterations", "why_tests_cant": "invariant of every iteration of an unbounded loop", "anchors": ["torchdyn/numerics/odeint.py:_adaptive_odeint (checkpointing)"]}
{"id": "C14", "title": "Adaptive solve terminates when the error is controllable", "statement": "If there is a step size below which every step is accepted with error ratio strictly below one, the adaptive loop terminates for every t_span.", "quantifier": "all vector fields/solvers with that property, all initial step sizes and t_span", "why_tests_cant": "termination for all inputs cannot be tested", "anchors": ["torchdyn/numerics/odeint.py:_adaptive_odeint", "torchdyn/numerics/utils.py:adapt_step"]}
{"id": "C15", "title": "Adaptive solve always returns", "statement": "odeint with an adaptive solver returns (or raises) for every vector field, including one that produces NaN.", "quantifier": "all vector fields", "why_tests_cant": "non-termination cannot be observed by a test", "anchors": ["torchdyn/numerics/odeint.py:_adaptive_odeint", "torchdyn/numerics/utils.py:adapt_step"]}
{"id": "C16", "title": "Requested times survive floating point", "statement": "The number of returned states of an adaptive solve equals len(t_span) also when time arithmetic is IEEE-754.", "quantifier": "all floating-point t_span and step sizes", "why_tests_cant": "needs a rounding coincidence that random tests practically never hit", "anchors": ["torchdyn/numerics/odeint.py:_adaptive_odeint (t + dt == t_eval[ckpt_counter])"]}
{"id": "C17", "title": "Step size controller bounds", "statement": "The controller multiplies the step by a factor in [min_factor, max_factor], never shrinks a step whose error ratio is below one, multiplies by max_factor when the error is zero, and multiplies a rejected step by at most safety (<1); a larger error never yields a larger next step.", "quantifier": "all positive dt and error ratios, all orders", "why_tests_cant": "continuum of inputs", "anchors": ["torchdyn/numerics/utils.py:adapt_step"]}
{"id": "C18", "title": "Initial step size is positive and bounded", "statement": "The automatic initial step size is strictly positive for every vector field and state, and at most 100 times the first guess h0 (h0 = 1e-6 when the scaled norm of the state or of the slope is below 1e-5, else 0.01 times their quotient), so the adaptive loop always starts with a usable step.", "quantifier": "all vector fields, states and positive tolerances", "why_tests_cant": "continuum of inputs, several branches", "anchors": ["torchdyn/numerics/utils.py:init_step"]}
{"id": "C19", "title": "Error norm is a norm", "statement": "The error norm is the root mean square of the entries: non-negative, zero only for the zero tensor, absolutely homogeneous, subadditive, bounded by the largest entry.", "quantifier": "all tensors of any size", "why_tests_cant": "all sizes and values", "anchors": ["torchdyn/numerics/utils.py:hairer_norm", "torchdyn/numerics/utils.py:make_norm"]}
{"id": "C20", "title": "Adaptive time reversal", "statement": "An adaptive solve over a decreasing t_span takes the same steps as the solve of the time-reversed vector field over the negated (increasing) t_span.", "quantifier": "all vector fields", "why_tests_cant": "needs a vector field for which the initial step differs", "anchors": ["torchdyn/numerics/odeint.py:odeint (init_step call)"]}
{"id": "C21", "title": "dopri5 is the Dormand-Prince 5(4) pair", "statement": "One dopri5 step equals the textbook explicit Runge-Kutta step with the published Dormand-Prince tableau: solution weights of order 5, embedded weights of order 4, error estimate their difference, last stage equal to the vector field at the new point (FSAL).", "quantifier": "all vector fields of any dimension, all t, x, dt", "why_tests_cant": "tests compare trajectories within a tolerance and do not distinguish a slightly wrong coefficient", "anchors": ["torchdyn/numerics/solvers/ode.py:DormandPrince45.step", "torchdyn/numerics/solvers/_constants.py:construct_dopri5"]}
{"id": "C22", "title": "rk4 is the classical fourth order method", "statement": "One rk4 step equals the classical four stage Runge-Kutta step for every vector field, including time-varying ones.", "quantifier": "all vector fields", "why_tests_cant": "the repository tests only use autonomous vector fields", "anchors": ["torchdyn/numerics/solvers/ode.py:RungeKutta4.step", "torchdyn/numerics/solvers/_constants.py:construct_rk4"]}
{"id": "C23", "title": "tsit5 is a 5(4) pair with FSAL", "statement": "One tsit5 step is the explicit Runge-Kutta step of its tableau; the tableau satisfies all order conditions up to 5 (embedded: 4) to within 1e-14, row sums equal nodes, and the last stage is the vector field at the new point.", "quantifier": "all vector fields, t, x, dt", "why_tests_cant": "coefficients with 80+ digits; a typo is invisible at test tolerance", "anchors": ["torchdyn/numerics/solvers/ode.py:Tsitouras45.step", "torchdyn/numerics/solvers/_constants.py:construct_tsit5"]}
{"id": "C24", "title": "Euler converges to the true solution", "statement": "For every Lipschitz vector field and every twice differentiable solution, the states returned by odeint with euler differ from the true solution at the returned times by at most a constant times the largest step of t_span.", "quantifier": "all vector fields, dimensions, grids", "why_tests_cant": "a convergence theorem over all vector fields and grids", "anchors": ["torchdyn/numerics/odeint.py:_fixed_odeint", "torchdyn/numerics/solvers/ode.py:Euler.step"]}
{"id": "C25", "title": "Midpoint is second order", "statement": "midpoint reproduces quadratic-in-time solutions exactly and matches the exponential to second order; for smooth problems its error is O(h^2).", "quantifier": "all vector fields/grids", "why_tests_cant": "as above", "anchors": ["torchdyn/numerics/solvers/ode.py:Midpoint.step"]}
{"id": "C26", "title": "Implicit Euler solves its defining equation", "statement": "If the inner optimiser drives the implicit Euler residual to zero, the returned state solves x' = x + dt*f(t+dt, x').", "quantifier": "all vector fields, t, dt", "why_tests_cant": "all vector fields, time-varying included", "anchors": ["torchdyn/numerics/solvers/ode.py:ImplicitEuler"]}
{"id": "C27", "title": "Leapfrog is time-reversible", "statement": "An asynchronous leapfrog step followed by a step of opposite size returns exactly to the initial (x, v).", "quantifier": "all vector fields (time varying included), dt, states", "why_tests_cant": "exact algebraic identity over all vector fields", "anchors": ["torchdyn/numerics/solvers/ode.py:AsynchronousLeapfrog.step"]}
{"id": "C28", "title": "Hypersolvers extend their base solver", "statement": "A hypersolver step is the base solver step plus dt^(p+1) times the hypernetwork at (t, x), p the order of the base solver; with a zero hypernetwork it is the base solver.", "quantifier": "all vector fields and hypernetworks", "why_tests_cant": "functional identity", "anchors": ["torchdyn/numerics/solvers/hyper.py"]}
{"id": "C29", "title": "Dense output interpolant", "statement": "The 4th order interpolant takes the value and slope of the step at both ends and the mid state at the middle, so it reproduces every quartic exactly.", "quantifier": "all states, slopes, step sizes and evaluation times", "why_tests_cant": "polynomial identity over all data", "anchors": ["torchdyn/numerics/interpolators.py:FourthOrder.fit", "torchdyn/numerics/interpolators.py:Interpolator.evaluate"]}
{"id": "C30", "title": "Parareal exactness", "statement": "After k multiple-shooting (mszero) sweeps the first k+1 shooting states equal the sequential fine solution, so with maxiter at least the number of intervals minus one the output is the full fine solution; the first state is always the initial condition.", "quantifier": "all vector fields, coarse and fine methods, initial guesses B0, numbers of sweeps", "why_tests_cant": "induction over sweeps and intervals", "anchors": ["torchdyn/numerics/solvers/ode.py:MSZero.root_solve", "torchdyn/numerics/odeint.py:odeint_mshooting"]}
{"id": "C31", "title": "Multiple shooting is safe for every maxiter", "statement": "odeint_mshooting with mszero or msbackward returns one state per time for every maxiter.", "quantifier": "all maxiter and grid lengths", "why_tests_cant": "needs the exact relation between maxiter and len(t_span)", "anchors": ["torchdyn/numerics/solvers/ode.py:MSZero.root_solve", "torchdyn/numerics/solvers/ode.py:MSBackward.root_solve"]}
{"id": "C32", "title": "Parallel implicit Euler", "statement": "A zero residual of the parallel implicit Euler solver means that the shooting states satisfy the implicit Euler recursion on every interval.", "quantifier": "all grids, vector fields, states", "why_tests_cant": "all grid lengths", "anchors": ["torchdyn/numerics/solvers/ode.py:ParallelImplicitEuler._residual"]}
{"id": "C33", "title": "Jagged solve equals independent solves", "statement": "The jagged fixed-step solver returns, for every sub-problem, the states of the independent fixed-step solve of that sub-problem.", "quantifier": "all numbers of sub-problems, all grids", "why_tests_cant": "all jagged shapes", "anchors": ["torchdyn/numerics/odeint.py:_jagged_fixed_odeint"]}
{"id": "C34", "title": "Hybrid solve: jump bookkeeping", "statement": "Every event of odeint_hybrid contributes exactly two consecutive outputs at the same time, the second being the jump map of the lowest-index firing callback applied to the first; returned times never decrease.", "quantifier": "all event sequences, callbacks, runs", "why_tests_cant": "all histories of events", "anchors": ["torchdyn/numerics/odeint.py:odeint_hybrid"]}
{"id": "C35", "title": "Hybrid solve returns the requested times", "statement": "The times returned by odeint_hybrid contain every time of t_span when no event fires.", "quantifier": "all runs", "why_tests_cant": "depends on which steps are rejected", "anchors": ["torchdyn/numerics/odeint.py:odeint_hybrid (checkpointing)"]}
{"id": "C36", "title": "Hybrid solve respects j_span", "statement": "odeint_hybrid performs at most j_span jumps.", "quantifier": "all runs and callbacks", "why_tests_cant": "all histories", "anchors": ["torchdyn/numerics/odeint.py:odeint_hybrid (jnum)"]}
{"id": "C37", "title": "Hybrid event location never crashes and stays inside the step", "statement": "Bisection always ends with a firing callback and locates the event inside the step that triggered it.", "quantifier": "all callbacks and step sizes", "why_tests_cant": "depends on the binary expansion of the event time", "anchors": ["torchdyn/numerics/odeint.py:odeint_hybrid (bisection)"]}
{"id": "C38", "title": "root_find: iteration bound and certificate", "statement": "root_find evaluates at most maxiters+1 solver steps, and if it reports its termination condition then the returned iterate meets the residual and step tolerances for every batch element.", "quantifier": "all functions, starting points, tolerances", "why_tests_cant": "all runs of the loop", "anchors": ["torchdyn/numerics/solvers/root.py:root_find", "torchdyn/numerics/solvers/root.py:TerminationCondition.check"]}
{"id": "C39", "title": "Broyden updates satisfy the secant equation", "statement": "The Broyden update maps the change of residual to the change of iterate up to the regularisation term (exactly when it is zero); it leaves the action on the complementary directions unchanged.", "quantifier": "all matrices and vectors of any size", "why_tests_cant": "matrix identity in all dimensions", "anchors": ["torchdyn/numerics/solvers/root.py:BroydenFull.update_jacobian", "torchdyn/numerics/solvers/root.py:BroydenBad.update_jacobian"]}
{"id": "C40", "title": "Line searches terminate and return what they promise", "statement": "Naive and Armijo line searches always terminate; naive returns a step not increasing the objective or one below the minimum; Armijo returns a step meeting its decrease condition or the fallback.", "quantifier": "all objective functions", "why_tests_cant": "termination for all objective functions", "anchors": ["torchdyn/numerics/solvers/root.py:NaiveSearch.search", "torchdyn/numerics/solvers/root.py:LineSearchArmijo.search"]}
{"id": "C41", "title": "Fixed-step SDE trajectory", "statement": "sdeint returns, for well-separated t_span, exactly one state per time, each one solver step from the previous with the Brownian increment over exactly that interval.", "quantifier": "all drifts, diffusions, Brownian paths, grids", "why_tests_cant": "all paths and grids", "anchors": ["torchdyn/numerics/sdeint.py:_fixed_sdeint", "torchdyn/numerics/sdeint.py:sdeint"]}
{"id": "C42", "title": "SDE steps: noise-free limit and scheme relations", "statement": "With zero diffusion every SDE step is the Euler step of the drift; with state-independent diffusion Milstein equals Euler-Maruyama (Ito) and Stratonovich and Ito Milstein differ exactly by the correction term.", "quantifier": "all drifts, diffusions, increments", "why_tests_cant": "functional identities", "anchors": ["torchdyn/numerics/solvers/sde.py:EulerMaruyama.step", "torchdyn/numerics/solvers/sde.py:EulerHeun.step", "torchdyn/numerics/solvers/sde.py:MilsteinBase.step"]}
{"id": "C43", "title": "SDE solver type checking", "statement": "sdeint refuses an SDE whose type (ito/stratonovich) does not match the solver, or whose noise type the solver does not support.", "quantifier": "all solver names and SDE types", "why_tests_cant": "a missing check is only visible on the mismatching pair", "anchors": ["torchdyn/numerics/solvers/sde.py:_check_types", "torchdyn/numerics/solvers/sde.py:MilsteinBase"]}
{"id": "C44", "title": "Higher-order dynamics", "statement": "A NeuralODE of order n maps the state (x, x', ..., x^(n-1)) to (x', ..., x^(n-1), f), for every n and width, also when an integral loss is propagated.", "quantifier": "all orders, widths, vector fields", "why_tests_cant": "all orders and widths", "anchors": ["torchdyn/core/defunc.py:DEFunc.higher_order_forward", "torchdyn/core/defunc.py:DEFunc.forward"]}
{"id": "C45", "title": "Vector field call signatures", "statement": "ODEProblem and NeuralODE accept vector fields callable as f(x) or f(t, x), modules or plain functions, and call them with the right arguments.", "quantifier": "all callables", "why_tests_cant": "case analysis over all signatures", "anchors": ["torchdyn/core/utils.py:standardize_vf_call_signature", "torchdyn/core/defunc.py:DEFuncBase.forward", "torchdyn/core/defunc.py:DEFunc.forward"]}
{"id": "C46", "title": "NeuralODE forward and trajectory", "statement": "NeuralODE.forward without t_span integrates over [0,1]; return_t_eval only drops the times; trajectory returns the same states as forward; data-control modules receive the initial condition without the loss/divergence columns.", "quantifier": "all models, inputs", "why_tests_cant": "all module trees", "anchors": ["torchdyn/core/neuralde.py:NeuralODE._prep_integration", "torchdyn/core/neuralde.py:NeuralODE.forward", "torchdyn/core/neuralde.py:NeuralODE.trajectory"]}
{"id": "C47", "title": "save_at reaches the solver for every sensitivity", "statement": "NeuralODE/ODEProblem honour save_at and args for every sensitivity algorithm.", "quantifier": "all sensitivities and save_at", "why_tests_cant": "argument plumbing must be right for all combinations", "anchors": ["torchdyn/core/problems.py:ODEProblem.odeint", "torchdyn/numerics/sensitivity.py:_gather_odefunc_adjoint"]}
{"id": "C48", "title": "Adjoint gradient equals the discrete gradient (linear, Euler)", "statement": "For linear time-invariant vector fields and the euler solver the adjoint sensitivity returns exactly the gradient of any loss of the returned trajectory with respect to the initial condition.", "quantifier": "all dimensions, matrices, grids, loss gradients", "why_tests_cant": "all dimensions and grids", "anchors": ["torchdyn/numerics/sensitivity.py:_gather_odefunc_adjoint"]}
{"id": "C49", "title": "Adjoint gradient for reversed time", "statement": "The adjoint gradient is also right when t_span is decreasing.", "quantifier": "all vector fields", "why_tests_cant": "all vector fields; not exercised by tests", "anchors": ["torchdyn/numerics/sensitivity.py:_gather_odefunc_adjoint", "torchdyn/numerics/odeint.py:odeint"]}
{"id": "C50", "title": "Multiple shooting adjoint plumbing", "statement": "MultipleShootingProblem passes maxiter and fine_steps unchanged to the solver for every sensitivity.", "quantifier": "all maxiter, fine_steps", "why_tests_cant": "equal defaults hide the swap", "anchors": ["torchdyn/core/problems.py:MultipleShootingProblem._autograd_func"]}
{"id": "C51", "title": "Augmenter, DepthCat, DataControl", "statement": "Augmentation keeps the original data as a contiguous block and adds the zeros or learned features on the requested side; DepthCat appends exactly the time; DataControl appends exactly the control; widths add up.", "quantifier": "all batch sizes and widths", "why_tests_cant": "all shapes", "anchors": ["torchdyn/nn/node_layers.py:Augmenter", "torchdyn/nn/node_layers.py:DepthCat", "torchdyn/nn/node_layers.py:DataControl"]}
{"id": "C52", "title": "Galerkin weights", "statement": "Galerkin layers evaluate weight = sum over degrees and basis functions of coefficient times basis; the layer is linear in its coefficients and zero coefficients give zero output; weights and biases partition the coefficient vector.", "quantifier": "all degrees, bases, sizes", "why_tests_cant": "all sizes", "anchors": ["torchdyn/nn/galerkin.py:GalLayer.calculate_weights", "torchdyn/nn/galerkin.py:GalLinear.forward"]}
{"id": "C53", "title": "Polynomial and Chebychev bases", "statement": "Chebychev(deg) evaluates the first deg Chebyshev polynomials (basis k at cos(a) is cos(k a)); Polynomial(deg) evaluates integer powers.", "quantifier": "all degrees and arguments", "why_tests_cant": "all degrees", "anchors": ["torchdyn/nn/galerkin.py:Chebychev.forward", "torchdyn/nn/galerkin.py:Polynomial.forward", "torchdyn/nn/galerkin.py:GalLayer.calculate_weights"]}
{"id": "C54", "title": "CNF divergence", "statement": "The first output column of a CNF is minus the trace of the Jacobian of the network for autograd_trace, and the Hutchinson estimator averages to the trace over Rademacher noise.", "quantifier": "all networks that act on each row of the batch (with any Jacobian), all dimensions, batch sizes, noise", "why_tests_cant": "all Jacobians and dimensions", "anchors": ["torchdyn/models/cnf.py"]}
{"id": "C55", "title": "Energy models", "statement": "HNN preserves and GNF dissipates its energy; LNN accelerations satisfy the Euler-Lagrange equation when the velocity Hessian is invertible.", "quantifier": "all energies (gradients, Hessians) and states of any even dimension", "why_tests_cant": "all energies", "anchors": ["torchdyn/models/energy.py"]}
{"id": "C56", "title": "Datasets have the promised size and labels", "statement": "Dataset generators return the promised number of rows and labels for every n_samples; sphere samples have the requested radius.", "quantifier": "all n_samples and random draws", "why_tests_cant": "all sizes and random draws", "anchors": ["torchdyn/datasets/static_datasets.py"]}
{"id": "C57", "title": "Solver names", "statement": "Every documented solver name yields the documented method, order and stepping class; unknown names raise KeyError.", "quantifier": "all strings", "why_tests_cant": "all strings", "anchors": ["torchdyn/numerics/solvers/ode.py:SOLVER_DICT", "torchdyn/numerics/solvers/ode.py:str_to_solver", "torchdyn/numerics/solvers/ode.py:str_to_ms_solver"]}
{"id": "C58", "title": "Multiple shooting with discrete adjoints converges like parareal", "statement": "After k msbackward sweeps the first k+1 shooting states equal the sequential fine solution, and a converged trajectory is left unchanged by further sweeps.", "quantifier": "all vector fields, fine methods, initial guesses B0, numbers of sweeps", "why_tests_cant": "induction over sweeps and intervals", "anchors": ["torchdyn/numerics/solvers/ode.py:MSBackward.root_solve"]}
{"id": "C59", "title": "Newton step of multiple shooting", "statement": "For a linear vector field one msbackward sweep gives the sequential fine solution from every initial guess (the update is a Newton step).", "quantifier": "all linear vector fields, dimensions, initial guesses", "why_tests_cant": "all matrices and guesses", "anchors": ["torchdyn/numerics/solvers/ode.py:MSBackward.root_solve"]}
{"id": "C60", "title": "General noise", "statement": "For noise type 'general' (diffusion matrices (batch, d, m), increments (batch, m)), which the SDE solvers declare as supported, a step returns a state of the shape (batch, d) of the input.", "quantifier": "all batch sizes and dimensions", "why_tests_cant": "all shapes", "anchors": ["torchdyn/numerics/solvers/sde.py:EulerMaruyama.step", "torchdyn/numerics/solvers/sde.py:_check_types"]}
{"id": "C61", "title": "save_at for SDEs", "statement": "sdeint with save_at returns exactly one state per requested time, or raises.", "quantifier": "all grids and save_at", "why_tests_cant": "all grids, requested times off the grid", "anchors": ["torchdyn/numerics/sdeint.py:_fixed_sdeint", "torchdyn/numerics/sdeint.py:sdeint"]}
{"id": "C62", "title": "root_find solves linear problems", "statement": "For an affine function with known inverse Jacobian every root_find iteration multiplies the residual by 1 - alpha, and with the default arguments root_find ends with a residual below f_tol.", "quantifier": "all dimensions, batch sizes, invertible affine functions", "why_tests_cant": "all dimensions and functions; needs the exact iteration", "anchors": ["torchdyn/numerics/solvers/root.py:root_find", "torchdyn/numerics/solvers/root.py:NaiveSearch.search", "torchdyn/numerics/solvers/root.py:Broyden.step"]}
{"id": "C63", "title": "Line search reports the objective at the returned step", "statement": "search() returns a pair (alpha, phi(alpha)) for naive and Armijo search.", "quantifier": "all objective functions", "why_tests_cant": "all objective functions", "anchors": ["torchdyn/numerics/solvers/root.py:NaiveSearch.search", "torchdyn/numerics/solvers/root.py:LineSearchArmijo.search"]}
{"id": "C64", "title": "Documented stopping rule", "statement": "root_find stops as soon as its documented condition |F| <= f_rtol |F_0|, |F| <= f_tol, |dx| <= x_rtol |x|, |dx| <= x_tol holds, F_0 being the residual at the starting point.", "quantifier": "all functions, starting points, tolerances", "why_tests_cant": "all functions and tolerances", "anchors": ["torchdyn/numerics/solvers/root.py:TerminationCondition.check"]}
{"id": "C65", "title": "Adjoint solver argument", "statement": "ODEProblem and NeuralODE accept solver_adjoint as None, as a solver name or as a solver module, like the argument solver.", "quantifier": "all solver names and modules", "why_tests_cant": "all kinds of arguments", "anchors": ["torchdyn/core/problems.py:ODEProblem.__init__"]}
{"id": "C66", "title": "NeuralSDE.trajectory", "statement": "NeuralSDE.trajectory(x, t_span) returns the trajectory of the SDE over t_span.", "quantifier": "all inputs", "why_tests_cant": "all inputs", "anchors": ["torchdyn/core/neuralde.py:NeuralSDE.trajectory", "torchdyn/core/neuralde.py:NeuralSDE._prep_sdeint"]}
{"id": "C67", "title": "Unused parameters and the adjoint", "statement": "Training with sensitivity 'adjoint' works when some parameters of the vector field are not used: their gradient is zero.", "quantifier": "all vector fields and parameter shapes", "why_tests_cant": "all shapes of unused parameters", "anchors": ["torchdyn/numerics/sensitivity.py:_gather_odefunc_adjoint"]}
{"id": "C68", "title": "Gradient with respect to t_span", "statement": "The adjoint returns for t_span a gradient of the shape of t_span whose first and last entries are the derivatives of the loss with respect to the initial and the final time.", "quantifier": "all vector fields and grids", "why_tests_cant": "all grids", "anchors": ["torchdyn/numerics/sensitivity.py:_gather_odefunc_adjoint"]}
{"id": "C69", "title": "Interpolated adjoint with adaptive solvers", "statement": "The interpolated adjoint returns the gradient of any loss of the states it returned, also when an adaptive solver returned more states than t_span has entries.", "quantifier": "all losses and vector fields", "why_tests_cant": "all losses of intermediate states", "anchors": ["torchdyn/numerics/sensitivity.py:_gather_odefunc_interp_adjoint"]}
{"id": "C70", "title": "Adjoint gradient of parameters", "statement": "For vector fields M x + N p + c(t) and the fixed-step Runge-Kutta solvers the adjoint returns exactly the gradient of any loss of the returned trajectory with respect to the parameters p.", "quantifier": "all dimensions, matrices, grids, loss gradients, solvers euler, midpoint, rk4", "why_tests_cant": "all dimensions and grids", "anchors": ["torchdyn/numerics/sensitivity.py:_gather_odefunc_adjoint"]}
{"id": "C71", "title": "Galerkin layers without bias", "statement": "GalLinear(bias=False) computes x W(t)^T without an added bias.", "quantifier": "all sizes, degrees, bases, inputs", "why_tests_cant": "every forward fails, no test uses bias=False", "anchors": ["torchdyn/nn/galerkin.py:GalLinear.forward", "torchdyn/nn/galerkin.py:GalLinear.__init__"]}
{"id": "C72", "title": "Adaptive radial bases", "statement": "Radial bases with adaptive=True evaluate the basis with the trainable centers and scales.", "quantifier": "all degrees, centers, scales, times", "why_tests_cant": "every forward fails, no test uses adaptive=True", "anchors": ["torchdyn/nn/galerkin.py:GaussianRBF", "torchdyn/nn/galerkin.py:VanillaRBF", "torchdyn/nn/galerkin.py:MultiquadRBF"]}
{"id": "C73", "title": "Radial bases use the given centers and scales", "statement": "GaussianRBF/VanillaRBF/MultiquadRBF evaluate their basis for the centers and eps_scales passed to the constructor.", "quantifier": "all degrees, centers, scales, times", "why_tests_cant": "wrong values without any error", "anchors": ["torchdyn/nn/galerkin.py:GaussianRBF.__init__", "torchdyn/nn/galerkin.py:VanillaRBF.__init__", "torchdyn/nn/galerkin.py:MultiquadRBF.__init__"]}
{"id": "C74", "title": "Fourier layers are periodic in depth", "statement": "The Fourier basis of a layer consists of cos(k s), sin(k s) for k = 0, ..., deg-1, hence is 2 pi-periodic in s.", "quantifier": "all degrees and arguments", "why_tests_cant": "all degrees", "anchors": ["torchdyn/nn/galerkin.py:Fourier.forward", "torchdyn/nn/galerkin.py:GalLayer.calculate_weights"]}
{"id": "C75", "title": "CNF with networks that couple rows", "statement": "The divergence column of a CNF is minus the trace of the Jacobian of each output row with respect to its input row, also for networks that couple the rows of a batch (batch normalisation).", "quantifier": "all networks and batches", "why_tests_cant": "wrong values without any error", "anchors": ["torchdyn/models/cnf.py:autograd_trace"]}
{"id": "C76", "title": "HNN in odd dimension", "statement": "HNN either rejects states of odd dimension or preserves its energy.", "quantifier": "all odd dimensions", "why_tests_cant": "wrong dynamics without any error", "anchors": ["torchdyn/models/energy.py:HNN.forward"]}
{"id": "C77", "title": "ConservativeLinearSNF preserves its energy", "statement": "ConservativeLinearSNF(energy, J) returns a field that preserves the energy.", "quantifier": "all energies and interconnections", "why_tests_cant": "every forward fails, no test calls it", "anchors": ["torchdyn/models/energy.py:ConservativeLinearSNF.forward"]}
{"id": "C78", "title": "HybridNeuralDE", "statement": "HybridNeuralDE alternates jump and flow over the sequence and returns out of all hidden states or its last entry; with reverse=True it does so over the reversed sequence.", "quantifier": "all sequences, jumps, flows, outputs", "why_tests_cant": "the module cannot be imported, no test uses it", "anchors": ["torchdyn/models/hybrid.py:HybridNeuralDE.forward"]}
{"id": "C79", "title": "CNF of higher order", "statement": "CNF(net, order=n) with n > 1 evaluates higher order dynamics.", "quantifier": "all networks and orders above 1", "why_tests_cant": "every forward fails, no test uses it", "anchors": ["torchdyn/models/cnf.py:CNF.forward"]}
{"id": "C80", "title": "CNF with hutch_trace as a vector field", "statement": "CNF(net, trace_estimator=hutch_trace, noise_dist) can be called, and hence integrated with odeint, without NeuralODE.", "quantifier": "all networks, states", "why_tests_cant": "tests only use it inside NeuralODE", "anchors": ["torchdyn/models/cnf.py:CNF.forward", "torchdyn/models/cnf.py:hutch_trace"]}
{"id": "C81", "title": "Gaussian data sets in any dimension", "statement": "generate_gaussians places the Gaussians on the circle of the given radius in the plane (x1, x2, 0, 0, ...) for every dim >= 2.", "quantifier": "all dim, n_samples, n_gaussians, radii, draws", "why_tests_cant": "tests use the default dimension only", "anchors": ["torchdyn/datasets/static_datasets.py:generate_gaussians"]}
{"id": "C82", "title": "ToyDataset names", "statement": "ToyDataset.generate(n, name) calls the generator of that name and raises an error for an unknown name.", "quantifier": "all names", "why_tests_cant": "a misspelled name fails only where the result is used", "anchors": ["torchdyn/datasets/static_datasets.py:ToyDataset.generate"]}
{"id": "C83", "title": "Linear invariants", "statement": "If w.f(t, y) = 0 for all t and y, every state returned by euler, midpoint, rk4, dopri5 and tsit5 has the same w.y as x; if w.f(t, y) = a, then w.y grows at rate a; constant fields are integrated exactly.", "quantifier": "all fields, weights w, grids, tolerances, options", "why_tests_cant": "tests compare a few trajectories with tolerances", "anchors": ["torchdyn/numerics/odeint.py:odeint", "torchdyn/numerics/solvers/ode.py"]}
{"id": "C84", "title": "Equilibria", "statement": "From a state x with f(t, x) = 0 for all t the built-in solvers return x at every time, and the adaptive ones terminate.", "quantifier": "all fields, equilibria, grids, tolerances, options", "why_tests_cant": "an adaptive solver may divide by a zero error or rate", "anchors": ["torchdyn/numerics/odeint.py:odeint", "torchdyn/numerics/utils.py:init_step", "torchdyn/numerics/utils.py:adapt_step"]}
{"id": "C85", "title": "Affine changes of coordinates", "statement": "If g(t, M y + c) = M f(t, y), the fixed-step solve of g from M x + c returns the images M y + c of the states of the solve of f from x.", "quantifier": "all fields, matrices M (also singular or rectangular), grids, save_at", "why_tests_cant": "tests fix one set of coordinates", "anchors": ["torchdyn/numerics/odeint.py:_fixed_odeint", "torchdyn/numerics/solvers/ode.py"]}
{"id": "C86", "title": "Samples of a batch are independent", "statement": "Solving a batch of initial conditions gives for each sample what solving that sample alone gives.", "quantifier": "all fields acting on each sample separately, batches, solvers", "why_tests_cant": "tests solve a batch or a sample, never compare both", "anchors": ["torchdyn/numerics/odeint.py:odeint", "torchdyn/numerics/utils.py:hairer_norm"]}
{"id": "C87", "title": "Reordering and copying the entries of the state", "statement": "Reordering the entries of the state, or repeating each of them the same number of times, reorders or repeats the entries of every returned state, for fixed-step and adaptive solvers.", "quantifier": "all fields that commute with the reordering, states, grids, tolerances, solvers, options", "why_tests_cant": "adaptive solvers couple the entries through the norm of the error", "anchors": ["torchdyn/numerics/odeint.py:odeint", "torchdyn/numerics/utils.py:hairer_norm"]}
{"id": "C88", "title": "Shifting time", "statement": "If g(t, y) = f(t - s, y), the solve of g on the grid shifted by s returns the states of the solve of f on the grid.", "quantifier": "all fields, shifts, grids, tolerances, solvers", "why_tests_cant": "tests start at time 0", "anchors": ["torchdyn/numerics/odeint.py:odeint", "torchdyn/numerics/odeint.py:_fixed_odeint", "torchdyn/numerics/utils.py:init_step"]}
{"id": "C89", "title": "NeuralSDE integrates the SDE of its drift and diffusion", "statement": "forward of a first-order NeuralSDE with sensitivity 'autograd' and a Brownian motion returns the grid and the trajectory of the chosen scheme for its drift and diffusion, each written f(x) or f(t, x).", "quantifier": "all drifts, diffusions, batches, Brownian paths, grids, accepted solvers", "why_tests_cant": "no test runs NeuralSDE; callables are dispatched by their signature", "anchors": ["torchdyn/core/neuralde.py:NeuralSDE", "torchdyn/core/defunc.py:SDEFunc", "torchdyn/core/problems.py:SDEProblem"]}
{"id": "C90", "title": "NeuralSDE works with its default arguments", "statement": "NeuralSDE(drift, diffusion)(x) returns a sample path.", "quantifier": "all drifts, diffusions, batches", "why_tests_cant": "no test runs NeuralSDE", "anchors": ["torchdyn/core/neuralde.py:NeuralSDE"]}
{"id": "C91", "title": "NeuralSDE supports adjoint sensitivities", "statement": "forward of a NeuralSDE with sensitivity 'adjoint' or 'interpolated_adjoint' returns the same values as with 'autograd'.", "quantifier": "all models, batches, sensitivities", "why_tests_cant": "no test runs NeuralSDE", "anchors": ["torchdyn/core/neuralde.py:NeuralSDE"]}
{"id": "C92", "title": "DepthCat in drift or diffusion", "statement": "A DepthCat layer in the drift of a NeuralSDE appends the current time, as in a NeuralODE.", "quantifier": "all networks behind the layer, batches, times", "why_tests_cant": "no test runs NeuralSDE", "anchors": ["torchdyn/core/defunc.py:SDEFunc", "torchdyn/nn/node_layers.py:DepthCat"]}
{"id": "C93", "title": "Benchmark systems are the textbook systems", "statement": "Lorenz, VanDerPol and ODEProblem4 compute, row by row, the Lorenz (10, 28, 8/3), van der Pol and Rabinovich-Fabrikant (0.87, 1.1) equations.", "quantifier": "all batches, times, parameters", "why_tests_cant": "a wrong sign or index still gives a plausible trajectory", "anchors": ["torchdyn/numerics/systems.py"]}
{"id": "C94", "title": "Benchmark systems keep the shape of the state", "statement": "Lorenz and VanDerPol return a tensor of the shape of the state or raise.", "quantifier": "all batches of any width", "why_tests_cant": "tests use the right width", "anchors": ["torchdyn/numerics/systems.py:Lorenz", "torchdyn/numerics/systems.py:VanDerPol"]}
{"id": "C95", "title": "Qualitative behaviour of the benchmark systems", "statement": "The Lorenz field vanishes exactly at the origin and at (c, c, 27) with c^2 = 72, is symmetric under (x, y) -> (-x, -y) and dissipates x^2 + y^2 + (z - 38)^2 outside an ellipsoid; solving from an equilibrium stays there; the van der Pol energy changes at rate mu (1 - x^2) y^2.", "quantifier": "all states, times, solvers, tolerances", "why_tests_cant": "symmetries and equilibria hold for all states", "anchors": ["torchdyn/numerics/systems.py:Lorenz", "torchdyn/numerics/systems.py:VanDerPol", "torchdyn/numerics/odeint.py:odeint"]}
{"id": "C96", "title": "Benchmark systems are usable as vector fields", "statement": "Every class of systems.py can be the vector field of a NeuralODE or an ODEProblem: it is evaluated at the time and the state.", "quantifier": "all systems, parameters, batches, times", "why_tests_cant": "tests pass the systems to odeint directly", "anchors": ["torchdyn/numerics/systems.py", "torchdyn/core/utils.py:standardize_vf_call_signature"]}
{"id": "C97", "title": "Fourier systems", "statement": "FourierSystem, StiffFourierSystem and CoupledFourierSystem do not depend on the state, return for a vector of times the rows of the scalar times, and are bounded by the sum of their amplitudes.", "quantifier": "all amplitudes, phases, frequencies, times, sizes", "why_tests_cant": "parameters are sampled at random", "anchors": ["torchdyn/numerics/systems.py:FourierSystem", "torchdyn/numerics/systems.py:CoupledFourierSystem"]}
{"id": "C98", "title": "MatMulBoundedSystem is bounded", "statement": "Every entry of the output of MatMulBoundedSystem lies strictly between -1 and 1; it is tanh of MatMulSystem with the same weights.", "quantifier": "all weights, numbers of layers, states", "why_tests_cant": "weights are random", "anchors": ["torchdyn/numerics/systems.py:MatMulBoundedSystem"]}
{"id": "C99", "title": "Arguments of the MatMul systems", "statement": "The arguments dim, hdim, layers and activation of MatMulSystem and MatMulBoundedSystem determine the network.", "quantifier": "all arguments", "why_tests_cant": "ignored arguments raise no error", "anchors": ["torchdyn/numerics/systems.py:MatMulSystem"]}
{"id": "C100", "title": "Solver templates", "statement": "A solver can be derived from BaseExplicit or BaseImplicit by calling their constructor.", "quantifier": "all stepping classes", "why_tests_cant": "the templates are not used in the package", "anchors": ["torchdyn/numerics/solvers/templates.py:BaseExplicit", "torchdyn/numerics/solvers/templates.py:BaseImplicit"]}
{"id": "C101", "title": "Base methods of multiple-shooting solvers", "statement": "The coarse and the fine method of a multiple-shooting solver may be given by name or as solver objects.", "quantifier": "all methods", "why_tests_cant": "tests give names", "anchors": ["torchdyn/numerics/solvers/templates.py:MultipleShootingDiffeqSolver"]}
{"id": "C102", "title": "Dependence on initial state and field", "statement": "If two vector fields differ by at most eps, the first is Lipschitz with constant L, and the initial states differ by at most D, the fixed-step trajectories on a common grid with steps at most H differ at time t by at most exp(Lam (t - t0)) (D + (t - t0) beta eps), with constants Lam, beta of the method (Euler: L and 1; Midpoint: L (1 + L H / 2) and 1 + L H / 2; RungeKutta4: the analogous cubic polynomials).", "quantifier": "all fields, states, grids, fixed-step solvers", "why_tests_cant": "a bound over all perturbations and all numbers of steps", "anchors": ["torchdyn/numerics/odeint.py:_fixed_odeint", "torchdyn/numerics/solvers/ode.py"]}
{"id": "C103", "title": "Fixed-step solvers converge with their declared order", "statement": "On smooth Lipschitz problems the error of Euler, Midpoint and RungeKutta4 is at most a constant (independent of the grid) times the first, second and fourth power of the largest step.", "quantifier": "all smooth Lipschitz problems, all grids", "why_tests_cant": "an asymptotic statement over all smooth fields; tests compare two solvers on one field", "anchors": ["torchdyn/numerics/solvers/ode.py:Euler", "torchdyn/numerics/solvers/ode.py:Midpoint", "torchdyn/numerics/solvers/ode.py:RungeKutta4"]}
{"id": "C104", "title": "dopri5 converges with order five", "statement": "On smooth Lipschitz problems the error of dopri5 without interpolation is at most a constant times the fifth power of the largest gap between returned times; the constant does not depend on the grid nor on the tolerances.", "quantifier": "all smooth Lipschitz problems, grids, tolerances, options, sequences of accepted and rejected steps", "why_tests_cant": "an asymptotic statement over all smooth fields", "anchors": ["torchdyn/numerics/odeint.py:_adaptive_odeint", "torchdyn/numerics/solvers/ode.py:DormandPrince45", "torchdyn/numerics/solvers/_constants.py:construct_dopri5"]}
{"id": "C105", "title": "A solve reads the field only through its calls", "statement": "The result of odeint (times, states, exception or non-termination) and its sequence of calls depend on the vector field only through the values at the calls it makes: a field with the same values there is solved identically. The same holds for odeint_hybrid.", "quantifier": "all fields, all explicit built-in solvers and hypersolvers, all options, any arithmetic (exact or floating point)", "why_tests_cant": "a statement about pairs of fields", "anchors": ["torchdyn/numerics/odeint.py:odeint", "torchdyn/numerics/odeint.py:odeint_hybrid", "torchdyn/numerics/solvers/ode.py", "torchdyn/numerics/solvers/hyper.py"]}
{"id": "C106", "title": "Tolerances bound the global error", "statement": "The error of an adaptive solve is at most a constant times atol + rtol |x|, with a constant that depends only on the Lipschitz constant of the field in the state and the length of the interval.", "quantifier": "all Lipschitz fields, all tolerances, all grids", "why_tests_cant": "needs a field adapted to the evaluation points of the solve", "anchors": ["torchdyn/numerics/odeint.py:_adaptive_odeint", "torchdyn/numerics/odeint.py:odeint"]}
{"id": "C107", "title": "Fixed-step solves in rounded arithmetic", "statement": "With every arithmetic operation rounded (float32 and float64, without overflow) a fixed-step solve on a grid whose gaps exceed the tolerance that identifies times returns exactly the requested times and one state for each, and its clock does not drift: its distance to the requested time is bounded by the rounding error of one step, however many steps were made.", "quantifier": "all rounding functions with relative error up to 1e-6, all fields, grids, Euler, Midpoint and RungeKutta4", "why_tests_cant": "a statement about all rounding errors and all grids; a drifting clock would lose states only on long grids", "anchors": ["torchdyn/numerics/odeint.py:_fixed_odeint", "torchdyn/numerics/odeint.py:odeint"]}
{"id": "C108", "title": "Accuracy of Euler in rounded arithmetic", "statement": "On Lipschitz problems the state returned by Euler in rounded arithmetic, with a vector field computed up to an error eps, differs from the exact solution by at most exp(L S) (e0 + S (eps + M H') + k c) + F tau at the k-th requested time: the bound of exact arithmetic plus a contribution of the size of the unit roundoff per step.", "quantifier": "all rounding functions, Lipschitz fields, approximately computed fields, grids", "why_tests_cant": "a bound over all rounding errors and fields", "anchors": ["torchdyn/numerics/odeint.py:_fixed_odeint", "torchdyn/numerics/solvers/ode.py:Euler"]}
{"id": "C109", "title": "Parareal converges superlinearly", "statement": "If the coarse flow over one interval is Lipschitz with constant beta >= 1, the difference of the fine and the coarse flow with constant delta, and the guess is within E of the sequential fine solution, then after k passes of mszero row m is within binomial(m, k) delta^k beta^(m-k) E of it.", "quantifier": "all fields, fixed-step coarse and fine methods, guesses, numbers of passes and rows", "why_tests_cant": "a rate over all methods and numbers of passes", "anchors": ["torchdyn/numerics/solvers/ode.py:MSZero.root_solve"]}
{"id": "C110", "title": "SDE solvers converge path by path for additive noise", "statement": "For every Brownian path W and solution X of dX = f(t, X) dt + sigma dW along it, the states returned by sdeint are within exp(L (t - t0)) (e0 + (t - t0) w) of X(t), where w is the oscillation of the drift along X over one step.", "quantifier": "all Lipschitz drifts, constant diffusions, paths, grids, all accepted solvers", "why_tests_cant": "a bound over all sample paths, including non-differentiable ones", "anchors": ["torchdyn/numerics/sdeint.py:sdeint", "torchdyn/numerics/solvers/sde.py"]}
{"id": "C111", "title": "Adaptive solves never report NaN", "statement": "In floating point, an accepted step of dopri5 or tsit5 never produces NaN: the error ratio is NaN when the new state is, and NaN fails the acceptance test. The states returned after the initial one are free of NaN, and a solve started from a state with NaN in it does not return.", "quantifier": "all fields that keep the size of the state, all grids, tolerances, in binary64 with NaN and infinities", "why_tests_cant": "NaN has to arise inside a step, for every field and step size", "anchors": ["torchdyn/numerics/odeint.py:_adaptive_odeint", "torchdyn/numerics/utils.py:hairer_norm", "torchdyn/numerics/odeint.py:odeint"]}
{"id": "C112", "title": "Dense output of dopri5 keeps the order of the method", "statement": "With the interpolator, all states returned by dopri5, at requested times crossed by a step as well as at step ends, are within C H^5 + d H of a smooth solution, H the largest accepted step; d is an explicit constant of the order of 10^-14 that comes from the mid-point weights being written with 16 digits.", "quantifier": "all fields and smooth solutions, all grids, tolerances, step sequences", "why_tests_cant": "an order of convergence is a statement about all step sizes; a wrong weight of the mid-point state only shows as a slower rate", "anchors": ["torchdyn/numerics/odeint.py:_adaptive_odeint", "torchdyn/numerics/interpolators.py:FourthOrder", "torchdyn/numerics/solvers/_constants.py:construct_4th"]}
{"id": "C113", "title": "A Galerkin convolution is a convolution with depth-dependent weights", "statement": "DepthCat(1) followed by GalConv2d, for images of any size, any kernel size, stride and padding, returns the zero-padded convolution of the images with the kernel and bias obtained by expanding the coefficient array in the eigenfunctions at the current depth; hence shifting the images by multiples of the stride shifts the output.", "quantifier": "all batch sizes, channel counts, image sizes, kernel sizes, strides, paddings, depths, coefficient arrays, bases and images", "why_tests_cant": "a test compares a few sizes with torch.nn.Conv2d; wrong index arithmetic in the split of the weight vector or a wrong depth channel shows only for unequal channel counts and depths", "anchors": ["torchdyn/nn/galerkin.py:230-273", "torchdyn/nn/node_layers.py:58-71"]}
{"id": "C114", "title": "Adjoint gradients of nonlinear equations are correct to first order in the step size", "statement": "For a vector field with bounded and Lipschitz first derivatives, any fixed-step explicit Runge-Kutta solver going forward and any (possibly different) one for the adjoint, the gradient that the adjoint returns with respect to the initial state and the parameters predicts the change of the loss of the forward solve under perturbations of size E up to C |g| E (H + E), where H bounds the steps of the grid and C depends only on the two methods, the Lipschitz constant, the length of the interval and the initial speed; in particular its error against the true directional derivative of the solve is at most C |g| H.", "quantifier": "all dimensions, parameter counts, vector fields of the class, initial states, grids, loss gradients on all grid points, perturbations and pairs of consistent explicit fixed-step methods", "why_tests_cant": "the adjoint is not the exact gradient of the discrete solve for a nonlinear field, so a test can only compare within a tolerance that hides errors of the order of the tolerance; the bound shows that the discrepancy vanishes with the step size for every field", "anchors": ["torchdyn/numerics/sensitivity.py:37-83", "torchdyn/numerics/odeint.py:34-98"]}
{"id": "C115", "title": "odeint_symplectic with the leapfrog solver returns the leapfrog states", "statement": "odeint_symplectic requires the field to carry an attribute order and rejects the asynchronous leapfrog solver for order 2, before any evaluation; with a fixed-step solver it returns exactly what odeint returns (same evaluations); with the leapfrog solver the states are, along an increasing grid, the positions and velocities of the leapfrog recursion, and along a decreasing grid those of the recursion with negative steps in which all velocities have the opposite sign.", "quantifier": "all dimensions, vector fields, initial positions and velocities, grids accepted by the solver, tolerances", "why_tests_cant": "a test fixes one field and one grid; the sign convention of the velocity in reversed time only shows when velocities are inspected", "anchors": ["torchdyn/numerics/odeint.py:95-150", "torchdyn/numerics/solvers/ode.py:106-135"]}
{"id": "C116", "title": "The leapfrog solver converges with second order", "statement": "For a field that is Lipschitz with constant L in the state and a solution with bounded second and third derivatives, the positions returned by odeint_symplectic with the asynchronous leapfrog solver on an equally spaced grid of step h, started from the exact state and the velocity f(t0, x0), differ from the solution by at most C h^2, in either direction of time.", "quantifier": "all dimensions, Lipschitz fields, smooth solutions, equally spaced grids, initial velocities", "why_tests_cant": "an observed convergence rate on one problem does not bound the error on others, and rounding hides the rate for small steps", "anchors": ["torchdyn/numerics/odeint.py:95-150", "torchdyn/numerics/solvers/ode.py:122-135"]}
{"id": "C117", "title": "Leapfrog solves are reversible", "statement": "Solving with the asynchronous leapfrog solver over a grid and then over the flipped grid from the final state returns the states of the first solve in opposite order, in exact arithmetic for every step size.", "quantifier": "all dimensions, vector fields, initial states and grids", "why_tests_cant": "reversibility holds for any step size, however large, so it cannot be inferred from accurate solves; tests only see it up to rounding on a few grids", "anchors": ["torchdyn/numerics/odeint.py:95-150", "torchdyn/numerics/solvers/ode.py:122-135"]}
{"id": "C118", "title": "odeint_symplectic with adaptive solvers", "statement": "With an adaptive solver odeint_symplectic solves the equation like odeint does, honours return_all_eval, works in both directions of time, for fields of order 1 and 2 and for the adaptive variant of the leapfrog solver.", "quantifier": "all fields, states, grids, tolerances and adaptive solvers", "why_tests_cant": "the adaptive branches are reached only by particular combinations of solver, order and direction of time that no test exercises", "anchors": ["torchdyn/numerics/odeint.py:136-150", "torchdyn/numerics/odeint.py:326-408", "torchdyn/numerics/solvers/ode.py:122-135"]}
{"id": "C119", "title": "Adjoint gradients obey the chain rule for parameters", "statement": "If the parameters of a vector field are a linear function of other parameters (tied, scaled, split, partly frozen or unused weights), the adjoint method with a fixed-step Runge-Kutta solver returns exactly the correspondingly transformed parameter gradient, and the gradients of the initial state and of the times do not change. In particular the gradient of one parameter does not depend on which other parameters are tracked, and the gradient of an unused parameter is zero.", "quantifier": "all dimensions, fields, parameter matrices, solution grids, output gradients, fixed-step explicit Runge-Kutta solvers and integral losses", "why_tests_cant": "needs two networks with matching weights; slicing errors in the flattened adjoint state show only for particular layouts of the parameters", "anchors": ["torchdyn/numerics/sensitivity.py:44-98"]}
{"id": "C120", "title": "Adjoint tolerances control the parameter gradient", "statement": "With seminorm=False (the default of ODEProblem) the steps of an adaptive adjoint solve meet atol_adjoint and rtol_adjoint in all components of the adjoint system, so that the parameter gradient converges to the true one as the tolerances decrease.", "quantifier": "all fields, parameters, tolerances and output gradients", "why_tests_cant": "gradient checks use loose tolerances and fields for which the state error dominates; the parameter error is invisible unless the state and the adjoint are integrated exactly", "anchors": ["torchdyn/core/problems.py:31", "torchdyn/core/problems.py:48", "torchdyn/numerics/sensitivity.py:81-84"]}
{"id": "C121", "title": "Parameters tracked by ODEProblem", "statement": "The parameters passed as optimizable_params are tracked by the problem together with those of the vector field; vf_params is the concatenation of all tracked parameters and is never empty; building a problem does not affect problems built from the same field later.", "quantifier": "all lists of own and additional parameters, all sequences of constructions", "why_tests_cant": "a test uses a field with or without parameters, not both, and a fresh field for every problem", "anchors": ["torchdyn/core/problems.py:80-105", "torchdyn/core/problems.py:107-111"]}
{"id": "C122", "title": "Imports succeed in every order and mean the same", "statement": "Every module of torchdyn can be imported, before or after any others, and the names that a module imports or defines stand for the same objects whatever was imported before. In particular SDEProblem and NeuralSDE integrate whichever part of the package the user imported first.", "quantifier": "all modules of the package and all sequences of import statements", "why_tests_cant": "a test process imports the package once, in one order; the test suite starts with torchdyn.core", "anchors": ["torchdyn/numerics/__init__.py:13-17", "torchdyn/numerics/sdeint.py:7", "torchdyn/core/__init__.py:13-15", "torchdyn/core/problems.py:14", "torchdyn/core/neuralde.py:16", "torchdyn/models/hybrid.py:22"]}
{"id": "C123", "title": "States that are dictionaries of tensors", "statement": "The initial state may be a dictionary of tensors (Union[Tensor, Dict]); with a fixed-step solver odeint returns, under every key, the stacked trajectory of that entry at the requested times. This holds for the solvers of the package and for custom ones.", "quantifier": "all dictionaries, vector fields, grids, save_at and fixed-step solvers", "why_tests_cant": "no test uses a dictionary; the stacking code takes the keys of the last state and the entries of all of them", "anchors": ["torchdyn/numerics/odeint.py:436-439", "torchdyn/numerics/sdeint.py:107-110", "torchdyn/numerics/odeint.py:62-64", "torchdyn/numerics/solvers/templates.py:29-40"]}
{"id": "C124", "title": "Integrals of polynomials in time are exact up to the order of the solver", "statement": "If the vector field depends on time only and every coordinate is a polynomial in t, the returned states are the exact integrals: degree 0 for euler, 1 for midpoint, 3 for rk4 and 4 for dopri5, for every grid and every sequence of accepted steps.", "quantifier": "all polynomials, initial states, increasing grids, tolerances and step sequences", "why_tests_cant": "tests use autonomous systems, where the stage times never matter; a wrong stage time shows only in time-dependent fields", "anchors": ["torchdyn/numerics/solvers/ode.py:37-121", "torchdyn/numerics/solvers/_constants.py:14-35"]}
{"id": "C125", "title": "Linear systems are advanced by matrix polynomials", "statement": "On a linear system y' = A y every state returned by a built-in explicit solver is obtained from the initial state by a product of polynomials in h A, the stability polynomial of the method, over step sizes that sum to the elapsed time; with a fixed-step solver the step sizes are the spacings of the grid.", "quantifier": "all linear maps on vectors of any length, initial states, grids and tolerances", "why_tests_cant": "a test compares with a tolerance at one step size; the stability polynomial determines behaviour at all step sizes", "anchors": ["torchdyn/numerics/solvers/ode.py:37-121", "torchdyn/numerics/solvers/_constants.py:14-35", "torchdyn/numerics/odeint.py:407-440", "torchdyn/numerics/odeint.py:211-257"]}
{"id": "C126", "title": "Stability limits of the fixed-step solvers", "statement": "On y' = - lambda y the solution of euler and midpoint never exceeds its initial value if lambda h <= 2 for all spacings h and grows if lambda h > 2; for rk4 the limit lies between 2.78 and 2.79. On a harmonic oscillator of frequency omega the energy is multiplied per step by 1 + z^2 (euler), 1 + z^4/4 (midpoint), 1 - z^6/72 + z^8/576 (rk4) with z = omega h: it grows in every step of euler and midpoint, and never grows with rk4 if z^2 <= 8.", "quantifier": "all rates, frequencies, initial states and increasing grids", "why_tests_cant": "instability shows only at the step sizes where it sets in, after enough steps to be visible", "anchors": ["torchdyn/numerics/solvers/ode.py:37-88", "torchdyn/numerics/odeint.py:407-440"]}
{"id": "C127", "title": "The mean of Ito solutions is the solution of the drift", "statement": "If the drift is affine in the state, the average of the solutions of the Ito solvers (euler, milstein_ito) over independent Brownian increments with mean zero and variance h equals, at every time, the Euler solution of the drift alone computed by odeint, whatever the diffusion.", "quantifier": "all affine drifts, all diffusions, dimensions, initial states, grids and finite distributions of the increments", "why_tests_cant": "a test would have to average over many paths and could only see a bias larger than the sampling error", "anchors": ["torchdyn/numerics/solvers/sde.py:19-35", "torchdyn/numerics/solvers/sde.py:62-98", "torchdyn/numerics/sdeint.py:92-116"]}
{"id": "C128", "title": "The mean of Stratonovich solutions has the Ito correction", "statement": "For a diffusion beta x per component and an affine drift, the average of the solutions of the Stratonovich solvers (eulerHeun, milstein_stratonovich) over independent increments with mean zero and variance h is the Euler solution of the drift plus beta^2 x / 2.", "quantifier": "all affine drifts, linear diffusions, dimensions, initial states, grids and finite distributions of the increments", "why_tests_cant": "the difference is a bias of order h^(3/2) per step, below the sampling error of a test", "anchors": ["torchdyn/numerics/solvers/sde.py:38-60", "torchdyn/numerics/solvers/sde.py:77-107", "torchdyn/numerics/sdeint.py:92-116"]}
{"id": "C129", "title": "Mean-square stability of Euler-Maruyama", "statement": "For dX = (a X + c) dt + (b X + sigma) dW the averages of X and X^2 over independent increments obey the textbook recursions. For c = sigma = 0 the mean square is multiplied by (1 + a h)^2 + b^2 h per step: it never grows if 2 a + b^2 + a^2 h <= 0 for all spacings and grows in every step if it is positive.", "quantifier": "all coefficients, initial states, grids and finite distributions of the increments", "why_tests_cant": "moments need an average over all paths; a single path says nothing about stability in mean square", "anchors": ["torchdyn/numerics/solvers/sde.py:19-35", "torchdyn/numerics/sdeint.py:92-116"]}
{"id": "C130", "title": "The log-density of a normalizing flow belongs to the map it computes", "statement": "Solving a CNF with odeint from the state (l, z) returns (l', phi(z)), and l' is the log-density at phi(z) of the samples moved by the returned map phi: l' = l - ln |det phi'(z)|.", "quantifier": "all networks, samples, grids and built-in solvers", "why_tests_cant": "a test compares with the flow at small steps, where both agree; the density of the discrete map needs its derivative", "anchors": ["torchdyn/models/cnf.py:19-24", "torchdyn/models/cnf.py:55-66", "torchdyn/numerics/odeint.py:411-438"]}
{"id": "C131", "title": "Fixed-step solvers keep nonnegative states nonnegative", "statement": "If no entry of a nonnegative state decreases faster than at the relative rate lambda (concentrations, populations), a fixed-step solver with lambda h <= 1 for all spacings h returns nonnegative states from a nonnegative initial state.", "quantifier": "all such fields, dimensions, initial states and grids; euler and midpoint", "why_tests_cant": "a test sees a few kinetics; violations need a field that grows early in the step and decays later", "anchors": ["torchdyn/numerics/solvers/ode.py:61-73", "torchdyn/numerics/solvers/ode.py:75-87", "torchdyn/numerics/odeint.py:411-438"]}
{"id": "C132", "title": "Euler solutions of dissipative systems approach each other", "statement": "If (f(t,y) - f(t,z)) . (y - z) <= - mu |y - z|^2 and |f(t,y) - f(t,z)| <= L |y - z|, the squared distance of two Euler solutions on the same grid is at most the initial one times the product of 1 - 2 mu h + L^2 h^2. With L^2 h <= 2 mu trajectories never move apart.", "quantifier": "all dissipative fields, dimensions, pairs of initial states and grids", "why_tests_cant": "quantifies over pairs of trajectories and all fields of the class", "anchors": ["torchdyn/numerics/solvers/ode.py:61-73", "torchdyn/numerics/odeint.py:411-438"]}
{"id": "C133", "title": "The log of root_find describes the run", "statement": "The logger returned by root_find with verbose=True holds the returned z, the last residual and step, the number of iterations, the last step size alpha and objective phi of the line search, and the termination condition exactly if the tolerances stopped the run. Logging does not change the result.", "quantifier": "all functions, initial points, tolerances, methods, line searches and iteration limits", "why_tests_cant": "the loop has several exits, and entries that are never written look like empty histories", "anchors": ["torchdyn/numerics/solvers/root.py:259-300", "torchdyn/numerics/utils.py:112-117"]}
{"id": "C134", "title": "RootLogger.permanent_log appends a complete record or nothing", "statement": "permanent_log extends the history of every key of the logger by the logged values; if a key is missing it raises KeyError and the logger is unchanged.", "quantifier": "all loggers and records", "why_tests_cant": "the state after a failed call is rarely looked at", "anchors": ["torchdyn/numerics/utils.py:112-121"]}
{"id": "C135", "title": "Double-precision problems are solved with double-precision coefficients", "statement": "With float64 data the Butcher tableau is accurate to float64: x' = v with a constant v is integrated with a relative error of at most 2^-51 (apart from rounding of the arithmetic), whether the solver is given to odeint by name or belongs to an ODEProblem or NeuralODE.", "quantifier": "rk4, dopri5 and tsit5; all states, velocities, grids and tolerances", "why_tests_cant": "the error of 1e-8 lies below the tolerances of usual tests and does not shrink with the step size or the tolerances", "anchors": ["torchdyn/numerics/solvers/ode.py:325-345", "torchdyn/numerics/solvers/templates.py:30-36", "torchdyn/numerics/solvers/_constants.py:20-60", "torchdyn/core/problems.py:56-61", "torchdyn/numerics/odeint.py:63-64"]}
{"id": "C136", "title": "Solving in one dtype does not change later solves in another", "statement": "A solver object may be used with data of several dtypes: the coefficients used in a solve depend on the dtype of its data only, not on the solves before.", "quantifier": "rk4, dopri5 and tsit5; all sequences of earlier dtypes and all later dtypes", "why_tests_cant": "needs a history of calls with different dtypes on one object; the loss of precision is silent", "anchors": ["torchdyn/numerics/solvers/templates.py:30-36", "torchdyn/numerics/odeint.py:63-71", "torchdyn/core/problems.py:56-61"]}
{"id": "C137", "title": "An integral loss is the integral of the loss along the trajectory and does not alter it", "statement": "A NeuralODE with an integral loss propagated in the first column of the state (sensitivity 'autograd') returns the states it would return without the loss, and in the first column the initial value plus the quadrature formula of the solver applied to the loss along these states.", "quantifier": "all vector fields and losses of the states, batches, built-in solvers, increasing grids, tolerances", "why_tests_cant": "all fields, losses, solvers and grids; tests only check that training with a loss runs", "anchors": ["torchdyn/core/defunc.py:64-78", "torchdyn/core/neuralde.py:76-122", "torchdyn/numerics/odeint.py:30-110", "torchdyn/numerics/solvers/ode.py:40-200"]}
{"id": "C138", "title": "The interpolated adjoint follows the stored solution", "statement": "With sensitivity='interpolated_adjoint' the backward pass solves the adjoint equation along a smooth path through the states returned by the forward solve, for states of every shape and for both directions of time.", "quantifier": "all fields and their vector-Jacobian products, state shapes, grids, loss gradients and fixed-step solvers", "why_tests_cant": "gradients must be compared with an independent adjoint solve along the path; for linear fields the path has no influence", "anchors": ["torchdyn/numerics/sensitivity.py:104-161", "torchdyn/numerics/odeint.py:66-68"]}
{"id": "C139", "title": "dense_output evaluates an interpolant of the solution", "statement": "dense_output(sol, t_sol, t_eval) returns values of an interpolant through the solution points at the times t_eval.", "quantifier": "all solutions of at least two times and all evaluation points", "why_tests_cant": "the function is exercised by no test; that it fails for every argument needs the argument order of a library of another project", "anchors": ["torchdyn/numerics/utils.py:66-73", "setup.py:28", "pyproject.toml:15"]}
{"id": "C140", "title": "Event callbacks can be held by modules", "statement": "EventCallback and StochasticEventCallback are nn.Modules: a module that holds callbacks can list its modules and parameters (each once), be switched between train() and eval() and be moved by to(), and two callbacks are equal only if they are the same object.", "quantifier": "all module trees with shared submodules, all classes derived from the callback classes, all places of the callbacks in the tree", "why_tests_cant": "tests pass callbacks to odeint_hybrid in a list and never train them", "anchors": ["torchdyn/numerics/utils.py:84-111"]}
{"id": "C141", "title": "Hybrid solves return the requested times when events fire", "statement": "The times returned by odeint_hybrid contain every time of t_span also when events fire (before and after the jumps), and the solve starts at the first and ends at the last of them.", "quantifier": "all fields, callbacks, tolerances and increasing t_span", "why_tests_cant": "tests of hybrid solves plot the trajectory or use a t_span with two times", "anchors": ["torchdyn/numerics/odeint.py:228-321"]}
{"id": "C142", "title": "Events are triggered by accepted steps only", "statement": "odeint_hybrid applies the jump of an event only if the event condition is met by a solution computed within the tolerances: if the exact solution stays away from the event set by a margin that the tolerances can resolve, no jump happens.", "quantifier": "all fields, callbacks and tolerances", "why_tests_cant": "the trial step that triggers an event must be inaccurate, which does not happen in the bouncing ball tests", "anchors": ["torchdyn/numerics/odeint.py:240-292"]}
{"id": "C143", "title": "Backpropagation through fixed-step solves is exact", "statement": "If autograd differentiates the vector field (and, for hypersolvers, the correction network) correctly in state and parameters, then backpropagating through odeint with a fixed-step solver gives the exact derivatives of the returned states with respect to the initial state and the parameters, for every grid and every save_at; a solve raises with derivatives exactly if it raises without.", "quantifier": "all differentiable fields, correction networks, initial states, grids and save_at; euler, midpoint, rk4 and their hypersolvers", "why_tests_cant": "gradient tests compare with finite differences or the adjoint at a few points, up to a tolerance", "anchors": ["torchdyn/numerics/odeint.py:411-446", "torchdyn/numerics/solvers/ode.py:49-121", "torchdyn/numerics/solvers/hyper.py:17-47"]}
{"id": "C144", "title": "Gradients flow through events of hybrid solves", "statement": "Backpropagating through odeint_hybrid gives the derivatives of the returned states also when events fire: the state after a jump depends on the initial state and the parameters through the state before the jump, and so does its gradient.", "quantifier": "all differentiable fields, events and jump maps, tolerances and t_span", "why_tests_cant": "gradients are finite and have the right shape; they are only too small, and training still runs", "anchors": ["torchdyn/numerics/odeint.py:252-292"]}
{"id": "C145", "title": "The error of a hypersolver is the error of its network", "statement": "If along the exact solution the network of a hypersolver misses the residual of its base solver, divided by dt^(order+1), by at most delta, then the states returned by odeint differ from the solution by at most a constant times delta times the largest step to the power of the order; HyperEuler with a network close to half the second derivative is of second order up to the error of the network.", "quantifier": "all Lipschitz fields and networks, solutions, grids; HyperEuler, HyperMidpoint, HyperRungeKutta4", "why_tests_cant": "tests train a network and compare a few errors", "anchors": ["torchdyn/numerics/solvers/hyper.py:17-47", "torchdyn/numerics/odeint.py:411-443"]}
{"id": "C146", "title": "Hypersolvers integrate backwards in time", "statement": "For a decreasing t_span a hypersolver takes negative steps: the correction is dt^(order+1) times the network at the current time and state, as for increasing t_span.", "quantifier": "all fields, networks and decreasing t_span", "why_tests_cant": "tests of hypersolvers integrate forward in time", "anchors": ["torchdyn/numerics/odeint.py:54-58", "torchdyn/numerics/solvers/hyper.py:17-47"]}
{"id": "C147", "title": "Hypersolvers work with adjoint sensitivities", "statement": "A problem that is solved with a hypersolver can be differentiated with sensitivity='adjoint': whenever the forward pass returns, the backward pass returns a gradient.", "quantifier": "all fields, networks for the states of the equation, states, parameters and t_span", "why_tests_cant": "no test combines hypersolvers with adjoint sensitivities", "anchors": ["torchdyn/core/problems.py:58-61", "torchdyn/numerics/sensitivity.py:81-93", "torchdyn/numerics/solvers/hyper.py:24-26"]}
{"id": "C148", "title": "Recording gradients does not change the results", "statement": "A solve with requires_grad inputs returns the same times and states, raises the same exceptions and calls the vector field at the same points as the solve without gradients.", "quantifier": "all fields, solvers, states, t_span, tolerances, options and callbacks; any arithmetic", "why_tests_cant": "tests compare values with and without gradients for a few problems", "anchors": ["torchdyn/numerics/odeint.py:29-91", "torchdyn/numerics/odeint.py:171-323", "torchdyn/numerics/solvers/ode.py:27-58"]}
{"id": "C149", "title": "save_at can be a list of numbers", "statement": "save_at may be an iterable of Python numbers instead of a tensor: a fixed-step solve then returns the same states as for the tensor of these times with the dtype of t_span.", "quantifier": "all fields, fixed-step solvers, t_span of any dtype and lists of times in t_span", "why_tests_cant": "tests pass tensors of the dtype of t_span", "anchors": ["torchdyn/numerics/odeint.py:411-424"]}
{"id": "C150", "title": "t_span can be a tensor of integers", "statement": "For integer times, such as torch.arange(3), odeint and odeint_hybrid return the same result as for the same times as floating point numbers.", "quantifier": "all fields, solvers, states, tolerances and integer t_span", "why_tests_cant": "tests use torch.linspace", "anchors": ["torchdyn/numerics/utils.py:37-54", "torchdyn/numerics/odeint.py:80-91", "torchdyn/numerics/odeint.py:221-229"]}
{"id": "C151", "title": "Solves keep the dtype of the state", "statement": "odeint and odeint_hybrid call the vector field only with states of the dtype of x and return states of that dtype, whatever the dtype of t_span (a field with float32 parameters can be solved on a float64 time grid, a float16 model stays float16).", "quantifier": "all fields that return slopes of the dtype of the state, all built-in solvers, dtypes of x and t_span, states, times and options", "why_tests_cant": "tests use float32 for states and times, or float64 for both", "anchors": ["torchdyn/numerics/odeint.py:80-91", "torchdyn/numerics/odeint.py:201-229", "torchdyn/numerics/odeint.py:341-409", "torchdyn/numerics/solvers/templates.py:17-38", "torchdyn/numerics/utils.py:37-66"]}
{"id": "C152", "title": "States may be tensors without axes", "statement": "A scalar equation can be solved with a state without axes (x = torch.tensor(1.)): odeint calls the field at the same points and returns the same values, or raises the same exceptions, as for the state with one entry (x.reshape(1)).", "quantifier": "all fields that keep the shape of the state, all built-in solvers, arithmetics, dtypes, initial values, time grids, tolerances and options", "why_tests_cant": "tests use states of shape (batch, dim)", "anchors": ["torchdyn/numerics/odeint.py:341-443", "torchdyn/numerics/solvers/ode.py:61-178", "torchdyn/numerics/solvers/_constants.py:20-46", "torchdyn/numerics/solvers/templates.py:17-38"]}
{"id": "C153", "title": "Backpropagation through implicit Euler", "statement": "With solver 'ieuler' and sensitivity 'autograd' the gradient of the states returned with respect to parameters of the field and the initial state is the derivative of the numbers returned.", "quantifier": "all fields, optimisers, arithmetics, initial states, time grids and options", "why_tests_cant": "the gradient is silently zero (None), training runs without changing anything", "anchors": ["torchdyn/numerics/solvers/ode.py:181-205", "torchdyn/numerics/odeint.py:411-443"]}
{"id": "C154", "title": "Backpropagation through multiple shooting", "statement": "The gradients of the states returned by odeint_mshooting with respect to parameters of the field and the initial state are the derivatives of the numbers returned.", "quantifier": "all fields with correct derivatives, coarse and fine methods, initial states, grids, first guesses, fine_steps and maxiter", "why_tests_cant": "the gradients are numbers of the right size; only a comparison with differences of solves shows that they are wrong", "anchors": ["torchdyn/numerics/solvers/ode.py:222-317", "torchdyn/numerics/odeint.py:153-180"]}
{"id": "C155", "title": "Backpropagation through adaptive solves", "statement": "The gradients of the states returned by odeint with an adaptive solver, with respect to the initial state or to parameters of the field, are the derivatives of the numbers returned.", "quantifier": "all fields with correct derivatives, initial states, intervals and tolerances, for dopri5 and tsit5", "why_tests_cant": "the error is a fraction of the truncation error and disappears in loose tolerances; no test compares gradients with differences of adaptive solves", "anchors": ["torchdyn/numerics/odeint.py:326-408", "torchdyn/numerics/utils.py:27-63"]}
{"id": "C156", "title": "Units of time", "statement": "Measuring time in another unit does not change the states odeint returns: solving x' = f(t/c, x)/c over the times c t_0, c t_1, ... gives the states of x' = f(t, x) over t_0, t_1, ..., at times multiplied by c.", "quantifier": "all fields, initial states, increasing time spans and units c > 0, for euler, midpoint, rk4, dopri5 and tsit5", "why_tests_cant": "tests use times of order one; nobody repeats a solve in microseconds, and the adaptive results differ by less than the tolerance", "anchors": ["torchdyn/numerics/utils.py:27-63", "torchdyn/numerics/odeint.py:29-91", "torchdyn/numerics/odeint.py:326-408", "torchdyn/numerics/odeint.py:411-446"]}
{"id": "C157", "title": "Backpropagation to the times of a fixed-step solve", "statement": "If t_span requires gradients, the gradients of the states returned by odeint with a fixed-step solver with respect to the entries of t_span are the derivatives of the numbers returned: every time is read through t + dt and t_span[i+1] - t, and these do not lose or add derivatives.", "quantifier": "all fields with correct derivatives in time, state and parameter, all separated grids whose times, initial state, field and hypernetwork depend differentiably on a parameter; euler, midpoint, rk4 and the hypersolvers; increasing and decreasing t_span", "why_tests_cant": "no test differentiates with respect to t_span, and an omitted contribution of one step changes a sum of many", "anchors": ["torchdyn/numerics/odeint.py:411-446", "torchdyn/numerics/odeint.py:67-80", "torchdyn/numerics/solvers/ode.py:49-104"]}
{"id": "C158", "title": "Backward passes use the control of their own forward call", "statement": "The gradients returned by the backward pass of a call of a NeuralODE are the same whatever else the NeuralODE is used for before that backward pass: as if backward followed its forward call at once in a fresh module.", "quantifier": "all fields, sequences of forward calls, trajectory calls, parameter updates and backward passes; sensitivities adjoint and interpolated_adjoint", "why_tests_cant": "tests call backward right after forward; with two calls in one loss the gradients have the right shape and are wrong", "anchors": ["torchdyn/core/neuralde.py:95-145", "torchdyn/numerics/sensitivity.py:32-100", "torchdyn/numerics/sensitivity.py:104-161", "torchdyn/nn/node_layers.py:74-82"]}
{"id": "C159", "title": "Gradients with respect to the input of a controlled Neural ODE", "statement": "The gradient of the states returned by a NeuralODE with respect to its input is the derivative of these states, also when the field contains a DataControl module.", "quantifier": "all fields with correct derivatives, inputs, fixed-step solvers and grids", "why_tests_cant": "gradients with respect to the input are not compared with differences for controlled models", "anchors": ["torchdyn/core/neuralde.py:105-123", "torchdyn/nn/node_layers.py:74-82"]}
{"id": "C160", "title": "Purely relative tolerances", "statement": "odeint with an adaptive solver returns for atol = 0 (purely relative error control) whenever it returns for small positive atol, also if entries of the state are zero and stay zero.", "quantifier": "all adaptive solvers, fields, states with zero entries, grids that go forward, rtol, binary64 arithmetic", "why_tests_cant": "the states of tests have no exact zeros that persist; the failing solve does not raise but never returns", "anchors": ["torchdyn/numerics/odeint.py:363-374", "torchdyn/numerics/utils.py:33-34"]}
{"id": "C161", "title": "Names of the attributes of a vector field", "statement": "A NeuralODE computes with the attributes its vector field has, whatever they are called: a solve calls the field with its own parameters, buffers and attributes and leaves them as they were, except for the depth variables of DepthCat layers.", "quantifier": "all fields built of any modules, whose attribute named t is a value, a buffer, a parameter, a submodule or a property, and all sequences of calls", "why_tests_cant": "the modules of tests have no attribute named t; when one is overwritten the solve returns plausible values", "anchors": ["torchdyn/core/defunc.py:60-82", "torchdyn/nn/node_layers.py:57-71"]}
{"id": "C162", "title": "Backpropagation through leapfrog solves is exact", "statement": "The gradients that autograd computes through odeint_symplectic, or odeint, with the asynchronous leapfrog solver are the derivatives of the returned positions and velocities with respect to initial position, initial velocity and parameters; an exception is raised with gradients recorded exactly when it is raised without.", "quantifier": "all fields with correct derivatives, dimensions, initial states, parameters, grids in both directions, save_at, values of the order attribute of the field", "why_tests_cant": "a comparison with finite differences samples one field and one direction", "anchors": ["torchdyn/numerics/odeint.py:95-150", "torchdyn/numerics/solvers/ode.py:98-135"]}
{"id": "C163", "title": "Plots show the data and the model", "statement": "The plotting utilities draw every requested sample once, at its own coordinates and in the colour of its class, and the vector field of the NeuralODE they are given, for any number of samples and classes.", "quantifier": "all trajectories, labels, data sets, NeuralODEs, grids", "why_tests_cant": "plots are looked at for the tutorials' two-class examples only", "anchors": ["torchdyn/utils.py:24-199"]}
{"id": "C164", "title": "Backpropagation through SDE solves is exact along a Brownian path", "statement": "The gradients that autograd computes through sdeint are the derivatives of the returned states, for the given Brownian path, with respect to initial state and parameters of drift and diffusion; an exception is raised with gradients recorded exactly when it is raised without.", "quantifier": "all drifts and diffusions with correct derivatives, declared noise and SDE types, dimensions, solver names, Brownian paths, initial states, parameters, save_at; all grids for the Euler solvers, increasing grids for the Milstein solvers", "why_tests_cant": "gradients of noisy outputs are hard to compare with finite differences, and only one path is sampled", "anchors": ["torchdyn/numerics/sdeint.py:33-116", "torchdyn/numerics/solvers/sde.py:19-107"]}
{"id": "C165", "title": "Gradients can be differentiated again", "statement": "Differentiating the gradient of a solve (create_graph=True, as for Hessian-vector products or gradient penalties) gives the second derivatives of the returned states, for every sensitivity.", "quantifier": "all fields with correct first and second derivatives, dimensions, initial states, parameters, grids, save_at; fixed-step solvers and hypersolvers", "why_tests_cant": "first-order gradients are correct, so training losses look right; only a comparison of Hessians shows the missing terms", "anchors": ["torchdyn/numerics/sensitivity.py:115-159", "torchdyn/numerics/odeint.py:411-443", "torchdyn/core/problems.py:24-111"]}
{"id": "C166", "title": "Options without effect are announced, and only those that were given", "statement": "An option passed to odeint, sdeint, ODEProblem or NeuralODE either influences the result or triggers a warning; a call in which no option was given does not warn about options.", "quantifier": "all solvers, fields, states, accepted time spans and values of all keyword arguments", "why_tests_cant": "each ignored option has to be combined with each class of solvers, and the absence of an effect is a statement about all fields", "anchors": ["torchdyn/numerics/odeint.py:29-91", "torchdyn/numerics/odeint.py:95-150", "torchdyn/numerics/sdeint.py:33-84", "torchdyn/core/problems.py:24-72", "torchdyn/core/neuralde.py:30-85", "torchdyn/numerics/sensitivity.py:81-84"]}
{"id": "C167", "title": "Units of the state", "statement": "Expressing the state in another unit (multiplying it by c != 0, with the field, the events and the network of a hypersolver converted accordingly and atol multiplied by |c|) changes the returned states by the factor c and nothing else: the evaluated times, the accepted steps, the returned times and the exceptions are the same.", "quantifier": "all c != 0, fields, states, time spans, tolerances, options and events; euler, midpoint, rk4, dopri5, tsit5 and the hypersolvers; odeint and odeint_hybrid", "why_tests_cant": "an absolute constant hidden in the step size control shows only for badly scaled problems, and then as a slightly different step sequence", "anchors": ["torchdyn/numerics/odeint.py:29-91", "torchdyn/numerics/odeint.py:183-323", "torchdyn/numerics/odeint.py:326-408", "torchdyn/numerics/utils.py:18-73"]}
{"id": "C168", "title": "Rounding errors of fixed-step solves", "statement": "Rounding errors of a fixed-step solve add up at most linearly in the number of steps: for problems of bounded size there is a constant, the same for all fields, grids and floating point formats, such that the i-th state computed in rounded arithmetic differs from that of exact arithmetic by at most this constant times e0 + i (u + eta + eps), where u and eta bound the errors of one operation, eps those of the computed field and e0 that of the initial state; the distance to the true solution is at most that plus the error of the order of the method.", "quantifier": "all fields that are Lipschitz in state and time, all grids whose times the code tells apart, every rounding with relative error at most 1e-6 (float32, float64); euler, midpoint and rk4", "why_tests_cant": "tests compare with loose tolerances on short grids; an error that grows with the square of the number of steps, or a clock that drifts, stays below them", "anchors": ["torchdyn/numerics/odeint.py:411-441", "torchdyn/numerics/solvers/ode.py:61-104"]}
{"id": "C169", "title": "Time may be made a component of the state", "statement": "Solving x' = f(t, x) and solving the autonomous equation of the pair (t, x), t' = 1, x' = f(t, x), give the same outcome and the same states x; the first component of the pair is the time of the grid. (Rewriting a time-dependent field this way is common practice, e.g. for data-control or depth-augmented models.)", "quantifier": "all fields, dimensions, initial states, grids (forward and backward), save_at; the fixed-step solvers, and single steps of dopri5", "why_tests_cant": "a test compares the two formulations on one field with a tolerance; a solver with one wrong node still converges in both, only slower in one", "anchors": ["torchdyn/numerics/solvers/ode.py:62-130", "torchdyn/numerics/odeint.py:411-443"]}
{"id": "C170", "title": "Rotations of the state", "statement": "A solve with an absolute tolerance only (rtol = 0) does not depend on the orientation of the coordinates: for a linear map Q that preserves Euclidean lengths and a field g with g(t, Q x) = Q f(t, x), the solve of g from Q x calls the field at the same times, at the rotated states, and returns the same times (or raises the same exception) and the rotated states; the same for hybrid solves with rotated events.", "quantifier": "all dimensions, isometries, fields, initial states, times, absolute tolerances, fuel, save_at and other options except the seminorm; all built-in solvers and hypersolvers, including the adaptive ones", "why_tests_cant": "equivariance tests compare final states up to a tolerance; here the accepted and rejected steps themselves must agree, which a norm taken entry by entry would break only for some rotations", "anchors": ["torchdyn/numerics/utils.py:33-56", "torchdyn/numerics/odeint.py:326-410", "torchdyn/numerics/solvers/ode.py:89-260"]}
{"id": "C171", "title": "root_find converges on nonlinear equations", "statement": "For a batch of nonlinear equations in one unknown each, whose slopes lie between m > 0 and M, both Broyden methods without line search and with a step size below 2m/M converge linearly from every starting point, and root_find ends by its termination condition once maxiters is large enough.", "quantifier": "all batch sizes, equations with bounded slopes, starting points, initial inverse slopes in the range, step sizes, positive tolerances, maxiters", "why_tests_cant": "tests run a few equations from a few starting points with roots away from zero and look at the residual, not at the logged termination condition", "anchors": ["torchdyn/numerics/solvers/root.py:31-82", "torchdyn/numerics/solvers/root.py:233-243", "torchdyn/numerics/solvers/root.py:259-300"]}
{"id": "C172", "title": "Gradient flows descend", "statement": "An Euler solve of a gradient neural flow (GNF) never raises the energy if the gradient has Lipschitz constant L and no step exceeds 2/L; a step of length h lowers it by at least h(1 - Lh/2)|grad E|^2. If the energy is convex and no step exceeds 1/L, its excess over the minimum at time t is at most |x - z|^2 / (2(t - t0)), z being any minimiser, and no state is farther from z than the initial one. Beyond 2/L the energy can rise.", "quantifier": "all energies with Lipschitz gradient, dimensions, initial states, grids, minimisers, tolerances, interpolation and output options", "why_tests_cant": "tests look at the energy of one trained model along one grid; the bounds hold for all smooth energies and name the largest step", "anchors": ["torchdyn/models/energy.py:48-62", "torchdyn/numerics/odeint.py:411-447", "torchdyn/numerics/solvers/ode.py:61-71"]}
{"id": "C173", "title": "The energy of solved Hamiltonian networks", "statement": "Along the states odeint returns for a Hamiltonian network (HNN) the learned energy stays within C H^p of the initial energy, p being the order of the solver (1 euler, 2 midpoint, 4 rk4, 5 dopri5), H the largest step and C one constant for all grids. It is not conserved exactly: Euler multiplies the energy of the oscillator by 1 + h^2 in every step.", "quantifier": "all energies whose Hamiltonian field is Lipschitz with smooth solutions, all even dimensions, grids, tolerances and output options", "why_tests_cant": "tests measure the drift for one network and one grid; the order of the drift needs all grids", "anchors": ["torchdyn/models/energy.py:65-80", "torchdyn/numerics/odeint.py:411-447", "torchdyn/numerics/solvers/ode.py:61-170"]}
{"id": "C174", "title": "Implicit Euler is stable and accurate for every step size", "statement": "For fields with (f(y) - f(z)).(y - z) <= -mu |y - z|^2, mu >= 0, two solves with implicit Euler approach each other by the factor 1/(1 + mu h) in every step however large h is, equilibria attract every solution, and the error at time t is at most sqrt(n) (M/2 + K) H (t - t0), M bounding the second derivative of the solution, K the dependence of the field on time and H the steps: no Lipschitz constant enters. What the optimiser leaves of the residual, eps per step, is added.", "quantifier": "all dimensions, one-sided Lipschitz fields, initial states, increasing grids, step sizes, optimisers that bring the residual of every step below eps", "why_tests_cant": "tests try a few step sizes on mild problems; the point of an implicit method is that no step size and no stiffness breaks it", "anchors": ["torchdyn/numerics/solvers/ode.py:181-205", "torchdyn/numerics/odeint.py:411-447"]}
{"id": "C175", "title": "Small steps keep different states different", "statement": "Solutions of an ODE never meet. For a field with Lipschitz constant L and fixed steps of size at most H below a bound (H L < 1 for euler, H L (1 + H L / 2) < 1 for midpoint, H L (1 + H L / 2 + (H L)^2 / 6 + (H L)^3 / 24) < 1 for rk4) the same holds for odeint: different initial states have different states at all times, differences shrink at most by a fixed factor per step, scalar solutions keep their order, so that no one-dimensional field takes 1 to -1 and -1 to 1 (the reason for augmenting states).", "quantifier": "all dimensions, Lipschitz fields, pairs of initial states, increasing grids with steps below the bound, all explicit fixed-step solvers", "why_tests_cant": "that no two of infinitely many states are merged cannot be seen from samples; with larger steps it is false", "anchors": ["torchdyn/numerics/odeint.py:411-447", "torchdyn/numerics/solvers/ode.py:48-104", "torchdyn/nn/node_layers.py:17-50"]}
{"id": "C176", "title": "Solving forward and then back returns to the start", "statement": "On smooth problems, solving from t0 to T with a fixed-step solver of order p and then from the result back along the reversed grid returns to the initial state up to C H^p, H the largest step and C independent of the grid. (The adjoint methods rely on it: they reconstruct the states of the forward pass by solving backward.)", "quantifier": "all dimensions, smooth Lipschitz fields, initial states, increasing grids from t0 to T, the solvers euler (order 1), midpoint (2) and rk4 (4)", "why_tests_cant": "an order is a statement about all grids at once; a test of one grid sees one number", "anchors": ["torchdyn/numerics/odeint.py:54-91", "torchdyn/numerics/odeint.py:411-447", "torchdyn/numerics/solvers/ode.py:48-104", "torchdyn/numerics/sensitivity.py:45-98"]}
{"id": "C177", "title": "The moments of the SDE solvers converge with first order", "statement": "For linear equations dX_j = alpha_j X_j dt + beta_j X_j dW_j, the mean of the solutions of sdeint over independent increments of mean zero and variance h differs from the mean of the exact solution, exp(alpha_j t) x_j (Ito) or exp((alpha_j + beta_j^2 / 2) t) x_j (Stratonovich), by at most a constant times the largest step; for the Ito solver euler the mean square converges alike to exp((2 alpha + beta^2) t) x^2.", "quantifier": "all dimensions, coefficients, initial states, increasing grids, all distributions of the increments over finitely many equally likely values with the right mean and variance", "why_tests_cant": "the error of a mean is hidden by the sampling error of a test; the order is a statement about all grids", "anchors": ["torchdyn/numerics/solvers/sde.py:19-109", "torchdyn/numerics/sdeint.py:33-116"]}
{"id": "C178", "title": "Requested times do not change interpolated solves", "statement": "With an interpolator, the times between the first and the last of t_span only decide what is reported: two solves with dopri5 over grids with the same ends call the vector field at the same points in the same order and return equal states at the times the grids share; return_all_eval does not change the states either.", "quantifier": "all dimensions, vector fields, initial states, tolerances, seminorms, increasing or decreasing grids with common ends", "why_tests_cant": "the claim compares the solves for all pairs of grids, including times that coincide with the ends of internal steps", "anchors": ["torchdyn/numerics/odeint.py:326-408", "torchdyn/numerics/interpolators.py:1-72"]}
{"id": "C179", "title": "Gradients of a sum of losses add up", "statement": "With the adjoint and the interpolated adjoint method and a fixed-step adjoint solver, the backward pass is linear in the gradient of the loss: for losses L1 and L2 on the same solve, a L1 + b L2 gets a times the gradients of L1 plus b times those of L2 (parameters, initial state, time span), and raises exactly when one of them raises. With an integral loss, which enters every backward pass, this holds for a + b = 1.", "quantifier": "all fields with linear vector-Jacobian products, dimensions, explicit Runge-Kutta adjoint solvers, solutions, grids, gradients of the losses, a, b", "why_tests_cant": "linearity is an identity between backward passes for all pairs of losses and all coefficients", "anchors": ["torchdyn/numerics/sensitivity.py:44-98", "torchdyn/numerics/sensitivity.py:116-159"]}
{"id": "C180", "title": "Solves depend continuously on the initial state", "statement": "For a vector field that is Lipschitz in the state, the states returned by odeint change by less than any given eps when the initial state changes by less than a suitable delta.", "quantifier": "all fields, dimensions, initial states, grids and tolerances eps; the fixed-step solvers and the adaptive ones", "why_tests_cant": "a jump sits at single initial states (where an error ratio is exactly one), which sampled tests do not hit", "anchors": ["torchdyn/numerics/odeint.py:29-92", "torchdyn/numerics/odeint.py:326-446", "torchdyn/numerics/utils.py:57-63"]}
{"id": "C181", "title": "Interpolator.evaluate is the polynomial with the given coefficients", "statement": "Interpolator.evaluate on any list of at least two coefficient tensors returns sum_j theta^j c_j with theta = (t - t0) / (t1 - t0): the first coefficient at t0, the sum of all at t1, unchanged by affine changes of the time axis. On fewer coefficients it raises IndexError. The mid point of a step is the weighted sum of the stages; more stages than weights raise IndexError.", "quantifier": "all numbers of coefficients and stages, all dimensions, intervals and times", "why_tests_cant": "the solvers only ever call it with five coefficients and seven stages", "anchors": ["torchdyn/numerics/interpolators.py:29-37", "torchdyn/numerics/odeint.py:381"]}
{"id": "C182", "title": "make_norm is the larger of the norms of state and adjoint", "statement": "The norm returned by make_norm(state), applied to an augmented state made of a time entry, state, adjoint and parameter gradients, is the larger of the root mean squares of the state and of the adjoint. The time entry and the parameter gradients do not influence it. It is a seminorm which vanishes exactly if state and adjoint vanish.", "quantifier": "all state sizes, augmented states and lengths of the parameter part", "why_tests_cant": "make_norm is exported but neither called in the library nor tested", "anchors": ["torchdyn/numerics/utils.py:24-34"]}
{"id": "C183", "title": "Solves respect the order of states and fields", "statement": "Let f <= g be vector fields, one of them cooperative (every component grows with the other components of the state; every scalar field is cooperative), and x <= z. Then, for steps that are small compared with the Lipschitz constant, the states returned for f from x are at most those returned for g from z, in every component and at every time, as for the exact solutions (comparison theorem).", "quantifier": "all dimensions, cooperative Lipschitz fields, initial states and grids; the fixed-step and the adaptive solvers", "why_tests_cant": "violations need a field that differs between the stages of one step, or an initial state where the acceptance of a step changes", "anchors": ["torchdyn/numerics/solvers/ode.py:61-87", "torchdyn/numerics/odeint.py:326-446"]}
{"id": "C184", "title": "The noise of the data sets perturbs every point by itself", "statement": "The argument noise of the data set generators is the standard deviation of a perturbation that is added to every point (docstrings): in every coordinate, centred, and for every point by itself.", "quantifier": "all sample sizes, noise levels and random draws", "why_tests_cant": "plots of noisy data look plausible; the dependence between the perturbations of different points and coordinates does not show in sizes and labels", "anchors": ["torchdyn/datasets/static_datasets.py:41-95", "torchdyn/datasets/static_datasets.py:98-188"]}
{"id": "C185", "title": "Tightening the tolerances does not make the result worse", "statement": "Solving the same problem with smaller atol and rtol gives a result that is at least as near to the exact solution, up to the size of the tolerances.", "quantifier": "all vector fields, initial states, grids and pairs of tolerances; fixed-step and adaptive solvers", "why_tests_cant": "convergence tests compare tolerances that differ by powers of ten on smooth problems; the effect needs a field with a narrow feature and an error ratio near one", "anchors": ["torchdyn/numerics/odeint.py:326-446", "torchdyn/numerics/utils.py:57-63"]}
{"id": "C186", "title": "Leapfrog solves are symplectic", "statement": "The leapfrog solver is documented as a symplectic stepper. For a differentiable field with symmetric Jacobian (a gradient) the map from the initial position and velocity to the position and velocity at any recorded time preserves the symplectic form sum dx_i dv_i; in one dimension it preserves areas with their orientation.", "quantifier": "all dimensions, differentiable fields, initial states, grids with any step sizes and numbers of steps", "why_tests_cant": "needs derivatives of the whole solve along two directions and a sign that only an odd number of steps shows", "anchors": ["torchdyn/numerics/solvers/ode.py:107-135", "torchdyn/numerics/odeint.py:95-150"]}
{"id": "C187", "title": "Solves of linear problems superpose", "statement": "If the field is linear with sources, that is q(t, a u + b v) = a f(t, u) + b g(t, v), then solving q from a x + b z gives at every time the combination a, b of the solve of f from x and the solve of g from z.", "quantifier": "all dimensions, linear fields with sources, coefficients, initial states and grids; fixed-step and adaptive solvers", "why_tests_cant": "a test on a smooth linear problem passes within tolerance for every solver; step selection breaks the law only near a rejection threshold", "anchors": ["torchdyn/numerics/solvers/ode.py:61-105", "torchdyn/numerics/odeint.py:326-446"]}
{"id": "C188", "title": "Hybrid solves without events are plain solves", "statement": "If no callback ever fires, odeint_hybrid returns the same times and states as odeint with return_all_eval, with the same calls of the vector field, for every grid in either direction of time.", "quantifier": "all fields, states, grids, adaptive solvers, tolerances, callbacks that never fire, priorities, event tolerances", "why_tests_cant": "needs the agreement of two loops with different checkpoint logic on every run; tests compare end states within tolerance", "anchors": ["torchdyn/numerics/odeint.py:183-323", "torchdyn/numerics/odeint.py:326-408"]}
{"id": "C189", "title": "A time requested twice is returned twice", "statement": "odeint accepts grids in which a time occurs more than once (for instance an interval of length zero or the union of two sets of measurement times): the time is returned as often as it was requested, each time with the same state.", "quantifier": "all fields, states, fixed-step and adaptive solvers, grids with a repeated time", "why_tests_cant": "tests use strictly increasing grids; each place of the repetition behaves differently", "anchors": ["torchdyn/numerics/odeint.py:29-91", "torchdyn/numerics/odeint.py:326-446"]}
{"id": "C190", "title": "SDE solves can be restarted", "statement": "Solving an SDE up to a time of the grid and continuing from the state reached there, with the same Brownian path, gives the same states as solving over the whole grid at once.", "quantifier": "all solver names that can be built, SDEs, Brownian paths, initial states, grids (also decreasing ones or with repeated times) and restart times", "why_tests_cant": "needs equality of states for every path and every splitting of the grid", "anchors": ["torchdyn/numerics/sdeint.py:34-118", "torchdyn/numerics/solvers/sde.py:19-110"]}
{"id": "C191", "title": "Units in SDE solves", "statement": "Changing the units of time (t to tau t + sigma), of the state (x to c x) and correspondingly of drift (c / tau), diffusion (c / sqrt tau) and Brownian increments (sqrt tau) changes the result of sdeint by exactly the change of units.", "quantifier": "all four SDE solvers that can be built, SDEs, Brownian paths, initial states, grids, tau > 0, sigma, c", "why_tests_cant": "a wrong power of the step size in a correction term is invisible in one system of units", "anchors": ["torchdyn/numerics/solvers/sde.py:19-110", "torchdyn/numerics/sdeint.py:92-118"]}
{"id": "C192", "title": "Linear SDEs superpose along one Brownian path", "statement": "If drift and diffusion are linear with sources, that is those of the SDE at a u + b v are the combinations of those of two SDEs at u and v, then along one Brownian path sdeint from a x + b z gives at every time the combination of the solves from x and z.", "quantifier": "all four SDE solvers that can be built, coefficients, SDEs, Brownian paths, states, grids", "why_tests_cant": "needs exact equality for every path; derivative-free corrections are linear only if the supporting value is", "anchors": ["torchdyn/numerics/solvers/sde.py:19-110", "torchdyn/numerics/sdeint.py:92-118"]}
{"id": "C193", "title": "SDE solves backwards in time", "statement": "sdeint over a decreasing grid follows the chosen scheme backwards in time, as odeint does: every solver returns finite states for a finite drift, diffusion and Brownian path.", "quantifier": "all SDEs, Brownian paths, states, solver names, grids whose first step goes backwards", "why_tests_cant": "the tests integrate forwards only; the NaN shows in no error message", "anchors": ["torchdyn/numerics/solvers/sde.py:63-110", "torchdyn/numerics/sdeint.py:92-118"]}
{"id": "C194", "title": "A time requested twice in an SDE solve", "statement": "sdeint accepts a grid in which a time occurs twice in a row and returns the time twice, both times with the same finite state, when the Brownian path has no increment over an empty interval.", "quantifier": "all SDEs, Brownian paths, states, solver names, grids with a repeated time", "why_tests_cant": "the tests use strictly increasing grids; the NaN shows in no error message", "anchors": ["torchdyn/numerics/solvers/sde.py:19-110", "torchdyn/numerics/sdeint.py:92-118"]}
{"id": "C195", "title": "Multiple shooting keeps linear invariants and equilibria", "statement": "A solve by multiple shooting keeps what the field keeps: a linear quantity w . y with w . f = 0 (total mass, a coordinate without dynamics) has the same value in all returned states, whatever the number of passes, and a solve from an equilibrium returns the equilibrium. A guess B0 that has the invariant does not destroy it.", "quantifier": "all fields, states, grids, coarse and fine fixed-step methods, numbers of passes; both shooting solvers", "why_tests_cant": "needs all intermediate iterates, also the unconverged ones", "anchors": ["torchdyn/numerics/solvers/ode.py:222-281", "torchdyn/numerics/odeint.py:153-180"]}
{"id": "C196", "title": "SDE solves keep linear invariants and equilibria", "statement": "If drift and diffusion leave a linear quantity w . y unchanged (w . f = 0 and, with one Brownian motion for all components, w . g = 0; with a Brownian motion per component, no noise on components with w_i <> 0), every state returned by sdeint has the value of w . y at the initial state, path by path. If drift and diffusion vanish at the initial state, all returned states are the initial state.", "quantifier": "all SDEs, Brownian paths, states, grids and solver names that are accepted", "why_tests_cant": "a statement about every path and every step; a test sees one path", "anchors": ["torchdyn/numerics/solvers/sde.py:19-110", "torchdyn/numerics/sdeint.py:34-118"]}
{"id": "C197", "title": "Hybrid solves change conserved quantities only at jumps", "statement": "If the field leaves a linear quantity w . y unchanged, its value changes in a hybrid solve only at jumps: two consecutive outputs have the same value, or they are at the same time and the second is the jump of a callback applied to the first. If the jumps keep it too, all outputs have its initial value; from an equilibrium that no jump moves, all outputs are the equilibrium.", "quantifier": "all fields, callbacks, states, grids, tolerances, adaptive solvers, hybrid solves that return", "why_tests_cant": "needs all locations and sequences of events; the location searches step from unsaved states", "anchors": ["torchdyn/numerics/odeint.py:183-323"]}
{"id": "C198", "title": "Blocks of an SDE are solved independently", "statement": "If the state of an SDE consists of two blocks whose drift, diffusion and Brownian motion do not involve the other block (two samples, two independent systems), sdeint returns the separate solutions of the blocks one after the other, exactly, also in floating point and also when one block contains NaN or infinities.", "quantifier": "all pairs of SDEs, states, Brownian paths, grids, save_at, solver names; every arithmetic", "why_tests_cant": "exact equality for all inputs, including non-finite ones", "anchors": ["torchdyn/numerics/solvers/sde.py:19-110", "torchdyn/numerics/sdeint.py:34-118"]}
{"id": "C199", "title": "Reordering, dropping and copying the components of an SDE", "statement": "If the components of an SDE and of its Brownian path are reordered, and possibly dropped or copied, consistently, sdeint returns the same solution with its components reordered, dropped or copied in that way, exactly, also in floating point.", "quantifier": "all SDEs, index lists, states, Brownian paths, grids, save_at, accepted solver names; every arithmetic", "why_tests_cant": "exact equality for all index lists and all inputs", "anchors": ["torchdyn/numerics/solvers/sde.py:19-110", "torchdyn/numerics/sdeint.py:34-118"]}
{"id": "C200", "title": "SDE solves do not look into the future", "statement": "The states sdeint returns up to a time depend on drift, diffusion, Brownian path and t_span only up to that time: changing any of them later leaves those states unchanged. The Brownian path is read only between neighbouring times of t_span.", "quantifier": "all pairs of SDEs, Brownian paths and grids that agree on an initial part of the grid; all accepted solver names; real arithmetic, default save_at", "why_tests_cant": "quantifies over all continuations of the path, the coefficients and the grid", "anchors": ["torchdyn/numerics/solvers/sde.py:19-110", "torchdyn/numerics/sdeint.py:34-118"]}
{"id": "C201", "title": "Leapfrog solves keep linear invariants and equilibria", "statement": "If the field leaves a linear quantity w . y unchanged, every position recorded by a leapfrog solve has its initial value, whatever initial velocity was given, and w . v of the recorded velocities only alternates in sign. A solve started at rest in an equilibrium stays there.", "quantifier": "all fields, weights, positions, velocities, step sizes, increasing and decreasing separated grids", "why_tests_cant": "exact conservation for all fields and unboundedly many steps", "anchors": ["torchdyn/numerics/solvers/ode.py:101-135", "torchdyn/numerics/odeint.py"]}
{"id": "C202", "title": "Affine changes of coordinates in leapfrog solves", "statement": "A leapfrog solve does not depend on the coordinates: if g(t, M y + c) = M f(t, y), the solve of g from position M x + c and velocity M v returns the positions M y + c and velocities M u, where (y, u) are those of the solve of f from (x, v).", "quantifier": "all fields, matrices (also singular or rectangular), shifts, positions, velocities; increasing and decreasing separated grids", "why_tests_cant": "exact equality for all matrices and fields", "anchors": ["torchdyn/numerics/solvers/ode.py:101-135", "torchdyn/numerics/odeint.py"]}
{"id": "C203", "title": "Dependence of SDE solves on the initial state", "statement": "For additive noise (the diffusion may depend on time but not on the state) and a drift that is L-Lipschitz in the state, the solutions sdeint returns from two initial states along the same Brownian path are at most exp(L (t - t0)) times their initial distance apart at time t, however rough or large the noise is.", "quantifier": "all drifts, time-dependent diffusions, Brownian paths, pairs of initial states, increasing grids, accepted solver names", "why_tests_cant": "a bound for all paths and unboundedly many steps", "anchors": ["torchdyn/numerics/solvers/sde.py:19-110", "torchdyn/numerics/sdeint.py:34-118"]}
{"id": "C204", "title": "Solutions of a scalar SDE keep their order", "statement": "Two solutions of the same scalar SDE along the same Brownian path do not cross: the states sdeint returns from x <= z stay in that order at every time when the steps are small compared with the Lipschitz constants.", "quantifier": "all scalar SDEs with Lipschitz coefficients, Brownian paths, pairs of initial states, increasing grids with small steps, accepted solver names", "why_tests_cant": "an inequality for all paths and unboundedly many steps", "anchors": ["torchdyn/numerics/solvers/sde.py:19-110", "torchdyn/numerics/sdeint.py:34-118"]}
{"id": "C205", "title": "Fixed-step solves do not look into the future", "statement": "The states odeint returns with a fixed-step Runge-Kutta solver (euler, midpoint, rk4) up to a time depend on the vector field and on t_span only up to that time: fields that agree until then, on grids that begin alike, give the same states, whatever comes later.", "quantifier": "all pairs of fields and increasing separated grids with a common beginning, all initial states", "why_tests_cant": "quantifies over all continuations of field and grid", "anchors": ["torchdyn/numerics/solvers/ode.py:48-100", "torchdyn/numerics/odeint.py"]}
{"id": "C206", "title": "The field is evaluated only inside the interval of integration", "statement": "odeint calls the vector field only at times between the first and the last entry of t_span, so fields that are defined only there (measured inputs, interpolated controls) can be solved.", "quantifier": "all fields, states, increasing grids, solvers and tolerances", "why_tests_cant": "concerns every call of a solve, for all fields", "anchors": ["torchdyn/numerics/utils.py:37-54", "torchdyn/numerics/odeint.py", "torchdyn/numerics/solvers/ode.py:48-135"]}
