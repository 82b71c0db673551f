#!/usr/bin/env python3
"""Source of properties.jsonl (run: python3 tools/props.py > properties.jsonl)."""
import json
P = []
def p(title, statement, quantifier, why, anchors):
    P.append(dict(id="C%02d" % (len(P)+1), title=title, statement=statement, quantifier=quantifier,
                  why_tests_cant=why, anchors=anchors))

OD = "torchdyn/numerics/odeint.py"
SO = "torchdyn/numerics/solvers/ode.py"
CO = "torchdyn/numerics/solvers/_constants.py"
UT = "torchdyn/numerics/utils.py"
SE = "torchdyn/numerics/sensitivity.py"
RO = "torchdyn/numerics/solvers/root.py"
SD = "torchdyn/numerics/sdeint.py"
SS = "torchdyn/numerics/solvers/sde.py"
PR = "torchdyn/core/problems.py"
NE = "torchdyn/core/neuralde.py"
DF = "torchdyn/core/defunc.py"
CU = "torchdyn/core/utils.py"
GA = "torchdyn/nn/galerkin.py"
NL = "torchdyn/nn/node_layers.py"

# ---------------------------------------------------------------- fixed step
p("Fixed-step trajectory",
  "odeint with a fixed-step solver and no save_at returns t_eval equal to t_span and exactly len(t_span) states; the first is the initial condition and each next one is exactly one application of the solver's step to the previous state, started at t_span[i] with step size t_span[i+1]-t_span[i].",
  "every vector field, initial state, solver step function and every well-separated t_span of any length, uniform or not",
  "the claim ranges over all grids, lengths and step functions; a test fixes one grid and compares against a tolerance",
  [OD+":_fixed_odeint", OD+":odeint"])
p("save_at selects exactly the requested states",
  "With a fixed-step solver and save_at a well-separated sub-grid of t_span, the returned states are the full-grid states at exactly the requested times, one per requested time and in t_span order, and the returned times are save_at itself.",
  "all t_span, all subsets save_at of it, all solvers",
  "exponentially many subsets of each of infinitely many grids",
  [OD+":_fixed_odeint"])
p("save_at outside t_span is rejected",
  "As the error message says, a save_at containing a time that is not in t_span is rejected rather than silently answered with missing states.",
  "all t_span and save_at",
  "a universally quantified rejection; a test would need to guess the accepted bad value",
  [OD+":_fixed_odeint (assert)"])
p("Any increasing grid is accepted",
  "odeint with a fixed-step solver accepts every strictly increasing t_span of length at least two, and the exact set of grids on which it raises AssertionError is known.",
  "all strictly increasing t_span",
  "the failing grids depend on relative spacing and magnitude; sampling coarse grids never meets them",
  [OD+":_fixed_odeint (assert, torch.isclose)"])
p("Reversed time is negative stepping",
  "For a decreasing t_span the states returned by odeint with euler, midpoint or rk4 are the ones obtained by applying the same method along t_span with negative step sizes to the original vector field.",
  "all vector fields (time varying included), all decreasing t_span",
  "quantifies over every vector field and grid",
  [OD+":odeint", SO+":Euler.step", SO+":Midpoint.step", SO+":RungeKutta4.step"])
p("Returned times are the requested times",
  "t_eval returned by odeint is the time grid the caller asked for, whether t_span is increasing or decreasing.",
  "all t_span",
  "a property of all grids and both directions",
  [OD+":odeint"])
p("Restart / semigroup",
  "Solving with a fixed-step solver over a grid split at one of its points gives the same states as solving the first part, then restarting from its last state over the second part.",
  "all grids, all split points, all solvers, all vector fields",
  "quantifies over all splits of all grids",
  [OD+":_fixed_odeint"])
p("Number of vector field evaluations",
  "A fixed-step solve over N intervals evaluates the vector field exactly s*N times (s = 1 for euler, 2 for midpoint, 4 for rk4, 2 for leapfrog); an adaptive dopri5/tsit5 solve evaluates it 2 + 6*(number of attempted steps) times.",
  "all N, all vector fields, all runs of the adaptive loop",
  "the count must hold for every run of an unbounded loop",
  [OD+":_fixed_odeint", OD+":_adaptive_odeint", SO+": step functions", DF+":DEFunc.forward (nfe)"])
# ---------------------------------------------------------------- adaptive
p("Adaptive solve returns exactly the requested times",
  "When odeint with an adaptive solver and no interpolator returns, t_eval is exactly t_span and there is one state per time, the first being the initial condition.",
  "all strictly increasing t_span, vector fields, tolerances, initial step sizes and adaptive solvers, for every run that returns",
  "the loop is unbounded and its path depends on error estimates; no finite set of runs covers the schedules",
  [OD+":_adaptive_odeint"])
p("Adaptive solve with interpolation returns exactly the requested times",
  "With an interpolator, t_eval is still exactly t_span with one state per time, even when one accepted step crosses several requested times.",
  "as above, any number of crossings per step",
  "same; plus every way of distributing requested times over steps",
  [OD+":_adaptive_odeint (interpolation branch)"])
p("All-evaluation output",
  "With return_all_eval the returned times are strictly increasing, start at t_span[0], end at t_span[-1], and contain every time of t_span.",
  "all runs that return",
  "unbounded loop",
  [OD+":_adaptive_odeint (return_all_eval)"])
p("Every accepted step meets the tolerance",
  "Consecutive returned states of an adaptive solve are connected by a finite chain of solver steps, contiguous in time, each of which has scaled error norm at most 1 for the given atol and rtol.",
  "all runs that return",
  "the chain is not observable from outputs of a test, and must hold for all runs",
  [OD+":_adaptive_odeint", UT+":hairer_norm"])
p("Adaptive solve never steps over a requested time nor past the end",
  "Without an interpolator no accepted step of an adaptive solve jumps over a requested time, all step sizes are positive, and with or without interpolator no accepted step goes beyond t_span[-1].",
  "all runs, all iterations",
  "invariant of every iteration of an unbounded loop",
  [OD+":_adaptive_odeint (checkpointing)"])
p("Adaptive solve terminates when the error is controllable",
  "If there is a step size below which every step is accepted with error ratio strictly below one, the adaptive loop terminates for every t_span.",
  "all vector fields/solvers with that property, all initial step sizes and t_span",
  "termination for all inputs cannot be tested",
  [OD+":_adaptive_odeint", UT+":adapt_step"])
p("Adaptive solve always returns",
  "odeint with an adaptive solver returns (or raises) for every vector field, including one that produces NaN.",
  "all vector fields",
  "non-termination cannot be observed by a test",
  [OD+":_adaptive_odeint", UT+":adapt_step"])
p("Requested times survive floating point",
  "The number of returned states of an adaptive solve equals len(t_span) also when time arithmetic is IEEE-754.",
  "all floating-point t_span and step sizes",
  "needs a rounding coincidence that random tests practically never hit",
  [OD+":_adaptive_odeint (t + dt == t_eval[ckpt_counter])"])
p("Step size controller bounds",
  "The controller multiplies the step by a factor in [min_factor, max_factor], never shrinks a step whose error ratio is below one, multiplies by max_factor when the error is zero, and multiplies a rejected step by at most safety (<1); a larger error never yields a larger next step.",
  "all positive dt and error ratios, all orders",
  "continuum of inputs",
  [UT+":adapt_step"])
p("Initial step size is positive and bounded",
  "The automatic initial step size is strictly positive for every vector field and state, and at most 100 times the first guess h0 (h0 = 1e-6 when the scaled norm of the state or of the slope is below 1e-5, else 0.01 times their quotient), so the adaptive loop always starts with a usable step.",
  "all vector fields, states and positive tolerances",
  "continuum of inputs, several branches",
  [UT+":init_step"])
p("Error norm is a norm",
  "The error norm is the root mean square of the entries: non-negative, zero only for the zero tensor, absolutely homogeneous, subadditive, bounded by the largest entry.",
  "all tensors of any size",
  "all sizes and values",
  [UT+":hairer_norm", UT+":make_norm"])
p("Adaptive time reversal",
  "An adaptive solve over a decreasing t_span takes the same steps as the solve of the time-reversed vector field over the negated (increasing) t_span.",
  "all vector fields",
  "needs a vector field for which the initial step differs",
  [OD+":odeint (init_step call)"])
# ---------------------------------------------------------------- methods
p("dopri5 is the Dormand-Prince 5(4) pair",
  "One dopri5 step equals the textbook explicit Runge-Kutta step with the published Dormand-Prince tableau: solution weights of order 5, embedded weights of order 4, error estimate their difference, last stage equal to the vector field at the new point (FSAL).",
  "all vector fields of any dimension, all t, x, dt",
  "tests compare trajectories within a tolerance and do not distinguish a slightly wrong coefficient",
  [SO+":DormandPrince45.step", CO+":construct_dopri5"])
p("rk4 is the classical fourth order method",
  "One rk4 step equals the classical four stage Runge-Kutta step for every vector field, including time-varying ones.",
  "all vector fields",
  "the repository tests only use autonomous vector fields",
  [SO+":RungeKutta4.step", CO+":construct_rk4"])
p("tsit5 is a 5(4) pair with FSAL",
  "One tsit5 step is the explicit Runge-Kutta step of its tableau; the tableau satisfies all order conditions up to 5 (embedded: 4) to within 1e-14, row sums equal nodes, and the last stage is the vector field at the new point.",
  "all vector fields, t, x, dt",
  "coefficients with 80+ digits; a typo is invisible at test tolerance",
  [SO+":Tsitouras45.step", CO+":construct_tsit5"])
p("Euler converges to the true solution",
  "For every Lipschitz vector field and every twice differentiable solution, the states returned by odeint with euler differ from the true solution at the returned times by at most a constant times the largest step of t_span.",
  "all vector fields, dimensions, grids",
  "a convergence theorem over all vector fields and grids",
  [OD+":_fixed_odeint", SO+":Euler.step"])
p("Midpoint is second order",
  "midpoint reproduces quadratic-in-time solutions exactly and matches the exponential to second order; for smooth problems its error is O(h^2).",
  "all vector fields/grids",
  "as above",
  [SO+":Midpoint.step"])
p("Implicit Euler solves its defining equation",
  "If the inner optimiser drives the implicit Euler residual to zero, the returned state solves x' = x + dt*f(t+dt, x').",
  "all vector fields, t, dt",
  "all vector fields, time-varying included",
  [SO+":ImplicitEuler"])
p("Leapfrog is time-reversible",
  "An asynchronous leapfrog step followed by a step of opposite size returns exactly to the initial (x, v).",
  "all vector fields (time varying included), dt, states",
  "exact algebraic identity over all vector fields",
  [SO+":AsynchronousLeapfrog.step"])
p("Hypersolvers extend their base solver",
  "A hypersolver step is the base solver step plus dt^(p+1) times the hypernetwork at (t, x), p the order of the base solver; with a zero hypernetwork it is the base solver.",
  "all vector fields and hypernetworks",
  "functional identity",
  ["torchdyn/numerics/solvers/hyper.py"])
p("Dense output interpolant",
  "The 4th order interpolant takes the value and slope of the step at both ends and the mid state at the middle, so it reproduces every quartic exactly.",
  "all states, slopes, step sizes and evaluation times",
  "polynomial identity over all data",
  ["torchdyn/numerics/interpolators.py:FourthOrder.fit", "torchdyn/numerics/interpolators.py:Interpolator.evaluate"])
# ---------------------------------------------------------------- multiple shooting
p("Parareal exactness",
  "After k multiple-shooting (mszero) sweeps the first k+1 shooting states equal the sequential fine solution, so with maxiter at least the number of intervals minus one the output is the full fine solution; the first state is always the initial condition.",
  "all vector fields, coarse and fine methods, initial guesses B0, numbers of sweeps",
  "induction over sweeps and intervals",
  [SO+":MSZero.root_solve", OD+":odeint_mshooting"])
p("Multiple shooting is safe for every maxiter",
  "odeint_mshooting with mszero or msbackward returns one state per time for every maxiter.",
  "all maxiter and grid lengths",
  "needs the exact relation between maxiter and len(t_span)",
  [SO+":MSZero.root_solve", SO+":MSBackward.root_solve"])
p("Parallel implicit Euler",
  "A zero residual of the parallel implicit Euler solver means that the shooting states satisfy the implicit Euler recursion on every interval.",
  "all grids, vector fields, states",
  "all grid lengths",
  [SO+":ParallelImplicitEuler._residual"])
p("Jagged solve equals independent solves",
  "The jagged fixed-step solver returns, for every sub-problem, the states of the independent fixed-step solve of that sub-problem.",
  "all numbers of sub-problems, all grids",
  "all jagged shapes",
  [OD+":_jagged_fixed_odeint"])
# ---------------------------------------------------------------- hybrid
p("Hybrid solve: jump bookkeeping",
  "Every event of odeint_hybrid contributes exactly two consecutive outputs at the same time, the second being the jump map of the lowest-index firing callback applied to the first; returned times never decrease.",
  "all event sequences, callbacks, runs",
  "all histories of events",
  [OD+":odeint_hybrid"])
p("Hybrid solve returns the requested times",
  "The times returned by odeint_hybrid contain every time of t_span when no event fires.",
  "all runs",
  "depends on which steps are rejected",
  [OD+":odeint_hybrid (checkpointing)"])
p("Hybrid solve respects j_span",
  "odeint_hybrid performs at most j_span jumps.",
  "all runs and callbacks",
  "all histories",
  [OD+":odeint_hybrid (jnum)"])
p("Hybrid event location never crashes and stays inside the step",
  "Bisection always ends with a firing callback and locates the event inside the step that triggered it.",
  "all callbacks and step sizes",
  "depends on the binary expansion of the event time",
  [OD+":odeint_hybrid (bisection)"])
# ---------------------------------------------------------------- root finding
p("root_find: iteration bound and certificate",
  "root_find evaluates at most maxiters+1 solver steps, and if it reports its termination condition then the returned iterate meets the residual and step tolerances for every batch element.",
  "all functions, starting points, tolerances",
  "all runs of the loop",
  [RO+":root_find", RO+":TerminationCondition.check"])
p("Broyden updates satisfy the secant equation",
  "The Broyden update maps the change of residual to the change of iterate up to the regularisation term (exactly when it is zero); it leaves the action on the complementary directions unchanged.",
  "all matrices and vectors of any size",
  "matrix identity in all dimensions",
  [RO+":BroydenFull.update_jacobian", RO+":BroydenBad.update_jacobian"])
p("Line searches terminate and return what they promise",
  "Naive and Armijo line searches always terminate; naive returns a step not increasing the objective or one below the minimum; Armijo returns a step meeting its decrease condition or the fallback.",
  "all objective functions",
  "termination for all objective functions",
  [RO+":NaiveSearch.search", RO+":LineSearchArmijo.search"])
# ---------------------------------------------------------------- SDE
p("Fixed-step SDE trajectory",
  "sdeint returns, for well-separated t_span, exactly one state per time, each one solver step from the previous with the Brownian increment over exactly that interval.",
  "all drifts, diffusions, Brownian paths, grids",
  "all paths and grids",
  [SD+":_fixed_sdeint", SD+":sdeint"])
p("SDE steps: noise-free limit and scheme relations",
  "With zero diffusion every SDE step is the Euler step of the drift; with state-independent diffusion Milstein equals Euler-Maruyama (Ito) and Stratonovich and Ito Milstein differ exactly by the correction term.",
  "all drifts, diffusions, increments",
  "functional identities",
  [SS+":EulerMaruyama.step", SS+":EulerHeun.step", SS+":MilsteinBase.step"])
p("SDE solver type checking",
  "sdeint refuses an SDE whose type (ito/stratonovich) does not match the solver, or whose noise type the solver does not support.",
  "all solver names and SDE types",
  "a missing check is only visible on the mismatching pair",
  [SS+":_check_types", SS+":MilsteinBase"])
# ---------------------------------------------------------------- core
p("Higher-order dynamics",
  "A NeuralODE of order n maps the state (x, x', ..., x^(n-1)) to (x', ..., x^(n-1), f), for every n and width, also when an integral loss is propagated.",
  "all orders, widths, vector fields",
  "all orders and widths",
  [DF+":DEFunc.higher_order_forward", DF+":DEFunc.forward"])
p("Vector field call signatures",
  "ODEProblem and NeuralODE accept vector fields callable as f(x) or f(t, x), modules or plain functions, and call them with the right arguments.",
  "all callables",
  "case analysis over all signatures",
  [CU+":standardize_vf_call_signature", DF+":DEFuncBase.forward", DF+":DEFunc.forward"])
p("NeuralODE forward and trajectory",
  "NeuralODE.forward without t_span integrates over [0,1]; return_t_eval only drops the times; trajectory returns the same states as forward; data-control modules receive the initial condition without the loss/divergence columns.",
  "all models, inputs",
  "all module trees",
  [NE+":NeuralODE._prep_integration", NE+":NeuralODE.forward", NE+":NeuralODE.trajectory"])
p("save_at reaches the solver for every sensitivity",
  "NeuralODE/ODEProblem honour save_at and args for every sensitivity algorithm.",
  "all sensitivities and save_at",
  "argument plumbing must be right for all combinations",
  [PR+":ODEProblem.odeint", SE+":_gather_odefunc_adjoint"])
p("Adjoint gradient equals the discrete gradient (linear, Euler)",
  "For linear time-invariant vector fields and the euler solver the adjoint sensitivity returns exactly the gradient of any loss of the returned trajectory with respect to the initial condition.",
  "all dimensions, matrices, grids, loss gradients",
  "all dimensions and grids",
  [SE+":_gather_odefunc_adjoint"])
p("Adjoint gradient for reversed time",
  "The adjoint gradient is also right when t_span is decreasing.",
  "all vector fields",
  "all vector fields; not exercised by tests",
  [SE+":_gather_odefunc_adjoint", OD+":odeint"])
p("Multiple shooting adjoint plumbing",
  "MultipleShootingProblem passes maxiter and fine_steps unchanged to the solver for every sensitivity.",
  "all maxiter, fine_steps",
  "equal defaults hide the swap",
  [PR+":MultipleShootingProblem._autograd_func"])
# ---------------------------------------------------------------- layers, models
p("Augmenter, DepthCat, DataControl",
  "Augmentation keeps the original data as a contiguous block and adds the zeros or learned features on the requested side; DepthCat appends exactly the time; DataControl appends exactly the control; widths add up.",
  "all batch sizes and widths",
  "all shapes",
  [NL+":Augmenter", NL+":DepthCat", NL+":DataControl"])
p("Galerkin weights",
  "Galerkin layers evaluate weight = sum over degrees and basis functions of coefficient times basis; the layer is linear in its coefficients and zero coefficients give zero output; weights and biases partition the coefficient vector.",
  "all degrees, bases, sizes",
  "all sizes",
  [GA+":GalLayer.calculate_weights", GA+":GalLinear.forward"])
p("Polynomial and Chebychev bases",
  "Chebychev(deg) evaluates the first deg Chebyshev polynomials (basis k at cos(a) is cos(k a)); Polynomial(deg) evaluates integer powers.",
  "all degrees and arguments",
  "all degrees",
  [GA+":Chebychev.forward", GA+":Polynomial.forward", GA+":GalLayer.calculate_weights"])
p("CNF divergence",
  "The first output column of a CNF is minus the trace of the Jacobian of the network for autograd_trace, and the Hutchinson estimator averages to the trace over Rademacher noise.",
  "all networks that act on each row of the batch (with any Jacobian), all dimensions, batch sizes, noise",
  "all Jacobians and dimensions",
  ["torchdyn/models/cnf.py"])
p("Energy models",
  "HNN preserves and GNF dissipates its energy; LNN accelerations satisfy the Euler-Lagrange equation when the velocity Hessian is invertible.",
  "all energies (gradients, Hessians) and states of any even dimension",
  "all energies",
  ["torchdyn/models/energy.py"])
p("Datasets have the promised size and labels",
  "Dataset generators return the promised number of rows and labels for every n_samples; sphere samples have the requested radius.",
  "all n_samples and random draws",
  "all sizes and random draws",
  ["torchdyn/datasets/static_datasets.py"])
p("Solver names",
  "Every documented solver name yields the documented method, order and stepping class; unknown names raise KeyError.",
  "all strings",
  "all strings",
  [SO+":SOLVER_DICT", SO+":str_to_solver", SO+":str_to_ms_solver"])
p("Multiple shooting with discrete adjoints converges like parareal",
  "After k msbackward sweeps the first k+1 shooting states equal the sequential fine solution, and a converged trajectory is left unchanged by further sweeps.",
  "all vector fields, fine methods, initial guesses B0, numbers of sweeps",
  "induction over sweeps and intervals",
  [SO+":MSBackward.root_solve"])
p("Newton step of multiple shooting",
  "For a linear vector field one msbackward sweep gives the sequential fine solution from every initial guess (the update is a Newton step).",
  "all linear vector fields, dimensions, initial guesses",
  "all matrices and guesses",
  [SO+":MSBackward.root_solve"])
p("General noise",
  "For noise type 'general' (diffusion matrices (batch, d, m), increments (batch, m)), which the SDE solvers declare as supported, a step returns a state of the shape (batch, d) of the input.",
  "all batch sizes and dimensions",
  "all shapes",
  ["torchdyn/numerics/solvers/sde.py:EulerMaruyama.step", "torchdyn/numerics/solvers/sde.py:_check_types"])
p("save_at for SDEs",
  "sdeint with save_at returns exactly one state per requested time, or raises.",
  "all grids and save_at",
  "all grids, requested times off the grid",
  ["torchdyn/numerics/sdeint.py:_fixed_sdeint", "torchdyn/numerics/sdeint.py:sdeint"])
p("root_find solves linear problems",
  "For an affine function with known inverse Jacobian every root_find iteration multiplies the residual by 1 - alpha, and with the default arguments root_find ends with a residual below f_tol.",
  "all dimensions, batch sizes, invertible affine functions",
  "all dimensions and functions; needs the exact iteration",
  ["torchdyn/numerics/solvers/root.py:root_find", "torchdyn/numerics/solvers/root.py:NaiveSearch.search", "torchdyn/numerics/solvers/root.py:Broyden.step"])
p("Line search reports the objective at the returned step",
  "search() returns a pair (alpha, phi(alpha)) for naive and Armijo search.",
  "all objective functions",
  "all objective functions",
  ["torchdyn/numerics/solvers/root.py:NaiveSearch.search", "torchdyn/numerics/solvers/root.py:LineSearchArmijo.search"])
p("Documented stopping rule",
  "root_find stops as soon as its documented condition |F| <= f_rtol |F_0|, |F| <= f_tol, |dx| <= x_rtol |x|, |dx| <= x_tol holds, F_0 being the residual at the starting point.",
  "all functions, starting points, tolerances",
  "all functions and tolerances",
  ["torchdyn/numerics/solvers/root.py:TerminationCondition.check"])

p("Adjoint solver argument",
  "ODEProblem and NeuralODE accept solver_adjoint as None, as a solver name or as a solver module, like the argument solver.",
  "all solver names and modules",
  "all kinds of arguments",
  ["torchdyn/core/problems.py:ODEProblem.__init__"])
p("NeuralSDE.trajectory",
  "NeuralSDE.trajectory(x, t_span) returns the trajectory of the SDE over t_span.",
  "all inputs",
  "all inputs",
  ["torchdyn/core/neuralde.py:NeuralSDE.trajectory", "torchdyn/core/neuralde.py:NeuralSDE._prep_sdeint"])
p("Unused parameters and the adjoint",
  "Training with sensitivity 'adjoint' works when some parameters of the vector field are not used: their gradient is zero.",
  "all vector fields and parameter shapes",
  "all shapes of unused parameters",
  [SE+":_gather_odefunc_adjoint"])
p("Gradient with respect to t_span",
  "The adjoint returns for t_span a gradient of the shape of t_span whose first and last entries are the derivatives of the loss with respect to the initial and the final time.",
  "all vector fields and grids",
  "all grids",
  [SE+":_gather_odefunc_adjoint"])
p("Interpolated adjoint with adaptive solvers",
  "The interpolated adjoint returns the gradient of any loss of the states it returned, also when an adaptive solver returned more states than t_span has entries.",
  "all losses and vector fields",
  "all losses of intermediate states",
  [SE+":_gather_odefunc_interp_adjoint"])
p("Adjoint gradient of parameters",
  "For vector fields M x + N p + c(t) and the fixed-step Runge-Kutta solvers the adjoint returns exactly the gradient of any loss of the returned trajectory with respect to the parameters p.",
  "all dimensions, matrices, grids, loss gradients, solvers euler, midpoint, rk4",
  "all dimensions and grids",
  [SE+":_gather_odefunc_adjoint"])

p("Galerkin layers without bias",
  "GalLinear(bias=False) computes x W(t)^T without an added bias.",
  "all sizes, degrees, bases, inputs",
  "every forward fails, no test uses bias=False",
  [GA+":GalLinear.forward", GA+":GalLinear.__init__"])
p("Adaptive radial bases",
  "Radial bases with adaptive=True evaluate the basis with the trainable centers and scales.",
  "all degrees, centers, scales, times",
  "every forward fails, no test uses adaptive=True",
  [GA+":GaussianRBF", GA+":VanillaRBF", GA+":MultiquadRBF"])
p("Radial bases use the given centers and scales",
  "GaussianRBF/VanillaRBF/MultiquadRBF evaluate their basis for the centers and eps_scales passed to the constructor.",
  "all degrees, centers, scales, times",
  "wrong values without any error",
  [GA+":GaussianRBF.__init__", GA+":VanillaRBF.__init__", GA+":MultiquadRBF.__init__"])
p("Fourier layers are periodic in depth",
  "The Fourier basis of a layer consists of cos(k s), sin(k s) for k = 0, ..., deg-1, hence is 2 pi-periodic in s.",
  "all degrees and arguments",
  "all degrees",
  [GA+":Fourier.forward", GA+":GalLayer.calculate_weights"])

p("CNF with networks that couple rows",
  "The divergence column of a CNF is minus the trace of the Jacobian of each output row with respect to its input row, also for networks that couple the rows of a batch (batch normalisation).",
  "all networks and batches",
  "wrong values without any error",
  ["torchdyn/models/cnf.py:autograd_trace"])
p("HNN in odd dimension",
  "HNN either rejects states of odd dimension or preserves its energy.",
  "all odd dimensions",
  "wrong dynamics without any error",
  ["torchdyn/models/energy.py:HNN.forward"])
p("ConservativeLinearSNF preserves its energy",
  "ConservativeLinearSNF(energy, J) returns a field that preserves the energy.",
  "all energies and interconnections",
  "every forward fails, no test calls it",
  ["torchdyn/models/energy.py:ConservativeLinearSNF.forward"])
p("HybridNeuralDE",
  "HybridNeuralDE alternates jump and flow over the sequence and returns out of all hidden states or its last entry; with reverse=True it does so over the reversed sequence.",
  "all sequences, jumps, flows, outputs",
  "the module cannot be imported, no test uses it",
  ["torchdyn/models/hybrid.py:HybridNeuralDE.forward"])
p("CNF of higher order",
  "CNF(net, order=n) with n > 1 evaluates higher order dynamics.",
  "all networks and orders above 1",
  "every forward fails, no test uses it",
  ["torchdyn/models/cnf.py:CNF.forward"])
p("CNF with hutch_trace as a vector field",
  "CNF(net, trace_estimator=hutch_trace, noise_dist) can be called, and hence integrated with odeint, without NeuralODE.",
  "all networks, states",
  "tests only use it inside NeuralODE",
  ["torchdyn/models/cnf.py:CNF.forward", "torchdyn/models/cnf.py:hutch_trace"])

p("Gaussian data sets in any dimension",
  "generate_gaussians places the Gaussians on the circle of the given radius in the plane (x1, x2, 0, 0, ...) for every dim >= 2.",
  "all dim, n_samples, n_gaussians, radii, draws",
  "tests use the default dimension only",
  ["torchdyn/datasets/static_datasets.py:generate_gaussians"])
p("ToyDataset names",
  "ToyDataset.generate(n, name) calls the generator of that name and raises an error for an unknown name.",
  "all names",
  "a misspelled name fails only where the result is used",
  ["torchdyn/datasets/static_datasets.py:ToyDataset.generate"])

p("Linear invariants",
  "If w.f(t, y) = 0 for all t and y, every state returned by euler, midpoint, rk4, dopri5 and tsit5 has the same w.y as x; if w.f(t, y) = a, then w.y grows at rate a; constant fields are integrated exactly.",
  "all fields, weights w, grids, tolerances, options",
  "tests compare a few trajectories with tolerances",
  ["torchdyn/numerics/odeint.py:odeint", "torchdyn/numerics/solvers/ode.py"])
p("Equilibria",
  "From a state x with f(t, x) = 0 for all t the built-in solvers return x at every time, and the adaptive ones terminate.",
  "all fields, equilibria, grids, tolerances, options",
  "an adaptive solver may divide by a zero error or rate",
  ["torchdyn/numerics/odeint.py:odeint", "torchdyn/numerics/utils.py:init_step", "torchdyn/numerics/utils.py:adapt_step"])
p("Affine changes of coordinates",
  "If g(t, M y + c) = M f(t, y), the fixed-step solve of g from M x + c returns the images M y + c of the states of the solve of f from x.",
  "all fields, matrices M (also singular or rectangular), grids, save_at",
  "tests fix one set of coordinates",
  ["torchdyn/numerics/odeint.py:_fixed_odeint", "torchdyn/numerics/solvers/ode.py"])
p("Samples of a batch are independent",
  "Solving a batch of initial conditions gives for each sample what solving that sample alone gives.",
  "all fields acting on each sample separately, batches, solvers",
  "tests solve a batch or a sample, never compare both",
  ["torchdyn/numerics/odeint.py:odeint", "torchdyn/numerics/utils.py:hairer_norm"])

p("Reordering and copying the entries of the state",
  "Reordering the entries of the state, or repeating each of them the same number of times, reorders or repeats the entries of every returned state, for fixed-step and adaptive solvers.",
  "all fields that commute with the reordering, states, grids, tolerances, solvers, options",
  "adaptive solvers couple the entries through the norm of the error",
  ["torchdyn/numerics/odeint.py:odeint", "torchdyn/numerics/utils.py:hairer_norm"])
p("Shifting time",
  "If g(t, y) = f(t - s, y), the solve of g on the grid shifted by s returns the states of the solve of f on the grid.",
  "all fields, shifts, grids, tolerances, solvers",
  "tests start at time 0",
  ["torchdyn/numerics/odeint.py:odeint", "torchdyn/numerics/odeint.py:_fixed_odeint", "torchdyn/numerics/utils.py:init_step"])

p("NeuralSDE integrates the SDE of its drift and diffusion",
  "forward of a first-order NeuralSDE with sensitivity 'autograd' and a Brownian motion returns the grid and the trajectory of the chosen scheme for its drift and diffusion, each written f(x) or f(t, x).",
  "all drifts, diffusions, batches, Brownian paths, grids, accepted solvers",
  "no test runs NeuralSDE; callables are dispatched by their signature",
  ["torchdyn/core/neuralde.py:NeuralSDE", "torchdyn/core/defunc.py:SDEFunc", "torchdyn/core/problems.py:SDEProblem"])
p("NeuralSDE works with its default arguments",
  "NeuralSDE(drift, diffusion)(x) returns a sample path.",
  "all drifts, diffusions, batches",
  "no test runs NeuralSDE",
  ["torchdyn/core/neuralde.py:NeuralSDE"])
p("NeuralSDE supports adjoint sensitivities",
  "forward of a NeuralSDE with sensitivity 'adjoint' or 'interpolated_adjoint' returns the same values as with 'autograd'.",
  "all models, batches, sensitivities",
  "no test runs NeuralSDE",
  ["torchdyn/core/neuralde.py:NeuralSDE"])
p("DepthCat in drift or diffusion",
  "A DepthCat layer in the drift of a NeuralSDE appends the current time, as in a NeuralODE.",
  "all networks behind the layer, batches, times",
  "no test runs NeuralSDE",
  ["torchdyn/core/defunc.py:SDEFunc", "torchdyn/nn/node_layers.py:DepthCat"])
p("Benchmark systems are the textbook systems",
  "Lorenz, VanDerPol and ODEProblem4 compute, row by row, the Lorenz (10, 28, 8/3), van der Pol and Rabinovich-Fabrikant (0.87, 1.1) equations.",
  "all batches, times, parameters",
  "a wrong sign or index still gives a plausible trajectory",
  ["torchdyn/numerics/systems.py"])
p("Benchmark systems keep the shape of the state",
  "Lorenz and VanDerPol return a tensor of the shape of the state or raise.",
  "all batches of any width",
  "tests use the right width",
  ["torchdyn/numerics/systems.py:Lorenz", "torchdyn/numerics/systems.py:VanDerPol"])
p("Qualitative behaviour of the benchmark systems",
  "The Lorenz field vanishes exactly at the origin and at (c, c, 27) with c^2 = 72, is symmetric under (x, y) -> (-x, -y) and dissipates x^2 + y^2 + (z - 38)^2 outside an ellipsoid; solving from an equilibrium stays there; the van der Pol energy changes at rate mu (1 - x^2) y^2.",
  "all states, times, solvers, tolerances",
  "symmetries and equilibria hold for all states",
  ["torchdyn/numerics/systems.py:Lorenz", "torchdyn/numerics/systems.py:VanDerPol", "torchdyn/numerics/odeint.py:odeint"])
p("Benchmark systems are usable as vector fields",
  "Every class of systems.py can be the vector field of a NeuralODE or an ODEProblem: it is evaluated at the time and the state.",
  "all systems, parameters, batches, times",
  "tests pass the systems to odeint directly",
  ["torchdyn/numerics/systems.py", "torchdyn/core/utils.py:standardize_vf_call_signature"])
p("Fourier systems",
  "FourierSystem, StiffFourierSystem and CoupledFourierSystem do not depend on the state, return for a vector of times the rows of the scalar times, and are bounded by the sum of their amplitudes.",
  "all amplitudes, phases, frequencies, times, sizes",
  "parameters are sampled at random",
  ["torchdyn/numerics/systems.py:FourierSystem", "torchdyn/numerics/systems.py:CoupledFourierSystem"])
p("MatMulBoundedSystem is bounded",
  "Every entry of the output of MatMulBoundedSystem lies strictly between -1 and 1; it is tanh of MatMulSystem with the same weights.",
  "all weights, numbers of layers, states",
  "weights are random",
  ["torchdyn/numerics/systems.py:MatMulBoundedSystem"])
p("Arguments of the MatMul systems",
  "The arguments dim, hdim, layers and activation of MatMulSystem and MatMulBoundedSystem determine the network.",
  "all arguments",
  "ignored arguments raise no error",
  ["torchdyn/numerics/systems.py:MatMulSystem"])
p("Solver templates",
  "A solver can be derived from BaseExplicit or BaseImplicit by calling their constructor.",
  "all stepping classes",
  "the templates are not used in the package",
  ["torchdyn/numerics/solvers/templates.py:BaseExplicit", "torchdyn/numerics/solvers/templates.py:BaseImplicit"])
p("Base methods of multiple-shooting solvers",
  "The coarse and the fine method of a multiple-shooting solver may be given by name or as solver objects.",
  "all methods",
  "tests give names",
  ["torchdyn/numerics/solvers/templates.py:MultipleShootingDiffeqSolver"])
p("Dependence on initial state and field",
  "If two vector fields differ by at most eps, the first is Lipschitz with constant L, and the initial states differ by at most D, the fixed-step trajectories on a common grid with steps at most H differ at time t by at most exp(Lam (t - t0)) (D + (t - t0) beta eps), with constants Lam, beta of the method (Euler: L and 1; Midpoint: L (1 + L H / 2) and 1 + L H / 2; RungeKutta4: the analogous cubic polynomials).",
  "all fields, states, grids, fixed-step solvers",
  "a bound over all perturbations and all numbers of steps",
  ["torchdyn/numerics/odeint.py:_fixed_odeint", "torchdyn/numerics/solvers/ode.py"])
p("Fixed-step solvers converge with their declared order",
  "On smooth Lipschitz problems the error of Euler, Midpoint and RungeKutta4 is at most a constant (independent of the grid) times the first, second and fourth power of the largest step.",
  "all smooth Lipschitz problems, all grids",
  "an asymptotic statement over all smooth fields; tests compare two solvers on one field",
  ["torchdyn/numerics/solvers/ode.py:Euler", "torchdyn/numerics/solvers/ode.py:Midpoint", "torchdyn/numerics/solvers/ode.py:RungeKutta4"])
p("dopri5 converges with order five",
  "On smooth Lipschitz problems the error of dopri5 without interpolation is at most a constant times the fifth power of the largest gap between returned times; the constant does not depend on the grid nor on the tolerances.",
  "all smooth Lipschitz problems, grids, tolerances, options, sequences of accepted and rejected steps",
  "an asymptotic statement over all smooth fields",
  ["torchdyn/numerics/odeint.py:_adaptive_odeint", "torchdyn/numerics/solvers/ode.py:DormandPrince45", "torchdyn/numerics/solvers/_constants.py:construct_dopri5"])
p("A solve reads the field only through its calls",
  "The result of odeint (times, states, exception or non-termination) and its sequence of calls depend on the vector field only through the values at the calls it makes: a field with the same values there is solved identically. The same holds for odeint_hybrid.",
  "all fields, all explicit built-in solvers and hypersolvers, all options, any arithmetic (exact or floating point)",
  "a statement about pairs of fields",
  ["torchdyn/numerics/odeint.py:odeint", "torchdyn/numerics/odeint.py:odeint_hybrid", "torchdyn/numerics/solvers/ode.py", "torchdyn/numerics/solvers/hyper.py"])
p("Tolerances bound the global error",
  "The error of an adaptive solve is at most a constant times atol + rtol |x|, with a constant that depends only on the Lipschitz constant of the field in the state and the length of the interval.",
  "all Lipschitz fields, all tolerances, all grids",
  "needs a field adapted to the evaluation points of the solve",
  ["torchdyn/numerics/odeint.py:_adaptive_odeint", "torchdyn/numerics/odeint.py:odeint"])
p("Fixed-step solves in rounded arithmetic",
  "With every arithmetic operation rounded (float32 and float64, without overflow) a fixed-step solve on a grid whose gaps exceed the tolerance that identifies times returns exactly the requested times and one state for each, and its clock does not drift: its distance to the requested time is bounded by the rounding error of one step, however many steps were made.",
  "all rounding functions with relative error up to 1e-6, all fields, grids, Euler, Midpoint and RungeKutta4",
  "a statement about all rounding errors and all grids; a drifting clock would lose states only on long grids",
  ["torchdyn/numerics/odeint.py:_fixed_odeint", "torchdyn/numerics/odeint.py:odeint"])
p("Accuracy of Euler in rounded arithmetic",
  "On Lipschitz problems the state returned by Euler in rounded arithmetic, with a vector field computed up to an error eps, differs from the exact solution by at most exp(L S) (e0 + S (eps + M H') + k c) + F tau at the k-th requested time: the bound of exact arithmetic plus a contribution of the size of the unit roundoff per step.",
  "all rounding functions, Lipschitz fields, approximately computed fields, grids",
  "a bound over all rounding errors and fields",
  ["torchdyn/numerics/odeint.py:_fixed_odeint", "torchdyn/numerics/solvers/ode.py:Euler"])
p("Parareal converges superlinearly",
  "If the coarse flow over one interval is Lipschitz with constant beta >= 1, the difference of the fine and the coarse flow with constant delta, and the guess is within E of the sequential fine solution, then after k passes of mszero row m is within binomial(m, k) delta^k beta^(m-k) E of it.",
  "all fields, fixed-step coarse and fine methods, guesses, numbers of passes and rows",
  "a rate over all methods and numbers of passes",
  ["torchdyn/numerics/solvers/ode.py:MSZero.root_solve"])
p("SDE solvers converge path by path for additive noise",
  "For every Brownian path W and solution X of dX = f(t, X) dt + sigma dW along it, the states returned by sdeint are within exp(L (t - t0)) (e0 + (t - t0) w) of X(t), where w is the oscillation of the drift along X over one step.",
  "all Lipschitz drifts, constant diffusions, paths, grids, all accepted solvers",
  "a bound over all sample paths, including non-differentiable ones",
  ["torchdyn/numerics/sdeint.py:sdeint", "torchdyn/numerics/solvers/sde.py"])
p("Adaptive solves never report NaN",
  "In floating point, an accepted step of dopri5 or tsit5 never produces NaN: the error ratio is NaN when the new state is, and NaN fails the acceptance test. The states returned after the initial one are free of NaN, and a solve started from a state with NaN in it does not return.",
  "all fields that keep the size of the state, all grids, tolerances, in binary64 with NaN and infinities",
  "NaN has to arise inside a step, for every field and step size",
  ["torchdyn/numerics/odeint.py:_adaptive_odeint", "torchdyn/numerics/utils.py:hairer_norm", "torchdyn/numerics/odeint.py:odeint"])
p("Dense output of dopri5 keeps the order of the method",
    "With the interpolator, all states returned by dopri5, at requested times crossed by a step as well as at step ends, are within C H^5 + d H of a smooth solution, H the largest accepted step; d is an explicit constant of the order of 10^-14 that comes from the mid-point weights being written with 16 digits.",
    "all fields and smooth solutions, all grids, tolerances, step sequences",
    "an order of convergence is a statement about all step sizes; a wrong weight of the mid-point state only shows as a slower rate",
    ["torchdyn/numerics/odeint.py:_adaptive_odeint", "torchdyn/numerics/interpolators.py:FourthOrder", "torchdyn/numerics/solvers/_constants.py:construct_4th"])
p("A Galerkin convolution is a convolution with depth-dependent weights",
  "DepthCat(1) followed by GalConv2d, for images of any size, any kernel size, stride and padding, returns the zero-padded convolution of the images with the kernel and bias obtained by expanding the coefficient array in the eigenfunctions at the current depth; hence shifting the images by multiples of the stride shifts the output.",
  "all batch sizes, channel counts, image sizes, kernel sizes, strides, paddings, depths, coefficient arrays, bases and images",
  "a test compares a few sizes with torch.nn.Conv2d; wrong index arithmetic in the split of the weight vector or a wrong depth channel shows only for unequal channel counts and depths",
  ["torchdyn/nn/galerkin.py:230-273", "torchdyn/nn/node_layers.py:58-71"])
p("Adjoint gradients of nonlinear equations are correct to first order in the step size",
  "For a vector field with bounded and Lipschitz first derivatives, any fixed-step explicit Runge-Kutta solver going forward and any (possibly different) one for the adjoint, the gradient that the adjoint returns with respect to the initial state and the parameters predicts the change of the loss of the forward solve under perturbations of size E up to C |g| E (H + E), where H bounds the steps of the grid and C depends only on the two methods, the Lipschitz constant, the length of the interval and the initial speed; in particular its error against the true directional derivative of the solve is at most C |g| H.",
  "all dimensions, parameter counts, vector fields of the class, initial states, grids, loss gradients on all grid points, perturbations and pairs of consistent explicit fixed-step methods",
  "the adjoint is not the exact gradient of the discrete solve for a nonlinear field, so a test can only compare within a tolerance that hides errors of the order of the tolerance; the bound shows that the discrepancy vanishes with the step size for every field",
  ["torchdyn/numerics/sensitivity.py:37-83", "torchdyn/numerics/odeint.py:34-98"])
p("odeint_symplectic with the leapfrog solver returns the leapfrog states",
  "odeint_symplectic requires the field to carry an attribute order and rejects the asynchronous leapfrog solver for order 2, before any evaluation; with a fixed-step solver it returns exactly what odeint returns (same evaluations); with the leapfrog solver the states are, along an increasing grid, the positions and velocities of the leapfrog recursion, and along a decreasing grid those of the recursion with negative steps in which all velocities have the opposite sign.",
  "all dimensions, vector fields, initial positions and velocities, grids accepted by the solver, tolerances",
  "a test fixes one field and one grid; the sign convention of the velocity in reversed time only shows when velocities are inspected",
  ["torchdyn/numerics/odeint.py:95-150", "torchdyn/numerics/solvers/ode.py:106-135"])
p("The leapfrog solver converges with second order",
  "For a field that is Lipschitz with constant L in the state and a solution with bounded second and third derivatives, the positions returned by odeint_symplectic with the asynchronous leapfrog solver on an equally spaced grid of step h, started from the exact state and the velocity f(t0, x0), differ from the solution by at most C h^2, in either direction of time.",
  "all dimensions, Lipschitz fields, smooth solutions, equally spaced grids, initial velocities",
  "an observed convergence rate on one problem does not bound the error on others, and rounding hides the rate for small steps",
  ["torchdyn/numerics/odeint.py:95-150", "torchdyn/numerics/solvers/ode.py:122-135"])
p("Leapfrog solves are reversible",
  "Solving with the asynchronous leapfrog solver over a grid and then over the flipped grid from the final state returns the states of the first solve in opposite order, in exact arithmetic for every step size.",
  "all dimensions, vector fields, initial states and grids",
  "reversibility holds for any step size, however large, so it cannot be inferred from accurate solves; tests only see it up to rounding on a few grids",
  ["torchdyn/numerics/odeint.py:95-150", "torchdyn/numerics/solvers/ode.py:122-135"])
p("odeint_symplectic with adaptive solvers",
  "With an adaptive solver odeint_symplectic solves the equation like odeint does, honours return_all_eval, works in both directions of time, for fields of order 1 and 2 and for the adaptive variant of the leapfrog solver.",
  "all fields, states, grids, tolerances and adaptive solvers",
  "the adaptive branches are reached only by particular combinations of solver, order and direction of time that no test exercises",
  ["torchdyn/numerics/odeint.py:136-150", "torchdyn/numerics/odeint.py:326-408", "torchdyn/numerics/solvers/ode.py:122-135"])
p("Adjoint gradients obey the chain rule for parameters",
  "If the parameters of a vector field are a linear function of other parameters (tied, scaled, split, partly frozen or unused weights), the adjoint method with a fixed-step Runge-Kutta solver returns exactly the correspondingly transformed parameter gradient, and the gradients of the initial state and of the times do not change. In particular the gradient of one parameter does not depend on which other parameters are tracked, and the gradient of an unused parameter is zero.",
  "all dimensions, fields, parameter matrices, solution grids, output gradients, fixed-step explicit Runge-Kutta solvers and integral losses",
  "needs two networks with matching weights; slicing errors in the flattened adjoint state show only for particular layouts of the parameters",
  ["torchdyn/numerics/sensitivity.py:44-98"])
p("Adjoint tolerances control the parameter gradient",
  "With seminorm=False (the default of ODEProblem) the steps of an adaptive adjoint solve meet atol_adjoint and rtol_adjoint in all components of the adjoint system, so that the parameter gradient converges to the true one as the tolerances decrease.",
  "all fields, parameters, tolerances and output gradients",
  "gradient checks use loose tolerances and fields for which the state error dominates; the parameter error is invisible unless the state and the adjoint are integrated exactly",
  ["torchdyn/core/problems.py:31", "torchdyn/core/problems.py:48", "torchdyn/numerics/sensitivity.py:81-84"])
p("Parameters tracked by ODEProblem",
  "The parameters passed as optimizable_params are tracked by the problem together with those of the vector field; vf_params is the concatenation of all tracked parameters and is never empty; building a problem does not affect problems built from the same field later.",
  "all lists of own and additional parameters, all sequences of constructions",
  "a test uses a field with or without parameters, not both, and a fresh field for every problem",
  ["torchdyn/core/problems.py:80-105", "torchdyn/core/problems.py:107-111"])
p("Imports succeed in every order and mean the same",
  "Every module of torchdyn can be imported, before or after any others, and the names that a module imports or defines stand for the same objects whatever was imported before. In particular SDEProblem and NeuralSDE integrate whichever part of the package the user imported first.",
  "all modules of the package and all sequences of import statements",
  "a test process imports the package once, in one order; the test suite starts with torchdyn.core",
  ["torchdyn/numerics/__init__.py:13-17", "torchdyn/numerics/sdeint.py:7", "torchdyn/core/__init__.py:13-15", "torchdyn/core/problems.py:14", "torchdyn/core/neuralde.py:16", "torchdyn/models/hybrid.py:22"])
p("States that are dictionaries of tensors",
  "The initial state may be a dictionary of tensors (Union[Tensor, Dict]); with a fixed-step solver odeint returns, under every key, the stacked trajectory of that entry at the requested times. This holds for the solvers of the package and for custom ones.",
  "all dictionaries, vector fields, grids, save_at and fixed-step solvers",
  "no test uses a dictionary; the stacking code takes the keys of the last state and the entries of all of them",
  ["torchdyn/numerics/odeint.py:436-439", "torchdyn/numerics/sdeint.py:107-110", "torchdyn/numerics/odeint.py:62-64", "torchdyn/numerics/solvers/templates.py:29-40"])
p("Integrals of polynomials in time are exact up to the order of the solver",
  "If the vector field depends on time only and every coordinate is a polynomial in t, the returned states are the exact integrals: degree 0 for euler, 1 for midpoint, 3 for rk4 and 4 for dopri5, for every grid and every sequence of accepted steps.",
  "all polynomials, initial states, increasing grids, tolerances and step sequences",
  "tests use autonomous systems, where the stage times never matter; a wrong stage time shows only in time-dependent fields",
  ["torchdyn/numerics/solvers/ode.py:37-121", "torchdyn/numerics/solvers/_constants.py:14-35"])
p("Linear systems are advanced by matrix polynomials",
  "On a linear system y' = A y every state returned by a built-in explicit solver is obtained from the initial state by a product of polynomials in h A, the stability polynomial of the method, over step sizes that sum to the elapsed time; with a fixed-step solver the step sizes are the spacings of the grid.",
  "all linear maps on vectors of any length, initial states, grids and tolerances",
  "a test compares with a tolerance at one step size; the stability polynomial determines behaviour at all step sizes",
  ["torchdyn/numerics/solvers/ode.py:37-121", "torchdyn/numerics/solvers/_constants.py:14-35", "torchdyn/numerics/odeint.py:407-440", "torchdyn/numerics/odeint.py:211-257"])
p("Stability limits of the fixed-step solvers",
  "On y' = - lambda y the solution of euler and midpoint never exceeds its initial value if lambda h <= 2 for all spacings h and grows if lambda h > 2; for rk4 the limit lies between 2.78 and 2.79. On a harmonic oscillator of frequency omega the energy is multiplied per step by 1 + z^2 (euler), 1 + z^4/4 (midpoint), 1 - z^6/72 + z^8/576 (rk4) with z = omega h: it grows in every step of euler and midpoint, and never grows with rk4 if z^2 <= 8.",
  "all rates, frequencies, initial states and increasing grids",
  "instability shows only at the step sizes where it sets in, after enough steps to be visible",
  ["torchdyn/numerics/solvers/ode.py:37-88", "torchdyn/numerics/odeint.py:407-440"])
p("The mean of Ito solutions is the solution of the drift",
  "If the drift is affine in the state, the average of the solutions of the Ito solvers (euler, milstein_ito) over independent Brownian increments with mean zero and variance h equals, at every time, the Euler solution of the drift alone computed by odeint, whatever the diffusion.",
  "all affine drifts, all diffusions, dimensions, initial states, grids and finite distributions of the increments",
  "a test would have to average over many paths and could only see a bias larger than the sampling error",
  ["torchdyn/numerics/solvers/sde.py:19-35", "torchdyn/numerics/solvers/sde.py:62-98", "torchdyn/numerics/sdeint.py:92-116"])
p("The mean of Stratonovich solutions has the Ito correction",
  "For a diffusion beta x per component and an affine drift, the average of the solutions of the Stratonovich solvers (eulerHeun, milstein_stratonovich) over independent increments with mean zero and variance h is the Euler solution of the drift plus beta^2 x / 2.",
  "all affine drifts, linear diffusions, dimensions, initial states, grids and finite distributions of the increments",
  "the difference is a bias of order h^(3/2) per step, below the sampling error of a test",
  ["torchdyn/numerics/solvers/sde.py:38-60", "torchdyn/numerics/solvers/sde.py:77-107", "torchdyn/numerics/sdeint.py:92-116"])
p("Mean-square stability of Euler-Maruyama",
  "For dX = (a X + c) dt + (b X + sigma) dW the averages of X and X^2 over independent increments obey the textbook recursions. For c = sigma = 0 the mean square is multiplied by (1 + a h)^2 + b^2 h per step: it never grows if 2 a + b^2 + a^2 h <= 0 for all spacings and grows in every step if it is positive.",
  "all coefficients, initial states, grids and finite distributions of the increments",
  "moments need an average over all paths; a single path says nothing about stability in mean square",
  ["torchdyn/numerics/solvers/sde.py:19-35", "torchdyn/numerics/sdeint.py:92-116"])
p("The log-density of a normalizing flow belongs to the map it computes",
  "Solving a CNF with odeint from the state (l, z) returns (l', phi(z)), and l' is the log-density at phi(z) of the samples moved by the returned map phi: l' = l - ln |det phi'(z)|.",
  "all networks, samples, grids and built-in solvers",
  "a test compares with the flow at small steps, where both agree; the density of the discrete map needs its derivative",
  ["torchdyn/models/cnf.py:19-24", "torchdyn/models/cnf.py:55-66", "torchdyn/numerics/odeint.py:411-438"])
p("Fixed-step solvers keep nonnegative states nonnegative",
  "If no entry of a nonnegative state decreases faster than at the relative rate lambda (concentrations, populations), a fixed-step solver with lambda h <= 1 for all spacings h returns nonnegative states from a nonnegative initial state.",
  "all such fields, dimensions, initial states and grids; euler and midpoint",
  "a test sees a few kinetics; violations need a field that grows early in the step and decays later",
  ["torchdyn/numerics/solvers/ode.py:61-73", "torchdyn/numerics/solvers/ode.py:75-87", "torchdyn/numerics/odeint.py:411-438"])
p("Euler solutions of dissipative systems approach each other",
  "If (f(t,y) - f(t,z)) . (y - z) <= - mu |y - z|^2 and |f(t,y) - f(t,z)| <= L |y - z|, the squared distance of two Euler solutions on the same grid is at most the initial one times the product of 1 - 2 mu h + L^2 h^2. With L^2 h <= 2 mu trajectories never move apart.",
  "all dissipative fields, dimensions, pairs of initial states and grids",
  "quantifies over pairs of trajectories and all fields of the class",
  ["torchdyn/numerics/solvers/ode.py:61-73", "torchdyn/numerics/odeint.py:411-438"])
p("The log of root_find describes the run",
  "The logger returned by root_find with verbose=True holds the returned z, the last residual and step, the number of iterations, the last step size alpha and objective phi of the line search, and the termination condition exactly if the tolerances stopped the run. Logging does not change the result.",
  "all functions, initial points, tolerances, methods, line searches and iteration limits",
  "the loop has several exits, and entries that are never written look like empty histories",
  ["torchdyn/numerics/solvers/root.py:259-300", "torchdyn/numerics/utils.py:112-117"])
p("RootLogger.permanent_log appends a complete record or nothing",
  "permanent_log extends the history of every key of the logger by the logged values; if a key is missing it raises KeyError and the logger is unchanged.",
  "all loggers and records",
  "the state after a failed call is rarely looked at",
  ["torchdyn/numerics/utils.py:112-121"])
p("Double-precision problems are solved with double-precision coefficients",
  "With float64 data the Butcher tableau is accurate to float64: x' = v with a constant v is integrated with a relative error of at most 2^-51 (apart from rounding of the arithmetic), whether the solver is given to odeint by name or belongs to an ODEProblem or NeuralODE.",
  "rk4, dopri5 and tsit5; all states, velocities, grids and tolerances",
  "the error of 1e-8 lies below the tolerances of usual tests and does not shrink with the step size or the tolerances",
  ["torchdyn/numerics/solvers/ode.py:325-345", "torchdyn/numerics/solvers/templates.py:30-36", "torchdyn/numerics/solvers/_constants.py:20-60", "torchdyn/core/problems.py:56-61", "torchdyn/numerics/odeint.py:63-64"])
p("Solving in one dtype does not change later solves in another",
  "A solver object may be used with data of several dtypes: the coefficients used in a solve depend on the dtype of its data only, not on the solves before.",
  "rk4, dopri5 and tsit5; all sequences of earlier dtypes and all later dtypes",
  "needs a history of calls with different dtypes on one object; the loss of precision is silent",
  ["torchdyn/numerics/solvers/templates.py:30-36", "torchdyn/numerics/odeint.py:63-71", "torchdyn/core/problems.py:56-61"])
p("An integral loss is the integral of the loss along the trajectory and does not alter it",
  "A NeuralODE with an integral loss propagated in the first column of the state (sensitivity 'autograd') returns the states it would return without the loss, and in the first column the initial value plus the quadrature formula of the solver applied to the loss along these states.",
  "all vector fields and losses of the states, batches, built-in solvers, increasing grids, tolerances",
  "all fields, losses, solvers and grids; tests only check that training with a loss runs",
  ["torchdyn/core/defunc.py:64-78", "torchdyn/core/neuralde.py:76-122", "torchdyn/numerics/odeint.py:30-110", "torchdyn/numerics/solvers/ode.py:40-200"])
p("The interpolated adjoint follows the stored solution",
  "With sensitivity='interpolated_adjoint' the backward pass solves the adjoint equation along a smooth path through the states returned by the forward solve, for states of every shape and for both directions of time.",
  "all fields and their vector-Jacobian products, state shapes, grids, loss gradients and fixed-step solvers",
  "gradients must be compared with an independent adjoint solve along the path; for linear fields the path has no influence",
  ["torchdyn/numerics/sensitivity.py:104-161", "torchdyn/numerics/odeint.py:66-68"])
p("dense_output evaluates an interpolant of the solution",
  "dense_output(sol, t_sol, t_eval) returns values of an interpolant through the solution points at the times t_eval.",
  "all solutions of at least two times and all evaluation points",
  "the function is exercised by no test; that it fails for every argument needs the argument order of a library of another project",
  ["torchdyn/numerics/utils.py:66-73", "setup.py:28", "pyproject.toml:15"])
p("Event callbacks can be held by modules",
  "EventCallback and StochasticEventCallback are nn.Modules: a module that holds callbacks can list its modules and parameters (each once), be switched between train() and eval() and be moved by to(), and two callbacks are equal only if they are the same object.",
  "all module trees with shared submodules, all classes derived from the callback classes, all places of the callbacks in the tree",
  "tests pass callbacks to odeint_hybrid in a list and never train them",
  ["torchdyn/numerics/utils.py:84-111"])
p("Hybrid solves return the requested times when events fire",
  "The times returned by odeint_hybrid contain every time of t_span also when events fire (before and after the jumps), and the solve starts at the first and ends at the last of them.",
  "all fields, callbacks, tolerances and increasing t_span",
  "tests of hybrid solves plot the trajectory or use a t_span with two times",
  ["torchdyn/numerics/odeint.py:228-321"])
p("Events are triggered by accepted steps only",
  "odeint_hybrid applies the jump of an event only if the event condition is met by a solution computed within the tolerances: if the exact solution stays away from the event set by a margin that the tolerances can resolve, no jump happens.",
  "all fields, callbacks and tolerances",
  "the trial step that triggers an event must be inaccurate, which does not happen in the bouncing ball tests",
  ["torchdyn/numerics/odeint.py:240-292"])
p("Backpropagation through fixed-step solves is exact",
  "If autograd differentiates the vector field (and, for hypersolvers, the correction network) correctly in state and parameters, then backpropagating through odeint with a fixed-step solver gives the exact derivatives of the returned states with respect to the initial state and the parameters, for every grid and every save_at; a solve raises with derivatives exactly if it raises without.",
  "all differentiable fields, correction networks, initial states, grids and save_at; euler, midpoint, rk4 and their hypersolvers",
  "gradient tests compare with finite differences or the adjoint at a few points, up to a tolerance",
  ["torchdyn/numerics/odeint.py:411-446", "torchdyn/numerics/solvers/ode.py:49-121", "torchdyn/numerics/solvers/hyper.py:17-47"])
p("Gradients flow through events of hybrid solves",
  "Backpropagating through odeint_hybrid gives the derivatives of the returned states also when events fire: the state after a jump depends on the initial state and the parameters through the state before the jump, and so does its gradient.",
  "all differentiable fields, events and jump maps, tolerances and t_span",
  "gradients are finite and have the right shape; they are only too small, and training still runs",
  ["torchdyn/numerics/odeint.py:252-292"])
p("The error of a hypersolver is the error of its network",
  "If along the exact solution the network of a hypersolver misses the residual of its base solver, divided by dt^(order+1), by at most delta, then the states returned by odeint differ from the solution by at most a constant times delta times the largest step to the power of the order; HyperEuler with a network close to half the second derivative is of second order up to the error of the network.",
  "all Lipschitz fields and networks, solutions, grids; HyperEuler, HyperMidpoint, HyperRungeKutta4",
  "tests train a network and compare a few errors",
  ["torchdyn/numerics/solvers/hyper.py:17-47", "torchdyn/numerics/odeint.py:411-443"])
p("Hypersolvers integrate backwards in time",
  "For a decreasing t_span a hypersolver takes negative steps: the correction is dt^(order+1) times the network at the current time and state, as for increasing t_span.",
  "all fields, networks and decreasing t_span",
  "tests of hypersolvers integrate forward in time",
  ["torchdyn/numerics/odeint.py:54-58", "torchdyn/numerics/solvers/hyper.py:17-47"])
p("Hypersolvers work with adjoint sensitivities",
  "A problem that is solved with a hypersolver can be differentiated with sensitivity='adjoint': whenever the forward pass returns, the backward pass returns a gradient.",
  "all fields, networks for the states of the equation, states, parameters and t_span",
  "no test combines hypersolvers with adjoint sensitivities",
  ["torchdyn/core/problems.py:58-61", "torchdyn/numerics/sensitivity.py:81-93", "torchdyn/numerics/solvers/hyper.py:24-26"])
p("Recording gradients does not change the results",
  "A solve with requires_grad inputs returns the same times and states, raises the same exceptions and calls the vector field at the same points as the solve without gradients.",
  "all fields, solvers, states, t_span, tolerances, options and callbacks; any arithmetic",
  "tests compare values with and without gradients for a few problems",
  ["torchdyn/numerics/odeint.py:29-91", "torchdyn/numerics/odeint.py:171-323", "torchdyn/numerics/solvers/ode.py:27-58"])
p("save_at can be a list of numbers",
  "save_at may be an iterable of Python numbers instead of a tensor: a fixed-step solve then returns the same states as for the tensor of these times with the dtype of t_span.",
  "all fields, fixed-step solvers, t_span of any dtype and lists of times in t_span",
  "tests pass tensors of the dtype of t_span",
  ["torchdyn/numerics/odeint.py:411-424"])
p("t_span can be a tensor of integers",
  "For integer times, such as torch.arange(3), odeint and odeint_hybrid return the same result as for the same times as floating point numbers.",
  "all fields, solvers, states, tolerances and integer t_span",
  "tests use torch.linspace",
  ["torchdyn/numerics/utils.py:37-54", "torchdyn/numerics/odeint.py:80-91", "torchdyn/numerics/odeint.py:221-229"])
p("Solves keep the dtype of the state",
  "odeint and odeint_hybrid call the vector field only with states of the dtype of x and return states of that dtype, whatever the dtype of t_span (a field with float32 parameters can be solved on a float64 time grid, a float16 model stays float16).",
  "all fields that return slopes of the dtype of the state, all built-in solvers, dtypes of x and t_span, states, times and options",
  "tests use float32 for states and times, or float64 for both",
  ["torchdyn/numerics/odeint.py:80-91", "torchdyn/numerics/odeint.py:201-229", "torchdyn/numerics/odeint.py:341-409", "torchdyn/numerics/solvers/templates.py:17-38", "torchdyn/numerics/utils.py:37-66"])
p("States may be tensors without axes",
  "A scalar equation can be solved with a state without axes (x = torch.tensor(1.)): odeint calls the field at the same points and returns the same values, or raises the same exceptions, as for the state with one entry (x.reshape(1)).",
  "all fields that keep the shape of the state, all built-in solvers, arithmetics, dtypes, initial values, time grids, tolerances and options",
  "tests use states of shape (batch, dim)",
  ["torchdyn/numerics/odeint.py:341-443", "torchdyn/numerics/solvers/ode.py:61-178", "torchdyn/numerics/solvers/_constants.py:20-46", "torchdyn/numerics/solvers/templates.py:17-38"])
p("Backpropagation through implicit Euler",
  "With solver 'ieuler' and sensitivity 'autograd' the gradient of the states returned with respect to parameters of the field and the initial state is the derivative of the numbers returned.",
  "all fields, optimisers, arithmetics, initial states, time grids and options",
  "the gradient is silently zero (None), training runs without changing anything",
  ["torchdyn/numerics/solvers/ode.py:181-205", "torchdyn/numerics/odeint.py:411-443"])
p("Backpropagation through multiple shooting",
  "The gradients of the states returned by odeint_mshooting with respect to parameters of the field and the initial state are the derivatives of the numbers returned.",
  "all fields with correct derivatives, coarse and fine methods, initial states, grids, first guesses, fine_steps and maxiter",
  "the gradients are numbers of the right size; only a comparison with differences of solves shows that they are wrong",
  ["torchdyn/numerics/solvers/ode.py:222-317", "torchdyn/numerics/odeint.py:153-180"])
p("Backpropagation through adaptive solves",
  "The gradients of the states returned by odeint with an adaptive solver, with respect to the initial state or to parameters of the field, are the derivatives of the numbers returned.",
  "all fields with correct derivatives, initial states, intervals and tolerances, for dopri5 and tsit5",
  "the error is a fraction of the truncation error and disappears in loose tolerances; no test compares gradients with differences of adaptive solves",
  ["torchdyn/numerics/odeint.py:326-408", "torchdyn/numerics/utils.py:27-63"])
p("Units of time",
  "Measuring time in another unit does not change the states odeint returns: solving x' = f(t/c, x)/c over the times c t_0, c t_1, ... gives the states of x' = f(t, x) over t_0, t_1, ..., at times multiplied by c.",
  "all fields, initial states, increasing time spans and units c > 0, for euler, midpoint, rk4, dopri5 and tsit5",
  "tests use times of order one; nobody repeats a solve in microseconds, and the adaptive results differ by less than the tolerance",
  ["torchdyn/numerics/utils.py:27-63", "torchdyn/numerics/odeint.py:29-91", "torchdyn/numerics/odeint.py:326-408", "torchdyn/numerics/odeint.py:411-446"])
p("Backpropagation to the times of a fixed-step solve",
  "If t_span requires gradients, the gradients of the states returned by odeint with a fixed-step solver with respect to the entries of t_span are the derivatives of the numbers returned: every time is read through t + dt and t_span[i+1] - t, and these do not lose or add derivatives.",
  "all fields with correct derivatives in time, state and parameter, all separated grids whose times, initial state, field and hypernetwork depend differentiably on a parameter; euler, midpoint, rk4 and the hypersolvers; increasing and decreasing t_span",
  "no test differentiates with respect to t_span, and an omitted contribution of one step changes a sum of many",
  ["torchdyn/numerics/odeint.py:411-446", "torchdyn/numerics/odeint.py:67-80", "torchdyn/numerics/solvers/ode.py:49-104"])
p("Backward passes use the control of their own forward call",
  "The gradients returned by the backward pass of a call of a NeuralODE are the same whatever else the NeuralODE is used for before that backward pass: as if backward followed its forward call at once in a fresh module.",
  "all fields, sequences of forward calls, trajectory calls, parameter updates and backward passes; sensitivities adjoint and interpolated_adjoint",
  "tests call backward right after forward; with two calls in one loss the gradients have the right shape and are wrong",
  ["torchdyn/core/neuralde.py:95-145", "torchdyn/numerics/sensitivity.py:32-100", "torchdyn/numerics/sensitivity.py:104-161", "torchdyn/nn/node_layers.py:74-82"])
p("Gradients with respect to the input of a controlled Neural ODE",
  "The gradient of the states returned by a NeuralODE with respect to its input is the derivative of these states, also when the field contains a DataControl module.",
  "all fields with correct derivatives, inputs, fixed-step solvers and grids",
  "gradients with respect to the input are not compared with differences for controlled models",
  ["torchdyn/core/neuralde.py:105-123", "torchdyn/nn/node_layers.py:74-82"])
p("Purely relative tolerances",
  "odeint with an adaptive solver returns for atol = 0 (purely relative error control) whenever it returns for small positive atol, also if entries of the state are zero and stay zero.",
  "all adaptive solvers, fields, states with zero entries, grids that go forward, rtol, binary64 arithmetic",
  "the states of tests have no exact zeros that persist; the failing solve does not raise but never returns",
  ["torchdyn/numerics/odeint.py:363-374", "torchdyn/numerics/utils.py:33-34"])
p("Names of the attributes of a vector field",
  "A NeuralODE computes with the attributes its vector field has, whatever they are called: a solve calls the field with its own parameters, buffers and attributes and leaves them as they were, except for the depth variables of DepthCat layers.",
  "all fields built of any modules, whose attribute named t is a value, a buffer, a parameter, a submodule or a property, and all sequences of calls",
  "the modules of tests have no attribute named t; when one is overwritten the solve returns plausible values",
  ["torchdyn/core/defunc.py:60-82", "torchdyn/nn/node_layers.py:57-71"])
p("Backpropagation through leapfrog solves is exact",
  "The gradients that autograd computes through odeint_symplectic, or odeint, with the asynchronous leapfrog solver are the derivatives of the returned positions and velocities with respect to initial position, initial velocity and parameters; an exception is raised with gradients recorded exactly when it is raised without.",
  "all fields with correct derivatives, dimensions, initial states, parameters, grids in both directions, save_at, values of the order attribute of the field",
  "a comparison with finite differences samples one field and one direction",
  ["torchdyn/numerics/odeint.py:95-150", "torchdyn/numerics/solvers/ode.py:98-135"])
p("Plots show the data and the model",
  "The plotting utilities draw every requested sample once, at its own coordinates and in the colour of its class, and the vector field of the NeuralODE they are given, for any number of samples and classes.",
  "all trajectories, labels, data sets, NeuralODEs, grids",
  "plots are looked at for the tutorials' two-class examples only",
  ["torchdyn/utils.py:24-199"])
p("Backpropagation through SDE solves is exact along a Brownian path",
  "The gradients that autograd computes through sdeint are the derivatives of the returned states, for the given Brownian path, with respect to initial state and parameters of drift and diffusion; an exception is raised with gradients recorded exactly when it is raised without.",
  "all drifts and diffusions with correct derivatives, declared noise and SDE types, dimensions, solver names, Brownian paths, initial states, parameters, save_at; all grids for the Euler solvers, increasing grids for the Milstein solvers",
  "gradients of noisy outputs are hard to compare with finite differences, and only one path is sampled",
  ["torchdyn/numerics/sdeint.py:33-116", "torchdyn/numerics/solvers/sde.py:19-107"])
p("Gradients can be differentiated again",
  "Differentiating the gradient of a solve (create_graph=True, as for Hessian-vector products or gradient penalties) gives the second derivatives of the returned states, for every sensitivity.",
  "all fields with correct first and second derivatives, dimensions, initial states, parameters, grids, save_at; fixed-step solvers and hypersolvers",
  "first-order gradients are correct, so training losses look right; only a comparison of Hessians shows the missing terms",
  ["torchdyn/numerics/sensitivity.py:115-159", "torchdyn/numerics/odeint.py:411-443", "torchdyn/core/problems.py:24-111"])
p("Options without effect are announced, and only those that were given",
  "An option passed to odeint, sdeint, ODEProblem or NeuralODE either influences the result or triggers a warning; a call in which no option was given does not warn about options.",
  "all solvers, fields, states, accepted time spans and values of all keyword arguments",
  "each ignored option has to be combined with each class of solvers, and the absence of an effect is a statement about all fields",
  ["torchdyn/numerics/odeint.py:29-91", "torchdyn/numerics/odeint.py:95-150", "torchdyn/numerics/sdeint.py:33-84", "torchdyn/core/problems.py:24-72", "torchdyn/core/neuralde.py:30-85", "torchdyn/numerics/sensitivity.py:81-84"])
p("Units of the state",
  "Expressing the state in another unit (multiplying it by c != 0, with the field, the events and the network of a hypersolver converted accordingly and atol multiplied by |c|) changes the returned states by the factor c and nothing else: the evaluated times, the accepted steps, the returned times and the exceptions are the same.",
  "all c != 0, fields, states, time spans, tolerances, options and events; euler, midpoint, rk4, dopri5, tsit5 and the hypersolvers; odeint and odeint_hybrid",
  "an absolute constant hidden in the step size control shows only for badly scaled problems, and then as a slightly different step sequence",
  ["torchdyn/numerics/odeint.py:29-91", "torchdyn/numerics/odeint.py:183-323", "torchdyn/numerics/odeint.py:326-408", "torchdyn/numerics/utils.py:18-73"])
p("Rounding errors of fixed-step solves",
  "Rounding errors of a fixed-step solve add up at most linearly in the number of steps: for problems of bounded size there is a constant, the same for all fields, grids and floating point formats, such that the i-th state computed in rounded arithmetic differs from that of exact arithmetic by at most this constant times e0 + i (u + eta + eps), where u and eta bound the errors of one operation, eps those of the computed field and e0 that of the initial state; the distance to the true solution is at most that plus the error of the order of the method.",
  "all fields that are Lipschitz in state and time, all grids whose times the code tells apart, every rounding with relative error at most 1e-6 (float32, float64); euler, midpoint and rk4",
  "tests compare with loose tolerances on short grids; an error that grows with the square of the number of steps, or a clock that drifts, stays below them",
  ["torchdyn/numerics/odeint.py:411-441", "torchdyn/numerics/solvers/ode.py:61-104"])
p("Time may be made a component of the state",
  "Solving x' = f(t, x) and solving the autonomous equation of the pair (t, x), t' = 1, x' = f(t, x), give the same outcome and the same states x; the first component of the pair is the time of the grid. (Rewriting a time-dependent field this way is common practice, e.g. for data-control or depth-augmented models.)",
  "all fields, dimensions, initial states, grids (forward and backward), save_at; the fixed-step solvers, and single steps of dopri5",
  "a test compares the two formulations on one field with a tolerance; a solver with one wrong node still converges in both, only slower in one",
  ["torchdyn/numerics/solvers/ode.py:62-130", "torchdyn/numerics/odeint.py:411-443"])
p("Rotations of the state",
  "A solve with an absolute tolerance only (rtol = 0) does not depend on the orientation of the coordinates: for a linear map Q that preserves Euclidean lengths and a field g with g(t, Q x) = Q f(t, x), the solve of g from Q x calls the field at the same times, at the rotated states, and returns the same times (or raises the same exception) and the rotated states; the same for hybrid solves with rotated events.",
  "all dimensions, isometries, fields, initial states, times, absolute tolerances, fuel, save_at and other options except the seminorm; all built-in solvers and hypersolvers, including the adaptive ones",
  "equivariance tests compare final states up to a tolerance; here the accepted and rejected steps themselves must agree, which a norm taken entry by entry would break only for some rotations",
  ["torchdyn/numerics/utils.py:33-56", "torchdyn/numerics/odeint.py:326-410", "torchdyn/numerics/solvers/ode.py:89-260"])
p("root_find converges on nonlinear equations",
  "For a batch of nonlinear equations in one unknown each, whose slopes lie between m > 0 and M, both Broyden methods without line search and with a step size below 2m/M converge linearly from every starting point, and root_find ends by its termination condition once maxiters is large enough.",
  "all batch sizes, equations with bounded slopes, starting points, initial inverse slopes in the range, step sizes, positive tolerances, maxiters",
  "tests run a few equations from a few starting points with roots away from zero and look at the residual, not at the logged termination condition",
  ["torchdyn/numerics/solvers/root.py:31-82", "torchdyn/numerics/solvers/root.py:233-243", "torchdyn/numerics/solvers/root.py:259-300"])
p("Gradient flows descend",
  "An Euler solve of a gradient neural flow (GNF) never raises the energy if the gradient has Lipschitz constant L and no step exceeds 2/L; a step of length h lowers it by at least h(1 - Lh/2)|grad E|^2. If the energy is convex and no step exceeds 1/L, its excess over the minimum at time t is at most |x - z|^2 / (2(t - t0)), z being any minimiser, and no state is farther from z than the initial one. Beyond 2/L the energy can rise.",
  "all energies with Lipschitz gradient, dimensions, initial states, grids, minimisers, tolerances, interpolation and output options",
  "tests look at the energy of one trained model along one grid; the bounds hold for all smooth energies and name the largest step",
  ["torchdyn/models/energy.py:48-62", "torchdyn/numerics/odeint.py:411-447", "torchdyn/numerics/solvers/ode.py:61-71"])
p("The energy of solved Hamiltonian networks",
  "Along the states odeint returns for a Hamiltonian network (HNN) the learned energy stays within C H^p of the initial energy, p being the order of the solver (1 euler, 2 midpoint, 4 rk4, 5 dopri5), H the largest step and C one constant for all grids. It is not conserved exactly: Euler multiplies the energy of the oscillator by 1 + h^2 in every step.",
  "all energies whose Hamiltonian field is Lipschitz with smooth solutions, all even dimensions, grids, tolerances and output options",
  "tests measure the drift for one network and one grid; the order of the drift needs all grids",
  ["torchdyn/models/energy.py:65-80", "torchdyn/numerics/odeint.py:411-447", "torchdyn/numerics/solvers/ode.py:61-170"])
p("Implicit Euler is stable and accurate for every step size",
  "For fields with (f(y) - f(z)).(y - z) <= -mu |y - z|^2, mu >= 0, two solves with implicit Euler approach each other by the factor 1/(1 + mu h) in every step however large h is, equilibria attract every solution, and the error at time t is at most sqrt(n) (M/2 + K) H (t - t0), M bounding the second derivative of the solution, K the dependence of the field on time and H the steps: no Lipschitz constant enters. What the optimiser leaves of the residual, eps per step, is added.",
  "all dimensions, one-sided Lipschitz fields, initial states, increasing grids, step sizes, optimisers that bring the residual of every step below eps",
  "tests try a few step sizes on mild problems; the point of an implicit method is that no step size and no stiffness breaks it",
  ["torchdyn/numerics/solvers/ode.py:181-205", "torchdyn/numerics/odeint.py:411-447"])
p("Small steps keep different states different",
  "Solutions of an ODE never meet. For a field with Lipschitz constant L and fixed steps of size at most H below a bound (H L < 1 for euler, H L (1 + H L / 2) < 1 for midpoint, H L (1 + H L / 2 + (H L)^2 / 6 + (H L)^3 / 24) < 1 for rk4) the same holds for odeint: different initial states have different states at all times, differences shrink at most by a fixed factor per step, scalar solutions keep their order, so that no one-dimensional field takes 1 to -1 and -1 to 1 (the reason for augmenting states).",
  "all dimensions, Lipschitz fields, pairs of initial states, increasing grids with steps below the bound, all explicit fixed-step solvers",
  "that no two of infinitely many states are merged cannot be seen from samples; with larger steps it is false",
  ["torchdyn/numerics/odeint.py:411-447", "torchdyn/numerics/solvers/ode.py:48-104", "torchdyn/nn/node_layers.py:17-50"])
p("Solving forward and then back returns to the start",
  "On smooth problems, solving from t0 to T with a fixed-step solver of order p and then from the result back along the reversed grid returns to the initial state up to C H^p, H the largest step and C independent of the grid. (The adjoint methods rely on it: they reconstruct the states of the forward pass by solving backward.)",
  "all dimensions, smooth Lipschitz fields, initial states, increasing grids from t0 to T, the solvers euler (order 1), midpoint (2) and rk4 (4)",
  "an order is a statement about all grids at once; a test of one grid sees one number",
  ["torchdyn/numerics/odeint.py:54-91", "torchdyn/numerics/odeint.py:411-447", "torchdyn/numerics/solvers/ode.py:48-104", "torchdyn/numerics/sensitivity.py:45-98"])
p("The moments of the SDE solvers converge with first order",
  "For linear equations dX_j = alpha_j X_j dt + beta_j X_j dW_j, the mean of the solutions of sdeint over independent increments of mean zero and variance h differs from the mean of the exact solution, exp(alpha_j t) x_j (Ito) or exp((alpha_j + beta_j^2 / 2) t) x_j (Stratonovich), by at most a constant times the largest step; for the Ito solver euler the mean square converges alike to exp((2 alpha + beta^2) t) x^2.",
  "all dimensions, coefficients, initial states, increasing grids, all distributions of the increments over finitely many equally likely values with the right mean and variance",
  "the error of a mean is hidden by the sampling error of a test; the order is a statement about all grids",
  ["torchdyn/numerics/solvers/sde.py:19-109", "torchdyn/numerics/sdeint.py:33-116"])
p("Requested times do not change interpolated solves",
  "With an interpolator, the times between the first and the last of t_span only decide what is reported: two solves with dopri5 over grids with the same ends call the vector field at the same points in the same order and return equal states at the times the grids share; return_all_eval does not change the states either.",
  "all dimensions, vector fields, initial states, tolerances, seminorms, increasing or decreasing grids with common ends",
  "the claim compares the solves for all pairs of grids, including times that coincide with the ends of internal steps",
  ["torchdyn/numerics/odeint.py:326-408", "torchdyn/numerics/interpolators.py:1-72"])
p("Gradients of a sum of losses add up",
  "With the adjoint and the interpolated adjoint method and a fixed-step adjoint solver, the backward pass is linear in the gradient of the loss: for losses L1 and L2 on the same solve, a L1 + b L2 gets a times the gradients of L1 plus b times those of L2 (parameters, initial state, time span), and raises exactly when one of them raises. With an integral loss, which enters every backward pass, this holds for a + b = 1.",
  "all fields with linear vector-Jacobian products, dimensions, explicit Runge-Kutta adjoint solvers, solutions, grids, gradients of the losses, a, b",
  "linearity is an identity between backward passes for all pairs of losses and all coefficients",
  ["torchdyn/numerics/sensitivity.py:44-98", "torchdyn/numerics/sensitivity.py:116-159"])
p("Solves depend continuously on the initial state",
  "For a vector field that is Lipschitz in the state, the states returned by odeint change by less than any given eps when the initial state changes by less than a suitable delta.",
  "all fields, dimensions, initial states, grids and tolerances eps; the fixed-step solvers and the adaptive ones",
  "a jump sits at single initial states (where an error ratio is exactly one), which sampled tests do not hit",
  ["torchdyn/numerics/odeint.py:29-92", "torchdyn/numerics/odeint.py:326-446", "torchdyn/numerics/utils.py:57-63"])
p("Interpolator.evaluate is the polynomial with the given coefficients",
  "Interpolator.evaluate on any list of at least two coefficient tensors returns sum_j theta^j c_j with theta = (t - t0) / (t1 - t0): the first coefficient at t0, the sum of all at t1, unchanged by affine changes of the time axis. On fewer coefficients it raises IndexError. The mid point of a step is the weighted sum of the stages; more stages than weights raise IndexError.",
  "all numbers of coefficients and stages, all dimensions, intervals and times",
  "the solvers only ever call it with five coefficients and seven stages",
  ["torchdyn/numerics/interpolators.py:29-37", "torchdyn/numerics/odeint.py:381"])

p("make_norm is the larger of the norms of state and adjoint",
  "The norm returned by make_norm(state), applied to an augmented state made of a time entry, state, adjoint and parameter gradients, is the larger of the root mean squares of the state and of the adjoint. The time entry and the parameter gradients do not influence it. It is a seminorm which vanishes exactly if state and adjoint vanish.",
  "all state sizes, augmented states and lengths of the parameter part",
  "make_norm is exported but neither called in the library nor tested",
  ["torchdyn/numerics/utils.py:24-34"])
p("Solves respect the order of states and fields",
  "Let f <= g be vector fields, one of them cooperative (every component grows with the other components of the state; every scalar field is cooperative), and x <= z. Then, for steps that are small compared with the Lipschitz constant, the states returned for f from x are at most those returned for g from z, in every component and at every time, as for the exact solutions (comparison theorem).",
  "all dimensions, cooperative Lipschitz fields, initial states and grids; the fixed-step and the adaptive solvers",
  "violations need a field that differs between the stages of one step, or an initial state where the acceptance of a step changes",
  ["torchdyn/numerics/solvers/ode.py:61-87", "torchdyn/numerics/odeint.py:326-446"])
p("The noise of the data sets perturbs every point by itself",
  "The argument noise of the data set generators is the standard deviation of a perturbation that is added to every point (docstrings): in every coordinate, centred, and for every point by itself.",
  "all sample sizes, noise levels and random draws",
  "plots of noisy data look plausible; the dependence between the perturbations of different points and coordinates does not show in sizes and labels",
  ["torchdyn/datasets/static_datasets.py:41-95", "torchdyn/datasets/static_datasets.py:98-188"])
p("Tightening the tolerances does not make the result worse",
  "Solving the same problem with smaller atol and rtol gives a result that is at least as near to the exact solution, up to the size of the tolerances.",
  "all vector fields, initial states, grids and pairs of tolerances; fixed-step and adaptive solvers",
  "convergence tests compare tolerances that differ by powers of ten on smooth problems; the effect needs a field with a narrow feature and an error ratio near one",
  ["torchdyn/numerics/odeint.py:326-446", "torchdyn/numerics/utils.py:57-63"])
p("Leapfrog solves are symplectic",
  "The leapfrog solver is documented as a symplectic stepper. For a differentiable field with symmetric Jacobian (a gradient) the map from the initial position and velocity to the position and velocity at any recorded time preserves the symplectic form sum dx_i dv_i; in one dimension it preserves areas with their orientation.",
  "all dimensions, differentiable fields, initial states, grids with any step sizes and numbers of steps",
  "needs derivatives of the whole solve along two directions and a sign that only an odd number of steps shows",
  ["torchdyn/numerics/solvers/ode.py:107-135", "torchdyn/numerics/odeint.py:95-150"])
p("Solves of linear problems superpose",
  "If the field is linear with sources, that is q(t, a u + b v) = a f(t, u) + b g(t, v), then solving q from a x + b z gives at every time the combination a, b of the solve of f from x and the solve of g from z.",
  "all dimensions, linear fields with sources, coefficients, initial states and grids; fixed-step and adaptive solvers",
  "a test on a smooth linear problem passes within tolerance for every solver; step selection breaks the law only near a rejection threshold",
  ["torchdyn/numerics/solvers/ode.py:61-105", "torchdyn/numerics/odeint.py:326-446"])
p("Hybrid solves without events are plain solves",
  "If no callback ever fires, odeint_hybrid returns the same times and states as odeint with return_all_eval, with the same calls of the vector field, for every grid in either direction of time.",
  "all fields, states, grids, adaptive solvers, tolerances, callbacks that never fire, priorities, event tolerances",
  "needs the agreement of two loops with different checkpoint logic on every run; tests compare end states within tolerance",
  ["torchdyn/numerics/odeint.py:183-323", "torchdyn/numerics/odeint.py:326-408"])
p("A time requested twice is returned twice",
  "odeint accepts grids in which a time occurs more than once (for instance an interval of length zero or the union of two sets of measurement times): the time is returned as often as it was requested, each time with the same state.",
  "all fields, states, fixed-step and adaptive solvers, grids with a repeated time",
  "tests use strictly increasing grids; each place of the repetition behaves differently",
  ["torchdyn/numerics/odeint.py:29-91", "torchdyn/numerics/odeint.py:326-446"])
p("SDE solves can be restarted",
  "Solving an SDE up to a time of the grid and continuing from the state reached there, with the same Brownian path, gives the same states as solving over the whole grid at once.",
  "all solver names that can be built, SDEs, Brownian paths, initial states, grids (also decreasing ones or with repeated times) and restart times",
  "needs equality of states for every path and every splitting of the grid",
  ["torchdyn/numerics/sdeint.py:34-118", "torchdyn/numerics/solvers/sde.py:19-110"])

p("Units in SDE solves",
  "Changing the units of time (t to tau t + sigma), of the state (x to c x) and correspondingly of drift (c / tau), diffusion (c / sqrt tau) and Brownian increments (sqrt tau) changes the result of sdeint by exactly the change of units.",
  "all four SDE solvers that can be built, SDEs, Brownian paths, initial states, grids, tau > 0, sigma, c",
  "a wrong power of the step size in a correction term is invisible in one system of units",
  ["torchdyn/numerics/solvers/sde.py:19-110", "torchdyn/numerics/sdeint.py:92-118"])
p("Linear SDEs superpose along one Brownian path",
  "If drift and diffusion are linear with sources, that is those of the SDE at a u + b v are the combinations of those of two SDEs at u and v, then along one Brownian path sdeint from a x + b z gives at every time the combination of the solves from x and z.",
  "all four SDE solvers that can be built, coefficients, SDEs, Brownian paths, states, grids",
  "needs exact equality for every path; derivative-free corrections are linear only if the supporting value is",
  ["torchdyn/numerics/solvers/sde.py:19-110", "torchdyn/numerics/sdeint.py:92-118"])
p("SDE solves backwards in time",
  "sdeint over a decreasing grid follows the chosen scheme backwards in time, as odeint does: every solver returns finite states for a finite drift, diffusion and Brownian path.",
  "all SDEs, Brownian paths, states, solver names, grids whose first step goes backwards",
  "the tests integrate forwards only; the NaN shows in no error message",
  ["torchdyn/numerics/solvers/sde.py:63-110", "torchdyn/numerics/sdeint.py:92-118"])
p("A time requested twice in an SDE solve",
  "sdeint accepts a grid in which a time occurs twice in a row and returns the time twice, both times with the same finite state, when the Brownian path has no increment over an empty interval.",
  "all SDEs, Brownian paths, states, solver names, grids with a repeated time",
  "the tests use strictly increasing grids; the NaN shows in no error message",
  ["torchdyn/numerics/solvers/sde.py:19-110", "torchdyn/numerics/sdeint.py:92-118"])
p("Multiple shooting keeps linear invariants and equilibria",
  "A solve by multiple shooting keeps what the field keeps: a linear quantity w . y with w . f = 0 (total mass, a coordinate without dynamics) has the same value in all returned states, whatever the number of passes, and a solve from an equilibrium returns the equilibrium. A guess B0 that has the invariant does not destroy it.",
  "all fields, states, grids, coarse and fine fixed-step methods, numbers of passes; both shooting solvers",
  "needs all intermediate iterates, also the unconverged ones",
  ["torchdyn/numerics/solvers/ode.py:222-281", "torchdyn/numerics/odeint.py:153-180"])
p("SDE solves keep linear invariants and equilibria",
  "If drift and diffusion leave a linear quantity w . y unchanged (w . f = 0 and, with one Brownian motion for all components, w . g = 0; with a Brownian motion per component, no noise on components with w_i <> 0), every state returned by sdeint has the value of w . y at the initial state, path by path. If drift and diffusion vanish at the initial state, all returned states are the initial state.",
  "all SDEs, Brownian paths, states, grids and solver names that are accepted",
  "a statement about every path and every step; a test sees one path",
  ["torchdyn/numerics/solvers/sde.py:19-110", "torchdyn/numerics/sdeint.py:34-118"])
p("Hybrid solves change conserved quantities only at jumps",
  "If the field leaves a linear quantity w . y unchanged, its value changes in a hybrid solve only at jumps: two consecutive outputs have the same value, or they are at the same time and the second is the jump of a callback applied to the first. If the jumps keep it too, all outputs have its initial value; from an equilibrium that no jump moves, all outputs are the equilibrium.",
  "all fields, callbacks, states, grids, tolerances, adaptive solvers, hybrid solves that return",
  "needs all locations and sequences of events; the location searches step from unsaved states",
  ["torchdyn/numerics/odeint.py:183-323"])
p("Blocks of an SDE are solved independently",
  "If the state of an SDE consists of two blocks whose drift, diffusion and Brownian motion do not involve the other block (two samples, two independent systems), sdeint returns the separate solutions of the blocks one after the other, exactly, also in floating point and also when one block contains NaN or infinities.",
  "all pairs of SDEs, states, Brownian paths, grids, save_at, solver names; every arithmetic",
  "exact equality for all inputs, including non-finite ones",
  ["torchdyn/numerics/solvers/sde.py:19-110", "torchdyn/numerics/sdeint.py:34-118"])
p("Reordering, dropping and copying the components of an SDE",
  "If the components of an SDE and of its Brownian path are reordered, and possibly dropped or copied, consistently, sdeint returns the same solution with its components reordered, dropped or copied in that way, exactly, also in floating point.",
  "all SDEs, index lists, states, Brownian paths, grids, save_at, accepted solver names; every arithmetic",
  "exact equality for all index lists and all inputs",
  ["torchdyn/numerics/solvers/sde.py:19-110", "torchdyn/numerics/sdeint.py:34-118"])
p("SDE solves do not look into the future",
  "The states sdeint returns up to a time depend on drift, diffusion, Brownian path and t_span only up to that time: changing any of them later leaves those states unchanged. The Brownian path is read only between neighbouring times of t_span.",
  "all pairs of SDEs, Brownian paths and grids that agree on an initial part of the grid; all accepted solver names; real arithmetic, default save_at",
  "quantifies over all continuations of the path, the coefficients and the grid",
  ["torchdyn/numerics/solvers/sde.py:19-110", "torchdyn/numerics/sdeint.py:34-118"])
p("Leapfrog solves keep linear invariants and equilibria",
  "If the field leaves a linear quantity w . y unchanged, every position recorded by a leapfrog solve has its initial value, whatever initial velocity was given, and w . v of the recorded velocities only alternates in sign. A solve started at rest in an equilibrium stays there.",
  "all fields, weights, positions, velocities, step sizes, increasing and decreasing separated grids",
  "exact conservation for all fields and unboundedly many steps",
  ["torchdyn/numerics/solvers/ode.py:101-135", "torchdyn/numerics/odeint.py"])
p("Affine changes of coordinates in leapfrog solves",
  "A leapfrog solve does not depend on the coordinates: if g(t, M y + c) = M f(t, y), the solve of g from position M x + c and velocity M v returns the positions M y + c and velocities M u, where (y, u) are those of the solve of f from (x, v).",
  "all fields, matrices (also singular or rectangular), shifts, positions, velocities; increasing and decreasing separated grids",
  "exact equality for all matrices and fields",
  ["torchdyn/numerics/solvers/ode.py:101-135", "torchdyn/numerics/odeint.py"])
p("Dependence of SDE solves on the initial state",
  "For additive noise (the diffusion may depend on time but not on the state) and a drift that is L-Lipschitz in the state, the solutions sdeint returns from two initial states along the same Brownian path are at most exp(L (t - t0)) times their initial distance apart at time t, however rough or large the noise is.",
  "all drifts, time-dependent diffusions, Brownian paths, pairs of initial states, increasing grids, accepted solver names",
  "a bound for all paths and unboundedly many steps",
  ["torchdyn/numerics/solvers/sde.py:19-110", "torchdyn/numerics/sdeint.py:34-118"])
p("Solutions of a scalar SDE keep their order",
  "Two solutions of the same scalar SDE along the same Brownian path do not cross: the states sdeint returns from x <= z stay in that order at every time when the steps are small compared with the Lipschitz constants.",
  "all scalar SDEs with Lipschitz coefficients, Brownian paths, pairs of initial states, increasing grids with small steps, accepted solver names",
  "an inequality for all paths and unboundedly many steps",
  ["torchdyn/numerics/solvers/sde.py:19-110", "torchdyn/numerics/sdeint.py:34-118"])
p("Fixed-step solves do not look into the future",
  "The states odeint returns with a fixed-step Runge-Kutta solver (euler, midpoint, rk4) up to a time depend on the vector field and on t_span only up to that time: fields that agree until then, on grids that begin alike, give the same states, whatever comes later.",
  "all pairs of fields and increasing separated grids with a common beginning, all initial states",
  "quantifies over all continuations of field and grid",
  ["torchdyn/numerics/solvers/ode.py:48-100", "torchdyn/numerics/odeint.py"])
p("The field is evaluated only inside the interval of integration",
  "odeint calls the vector field only at times between the first and the last entry of t_span, so fields that are defined only there (measured inputs, interpolated controls) can be solved.",
  "all fields, states, increasing grids, solvers and tolerances",
  "concerns every call of a solve, for all fields",
  ["torchdyn/numerics/utils.py:37-54", "torchdyn/numerics/odeint.py", "torchdyn/numerics/solvers/ode.py:48-135"])

for q in P:
    print(json.dumps(q, ensure_ascii=False))
