{"id": "C01", "title": "Adaptive evolve lands exactly on tf (exact arithmetic)", "statement": "For an adaptive solver, if evolve(u, t0, tf, h_init) with t0 < tf and h_init > 0 returns normally, then in exact arithmetic the accepted step sizes sum to exactly tf - t0, no time recorded in solver.t exceeds tf, and the recorded times are strictly increasing from t0.", "quantifier": "every initial state, nonlinear function, error history, configuration accepted by SolverConfig, t0 < tf, h_init > 0", "why_tests_cant": "Tests run a handful of problems; the clamp and the accept/reject logic must hold for every sequence of error estimates.", "anchors": ["rkstiff/solveras.py: BaseSolverAS.evolve, BaseSolverAS.step"]}
{"id": "C02", "title": "Adaptive evolve always terminates (exact arithmetic)", "statement": "In exact arithmetic evolve of an adaptive solver with h_init > 0 finishes after finitely many steps (by returning or raising) whatever error estimates the steps produce: every step that is not the final one advances time by at least min(h_init, minh).", "quantifier": "every sequence of error estimates, every configuration accepted by SolverConfig, every t0, tf and h_init > 0", "why_tests_cant": "Non-termination needs an adversarial infinite error history; no finite test can exclude it.", "anchors": ["rkstiff/solveras.py: BaseSolverAS.evolve, BaseSolverAS.step, _reject_step_size, _accept_step_size"]}
{"id": "C03", "title": "Contract of one adaptive step", "statement": "step(u, h) of an adaptive solver either raises MaxLoopsExceeded or MinimumStepReached (or propagates an exception of the nonlinear function) or returns (u1, h1, h2) where u1 is the candidate computed from u with step h1; h1 is h itself or a value >= minh obtained from h by successive rejections; 0 <= h1 <= h; h1 <= h2 <= MAX_S*h1; at most MAX_LOOPS+1 candidates are computed.", "quantifier": "every u, h >= 0, configuration, error history", "why_tests_cant": "The contract quantifies over all rejection histories up to the loop limit and over all configurations.", "anchors": ["rkstiff/solveras.py: BaseSolverAS.step, _reject_step_size, _accept_step_size"]}
{"id": "C04", "title": "A rejected step shrinks within fixed bounds", "statement": "Every rejection multiplies the step by a factor between min(MIN_S, decr_f) and decr_f (by MIN_S when the estimate is infinite or NaN), so with decr_f in (0,1) the step strictly decreases and stays positive; an accepted step never shrinks the next proposal and never grows it by more than MAX_S.", "quantifier": "every step size and every error estimate including NaN and infinities", "why_tests_cant": "Covers the whole real line of error estimates and configurations.", "anchors": ["rkstiff/solveras.py: _reject_step_size, _accept_step_size"]}
{"id": "C05", "title": "An accepted step meets the requested tolerance on the significant modes", "statement": "If an adaptive step accepts a candidate u1 with error vector e then, over the components with |u1_i|/max|u1| > adapt_cutoff, the 2-norm of e is positive and at most epsilon * safety_f^q times the 2-norm of u1; the component of largest modulus is always among those components.", "quantifier": "every candidate, error vector, dimension, configuration, order q", "why_tests_cant": "It is a statement about every accepted vector, including the interplay of mask, norm and root.", "anchors": ["rkstiff/solveras.py: BaseSolverAS._compute_s, BaseSolverAS.step"]}
{"id": "C06", "title": "The documented full-norm tolerance |e| <= epsilon |u| is guaranteed by acceptance", "statement": "The documented criterion ||e_n|| <= epsilon ||u_n|| holds (over all components) for every accepted step.", "quantifier": "every accepted step", "why_tests_cant": "Violation needs an error hidden in the components excluded by adapt_cutoff.", "anchors": ["rkstiff/solveras.py: module docstring, BaseSolverAS._compute_s"]}
{"id": "C07", "title": "Step-size control is scale invariant", "statement": "Multiplying candidate and error vector by the same non-zero complex number does not change the accept/reject decision nor the new step size.", "quantifier": "every vector, error, non-zero factor, configuration", "why_tests_cant": "Universally quantified over vectors and scalings.", "anchors": ["rkstiff/solveras.py: BaseSolverAS._compute_s"]}
{"id": "C08", "title": "A linear problem can be integrated adaptively", "statement": "With a nonlinear function that is identically zero, an adaptive solver advances the state by exp(hL).", "quantifier": "every adaptive solver, state, step, configuration", "why_tests_cant": "The tests never use a vanishing error estimate; the failure is for every u, h and configuration.", "anchors": ["rkstiff/solveras.py: BaseSolverAS.step, _compute_s", "rkstiff/if34.py", "rkstiff/etd34.py", "rkstiff/etd35.py"]}
{"id": "C09", "title": "The zero state is handled", "statement": "step on a state whose candidate is the zero vector does not loop and is accepted when zero is an equilibrium.", "quantifier": "every adaptive solver, every h and configuration", "why_tests_cant": "Corner case of a NaN produced by 0/0, for all configurations.", "anchors": ["rkstiff/solveras.py: BaseSolverAS._compute_s, BaseSolverAS.step"]}
{"id": "C10", "title": "evolve is independent of the solver's history", "statement": "The value returned (or exception raised) by evolve, the snapshots left in solver.t/solver.u and the sequence of calls made to the nonlinear function depend only on the arguments, the operator and the configuration, not on anything done with the solver before: earlier evolve, step or reset calls, step calls that raised, nonlinear functions that raised half way, other step sizes.", "quantifier": "every solver, every preceding sequence of API calls with arbitrary arguments and arbitrary exceptions, any arithmetic (including IEEE)", "why_tests_cant": "The set of histories is infinite and includes exceptions at every call of the nonlinear function.", "anchors": ["rkstiff/solvercs.py: BaseSolverCS.evolve, reset", "rkstiff/solveras.py: BaseSolverAS.evolve, reset", "every solver's _reset, _update_coeffs"]}
{"id": "C11", "title": "Chained steps equal the memoryless scheme", "statement": "After construction or reset(), calling step repeatedly, each time on the vector returned by the previous call (any step sizes, any number of rejections), returns exactly the vectors of the memoryless one-step method that re-evaluates the nonlinear function at the current state: reusing the last stage as the next first stage and caching coefficients is unobservable. In particular the snapshots of a constant-step evolve are the iterates of that method.", "quantifier": "every solver and strategy, every pure nonlinear function, every sequence of step sizes and rejections, any arithmetic", "why_tests_cant": "Equality must hold along unbounded chains with arbitrary accept/reject patterns.", "anchors": ["rkstiff/if4.py", "rkstiff/if34.py", "rkstiff/if45dp.py", "rkstiff/etd4.py", "rkstiff/etd34.py", "rkstiff/etd5.py", "rkstiff/etd35.py: _update_stages, update_stages, stage_init (n1_init in etd4, etd34)"]}
{"id": "C12", "title": "step(u, h) depends only on u and h", "statement": "The result of step(u, h) on a solver is a function of u and h only, whatever was stepped before (no reset in between).", "quantifier": "every history of step calls", "why_tests_cant": "Needs an arbitrary pair of unrelated states.", "anchors": ["rkstiff/if4.py", "rkstiff/etd4.py", "rkstiff/etd5.py", "rkstiff/if34.py", "rkstiff/if45dp.py", "rkstiff/etd34.py", "rkstiff/etd35.py"]}
{"id": "C13", "title": "An exception in the nonlinear function does not corrupt the solver", "statement": "If the nonlinear function raises at any of its evaluations inside step(u, h), the exception propagates and a later step(u, h') on the same u returns what it would have returned without the failure.", "quantifier": "every solver, every crash point inside a step, every u, h, h'", "why_tests_cant": "Crash points multiply with states; tests do not inject failures.", "anchors": ["all _update_stages / update_stages methods", "rkstiff/solveras.py: BaseSolverAS.step"]}
{"id": "C14", "title": "A failed coefficient computation is not mistaken for a completed one", "statement": "If computing the coefficients for a step size raises (singular matrix in the contour integral, non-finite matrix exponential), a later step with the same step size recomputes them.", "quantifier": "every matrix solver, every failing step size", "why_tests_cant": "Failure injection in numpy/scipy calls.", "anchors": ["rkstiff/if4.py", "rkstiff/etd4.py", "rkstiff/etd34.py", "rkstiff/etd5.py", "rkstiff/etd35.py, rkstiff/if34.py: _update_coeffs"]}
{"id": "C15", "title": "Coefficients always match the step size in use", "statement": "Whatever sequence of step sizes was used before, the coefficients used by a step of size h are exactly those a fresh solver would compute for h (in-place masked updates leave no stale entry).", "quantifier": "every sequence of step sizes, every operator, every mode cutoff, any arithmetic", "why_tests_cant": "The mask of small modes changes with h; stale entries would appear only for particular sequences.", "anchors": ["rkstiff/etd4.py", "rkstiff/etd34.py", "rkstiff/etd5.py", "rkstiff/etd35.py: update_coeffs"]}
{"id": "C16", "title": "Changing the ETD contour configuration takes effect on the next step", "statement": "After assigning a new value to solver.etd_config.modecutoff / contour_points / contour_radius the next step uses it.", "quantifier": "every solver state and configuration change", "why_tests_cant": "Depends on whether the step size equals the cached one.", "anchors": ["rkstiff/etd4.py, etd34.py, etd5.py, etd35.py: _update_coeffs"]}
{"id": "C17", "title": "Constant-step evolve: number of steps and final time (exact arithmetic)", "statement": "For 0 < h <= tf - t0, a constant-step evolve performs exactly n steps where n is the least integer with t0 + n h >= tf, ends at t0 + n h in [tf, tf + h), and returns the n-th iterate of the one-step map.", "quantifier": "every solver, u, t0, tf, h with 0 < h <= tf - t0", "why_tests_cant": "All real triples (t0, tf, h).", "anchors": ["rkstiff/solvercs.py: BaseSolverCS.evolve"]}
{"id": "C18", "title": "Constant-step evolve returns the solution at tf", "statement": "The state returned by a constant-step evolve(u, t0, tf, h) is the numerical solution at time tf when h divides tf - t0 (documented return value: final solution vector).", "quantifier": "every t0, tf, h representable in binary64 with (tf - t0)/h a nominal integer", "why_tests_cant": "Accumulated rounding decides whether one extra step is taken; only a bit-exact model can tell.", "anchors": ["rkstiff/solvercs.py: BaseSolverCS.evolve"]}
{"id": "C19", "title": "Constant-step evolve: argument errors and degenerate arguments", "statement": "h > tf - t0 raises ValueError; h < 0 with t0 < tf raises AssertionError at the first step; h = 0 with t0 < tf never returns; tf < t0 together with a negative h with t0 + h <= tf returns the input unchanged without any step; a NaN tf returns the input unchanged; a NaN h raises AssertionError.", "quantifier": "every u, t0, tf, h in each class (binary64)", "why_tests_cant": "Whole classes of arguments, including NaN and non-termination.", "anchors": ["rkstiff/solvercs.py: BaseSolverCS.evolve, step"]}
{"id": "C20", "title": "Snapshots recorded by evolve", "statement": "After evolve with store_data the lists solver.t and solver.u have equal length 1 + floor(n/store_freq) for n steps taken; entry j holds the time and the state after j*store_freq steps (entry 0 the input); with store_data False both lists are empty; snapshots of an earlier evolve never survive.", "quantifier": "every solver, run, store_freq >= 1, any arithmetic", "why_tests_cant": "Unbounded runs and all store frequencies.", "anchors": ["rkstiff/solvercs.py: BaseSolverCS.evolve", "rkstiff/solveras.py: BaseSolverAS.evolve"]}
{"id": "C21", "title": "The final state is among the snapshots", "statement": "After a normal return with store_data the last snapshot is the returned state at the final time.", "quantifier": "every store_freq >= 1 and every number of steps", "why_tests_cant": "True for store_freq = 1 only; depends on step count modulo store_freq.", "anchors": ["rkstiff/solvercs.py: BaseSolverCS.evolve", "rkstiff/solveras.py: BaseSolverAS.evolve"]}
{"id": "C22", "title": "evolve is invariant under time translation", "statement": "The equation is autonomous, so shifting t0 and tf by the same amount changes only the recorded times (exact arithmetic).", "quantifier": "every solver, run and shift", "why_tests_cant": "The exceptional end time tf = 0 is only hit by particular arguments together with at least 100 steps.", "anchors": ["rkstiff/solvercs.py: BaseSolverCS.evolve (progress log)", "rkstiff/solveras.py: BaseSolverAS.evolve (progress log)"]}
{"id": "C23", "title": "Adaptive evolve in binary64: landing on tf", "statement": "In binary64 the clamped last step lands exactly on tf whenever it starts from a time tc with tf/2 <= tc <= tf (tf > 0, normal range).", "quantifier": "all binary64 tc, tf in that range", "why_tests_cant": "2^126 pairs of floats.", "anchors": ["rkstiff/solveras.py: BaseSolverAS.evolve"]}
{"id": "C24", "title": "Adaptive evolve in binary64 never passes tf and always terminates", "statement": "No accepted time exceeds tf, and evolve terminates, for all binary64 arguments.", "quantifier": "all binary64 t0, tf, h_init > 0 and error histories", "why_tests_cant": "Needs adversarial floating-point arguments.", "anchors": ["rkstiff/solveras.py: BaseSolverAS.evolve"]}
{"id": "C25", "title": "Configuration objects only hold admissible values", "statement": "Every SolverConfig/ETDConfig reachable by construction and assignments holds values in the documented ranges (epsilon > 0, incr_f > 1, decr_f < 1, safety_f <= 1, adapt_cutoff < 1, minh > 0; 0 < modecutoff <= 1, contour_points >= 2, contour_radius > 0), and a rejected assignment leaves it unchanged.", "quantifier": "every sequence of constructor calls and assignments with non-NaN values", "why_tests_cant": "All assignment sequences.", "anchors": ["rkstiff/solveras.py: SolverConfig", "rkstiff/etd.py: ETDConfig"]}
{"id": "C26", "title": "Configuration validation rejects NaN", "statement": "Assigning NaN to a configuration parameter raises ValueError.", "quantifier": "every parameter", "why_tests_cant": "NaN comparisons are all false; not exercised by tests.", "anchors": ["rkstiff/solveras.py: SolverConfig", "rkstiff/etd.py: ETDConfig"]}
{"id": "C27", "title": "Solvers do not share configuration", "statement": "Changing solver1.config or solver1.etd_config does not change the behaviour of another solver.", "quantifier": "every pair of solvers and every change", "why_tests_cant": "Aliasing of default arguments appears only with two live instances.", "anchors": ["rkstiff/solveras.py: BaseSolverAS.__init__", "rkstiff/etd.py: ETDAS, ETDCS", "constructors of all solvers"]}
{"id": "C28", "title": "Logger registry: one handler per solver class", "statement": "However many solvers are created and whatever levels are set, each solver class has one logger carrying at most one handler added by the package, whose level is the last level requested for that class.", "quantifier": "every sequence of constructions and set_loglevel calls", "why_tests_cant": "Unbounded sequences over process-global state.", "anchors": ["rkstiff/util/loghelper.py: setup_logger, get_solver_logger", "rkstiff/solver.py: set_loglevel"]}
{"id": "C29", "title": "Log level is per solver instance", "statement": "set_loglevel on one solver, or constructing another solver, does not change the effective log level of an existing solver.", "quantifier": "every pair of solvers", "why_tests_cant": "Process-global registry keyed by class name.", "anchors": ["rkstiff/util/loghelper.py", "rkstiff/solver.py: BaseSolver.__init__, set_loglevel"]}
{"id": "C30", "title": "Log level parsing", "statement": "A string is accepted iff its upper-case form is one of the level names of the logging module and then denotes that level; integers are passed through; get_level_name inverts it on the five standard levels.", "quantifier": "every string", "why_tests_cant": "All strings.", "anchors": ["rkstiff/util/loghelper.py: _parse_loglevel, get_level_name"]}
{"id": "C31", "title": "Constructor validation", "statement": "Construction succeeds iff the operator is 1-D or square 2-D (1-D for IF45DP); otherwise ValueError.", "quantifier": "every operator shape, solver class and diagonalize flag (no eigenvalue failure)", "why_tests_cant": "All shapes.", "anchors": ["rkstiff/solver.py: BaseSolver.__init__", "rkstiff/if45dp.py: IF45DP.__init__"]}
{"id": "C32", "title": "IF4 is classical RK4 in the integrating-factor variable", "statement": "One IF4 step equals exp(hL) times one classical four-stage RK4 step applied to v' = exp(-tL) N(exp(tL) v); likewise for matrix operators.", "quantifier": "every diagonal operator, nonlinear function, state and step; every matrix exponential obeying the semigroup law", "why_tests_cant": "An identity between functions of arbitrary N.", "anchors": ["rkstiff/if4.py: _IF4Diagonal, _IF4NonDiagonal"]}
{"id": "C33", "title": "IF34 pair: propagating method and error estimate", "statement": "One IF34 attempt propagates the same classical RK4 step and its error vector is the difference to an embedded FSAL third-order method of the transformed equation; both tableaux satisfy all order conditions (order 4 and 3).", "quantifier": "every operator, N, u, h; every rooted tree up to the order", "why_tests_cant": "Identity for arbitrary N; order conditions over all trees.", "anchors": ["rkstiff/if34.py: _If34Diagonal, _If34NonDiagonal, _If34Diagonalized"]}
{"id": "C34", "title": "IF45DP propagates the Dormand-Prince fifth-order method", "statement": "One IF45DP attempt returns the fifth-order Dormand-Prince step of the transformed equation; the coefficients used satisfy all order conditions up to order 5 (every rooted tree) and the row-sum conditions.", "quantifier": "every operator, N, u, h; every rooted tree with at most five nodes", "why_tests_cant": "A single wrong coefficient passes convergence tests with loose slopes.", "anchors": ["rkstiff/if45dp.py: IF45DP._update_stages, _update_coeffs"]}
{"id": "C35", "title": "IF45DP error estimate is the difference of the two Dormand-Prince solutions", "statement": "The error vector returned by an IF45DP attempt is the difference between the fifth-order and the embedded fourth-order solution, hence vanishes when N is constant and L = 0, and is O(h^5).", "quantifier": "every operator, N, u, h", "why_tests_cant": "Tests only look at convergence of the propagated solution.", "anchors": ["rkstiff/if45dp.py: _update_coeffs (weights r1..r7)"]}
{"id": "C36", "title": "ETD4 and ETD34 implement Krogstad's ETDRK4-B", "statement": "With exact psi-functions one ETD4/ETD34 step is Krogstad's fourth-order exponential Runge-Kutta step written with the standard phi-functions.", "quantifier": "every operator (non-zero modes), N, u, h", "why_tests_cant": "Identity for arbitrary N.", "anchors": ["rkstiff/etd4.py", "rkstiff/etd34.py", "rkstiff/etd.py: psi1, psi2, psi3"]}
{"id": "C37", "title": "ETD5 and ETD35 satisfy the exponential order conditions", "statement": "With exact psi-functions the weights of ETD5/ETD35 satisfy sum b_i = phi_1, sum b_i c_i = phi_2, sum b_i c_i^2 = 2 phi_3 and every stage row sums to c_i phi_1(c_i z); in the non-stiff limit all order conditions up to order 5 hold.", "quantifier": "every z; every rooted tree with at most five nodes", "why_tests_cant": "One wrong digit in 30 rational coefficients goes unnoticed.", "anchors": ["rkstiff/etd5.py: _Etd5Diagonal", "rkstiff/etd35.py: _Etd35Diagonal"]}
{"id": "C38", "title": "ETD schemes preserve equilibria and are exact for constant forcing", "statement": "If N is constant (in particular if L u + N(u) = 0 at a fixed point u), every ETD scheme with exact psi-functions returns the exact solution after one step of any size; an equilibrium stays put.", "quantifier": "every operator, equilibrium, step size", "why_tests_cant": "All equilibria and steps.", "anchors": ["rkstiff/etd4.py", "rkstiff/etd34.py", "rkstiff/etd5.py", "rkstiff/etd35.py"]}
{"id": "C39", "title": "IF schemes preserve equilibria", "statement": "If L u + N(u) = 0 then an integrating-factor step from u returns u.", "quantifier": "every equilibrium", "why_tests_cant": "Well-known defect; a witness settles it.", "anchors": ["rkstiff/if4.py", "rkstiff/if34.py", "rkstiff/if45dp.py"]}
{"id": "C40", "title": "Linear part is integrated exactly; zero step is the identity", "statement": "With N = 0 every scheme's candidate is exp(hL)u for every step size; with h = 0 it is u for every N.", "quantifier": "every scheme, operator, u, h", "why_tests_cant": "All operators.", "anchors": ["all solver modules"]}
{"id": "C41", "title": "Embedded error vectors vanish on smooth problems of low degree", "statement": "The error vectors of IF34, ETD34 and ETD35 vanish when N takes the same value at all stages; ETD35's vanishes whenever the stage values of N lie on a cubic in the stage times.", "quantifier": "every operator, h", "why_tests_cant": "Universally quantified.", "anchors": ["rkstiff/if34.py", "rkstiff/etd34.py", "rkstiff/etd35.py"]}
{"id": "C42", "title": "psi-functions are the documented integrals", "statement": "For z != 0 psi_r(z) = r * integral over [0,1] of exp((1-theta) z) theta^(r-1), r = 1,2,3.", "quantifier": "every complex z != 0", "why_tests_cant": "Continuum of arguments.", "anchors": ["rkstiff/etd.py: psi1, psi2, psi3, module docstring"]}
{"id": "C43", "title": "Contour evaluation for small modes is accurate", "statement": "For a diagonal operator the contour mean replaces psi_r(z) with error at most e^(|z|+R) R^M / M! (R radius, M points).", "quantifier": "every z, radius R, number of points M with no contour point at zero", "why_tests_cant": "Continuum of arguments.", "anchors": ["rkstiff/etd4.py, etd34.py, etd5.py, etd35.py: diagonal update_coeffs"]}
{"id": "C44", "title": "No division by zero in coefficient evaluation", "statement": "For a diagonal operator neither the direct nor the contour evaluation divides by zero.", "quantifier": "every operator, step size and admissible ETDConfig", "why_tests_cant": "Requires radius versus cutoff interplay.", "anchors": ["rkstiff/etd4.py, etd34.py, etd5.py, etd35.py: diagonal update_coeffs", "rkstiff/etd.py: ETDConfig"]}
{"id": "C45", "title": "Contour evaluation for matrix operators", "statement": "For a matrix operator the contour formula evaluates p(z) R^M (R^M + z^M)^(-1) exactly for polynomials p of degree < M, so it approximates psi(z) when the spectrum of hL is well inside the contour.", "quantifier": "every matrix, every M, R", "why_tests_cant": "All matrices.", "anchors": ["rkstiff/etd4.py, etd34.py, etd5.py, etd35.py: non-diagonal update_coeffs"]}
{"id": "C46", "title": "A diagonal matrix operator behaves like the 1-D operator", "statement": "Passing np.diag(d) as operator gives the same step as passing d (up to quadrature accuracy).", "quantifier": "every d, h with the default ETDConfig", "why_tests_cant": "Fails only for modes outside the contour radius.", "anchors": ["rkstiff/etd4.py, etd34.py, etd5.py, etd35.py: non-diagonal update_coeffs"]}
{"id": "C47", "title": "Diagonalization does not change the computed candidate", "statement": "With diagonalize=True the candidate of IF34/ETD34/ETD35 equals the one computed from the diagonal scheme in the eigenbasis mapped back, i.e. the scheme with matrix functions S f(h\u039b) S^-1.", "quantifier": "every diagonalizable operator, N, u, h", "why_tests_cant": "All operators.", "anchors": ["rkstiff/if34.py: _If34Diagonalized", "rkstiff/etd34.py: _Etd34Diagonalized", "rkstiff/etd35.py: _Etd35Diagonalized"]}
{"id": "C48", "title": "Diagonalization does not change the error estimate", "statement": "With diagonalize=True the error vector compared against the solution equals the error vector of the non-diagonalized scheme.", "quantifier": "every diagonalizable operator", "why_tests_cant": "Needs a non-orthogonal or permuting eigenbasis.", "anchors": ["rkstiff/if34.py: _If34Diagonalized", "rkstiff/etd34.py: _Etd34Diagonalized", "rkstiff/etd35.py: _Etd35Diagonalized", "rkstiff/solveras.py: _compute_s"]}
{"id": "C49", "title": "Fourier grids have exactly n points", "statement": "construct_x_kx_fft / construct_x_kx_rfft(n, a, b) return n grid points a + i (b-a)/n for every admissible n and a < b.", "quantifier": "every even n > 2 and every a < b (exact arithmetic; and binary64)", "why_tests_cant": "Rounding of the quotient (b-a)/dx decides the array length.", "anchors": ["rkstiff/grids.py: construct_x_kx_rfft, construct_x_kx_fft"]}
{"id": "C50", "title": "Wavenumber layout", "statement": "kx of the complex grid is 2 pi j/(b-a) with j = 0..n/2-1,-n/2..-1 in this order (antisymmetric except at index 0 and n/2), that of the real grid is j = 0..n/2.", "quantifier": "every even n > 2, a != b", "why_tests_cant": "All n.", "anchors": ["rkstiff/grids.py: construct_x_kx_rfft, construct_x_kx_fft"]}
{"id": "C51", "title": "Chebyshev grid", "statement": "construct_x_cheb(n,a,b) has n+1 points, starts at a, ends at b, is strictly increasing for a < b and symmetric about the midpoint.", "quantifier": "every n >= 2, a < b", "why_tests_cant": "All n.", "anchors": ["rkstiff/grids.py: construct_x_cheb"]}
{"id": "C52", "title": "Chebyshev differentiation is exact on polynomials", "statement": "The matrix of construct_x_dx_cheb(n,a,b) maps the values of every polynomial of degree at most n on the grid to the values of its derivative; dx_cheb(u, D, k) gives the k-th derivative.", "quantifier": "every n >= 2, a < b, polynomial of degree <= n, k", "why_tests_cant": "All polynomials and sizes.", "anchors": ["rkstiff/grids.py: construct_x_dx_cheb", "rkstiff/derivatives.py: dx_cheb"]}
{"id": "C53", "title": "Spectral derivative is exact for band-limited functions", "statement": "dx_fft(kx, u, k) maps the samples of exp(i m 2 pi (x-a)/(b-a)), |m| < n/2, to those of its k-th derivative; dx_rfft does the same for real trigonometric polynomials below the Nyquist frequency.", "quantifier": "every n, a < b, mode, order k", "why_tests_cant": "All n and modes.", "anchors": ["rkstiff/derivatives.py: dx_fft, dx_rfft", "rkstiff/grids.py"]}
{"id": "C54", "title": "Spectral derivatives compose", "statement": "Applying the m-th and then the k-th derivative equals the (m+k)-th derivative, for every grid function.", "quantifier": "every u, m, k", "why_tests_cant": "Fails only on the Nyquist component.", "anchors": ["rkstiff/derivatives.py: dx_fft, dx_rfft"]}
{"id": "C55", "title": "dx_fft maps real data to real derivatives", "statement": "For real u the derivative computed by dx_fft is real.", "quantifier": "every real u", "why_tests_cant": "Fails only on the Nyquist component.", "anchors": ["rkstiff/derivatives.py: dx_fft"]}
{"id": "C56", "title": "Derivative argument checking", "statement": "dx_rfft/dx_fft/dx_cheb first raise TypeError for an order that is not an int, then ValueError for a negative order; dx_rfft then raises TypeError for complex input and returns an empty array for empty input; order 0 returns the input unchanged; after that every wrong shape raises ValueError (LinAlgError for a non-square matrix, 2-D input and order above 1) and every other call returns an array of the shape of the input.", "quantifier": "every argument combination", "why_tests_cant": "All shapes.", "anchors": ["rkstiff/derivatives.py"]}
{"id": "C57", "title": "mirror_grid", "statement": "mirror_grid(r, u) returns an antisymmetric grid of length 2 len(r) and u mirrored symmetrically along the chosen axis.", "quantifier": "every r and u (1-D and 2-D, axis -1, 0, 1)", "why_tests_cant": "All shapes and axes.", "anchors": ["rkstiff/grids.py: mirror_grid"]}
{"id": "C58", "title": "HankelTransform setters", "statement": "After any sequence of accepted and refused assignments to nr and rmax the transform equals a freshly constructed one with the current (nr, rmax), provided the library routine for the zeros does not fail; refused assignments change nothing.", "quantifier": "every sequence of assignments", "why_tests_cant": "Unbounded sequences with failures.", "anchors": ["rkstiff/transforms.py: HankelTransform"]}
{"id": "C59", "title": "Hankel transform algebra", "statement": "ht is a quadrature of the Hankel integral on the grids r, kr and iht the partial sum of the Fourier-Bessel series on (0, rmax); both are linear, round trips do not depend on rmax, and with the weights 1/J1(j_i)^2 the transform is symmetric.", "quantifier": "every nr, rmax, f", "why_tests_cant": "All functions.", "anchors": ["rkstiff/transforms.py: HankelTransform.ht, iht"]}
{"id": "C60", "title": "kdv_soliton solves the KdV equation", "statement": "u_t + 6 u u_x + u_xxx = 0 for the returned profile, at every x and t, for every amplitude a > 0.", "quantifier": "every x, t, amplitude and offset", "why_tests_cant": "A PDE identity on a continuum.", "anchors": ["rkstiff/models.py: kdv_soliton"]}
{"id": "C61", "title": "KdV and Burgers operators implement the PDE and conserve the mean", "statement": "The spectral operators returned by kdv_ops and burgers_ops have the signs of u_t = -6 u u_x - u_xxx and u_t = -u u_x + mu u_xx; the zero mode of both parts vanishes for every real field, so every solver of the package leaves the mean unchanged.", "quantifier": "every field, step size, solver", "why_tests_cant": "All fields.", "anchors": ["rkstiff/models.py: kdv_ops, burgers_ops", "all solvers"]}
{"id": "C62", "title": "Allen-Cahn operators implement the PDE in the shifted variable", "statement": "With w = u + x the operators of allen_cahn_ops give eps w_xx + w - w^3 at interior points, with boundary values w = x.", "quantifier": "every interior state", "why_tests_cant": "All states.", "anchors": ["rkstiff/models.py: allen_cahn_ops"]}
{"id": "C63", "title": "Snapshots are never modified afterwards", "statement": "Arrays stored in solver.u are not modified by later steps of the solver.", "quantifier": "every run, every nonlinear function that does not write to arrays it does not own", "why_tests_cant": "Aliasing over unbounded runs.", "anchors": ["all solver modules", "rkstiff/solvercs.py", "rkstiff/solveras.py"]}
{"id": "C64", "title": "Cost per step", "statement": "A constant-step IF4/ETD4 step evaluates the nonlinear function 4 times (ETD5: 6), plus one at the start; an adaptive attempt evaluates it a fixed number of times and re-uses the first stage after a rejection.", "quantifier": "every run", "why_tests_cant": "Counts along all accept/reject histories.", "anchors": ["all solver modules"]}
{"id": "C65", "title": "Overflowed or undefined candidates are never accepted", "statement": "An adaptive step never accepts a candidate that contains an infinity or NaN, nor an error vector that is not finite on the significant components: _compute_s then returns NaN and the step is rejected.", "quantifier": "every candidate and error vector with entries in the extended reals, every configuration accepted by the setters", "why_tests_cant": "Blow-up inside a stage happens only for particular problems and step sizes.", "anchors": ["rkstiff/solveras.py: BaseSolverAS._compute_s, step"]}
{"id": "C66", "title": "Solver type matches the stepping strategy", "statement": "SolverType.from_solver returns ADAPTIVE_STEP exactly for solvers whose strategy is adaptive and CONSTANT_STEP for the others.", "quantifier": "every solver class and constructor argument", "why_tests_cant": "Relates the class hierarchy to the strategy chosen at run time.", "anchors": ["rkstiff/util/solver_type.py: from_solver"]}
{"id": "C67", "title": "A failing library call leaves the Hankel transform unchanged", "statement": "If computing the Bessel zeros fails during an assignment to nr or rmax (for instance for lack of memory), the object keeps its previous state.", "quantifier": "every object and failing call", "why_tests_cant": "Needs a failure inside scipy.", "anchors": ["rkstiff/transforms.py: HankelTransform._setnr_setrmax"]}
{"id": "C68", "title": "Multi-soliton sums", "statement": "kdv_multi_soliton returns the sum of the single solitons, and that sum solves the KdV equation.", "quantifier": "every list of amplitudes and positions", "why_tests_cant": "Superposition fails only for overlapping solitons.", "anchors": ["rkstiff/models.py: kdv_multi_soliton"]}
{"id": "C69", "title": "Shared arrays behave like values", "statement": "Although attributes, arguments, results and snapshots are references to shared arrays (some of them modified in place), a session of constructions, steps, runs and resets gives the results it would give if every array were copied at every assignment.", "quantifier": "all sixteen strategies, every session, every nonlinear function that does not overwrite arrays it was given or has returned", "why_tests_cant": "Aliasing bugs show up only for particular call sequences and for user functions that keep references.", "anchors": ["all solver modules"]}
{"id": "C70", "title": "Snapshots are copies", "statement": "The arrays in solver.u share no memory with the array passed to evolve, with the array returned, or with each other.", "quantifier": "all sixteen strategies, every successful evolve with store_data", "why_tests_cant": "A test that does not write to its arrays afterwards cannot see sharing.", "anchors": ["rkstiff/solvercs.py: evolve", "rkstiff/solveras.py: evolve"]}
{"id": "C71", "title": "Constant-step runs converge with order four", "statement": "Let u solve u' = L u + N(u) on [t0,t1] with N smooth along u (derivatives of N(u(t)) up to order four, N differentiable with a Lipschitz-bounded remainder near u). There are constants C, h0 and r0, depending only on the problem, such that every run of IF4 or ETD4 with a step h <= h0 from a value within d of u(t0) keeps every snapshot, and the value it returns, within C (d + e + h^4) of u at the reported times; e is zero for IF4 and the contour error of the coefficients for ETD4. It holds also for runs that end in an exception.", "quantifier": "all smooth problems with 1-D or matrix operator, all steps h <= h0, all starting values near u(t0), all runs (matrix ETD4: hL similar to a matrix of norm below the contour radius)", "why_tests_cant": "A test measures the error of a few runs of a few equations; the order is a statement on all small steps and all smooth problems.", "anchors": ["rkstiff/if4.py: _update_stages", "rkstiff/etd4.py: _update_stages", "rkstiff/solvercs.py: evolve"]}
{"id": "C72", "title": "Adaptive runs converge with order four", "statement": "For the same problems every run of IF34 or ETD34 whose accepted steps are at most H <= h0 keeps every snapshot and the returned value within C (d + e + H^4) of u, whatever the controller settings, the tolerance, the rejected steps and the initial step; the constants depend only on the problem.", "quantifier": "all smooth problems with 1-D, matrix or diagonalised operator, all valid configurations, all runs", "why_tests_cant": "The sequence of steps is chosen at run time; a test sees one sequence.", "anchors": ["rkstiff/if34.py: _update_stages", "rkstiff/etd34.py: _update_stages", "rkstiff/solveras.py: evolve"]}
{"id": "C73", "title": "ETD5 and ETD35 converge with order five", "statement": "As documented (\"fifth-order\"): for a smooth solution u of u' = L u + N(u) there are constants such that every run of ETD5 with step h <= h0, and every run of ETD35 with accepted steps at most H <= h0, stays within C (d + e + h^5) of u at the reported times, d being the error of the starting value and e the contour error of the coefficients. The order is five if L commutes with the derivative of N along u, and four in general.", "quantifier": "all smooth problems with 1-D, matrix or diagonalised operator, all runs with small steps", "why_tests_cant": "A test fits an order to a handful of step sizes of one problem; the h^5 term of the local error is a commutator with coefficients 1/34560 and 1/17280, which vanishes for scalar problems and is small at moderate step sizes.", "anchors": ["rkstiff/etd5.py: _update_stages", "rkstiff/etd35.py: _update_stages", "tests/test_order_convergence.py"]}
{"id": "C74", "title": "IF45DP converges with order five", "statement": "For a smooth solution u of u' = L u + N(u) with 1-D L there are constants C, h0 and r0 such that every run of IF45DP whose accepted steps are at most H <= h0 keeps every snapshot and the returned value within C (d + H^5) of u, whatever the controller settings, the tolerance and the rejected steps.", "quantifier": "all smooth problems with 1-D operator, all valid configurations, all runs", "why_tests_cant": "The sequence of steps is chosen at run time; the order conditions of the tableau hold for all problems at once.", "anchors": ["rkstiff/if45dp.py: _update_stages", "rkstiff/solveras.py: evolve"]}
{"id": "C75", "title": "The error estimate is of order four near a smooth solution", "statement": "For a smooth solution u of u' = L u + N(u) there are constants C, h0 and r0 such that one attempt of IF34, ETD34 or ETD35 with step h <= h0 from a vector v within d of u(t) returns an error vector of size at most C h (h^3 + d + e) and a candidate within d + C h (h^3 + d + e) of u(t+h), e being the contour error of the coefficients (0 for IF34). With diagonalize=True the constant is multiplied by 1 + |S^-1|.", "quantifier": "all smooth problems with 1-D, matrix or diagonalised operator, all t, all v near u(t), all h <= h0", "why_tests_cant": "The size of the error vector decides acceptance; a wrong embedded weight leaves every accepted result correct and only changes the step sequence, and asymptotic statements need all h.", "anchors": ["rkstiff/if34.py: _update_stages", "rkstiff/etd34.py: _update_stages", "rkstiff/etd35.py: _update_stages"]}
{"id": "C76", "title": "Near a smooth solution that stays away from zero the controller does not give up", "statement": "Under the hypotheses of C75, if some component of u stays at least mu in size, every run of IF34, ETD34 or ETD35 whose accepted steps are at most H <= h0, with hs a step size whose C75 bound passes the tolerance test, minh <= min(MIN_S, decr_f) hs, enough attempts to get from tf - t0 down to hs, and no error estimate that is exactly zero on the components that count, raises neither MinimumStepReached nor MaxLoopsExceeded; all its accepted steps but the last are at least min(h_init, min(MIN_S, decr_f) hs), and it ends after (tf - t0)/that many steps.", "quantifier": "all smooth problems with 1-D, matrix or diagonalised operator, all valid configurations and tolerances, all runs", "why_tests_cant": "The exceptions depend on the whole history of accepted and rejected sizes; a test can only show that some runs end.", "anchors": ["rkstiff/solveras.py: evolve", "rkstiff/solveras.py: step", "rkstiff/solveras.py: _compute_s", "rkstiff/solveras.py: _reject_step_size"]}
{"id": "C77", "title": "The error estimate of IF45DP near a smooth solution shrinks like that of an embedded pair", "statement": "For a smooth problem with 1-D operator, one attempt of IF45DP from a vector within d of the solution has an error estimate of size O(h (h^ord + d)) for some ord >= 1, so that tightening the tolerance by a factor costs a root of that factor in steps. (Fails: the estimate is -(9/320) h N(u(t)) + O(h (h + d)), accepted steps are at most proportional to the tolerance and the number of steps of a completed run is at least a constant divided by the tolerance.)", "quantifier": "all smooth problems with 1-D operator, all constants and orders, all runs and tolerances", "why_tests_cant": "The solver converges and its tests pass; that it takes the wrong number of steps shows only in how the count grows as the tolerance goes to zero.", "anchors": ["rkstiff/if45dp.py: _update_coeffs", "rkstiff/if45dp.py: _update_stages", "rkstiff/solveras.py: evolve", "rkstiff/solveras.py: _compute_s"]}
{"id": "C78", "title": "Rounding errors of IF runs grow with the number of steps only", "statement": "Let u be a smooth solution of u' = L u + N(u) with 1-D L. There are constants C, h0, r0, e0 and O0, depending only on the problem, such that in every arithmetic whose complex operations have relative error eps <= e0 (plus underflow of at most eps) as long as nothing exceeds O0, with N and L themselves computed within a multiple of eps, every run of IF4 with step h <= h0 stays within C (d + h^4 + eps/h) of u at the reported times, every run of IF34 with accepted steps at most H within C (d + H^4 + m eps), m being the number of recorded times, and every run of IF45DP within C (d + H^5 + m eps), whatever the controller and its error test do. The formulas numpy uses for complex128, rounded to nearest in binary64, are such an arithmetic with eps = 2^-46 and no restriction below 2^500.", "quantifier": "all smooth problems with 1-D operator, all arithmetics, all runs and configurations", "why_tests_cant": "A test runs in one arithmetic, on one machine, for a few thousand steps; cancellation in a stage would show up only for small steps and long runs.", "anchors": ["rkstiff/if4.py: _update_coeffs, _update_stages", "rkstiff/if34.py: _update_coeffs, _update_stages", "rkstiff/if45dp.py: _update_coeffs, _update_stages", "rkstiff/solvercs.py: evolve", "rkstiff/solveras.py: evolve"]}
{"id": "C79", "title": "Rounding errors of ETD runs: contour coefficients included", "statement": "Let u be a smooth solution of u' = L u + N(u) with 1-D L. There are C and r0, depending only on the problem, and for every contour (0 < modecutoff <= contour_radius, at least one point) constants B, h0, e0 and O0, such that in every arithmetic with relative error eps <= e0 and range at least O0, with N and L computed within a multiple of eps and the contour nodes, psi functions, contour sums, masks, coefficients and stages all computed in that arithmetic, every run of ETD4 with step h <= h0 stays within C (d + q + h^4 + B eps/h) of u, every run of ETD34 with accepted steps at most H within C (d + q + H^4 + m B eps), and the same holds for ETD5 and ETD35 (order five if the parts commute), q being the error of the contour sums in exact arithmetic.", "quantifier": "all smooth problems with 1-D operator, all contours, all arithmetics, all runs and configurations", "why_tests_cant": "The psi functions cancel badly near zero; that the contour average repairs this for every small step, in every arithmetic and for every number of steps, is a limit statement.", "anchors": ["rkstiff/etd.py: psi1, psi2, psi3", "rkstiff/etd4.py: _update_coeffs, _update_stages", "rkstiff/etd34.py: _update_coeffs_diagonal, _update_stages", "rkstiff/etd5.py: _update_coeffs, _update_stages", "rkstiff/etd35.py: _update_small_mode_coeffs, _update_stages", "rkstiff/solvercs.py: evolve", "rkstiff/solveras.py: evolve"]}
{"id": "C80", "title": "Rounding errors of the matrix strategies", "statement": "Let u be a smooth solution of u' = L u + N(u) with L a matrix. (a) Suppose L = S diag(lam) T with T the inverse of S, with row sums of S and T at most s and t. With diagonalize=True, eigenvectors, inverse and eigenvalues supplied within kap eps of S, T and lam, and the changes of basis, contour coefficients and stages computed in any arithmetic of small enough relative error eps and large enough range, every run of IF34, ETD34 and ETD35 with accepted steps at most H stays within C (d + q + H^p + m B eps) of u after m steps, where C depends only on the problem, q is 0, 8 s t (contour error) and 12 s t (contour error), and p = 4 (5 for ETD35 if L commutes with the derivative of N). (b) With matrix exponentials supplied within kap eps, every run of IF4 (constant step h) and IF34 on L stays within C (d + h^4 + eps/h), respectively C (d + H^4 + m eps).", "quantifier": "all smooth problems, all matrices L (diagonalizable in (a)), all eigenbases and contours, all arithmetics, all runs and configurations", "why_tests_cant": "Tests run one arithmetic on a few matrices and cannot separate rounding errors of the basis change from discretisation errors; the claim is a limit statement over all arithmetics and step counts.", "anchors": ["rkstiff/if34.py: _If34Diagonalized, _If34NonDiagonal", "rkstiff/if4.py: _IF4NonDiagonal", "rkstiff/etd34.py: _Etd34Diagonalized", "rkstiff/etd35.py: _Etd35Diagonalized", "rkstiff/solvercs.py: evolve", "rkstiff/solveras.py: evolve"]}
{"id": "C81", "title": "Rounding errors of the contour strategies for matrices", "statement": "Let u be a smooth solution of u' = L u + N(u) with L any matrix. With diag=False, let the nodes of the contour, the scaled matrices, the contour sums of inverses, the coefficients and the stages of ETD4, ETD34, ETD5 and ETD35 be computed in any arithmetic of small enough relative error eps and large enough range, with matrix exponentials within kap eps of exact ones and matrix inverses Q' of M with |Q' - M^-1| <= kap eps |M| |M^-1|^2 (the usual bound with the condition number). For every contour there are h0 > 0 and B such that every run with steps at most h0 stays within C (d + q + h^p + B eps/h), respectively C (d + q + H^p + m B eps) after m accepted steps, of u, where C depends only on the problem, q is 8 (ETD4, ETD34) or 12 (ETD5, ETD35) times the error of the contour, and p = 4 (5 for ETD5, ETD35 if L commutes with the derivative of N).", "quantifier": "all smooth problems, all matrices L, all contours, all arithmetics, all exponential and inverse routines within the bounds, all runs and configurations", "why_tests_cant": "Tests run one arithmetic on a few matrices and cannot separate errors of computed inverses, of the contour sums and of the discretisation; the claim is a limit statement over all arithmetics and step counts.", "anchors": ["rkstiff/etd4.py: _Etd4NonDiagonal", "rkstiff/etd34.py: _Etd34NonDiagonal", "rkstiff/etd5.py: _Etd5NonDiagonal", "rkstiff/etd35.py: _Etd35NonDiagonal", "rkstiff/etd.py: phi functions", "rkstiff/solvercs.py: evolve", "rkstiff/solveras.py: evolve"]}
{"id": "C82", "title": "Whole runs in binary64: rounded times, step control and vectors", "statement": "The claims of C78 to C81 hold when scalars are rounded as well. Times, step sizes, end tests, clamping of the last step, rejection and acceptance, literals such as h/6, contour constants and norms are binary64 numbers (with overflow, infinities and NaN) and every vector operation is rounded. With ka the distance of neighbouring binary64 numbers at the end of the run, every run of a fixed-step solver with step h from a vector within d of u(t0) stays within C (d + q + h^p + (eps + ka)/h) of u at the recorded times, which are themselves rounded sums; every run of an adaptive solver whose recorded times are at most H apart stays within C (d + q + (H + ka)^p + m (eps + ka)) after m steps, and if it returns, the returned vector approximates u(tf). All of this under the smallness conditions of C78 to C81 with eps + ka in place of eps.", "quantifier": "all smooth problems, all solvers and operator kinds, all arithmetics rounding scalars to binary64, all runs and configurations", "why_tests_cant": "Times that are rounded sums drift away from the sum of the steps taken; whether the recorded vector belongs to the recorded time, for every step size and any number of steps, cannot be seen in a few runs.", "anchors": ["rkstiff/solvercs.py: evolve, step", "rkstiff/solveras.py: evolve, step, _compute_s, _reject_step_size, _accept_step_size", "rkstiff/if4.py", "rkstiff/if34.py", "rkstiff/if45dp.py", "rkstiff/etd4.py", "rkstiff/etd34.py", "rkstiff/etd5.py", "rkstiff/etd35.py"]}
{"id": "C83", "title": "Runs for the equations of models.py converge to their solutions", "statement": "For the KdV and Burgers operators with at least two wave numbers, and the Allen-Cahn operators on any grid, the system of ordinary differential equations u' = L u + N(u) has from every initial array exactly one solution on some interval; every solution on a bounded interval has derivatives of every order along it that are bounded, as C71 to C82 require; and the runs of every solver converge to it: order four (five for IF45DP), up to the contour error of the ETD coefficients.", "quantifier": "all wave number arrays, viscosities, grids, initial arrays, intervals on which a solution exists, runs and configurations", "why_tests_cant": "That N is differentiable along the solution, with transforms, conjugate symmetric extensions and real parts in it, and that the assumptions of the convergence results hold for every array, is a statement about functions and not about values.", "anchors": ["rkstiff/models.py: kdv_ops, burgers_ops, allen_cahn_ops", "rkstiff/if4.py", "rkstiff/if34.py", "rkstiff/if45dp.py", "rkstiff/etd4.py", "rkstiff/etd34.py", "rkstiff/etd5.py", "rkstiff/etd35.py"]}
{"id": "C84", "title": "Symmetries of the equation are symmetries of the runs; real data stay real", "statement": "Let a symmetry of arrays be a permutation of the entries combined with factors of modulus one and possibly complex conjugation. If the linear operator and the nonlinear function commute with it, then so does every sequence of calls (step, evolve, reset) on a new solver object of any class: moved arguments give the same exceptions, times, step sizes, acceptances and moved arrays (for diagonalize=True, whose error estimate is in other coordinates, the claim is for arrays that the symmetry leaves alone). Arrays left alone by the symmetry lead to such arrays only; in particular a real operator and real nonlinear function turn real arrays into real arrays, although contours and eigenvectors are complex. For models.py: KdV and Burgers runs commute with translations by whole grid cells, Burgers runs with u(x) -> -u(-x), Allen-Cahn runs on [-b, b] with u(x) -> -u(-x), and Allen-Cahn runs keep real data real.", "quantifier": "all symmetries, all operators and nonlinear functions that commute with them, all solver classes and strategies, all sequences of calls and configurations", "why_tests_cant": "The property compares infinitely many pairs of runs; contour points that do not come in conjugate pairs, or an asymmetric sum, change results only by an amount that tests with a tolerance accept.", "anchors": ["rkstiff/etd.py: psi1, psi2, psi3", "rkstiff/etd4.py", "rkstiff/etd34.py", "rkstiff/etd5.py", "rkstiff/etd35.py", "rkstiff/if4.py", "rkstiff/if34.py", "rkstiff/if45dp.py", "rkstiff/solvercs.py", "rkstiff/solveras.py: _compute_s", "rkstiff/models.py", "rkstiff/grids.py: construct_x_dx_cheb"]}
{"id": "C85", "title": "The operators of models.py in rounded arithmetic, and whole binary64 runs with them", "statement": "Evaluated in rounded complex arithmetic, with transforms and powers of relative error kf eps, the nonlinear functions of kdv_ops, burgers_ops and allen_cahn_ops are within kap eps of the exact functions on bounded sets of arrays, and the linear operators 1j*kx**3, -mu*kx**2 and epsilon*D.D + I (inner part) within kap eps of the exact ones. So every whole run in binary64 that uses the computed operators (rounded times, rounded step control, rounded coefficients) stays near the solution of the system: the distance is at most C (d + e + h^4 (h^5 for IF45DP) + accumulated rounding errors), with d the initial distance and e the error of the contour sums. From every initial array such a solution starts. Sums evaluated with rounded roots of unity meet the hypothesis on the transforms; products meet the one on cubes.", "quantifier": "all wave number arrays of at least two entries, viscosities, Chebyshev matrices, initial arrays, arithmetics with small enough eps and large enough range, all computed transforms and powers within the stated errors, all solvers, all strategies for 1-D and 2-D operators", "why_tests_cant": "The rounding errors of the transforms, products, coefficients and times all interact; a test observes their sum for one run and cannot bound it for all grids and all data.", "anchors": ["rkstiff/models.py: kdv_ops, burgers_ops, allen_cahn_ops", "rkstiff/etd4.py", "rkstiff/etd34.py", "rkstiff/etd5.py", "rkstiff/etd35.py", "rkstiff/if4.py", "rkstiff/if34.py", "rkstiff/if45dp.py", "rkstiff/solvercs.py", "rkstiff/solveras.py"]}
{"id": "C86", "title": "States of shape (n,) never meet a shape error, and shapes are kept", "statement": "Let arrays carry their numpy shapes, elementwise operations broadcast or raise ValueError, and dot contract or raise ValueError. If all states passed to a new solver object have shape (n,), n being the size of the operator, and the nonlinear function returns arrays of shape (n,) for such states (or raises), then in every sequence of calls of step, evolve and reset, for every solver class and strategy, every returned and every stored array has shape (n,), no exception comes from shapes, and times, step sizes, acceptances, exceptions, effects of the nonlinear function and all entries are those of the calculation on plain vectors.", "quantifier": "all operators, nonlinear functions of that kind (with effects and exceptions), all strategies, all sequences of calls, any arithmetic", "why_tests_cant": "Broadcasting hides shape mistakes: a stage of shape (1,) or (n, 1) gives no error but another result; tests see the shapes of the runs they make only.", "anchors": ["rkstiff/if4.py: _update_stages", "rkstiff/if34.py: _update_stages", "rkstiff/if45dp.py: _update_stages", "rkstiff/etd4.py: _update_stages", "rkstiff/etd34.py: _update_stages", "rkstiff/etd5.py: _update_stages", "rkstiff/etd35.py: _update_stages", "rkstiff/solveras.py: _compute_s", "rkstiff/solvercs.py", "rkstiff/solveras.py"]}
{"id": "C87", "title": "States whose shape does not fit the operator are rejected", "statement": "A step from a state that does not fit the operator (last axis not of length n for a 1-D operator, neither (n,) nor a matrix with n rows for a 2-D operator) raises an exception instead of returning an array.", "quantifier": "all states, operators, nonlinear functions, solver objects in any state, step sizes", "why_tests_cant": "Which of the infinitely many shapes slip through by broadcasting, for each of sixteen stage formulas and any nonlinear function, cannot be enumerated.", "anchors": ["rkstiff/if4.py: _update_stages", "rkstiff/if34.py: _update_stages", "rkstiff/if45dp.py: _update_stages", "rkstiff/etd4.py: _update_stages", "rkstiff/etd34.py: _update_stages", "rkstiff/etd5.py: _update_stages", "rkstiff/etd35.py: _update_stages", "rkstiff/solvercs.py: step, evolve", "rkstiff/solveras.py: step, evolve"]}
{"id": "C88", "title": "Several states in one array are evolved independently", "statement": "Let the state be a stack of rows of length n (any number of leading axes) for a 1-D operator, or a matrix of columns of length n for a 2-D operator, and let the nonlinear function treat rows (columns) one by one. Then every row (column) evolves as it would alone: for the fixed-step solvers every sequence of calls gives, row by row, the results, times and snapshots of a solver for that row; for the adaptive solvers every evolve uses one sequence of accepted step sizes for the whole stack, the returned array and every stored array are, row by row, what new solvers give with these step sizes, and the stored times are the sums of the step sizes.", "quantifier": "all operators, row-wise (column-wise) nonlinear functions, stacks of any shape, all sequences of calls, any arithmetic", "why_tests_cant": "Mixing of rows would show only for some shapes (square stacks) and some operators; the property compares all runs of all stacks with runs of all rows.", "anchors": ["rkstiff/if4.py: _update_stages", "rkstiff/if34.py: _update_stages", "rkstiff/if45dp.py: _update_stages", "rkstiff/etd4.py: _update_stages", "rkstiff/etd34.py: _update_stages", "rkstiff/etd5.py: _update_stages", "rkstiff/etd35.py: _update_stages", "rkstiff/solvercs.py: step, evolve", "rkstiff/solveras.py: step, evolve, _compute_s"]}
{"id": "C89", "title": "Stiff stability: perturbations grow at a rate that does not depend on the linear operator", "statement": "Let all entries of a 1-D operator have real part at most 0 (of any size: 1e9 or 1e300), and let the nonlinear functions N, N' satisfy |N(v) - N'(w)| <= Lam (|v - w| + mu). Then two runs of the same solver with the same steps, for N and N' and from states at distance d, are after time s at distance at most exp(c Lam s)(d + mu) - mu in the maximum norm, where c = 1 (IF4, IF34), 6 (IF45DP), 12 (ETD4, ETD34), 15 (ETD5, ETD35); and a run with |N(v)| <= Lam (|v| + mu) from a state of size d stays below exp(c Lam s)(d + mu) - mu. No step size restriction enters. Dense IF4 and IF34: the same with c = 1 when the exponentials of the operator do not increase the maximum norm.", "quantifier": "all dissipative operators of any size, all Lipschitz nonlinear functions and perturbations of them, all step sizes, all step sequences of the adaptive controller, contours with quadrature error at most 1/6", "why_tests_cant": "This is the reason to use these solvers: it quantifies over all operators and all step sizes; a coefficient slightly too large makes runs blow up only for particular operators and steps, after many steps.", "anchors": ["rkstiff/if4.py: _IF4Diagonal, _IF4NonDiagonal", "rkstiff/if34.py", "rkstiff/if45dp.py", "rkstiff/etd4.py", "rkstiff/etd34.py", "rkstiff/etd5.py", "rkstiff/etd35.py", "rkstiff/etd.py: psi1, psi2, psi3", "rkstiff/solvercs.py: evolve", "rkstiff/solveras.py: evolve"]}
{"id": "C90", "title": "The ETD solvers converge with order three uniformly in the linear operator", "statement": "For each bound K on the nonlinear part along a solution (values and first two time derivatives of N(u(t)), Lipschitz constant of the second, Lipschitz constant and derivative of N near the solution), each tube radius and each length of time there are constants C, h0, r0 such that for every number of entries, every operator with entries of real part at most 0 and every such solution, every run of ETD4, ETD5, ETD34 and ETD35 from a state at distance d with steps at most H <= h0 is within C (d + e + H^3) of the solution at all stored times, e being the error of the contour sums. The constants do not depend on the operator, its size, or derivatives of u (which grow with the operator).", "quantifier": "all dissipative operators of any size and dimension, all solutions and nonlinear functions with the given bounds, all step sequences, all contours with quadrature error at most 1/6", "why_tests_cant": "Classical order (C71 to C74) has constants that grow with the operator; order reduction appears only in the limit of large operators, so a test at fixed operator sees the classical order. The claim is about all operators at once.", "anchors": ["rkstiff/etd4.py", "rkstiff/etd34.py", "rkstiff/etd5.py", "rkstiff/etd35.py", "rkstiff/etd.py: psi1, psi2, psi3", "rkstiff/solvercs.py: evolve", "rkstiff/solveras.py: evolve"]}
{"id": "C91", "title": "The integrating factor solvers converge uniformly in the linear operator", "statement": "C90 for the integrating factor solvers IF4, IF34 and IF45DP: constants C, h0, r0 that depend only on bounds of the nonlinear part along the solution such that every run with steps of at most H <= h0 is within C (d + H^p) of the solution, for p = 4, or for some positive p.", "quantifier": "all dissipative operators, solutions and nonlinear functions with the given bounds, all step sizes", "why_tests_cant": "At a fixed operator IF4 and IF34 have order four and IF45DP five (C71 to C74), so convergence tests pass; the failure needs operators that grow with the number of steps.", "anchors": ["rkstiff/if4.py: _IF4Diagonal", "rkstiff/if34.py: _If34Diagonal", "rkstiff/if45dp.py", "rkstiff/solvercs.py: evolve", "rkstiff/solveras.py: evolve"]}
{"id": "C92", "title": "The ETD solvers have order four uniformly in the linear operator", "statement": "C90 with H^4 in place of H^3: constants that depend only on bounds of the nonlinear part along the solution, its tube and the length of time, such that every run of ETD4 (of ETD5, of ETD34, of ETD35) with steps of at most H <= h0 is within C (d + e + H^4) of the solution, for all operators with entries of real part at most 0.", "quantifier": "all dissipative operators of any size and dimension, all solutions and nonlinear functions with the given bounds, all step sizes", "why_tests_cant": "For a fixed operator the observed order is four or five (C71 to C74); the loss of an order shows only along a sequence of operators that grow like 1/h.", "anchors": ["rkstiff/etd4.py", "rkstiff/etd5.py", "rkstiff/etd34.py", "rkstiff/etd35.py", "rkstiff/solvercs.py: evolve", "rkstiff/solveras.py: evolve"]}
{"id": "C93", "title": "The diagonalized ETD solvers converge with order three, uniformly in the eigenvalues", "statement": "For all bounds K, rho, T0 on the nonlinear part along a solution, its tube and the length of time, and s, b on the row sums of the eigenvector matrix and its inverse, there are C, h0, r0 such that for every matrix operator of any size diagonalized by such a basis with eigenvalues of real part at most 0, every run of ETD34 and ETD35 with diagonalize=True and steps of at most H <= h0 is within C (d + e + H^3) of the solution, at the stored times and at the end; d is the error of the initial state and e the quadrature error of the contour.", "quantifier": "all sizes, all diagonalizable dissipative matrices with bounded eigenbases, all nonlinear functions and solutions with the given bounds, all controller decisions", "why_tests_cant": "A uniform constant over all matrices of all sizes cannot be observed in finitely many runs.", "anchors": ["rkstiff/etd34.py: _Etd34Diagonalized", "rkstiff/etd35.py: _Etd35Diagonalized", "rkstiff/solveras.py: evolve"]}
{"id": "C94", "title": "Runs with diagonalize=True are stable whatever the size of the eigenvalues", "statement": "If no eigenvalue has a positive real part and the eigenvector matrix and its inverse have row sums of at most s and b, then two runs of IF34, ETD34 or ETD35 with diagonalize=True that took the same steps, from states d apart and with nonlinear functions that are close to each other (Lipschitz constant Lam, defect Lam mu), are at most s (exp(c b s Lam (t - t0)) (b d + mu) - mu) apart at every stored time, and a single run with a nonlinear function of linear growth is bounded in the same way; c is 1, 12, 15 for the three solvers. Neither the eigenvalues nor the step sizes enter.", "quantifier": "all sizes, all eigenvalues with real part at most 0, all bounded eigenbases, all nonlinear functions with the given constants, all step sizes and controller decisions", "why_tests_cant": "A bound that is uniform over all stiff matrices and all step sequences cannot be sampled.", "anchors": ["rkstiff/if34.py: _If34Diagonalized", "rkstiff/etd34.py: _Etd34Diagonalized", "rkstiff/etd35.py: _Etd35Diagonalized", "rkstiff/solveras.py: evolve"]}
{"id": "C95", "title": "A real problem keeps real states", "statement": "Dtypes by numpy's promotion rules for int64, float64 and complex128. If the operator, the eigen-decomposition and the initial state are real and nl_func maps real arrays to real arrays, every recorded state of an adaptive run is real. More exactly: from the first step on the states of the ETD solvers are complex128 whatever the dtypes of the operator, of the initial state and of the values of nl_func; those of the integrating factor solvers are complex128 if one of operator, initial state, nl_func(initial state) and nl_func(float array) is complex, and float64 otherwise. In both cases the dtype is the same for all states after the initial one.", "quantifier": "all dtypes of operator, eigenvectors, state, all dtype behaviours of nl_func (for IF45DP: complex values for complex arrays if for float arrays), all step sequences and controller decisions, all ETD parameters", "why_tests_cant": "Numerical comparisons do not see dtypes: a complex128 state with zero imaginary part compares equal to the real one, but a user nl_func written for real arrays (irfft, float buffers, ordering) fails or drops parts with complex input, and only from the second stage on.", "anchors": ["rkstiff/etd4.py: lin_op.astype(np.complex128)", "rkstiff/etd34.py: lin_op.astype(np.complex128)", "rkstiff/etd5.py: lin_op.astype(np.complex128)", "rkstiff/etd35.py: lin_op.astype(np.complex128)", "rkstiff/if4.py: update_coeffs", "rkstiff/if34.py: update_coeffs", "rkstiff/if45dp.py: update_coeffs", "rkstiff/solveras.py: evolve", "rkstiff/solvercs.py: evolve"]}
{"id": "C96", "title": "On a real problem nl_func is called with real arrays only", "statement": "If the operator and its eigen-decomposition are real and nl_func returns real arrays (or raises) for real arrays, then in every sequence of step, evolve and reset calls with real arrays on one solver object, nl_func is called with real arrays only, and every returned and every recorded array is real.", "quantifier": "all real problems, all nl_func with any state and any exceptions on real arrays, all sequences of calls with any step sizes, times and storage options, all controller decisions", "why_tests_cant": "nl_func may be called at any stage of any accepted or rejected step and after any exception; a test that compares values does not see that the arguments are complex128, and one problem that works with complex arguments says nothing about others.", "anchors": ["rkstiff/if4.py: update_stages", "rkstiff/if34.py: update_stages", "rkstiff/if45dp.py: update_stages", "rkstiff/etd4.py: update_stages", "rkstiff/etd34.py: update_stages", "rkstiff/etd5.py: update_stages", "rkstiff/etd35.py: update_stages", "rkstiff/solveras.py: step, evolve, reset", "rkstiff/solvercs.py: step, evolve, reset"]}
{"id": "C97", "title": "A nonlinear function that rejects complex arrays can be used for real problems", "statement": "dx_rfft raises TypeError for complex arrays, so a nonlinear function that applies it to the state does too. On a real problem (C96) this test makes no difference: every sequence of step, evolve and reset calls with real arrays gives the same answers, exceptions, step sizes, recorded times and states as with the same function without the test.", "quantifier": "all real problems, all nonlinear functions with any state and exceptions on real arrays, all sequences of calls", "why_tests_cant": "Whether a stage, a rejected step or a call after an exception ever passes a complex array is a question about all executions; a nonlinear function that tolerates complex arrays, as in the tests, does not show it.", "anchors": ["rkstiff/derivatives.py: dx_rfft", "rkstiff/if4.py: update_stages", "rkstiff/if34.py: update_stages", "rkstiff/if45dp.py: update_stages", "rkstiff/etd4.py: update_stages", "rkstiff/etd34.py: update_stages", "rkstiff/etd5.py: update_stages", "rkstiff/etd35.py: update_stages"]}
{"id": "C98", "title": "Linear first integrals are conserved by every run", "statement": "If a linear functional of the modes vanishes on the right-hand side L v + N(v) for every v, it has the same value for every state recorded or returned by evolve as for the initial state (exact arithmetic).", "quantifier": "all 1-D and matrix operators, nonlinear functions, functionals, initial states, step sizes and outcomes of runs, all seven solvers", "why_tests_cant": "Conservation for one equation and one run, within a tolerance, does not show whether the schemes conserve every linear integral or only those that vanish on L and N separately.", "anchors": ["rkstiff/if4.py: update_stages", "rkstiff/if34.py: update_stages", "rkstiff/if45dp.py: update_stages", "rkstiff/etd4.py: update_stages", "rkstiff/etd34.py: update_stages", "rkstiff/etd5.py: update_stages", "rkstiff/etd35.py: update_stages", "rkstiff/solvercs.py: evolve", "rkstiff/solveras.py: evolve"]}
{"id": "C99", "title": "Modes that the equation does not excite stay zero", "statement": "If the nonlinear function maps arrays supported on a set of modes to arrays supported on it (for example because it is dealiased, or preserves a symmetry that selects modes), every run from a state supported on the set records and returns only such states (1-D operators, exact arithmetic).", "quantifier": "all 1-D operators, sets of modes, nonlinear functions keeping the set, initial states, step sizes and outcomes of runs, all seven solvers", "why_tests_cant": "A test checks one set of modes for one equation; that no stage or coefficient mixes modes is a statement about all of them.", "anchors": ["rkstiff/if4.py: update_stages", "rkstiff/if34.py: update_stages", "rkstiff/if45dp.py: update_stages", "rkstiff/etd4.py: update_stages", "rkstiff/etd34.py: update_stages", "rkstiff/etd5.py: update_stages", "rkstiff/etd35.py: update_stages", "rkstiff/solvercs.py: evolve", "rkstiff/solveras.py: evolve"]}
