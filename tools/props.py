#!/usr/bin/env python3
"""Source of /verif/properties.jsonl (run from anywhere; rewrites the file)."""
import json, os
P = []
def p(id, title, statement, quantifier, why, anchors):
    P.append(dict(id=id, title=title, statement=statement, quantifier=quantifier,
                  why_tests_cant=why, anchors=anchors))

# ---------------------------------------------------------------- adaptive control
p("C01", "Adaptive evolve lands exactly on tf (exact arithmetic)",
  "For an adaptive solver, if evolve(u, t0, tf, h_init) with t0 < tf and h_init > 0 returns normally, then in exact arithmetic the accepted step sizes sum to exactly tf - t0, no time recorded in solver.t exceeds tf, and the recorded times are strictly increasing from t0.",
  "every initial state, nonlinear function, error history, configuration accepted by SolverConfig, t0 < tf, h_init > 0",
  "Tests run a handful of problems; the clamp and the accept/reject logic must hold for every sequence of error estimates.",
  ["rkstiff/solveras.py: BaseSolverAS.evolve, BaseSolverAS.step"])
p("C02", "Adaptive evolve always terminates (exact arithmetic)",
  "In exact arithmetic evolve of an adaptive solver with h_init > 0 finishes after finitely many steps (by returning or raising) whatever error estimates the steps produce: every step that is not the final one advances time by at least min(h_init, minh).",
  "every sequence of error estimates, every configuration accepted by SolverConfig, every t0, tf and h_init > 0",
  "Non-termination needs an adversarial infinite error history; no finite test can exclude it.",
  ["rkstiff/solveras.py: BaseSolverAS.evolve, BaseSolverAS.step, _reject_step_size, _accept_step_size"])
p("C03", "Contract of one adaptive step",
  "step(u, h) of an adaptive solver either raises MaxLoopsExceeded or MinimumStepReached (or propagates an exception of the nonlinear function) or returns (u1, h1, h2) where u1 is the candidate computed from u with step h1; h1 is h itself or a value >= minh obtained from h by successive rejections; 0 <= h1 <= h; h1 <= h2 <= MAX_S*h1; at most MAX_LOOPS+1 candidates are computed.",
  "every u, h >= 0, configuration, error history",
  "The contract quantifies over all rejection histories up to the loop limit and over all configurations.",
  ["rkstiff/solveras.py: BaseSolverAS.step, _reject_step_size, _accept_step_size"])
p("C04", "A rejected step shrinks within fixed bounds",
  "Every rejection multiplies the step by a factor between min(MIN_S, decr_f) and decr_f (by MIN_S when the estimate is infinite or NaN), so with decr_f in (0,1) the step strictly decreases and stays positive; an accepted step never shrinks the next proposal and never grows it by more than MAX_S.",
  "every step size and every error estimate including NaN and infinities",
  "Covers the whole real line of error estimates and configurations.",
  ["rkstiff/solveras.py: _reject_step_size, _accept_step_size"])
p("C05", "An accepted step meets the requested tolerance on the significant modes",
  "If an adaptive step accepts a candidate u1 with error vector e then, over the components with |u1_i|/max|u1| > adapt_cutoff, the 2-norm of e is positive and at most epsilon * safety_f^q times the 2-norm of u1; the component of largest modulus is always among those components.",
  "every candidate, error vector, dimension, configuration, order q",
  "It is a statement about every accepted vector, including the interplay of mask, norm and root.",
  ["rkstiff/solveras.py: BaseSolverAS._compute_s, BaseSolverAS.step"])
p("C06", "The documented full-norm tolerance |e| <= epsilon |u| is guaranteed by acceptance",
  "The documented criterion ||e_n|| <= epsilon ||u_n|| holds (over all components) for every accepted step.",
  "every accepted step",
  "Violation needs an error hidden in the components excluded by adapt_cutoff.",
  ["rkstiff/solveras.py: module docstring, BaseSolverAS._compute_s"])
p("C07", "Step-size control is scale invariant",
  "Multiplying candidate and error vector by the same non-zero complex number does not change the accept/reject decision nor the new step size.",
  "every vector, error, non-zero factor, configuration",
  "Universally quantified over vectors and scalings.",
  ["rkstiff/solveras.py: BaseSolverAS._compute_s"])
p("C08", "A linear problem can be integrated adaptively",
  "With a nonlinear function that is identically zero, an adaptive solver advances the state by exp(hL).",
  "every adaptive solver, state, step, configuration",
  "The tests never use a vanishing error estimate; the failure is for every u, h and configuration.",
  ["rkstiff/solveras.py: BaseSolverAS.step, _compute_s", "rkstiff/if34.py", "rkstiff/etd34.py", "rkstiff/etd35.py"])
p("C09", "The zero state is handled",
  "step on a state whose candidate is the zero vector does not loop and is accepted when zero is an equilibrium.",
  "every adaptive solver, every h and configuration",
  "Corner case of a NaN produced by 0/0, for all configurations.",
  ["rkstiff/solveras.py: BaseSolverAS._compute_s, BaseSolverAS.step"])
# ---------------------------------------------------------------- histories
p("C10", "evolve is independent of the solver's history",
  "The value returned (or exception raised) by evolve, the snapshots left in solver.t/solver.u and the sequence of calls made to the nonlinear function depend only on the arguments, the operator and the configuration, not on anything done with the solver before: earlier evolve, step or reset calls, step calls that raised, nonlinear functions that raised half way, other step sizes.",
  "every solver, every preceding sequence of API calls with arbitrary arguments and arbitrary exceptions, any arithmetic (including IEEE)",
  "The set of histories is infinite and includes exceptions at every call of the nonlinear function.",
  ["rkstiff/solvercs.py: BaseSolverCS.evolve, reset", "rkstiff/solveras.py: BaseSolverAS.evolve, reset", "every solver's _reset, _update_coeffs"])
p("C11", "Chained steps equal the memoryless scheme",
  "After construction or reset(), calling step repeatedly, each time on the vector returned by the previous call (any step sizes, any number of rejections), returns exactly the vectors of the memoryless one-step method that re-evaluates the nonlinear function at the current state: reusing the last stage as the next first stage and caching coefficients is unobservable. In particular the snapshots of a constant-step evolve are the iterates of that method.",
  "every solver and strategy, every pure nonlinear function, every sequence of step sizes and rejections, any arithmetic",
  "Equality must hold along unbounded chains with arbitrary accept/reject patterns.",
  ["rkstiff/if4.py", "rkstiff/if34.py", "rkstiff/if45dp.py", "rkstiff/etd4.py", "rkstiff/etd34.py", "rkstiff/etd5.py", "rkstiff/etd35.py: _update_stages, update_stages, stage_init (n1_init in etd4, etd34)"])
p("C12", "step(u, h) depends only on u and h",
  "The result of step(u, h) on a solver is a function of u and h only, whatever was stepped before (no reset in between).",
  "every history of step calls",
  "Needs an arbitrary pair of unrelated states.",
  ["rkstiff/if4.py", "rkstiff/etd4.py", "rkstiff/etd5.py", "rkstiff/if34.py", "rkstiff/if45dp.py", "rkstiff/etd34.py", "rkstiff/etd35.py"])
p("C13", "An exception in the nonlinear function does not corrupt the solver",
  "If the nonlinear function raises at any of its evaluations inside step(u, h), the exception propagates and a later step(u, h') on the same u returns what it would have returned without the failure.",
  "every solver, every crash point inside a step, every u, h, h'",
  "Crash points multiply with states; tests do not inject failures.",
  ["all _update_stages / update_stages methods", "rkstiff/solveras.py: BaseSolverAS.step"])
p("C14", "A failed coefficient computation is not mistaken for a completed one",
  "If computing the coefficients for a step size raises (singular matrix in the contour integral, non-finite matrix exponential), a later step with the same step size recomputes them.",
  "every matrix solver, every failing step size",
  "Failure injection in numpy/scipy calls.",
  ["rkstiff/if4.py", "rkstiff/etd4.py", "rkstiff/etd34.py", "rkstiff/etd5.py", "rkstiff/etd35.py, rkstiff/if34.py: _update_coeffs"])
p("C15", "Coefficients always match the step size in use",
  "Whatever sequence of step sizes was used before, the coefficients used by a step of size h are exactly those a fresh solver would compute for h (in-place masked updates leave no stale entry).",
  "every sequence of step sizes, every operator, every mode cutoff, any arithmetic",
  "The mask of small modes changes with h; stale entries would appear only for particular sequences.",
  ["rkstiff/etd4.py", "rkstiff/etd34.py", "rkstiff/etd5.py", "rkstiff/etd35.py: update_coeffs"])
p("C16", "Changing the ETD contour configuration takes effect on the next step",
  "After assigning a new value to solver.etd_config.modecutoff / contour_points / contour_radius the next step uses it.",
  "every solver state and configuration change",
  "Depends on whether the step size equals the cached one.",
  ["rkstiff/etd4.py, etd34.py, etd5.py, etd35.py: _update_coeffs"])
# ---------------------------------------------------------------- constant step
p("C17", "Constant-step evolve: number of steps and final time (exact arithmetic)",
  "For 0 < h <= tf - t0, a constant-step evolve performs exactly n steps where n is the least integer with t0 + n h >= tf, ends at t0 + n h in [tf, tf + h), and returns the n-th iterate of the one-step map.",
  "every solver, u, t0, tf, h with 0 < h <= tf - t0",
  "All real triples (t0, tf, h).",
  ["rkstiff/solvercs.py: BaseSolverCS.evolve"])
p("C18", "Constant-step evolve returns the solution at tf",
  "The state returned by a constant-step evolve(u, t0, tf, h) is the numerical solution at time tf when h divides tf - t0 (documented return value: final solution vector).",
  "every t0, tf, h representable in binary64 with (tf - t0)/h a nominal integer",
  "Accumulated rounding decides whether one extra step is taken; only a bit-exact model can tell.",
  ["rkstiff/solvercs.py: BaseSolverCS.evolve"])
p("C19", "Constant-step evolve: argument errors and degenerate arguments",
  "h > tf - t0 raises ValueError; h < 0 with t0 < tf raises AssertionError at the first step; h = 0 with t0 < tf never returns; tf < t0 together with a negative h with t0 + h <= tf returns the input unchanged without any step; a NaN tf returns the input unchanged; a NaN h raises AssertionError.",
  "every u, t0, tf, h in each class (binary64)",
  "Whole classes of arguments, including NaN and non-termination.",
  ["rkstiff/solvercs.py: BaseSolverCS.evolve, step"])
p("C20", "Snapshots recorded by evolve",
  "After evolve with store_data the lists solver.t and solver.u have equal length 1 + floor(n/store_freq) for n steps taken; entry j holds the time and the state after j*store_freq steps (entry 0 the input); with store_data False both lists are empty; snapshots of an earlier evolve never survive.",
  "every solver, run, store_freq >= 1, any arithmetic",
  "Unbounded runs and all store frequencies.",
  ["rkstiff/solvercs.py: BaseSolverCS.evolve", "rkstiff/solveras.py: BaseSolverAS.evolve"])
p("C21", "The final state is among the snapshots",
  "After a normal return with store_data the last snapshot is the returned state at the final time.",
  "every store_freq >= 1 and every number of steps",
  "True for store_freq = 1 only; depends on step count modulo store_freq.",
  ["rkstiff/solvercs.py: BaseSolverCS.evolve", "rkstiff/solveras.py: BaseSolverAS.evolve"])
p("C22", "evolve is invariant under time translation",
  "The equation is autonomous, so shifting t0 and tf by the same amount changes only the recorded times (exact arithmetic).",
  "every solver, run and shift",
  "The exceptional end time tf = 0 is only hit by particular arguments together with at least 100 steps.",
  ["rkstiff/solvercs.py: BaseSolverCS.evolve (progress log)", "rkstiff/solveras.py: BaseSolverAS.evolve (progress log)"])
p("C23", "Adaptive evolve in binary64: landing on tf",
  "In binary64 the clamped last step lands exactly on tf whenever it starts from a time tc with tf/2 <= tc <= tf (tf > 0, normal range).",
  "all binary64 tc, tf in that range",
  "2^126 pairs of floats.",
  ["rkstiff/solveras.py: BaseSolverAS.evolve"])
p("C24", "Adaptive evolve in binary64 never passes tf and always terminates",
  "No accepted time exceeds tf, and evolve terminates, for all binary64 arguments.",
  "all binary64 t0, tf, h_init > 0 and error histories",
  "Needs adversarial floating-point arguments.",
  ["rkstiff/solveras.py: BaseSolverAS.evolve"])
# ---------------------------------------------------------------- configuration, logging, construction
p("C25", "Configuration objects only hold admissible values",
  "Every SolverConfig/ETDConfig reachable by construction and assignments holds values in the documented ranges (epsilon > 0, incr_f > 1, decr_f < 1, safety_f <= 1, adapt_cutoff < 1, minh > 0; 0 < modecutoff <= 1, contour_points >= 2, contour_radius > 0), and a rejected assignment leaves it unchanged.",
  "every sequence of constructor calls and assignments with non-NaN values",
  "All assignment sequences.",
  ["rkstiff/solveras.py: SolverConfig", "rkstiff/etd.py: ETDConfig"])
p("C26", "Configuration validation rejects NaN",
  "Assigning NaN to a configuration parameter raises ValueError.",
  "every parameter", "NaN comparisons are all false; not exercised by tests.",
  ["rkstiff/solveras.py: SolverConfig", "rkstiff/etd.py: ETDConfig"])
p("C27", "Solvers do not share configuration",
  "Changing solver1.config or solver1.etd_config does not change the behaviour of another solver.",
  "every pair of solvers and every change",
  "Aliasing of default arguments appears only with two live instances.",
  ["rkstiff/solveras.py: BaseSolverAS.__init__", "rkstiff/etd.py: ETDAS, ETDCS", "constructors of all solvers"])
p("C28", "Logger registry: one handler per solver class",
  "However many solvers are created and whatever levels are set, each solver class has one logger carrying at most one handler added by the package, whose level is the last level requested for that class.",
  "every sequence of constructions and set_loglevel calls",
  "Unbounded sequences over process-global state.",
  ["rkstiff/util/loghelper.py: setup_logger, get_solver_logger", "rkstiff/solver.py: set_loglevel"])
p("C29", "Log level is per solver instance",
  "set_loglevel on one solver, or constructing another solver, does not change the effective log level of an existing solver.",
  "every pair of solvers", "Process-global registry keyed by class name.",
  ["rkstiff/util/loghelper.py", "rkstiff/solver.py: BaseSolver.__init__, set_loglevel"])
p("C30", "Log level parsing",
  "A string is accepted iff its upper-case form is one of the level names of the logging module and then denotes that level; integers are passed through; get_level_name inverts it on the five standard levels.",
  "every string", "All strings.",
  ["rkstiff/util/loghelper.py: _parse_loglevel, get_level_name"])
p("C31", "Constructor validation",
  "Construction succeeds iff the operator is 1-D or square 2-D (1-D for IF45DP); otherwise ValueError.",
  "every operator shape, solver class and diagonalize flag (no eigenvalue failure)",
  "All shapes.",
  ["rkstiff/solver.py: BaseSolver.__init__", "rkstiff/if45dp.py: IF45DP.__init__"])
# ---------------------------------------------------------------- schemes
p("C32", "IF4 is classical RK4 in the integrating-factor variable",
  "One IF4 step equals exp(hL) times one classical four-stage RK4 step applied to v' = exp(-tL) N(exp(tL) v); likewise for matrix operators.",
  "every diagonal operator, nonlinear function, state and step; every matrix exponential obeying the semigroup law",
  "An identity between functions of arbitrary N.",
  ["rkstiff/if4.py: _IF4Diagonal, _IF4NonDiagonal"])
p("C33", "IF34 pair: propagating method and error estimate",
  "One IF34 attempt propagates the same classical RK4 step and its error vector is the difference to an embedded FSAL third-order method of the transformed equation; both tableaux satisfy all order conditions (order 4 and 3).",
  "every operator, N, u, h; every rooted tree up to the order",
  "Identity for arbitrary N; order conditions over all trees.",
  ["rkstiff/if34.py: _If34Diagonal, _If34NonDiagonal, _If34Diagonalized"])
p("C34", "IF45DP propagates the Dormand-Prince fifth-order method",
  "One IF45DP attempt returns the fifth-order Dormand-Prince step of the transformed equation; the coefficients used satisfy all order conditions up to order 5 (every rooted tree) and the row-sum conditions.",
  "every operator, N, u, h; every rooted tree with at most five nodes",
  "A single wrong coefficient passes convergence tests with loose slopes.",
  ["rkstiff/if45dp.py: IF45DP._update_stages, _update_coeffs"])
p("C35", "IF45DP error estimate is the difference of the two Dormand-Prince solutions",
  "The error vector returned by an IF45DP attempt is the difference between the fifth-order and the embedded fourth-order solution, hence vanishes when N is constant and L = 0, and is O(h^5).",
  "every operator, N, u, h", "Tests only look at convergence of the propagated solution.",
  ["rkstiff/if45dp.py: _update_coeffs (weights r1..r7)"])
p("C36", "ETD4 and ETD34 implement Krogstad's ETDRK4-B",
  "With exact psi-functions one ETD4/ETD34 step is Krogstad's fourth-order exponential Runge-Kutta step written with the standard phi-functions.",
  "every operator (non-zero modes), N, u, h", "Identity for arbitrary N.",
  ["rkstiff/etd4.py", "rkstiff/etd34.py", "rkstiff/etd.py: psi1, psi2, psi3"])
p("C37", "ETD5 and ETD35 satisfy the exponential order conditions",
  "With exact psi-functions the weights of ETD5/ETD35 satisfy sum b_i = phi_1, sum b_i c_i = phi_2, sum b_i c_i^2 = 2 phi_3 and every stage row sums to c_i phi_1(c_i z); in the non-stiff limit all order conditions up to order 5 hold.",
  "every z; every rooted tree with at most five nodes", "One wrong digit in 30 rational coefficients goes unnoticed.",
  ["rkstiff/etd5.py: _Etd5Diagonal", "rkstiff/etd35.py: _Etd35Diagonal"])
p("C38", "ETD schemes preserve equilibria and are exact for constant forcing",
  "If N is constant (in particular if L u + N(u) = 0 at a fixed point u), every ETD scheme with exact psi-functions returns the exact solution after one step of any size; an equilibrium stays put.",
  "every operator, equilibrium, step size", "All equilibria and steps.",
  ["rkstiff/etd4.py", "rkstiff/etd34.py", "rkstiff/etd5.py", "rkstiff/etd35.py"])
p("C39", "IF schemes preserve equilibria",
  "If L u + N(u) = 0 then an integrating-factor step from u returns u.",
  "every equilibrium", "Well-known defect; a witness settles it.",
  ["rkstiff/if4.py", "rkstiff/if34.py", "rkstiff/if45dp.py"])
p("C40", "Linear part is integrated exactly; zero step is the identity",
  "With N = 0 every scheme's candidate is exp(hL)u for every step size; with h = 0 it is u for every N.",
  "every scheme, operator, u, h", "All operators.",
  ["all solver modules"])
p("C41", "Embedded error vectors vanish on smooth problems of low degree",
  "The error vectors of IF34, ETD34 and ETD35 vanish when N takes the same value at all stages; ETD35's vanishes whenever the stage values of N lie on a cubic in the stage times.",
  "every operator, h", "Universally quantified.",
  ["rkstiff/if34.py", "rkstiff/etd34.py", "rkstiff/etd35.py"])
p("C42", "psi-functions are the documented integrals",
  "For z != 0 psi_r(z) = r * integral over [0,1] of exp((1-theta) z) theta^(r-1), r = 1,2,3.",
  "every complex z != 0", "Continuum of arguments.",
  ["rkstiff/etd.py: psi1, psi2, psi3, module docstring"])
p("C43", "Contour evaluation for small modes is accurate",
  "For a diagonal operator the contour mean replaces psi_r(z) with error at most e^(|z|+R) R^M / M! (R radius, M points).",
  "every z, radius R, number of points M with no contour point at zero", "Continuum of arguments.",
  ["rkstiff/etd4.py, etd34.py, etd5.py, etd35.py: diagonal update_coeffs"])
p("C44", "No division by zero in coefficient evaluation",
  "For a diagonal operator neither the direct nor the contour evaluation divides by zero.",
  "every operator, step size and admissible ETDConfig", "Requires radius versus cutoff interplay.",
  ["rkstiff/etd4.py, etd34.py, etd5.py, etd35.py: diagonal update_coeffs", "rkstiff/etd.py: ETDConfig"])
p("C45", "Contour evaluation for matrix operators",
  "For a matrix operator the contour formula evaluates p(z) R^M (R^M + z^M)^(-1) exactly for polynomials p of degree < M, so it approximates psi(z) when the spectrum of hL is well inside the contour.",
  "every matrix, every M, R", "All matrices.",
  ["rkstiff/etd4.py, etd34.py, etd5.py, etd35.py: non-diagonal update_coeffs"])
p("C46", "A diagonal matrix operator behaves like the 1-D operator",
  "Passing np.diag(d) as operator gives the same step as passing d (up to quadrature accuracy).",
  "every d, h with the default ETDConfig", "Fails only for modes outside the contour radius.",
  ["rkstiff/etd4.py, etd34.py, etd5.py, etd35.py: non-diagonal update_coeffs"])
p("C47", "Diagonalization does not change the computed candidate",
  "With diagonalize=True the candidate of IF34/ETD34/ETD35 equals the one computed from the diagonal scheme in the eigenbasis mapped back, i.e. the scheme with matrix functions S f(hΛ) S^-1.",
  "every diagonalizable operator, N, u, h", "All operators.",
  ["rkstiff/if34.py: _If34Diagonalized", "rkstiff/etd34.py: _Etd34Diagonalized", "rkstiff/etd35.py: _Etd35Diagonalized"])
p("C48", "Diagonalization does not change the error estimate",
  "With diagonalize=True the error vector compared against the solution equals the error vector of the non-diagonalized scheme.",
  "every diagonalizable operator", "Needs a non-orthogonal or permuting eigenbasis.",
  ["rkstiff/if34.py: _If34Diagonalized", "rkstiff/etd34.py: _Etd34Diagonalized", "rkstiff/etd35.py: _Etd35Diagonalized", "rkstiff/solveras.py: _compute_s"])
# ---------------------------------------------------------------- grids, derivatives, transforms, models
p("C49", "Fourier grids have exactly n points",
  "construct_x_kx_fft / construct_x_kx_rfft(n, a, b) return n grid points a + i (b-a)/n for every admissible n and a < b.",
  "every even n > 2 and every a < b (exact arithmetic; and binary64)", "Rounding of the quotient (b-a)/dx decides the array length.",
  ["rkstiff/grids.py: construct_x_kx_rfft, construct_x_kx_fft"])
p("C50", "Wavenumber layout",
  "kx of the complex grid is 2 pi j/(b-a) with j = 0..n/2-1,-n/2..-1 in this order (antisymmetric except at index 0 and n/2), that of the real grid is j = 0..n/2.",
  "every even n > 2, a != b", "All n.",
  ["rkstiff/grids.py: construct_x_kx_rfft, construct_x_kx_fft"])
p("C51", "Chebyshev grid",
  "construct_x_cheb(n,a,b) has n+1 points, starts at a, ends at b, is strictly increasing for a < b and symmetric about the midpoint.",
  "every n >= 2, a < b", "All n.",
  ["rkstiff/grids.py: construct_x_cheb"])
p("C52", "Chebyshev differentiation is exact on polynomials",
  "The matrix of construct_x_dx_cheb(n,a,b) maps the values of every polynomial of degree at most n on the grid to the values of its derivative; dx_cheb(u, D, k) gives the k-th derivative.",
  "every n >= 2, a < b, polynomial of degree <= n, k", "All polynomials and sizes.",
  ["rkstiff/grids.py: construct_x_dx_cheb", "rkstiff/derivatives.py: dx_cheb"])
p("C53", "Spectral derivative is exact for band-limited functions",
  "dx_fft(kx, u, k) maps the samples of exp(i m 2 pi (x-a)/(b-a)), |m| < n/2, to those of its k-th derivative; dx_rfft does the same for real trigonometric polynomials below the Nyquist frequency.",
  "every n, a < b, mode, order k", "All n and modes.",
  ["rkstiff/derivatives.py: dx_fft, dx_rfft", "rkstiff/grids.py"])
p("C54", "Spectral derivatives compose",
  "Applying the m-th and then the k-th derivative equals the (m+k)-th derivative, for every grid function.",
  "every u, m, k", "Fails only on the Nyquist component.",
  ["rkstiff/derivatives.py: dx_fft, dx_rfft"])
p("C55", "dx_fft maps real data to real derivatives",
  "For real u the derivative computed by dx_fft is real.",
  "every real u", "Fails only on the Nyquist component.",
  ["rkstiff/derivatives.py: dx_fft"])
p("C56", "Derivative argument checking",
  "dx_rfft/dx_fft/dx_cheb first raise TypeError for an order that is not an int, then ValueError for a negative order; dx_rfft then raises TypeError for complex input and returns an empty array for empty input; order 0 returns the input unchanged; after that every wrong shape raises ValueError (LinAlgError for a non-square matrix, 2-D input and order above 1) and every other call returns an array of the shape of the input.",
  "every argument combination", "All shapes.",
  ["rkstiff/derivatives.py"])
p("C57", "mirror_grid",
  "mirror_grid(r, u) returns an antisymmetric grid of length 2 len(r) and u mirrored symmetrically along the chosen axis.",
  "every r and u (1-D and 2-D, axis -1, 0, 1)", "All shapes and axes.",
  ["rkstiff/grids.py: mirror_grid"])
p("C58", "HankelTransform setters",
  "After any sequence of accepted and refused assignments to nr and rmax the transform equals a freshly constructed one with the current (nr, rmax), provided the library routine for the zeros does not fail; refused assignments change nothing.",
  "every sequence of assignments", "Unbounded sequences with failures.",
  ["rkstiff/transforms.py: HankelTransform"])
p("C59", "Hankel transform algebra",
  "ht is a quadrature of the Hankel integral on the grids r, kr and iht the partial sum of the Fourier-Bessel series on (0, rmax); both are linear, round trips do not depend on rmax, and with the weights 1/J1(j_i)^2 the transform is symmetric.",
  "every nr, rmax, f", "All functions.",
  ["rkstiff/transforms.py: HankelTransform.ht, iht"])
p("C60", "kdv_soliton solves the KdV equation",
  "u_t + 6 u u_x + u_xxx = 0 for the returned profile, at every x and t, for every amplitude a > 0.",
  "every x, t, amplitude and offset", "A PDE identity on a continuum.",
  ["rkstiff/models.py: kdv_soliton"])
p("C61", "KdV and Burgers operators implement the PDE and conserve the mean",
  "The spectral operators returned by kdv_ops and burgers_ops have the signs of u_t = -6 u u_x - u_xxx and u_t = -u u_x + mu u_xx; the zero mode of both parts vanishes for every real field, so every solver of the package leaves the mean unchanged.",
  "every field, step size, solver", "All fields.",
  ["rkstiff/models.py: kdv_ops, burgers_ops", "all solvers"])
p("C62", "Allen-Cahn operators implement the PDE in the shifted variable",
  "With w = u + x the operators of allen_cahn_ops give eps w_xx + w - w^3 at interior points, with boundary values w = x.",
  "every interior state", "All states.",
  ["rkstiff/models.py: allen_cahn_ops"])
p("C63", "Snapshots are never modified afterwards",
  "Arrays stored in solver.u are not modified by later steps of the solver.",
  "every run, every nonlinear function that does not write to arrays it does not own", "Aliasing over unbounded runs.",
  ["all solver modules", "rkstiff/solvercs.py", "rkstiff/solveras.py"])
p("C64", "Cost per step",
  "A constant-step IF4/ETD4 step evaluates the nonlinear function 4 times (ETD5: 6), plus one at the start; an adaptive attempt evaluates it a fixed number of times and re-uses the first stage after a rejection.",
  "every run", "Counts along all accept/reject histories.",
  ["all solver modules"])
p("C65", "Overflowed or undefined candidates are never accepted",
  "An adaptive step never accepts a candidate that contains an infinity or NaN, nor an error vector that is not finite on the significant components: _compute_s then returns NaN and the step is rejected.",
  "every candidate and error vector with entries in the extended reals, every configuration accepted by the setters",
  "Blow-up inside a stage happens only for particular problems and step sizes.",
  ["rkstiff/solveras.py: BaseSolverAS._compute_s, step"])
p("C66", "Solver type matches the stepping strategy",
  "SolverType.from_solver returns ADAPTIVE_STEP exactly for solvers whose strategy is adaptive and CONSTANT_STEP for the others.",
  "every solver class and constructor argument",
  "Relates the class hierarchy to the strategy chosen at run time.",
  ["rkstiff/util/solver_type.py: from_solver"])
p("C67", "A failing library call leaves the Hankel transform unchanged",
  "If computing the Bessel zeros fails during an assignment to nr or rmax (for instance for lack of memory), the object keeps its previous state.",
  "every object and failing call", "Needs a failure inside scipy.",
  ["rkstiff/transforms.py: HankelTransform._setnr_setrmax"])
p("C68", "Multi-soliton sums",
  "kdv_multi_soliton returns the sum of the single solitons, and that sum solves the KdV equation.",
  "every list of amplitudes and positions", "Superposition fails only for overlapping solitons.",
  ["rkstiff/models.py: kdv_multi_soliton"])
p("C69", "Shared arrays behave like values",
  "Although attributes, arguments, results and snapshots are references to shared arrays (some of them modified in place), a session of constructions, steps, runs and resets gives the results it would give if every array were copied at every assignment.",
  "all sixteen strategies, every session, every nonlinear function that does not overwrite arrays it was given or has returned",
  "Aliasing bugs show up only for particular call sequences and for user functions that keep references.",
  ["all solver modules"])
p("C70", "Snapshots are copies",
  "The arrays in solver.u share no memory with the array passed to evolve, with the array returned, or with each other.",
  "all sixteen strategies, every successful evolve with store_data",
  "A test that does not write to its arrays afterwards cannot see sharing.",
  ["rkstiff/solvercs.py: evolve", "rkstiff/solveras.py: evolve"])
p("C71", "Constant-step runs converge with order four",
  "Let u solve u' = L u + N(u) on [t0,t1] with N smooth along u (derivatives of N(u(t)) up to order four, N differentiable with a Lipschitz-bounded remainder near u). There are constants C, h0 and r0, depending only on the problem, such that every run of IF4 or ETD4 with a step h <= h0 from a value within d of u(t0) keeps every snapshot, and the value it returns, within C (d + e + h^4) of u at the reported times; e is zero for IF4 and the contour error of the coefficients for ETD4. It holds also for runs that end in an exception.",
  "all smooth problems with 1-D or matrix operator, all steps h <= h0, all starting values near u(t0), all runs (matrix ETD4: hL similar to a matrix of norm below the contour radius)",
  "A test measures the error of a few runs of a few equations; the order is a statement on all small steps and all smooth problems.",
  ["rkstiff/if4.py: _update_stages", "rkstiff/etd4.py: _update_stages", "rkstiff/solvercs.py: evolve"])
p("C72", "Adaptive runs converge with order four",
  "For the same problems every run of IF34 or ETD34 whose accepted steps are at most H <= h0 keeps every snapshot and the returned value within C (d + e + H^4) of u, whatever the controller settings, the tolerance, the rejected steps and the initial step; the constants depend only on the problem.",
  "all smooth problems with 1-D, matrix or diagonalised operator, all valid configurations, all runs",
  "The sequence of steps is chosen at run time; a test sees one sequence.",
  ["rkstiff/if34.py: _update_stages", "rkstiff/etd34.py: _update_stages", "rkstiff/solveras.py: evolve"])
p("C73", "ETD5 and ETD35 converge with order five",
  "As documented (\"fifth-order\"): for a smooth solution u of u' = L u + N(u) there are constants such that every run of ETD5 with step h <= h0, and every run of ETD35 with accepted steps at most H <= h0, stays within C (d + e + h^5) of u at the reported times, d being the error of the starting value and e the contour error of the coefficients. The order is five if L commutes with the derivative of N along u, and four in general.",
  "all smooth problems with 1-D, matrix or diagonalised operator, all runs with small steps",
  "A test fits an order to a handful of step sizes of one problem; the h^5 term of the local error is a commutator with coefficients 1/34560 and 1/17280, which vanishes for scalar problems and is small at moderate step sizes.",
  ["rkstiff/etd5.py: _update_stages", "rkstiff/etd35.py: _update_stages", "tests/test_order_convergence.py"])
p("C74", "IF45DP converges with order five",
  "For a smooth solution u of u' = L u + N(u) with 1-D L there are constants C, h0 and r0 such that every run of IF45DP whose accepted steps are at most H <= h0 keeps every snapshot and the returned value within C (d + H^5) of u, whatever the controller settings, the tolerance and the rejected steps.",
  "all smooth problems with 1-D operator, all valid configurations, all runs",
  "The sequence of steps is chosen at run time; the order conditions of the tableau hold for all problems at once.",
  ["rkstiff/if45dp.py: _update_stages", "rkstiff/solveras.py: evolve"])
p("C75", "The error estimate is of order four near a smooth solution",
  "For a smooth solution u of u' = L u + N(u) there are constants C, h0 and r0 such that one attempt of IF34, ETD34 or ETD35 with step h <= h0 from a vector v within d of u(t) returns an error vector of size at most C h (h^3 + d + e) and a candidate within d + C h (h^3 + d + e) of u(t+h), e being the contour error of the coefficients (0 for IF34). With diagonalize=True the constant is multiplied by 1 + |S^-1|.",
  "all smooth problems with 1-D, matrix or diagonalised operator, all t, all v near u(t), all h <= h0",
  "The size of the error vector decides acceptance; a wrong embedded weight leaves every accepted result correct and only changes the step sequence, and asymptotic statements need all h.",
  ["rkstiff/if34.py: _update_stages", "rkstiff/etd34.py: _update_stages", "rkstiff/etd35.py: _update_stages"])
p("C76", "Near a smooth solution that stays away from zero the controller does not give up",
  "Under the hypotheses of C75, if some component of u stays at least mu in size, every run of IF34, ETD34 or ETD35 whose accepted steps are at most H <= h0, with hs a step size whose C75 bound passes the tolerance test, minh <= min(MIN_S, decr_f) hs, enough attempts to get from tf - t0 down to hs, and no error estimate that is exactly zero on the components that count, raises neither MinimumStepReached nor MaxLoopsExceeded; all its accepted steps but the last are at least min(h_init, min(MIN_S, decr_f) hs), and it ends after (tf - t0)/that many steps.",
  "all smooth problems with 1-D, matrix or diagonalised operator, all valid configurations and tolerances, all runs",
  "The exceptions depend on the whole history of accepted and rejected sizes; a test can only show that some runs end.",
  ["rkstiff/solveras.py: evolve", "rkstiff/solveras.py: step", "rkstiff/solveras.py: _compute_s", "rkstiff/solveras.py: _reject_step_size"])
p("C77", "The error estimate of IF45DP near a smooth solution shrinks like that of an embedded pair",
  "For a smooth problem with 1-D operator, one attempt of IF45DP from a vector within d of the solution has an error estimate of size O(h (h^ord + d)) for some ord >= 1, so that tightening the tolerance by a factor costs a root of that factor in steps. (Fails: the estimate is -(9/320) h N(u(t)) + O(h (h + d)), accepted steps are at most proportional to the tolerance and the number of steps of a completed run is at least a constant divided by the tolerance.)",
  "all smooth problems with 1-D operator, all constants and orders, all runs and tolerances",
  "The solver converges and its tests pass; that it takes the wrong number of steps shows only in how the count grows as the tolerance goes to zero.",
  ["rkstiff/if45dp.py: _update_coeffs", "rkstiff/if45dp.py: _update_stages", "rkstiff/solveras.py: evolve", "rkstiff/solveras.py: _compute_s"])
p("C78", "Rounding errors of IF runs grow with the number of steps only",
  "Let u be a smooth solution of u' = L u + N(u) with 1-D L. There are constants C, h0, r0, e0 and O0, depending only on the problem, such that in every arithmetic whose complex operations have relative error eps <= e0 (plus underflow of at most eps) as long as nothing exceeds O0, with N and L themselves computed within a multiple of eps, every run of IF4 with step h <= h0 stays within C (d + h^4 + eps/h) of u at the reported times, every run of IF34 with accepted steps at most H within C (d + H^4 + m eps), m being the number of recorded times, and every run of IF45DP within C (d + H^5 + m eps), whatever the controller and its error test do. The formulas numpy uses for complex128, rounded to nearest in binary64, are such an arithmetic with eps = 2^-46 and no restriction below 2^500.",
  "all smooth problems with 1-D operator, all arithmetics, all runs and configurations",
  "A test runs in one arithmetic, on one machine, for a few thousand steps; cancellation in a stage would show up only for small steps and long runs.",
  ["rkstiff/if4.py: _update_coeffs, _update_stages", "rkstiff/if34.py: _update_coeffs, _update_stages", "rkstiff/if45dp.py: _update_coeffs, _update_stages", "rkstiff/solvercs.py: evolve", "rkstiff/solveras.py: evolve"])
p("C79", "Rounding errors of ETD runs: contour coefficients included",
  "Let u be a smooth solution of u' = L u + N(u) with 1-D L. There are C and r0, depending only on the problem, and for every contour (0 < modecutoff <= contour_radius, at least one point) constants B, h0, e0 and O0, such that in every arithmetic with relative error eps <= e0 and range at least O0, with N and L computed within a multiple of eps and the contour nodes, psi functions, contour sums, masks, coefficients and stages all computed in that arithmetic, every run of ETD4 with step h <= h0 stays within C (d + q + h^4 + B eps/h) of u, every run of ETD34 with accepted steps at most H within C (d + q + H^4 + m B eps), and the same holds for ETD5 and ETD35 (order five if the parts commute), q being the error of the contour sums in exact arithmetic.",
  "all smooth problems with 1-D operator, all contours, all arithmetics, all runs and configurations",
  "The psi functions cancel badly near zero; that the contour average repairs this for every small step, in every arithmetic and for every number of steps, is a limit statement.",
  ["rkstiff/etd.py: psi1, psi2, psi3", "rkstiff/etd4.py: _update_coeffs, _update_stages", "rkstiff/etd34.py: _update_coeffs_diagonal, _update_stages", "rkstiff/etd5.py: _update_coeffs, _update_stages", "rkstiff/etd35.py: _update_small_mode_coeffs, _update_stages", "rkstiff/solvercs.py: evolve", "rkstiff/solveras.py: evolve"])
p("C80", "Rounding errors of the matrix strategies",
  "Let u be a smooth solution of u' = L u + N(u) with L a matrix. (a) Suppose L = S diag(lam) T with T the inverse of S, with row sums of S and T at most s and t. With diagonalize=True, eigenvectors, inverse and eigenvalues supplied within kap eps of S, T and lam, and the changes of basis, contour coefficients and stages computed in any arithmetic of small enough relative error eps and large enough range, every run of IF34, ETD34 and ETD35 with accepted steps at most H stays within C (d + q + H^p + m B eps) of u after m steps, where C depends only on the problem, q is 0, 8 s t (contour error) and 12 s t (contour error), and p = 4 (5 for ETD35 if L commutes with the derivative of N). (b) With matrix exponentials supplied within kap eps, every run of IF4 (constant step h) and IF34 on L stays within C (d + h^4 + eps/h), respectively C (d + H^4 + m eps).",
  "all smooth problems, all matrices L (diagonalizable in (a)), all eigenbases and contours, all arithmetics, all runs and configurations",
  "Tests run one arithmetic on a few matrices and cannot separate rounding errors of the basis change from discretisation errors; the claim is a limit statement over all arithmetics and step counts.",
  ["rkstiff/if34.py: _If34Diagonalized, _If34NonDiagonal", "rkstiff/if4.py: _IF4NonDiagonal", "rkstiff/etd34.py: _Etd34Diagonalized", "rkstiff/etd35.py: _Etd35Diagonalized", "rkstiff/solvercs.py: evolve", "rkstiff/solveras.py: evolve"])
p("C81", "Rounding errors of the contour strategies for matrices",
  "Let u be a smooth solution of u' = L u + N(u) with L any matrix. With diag=False, let the nodes of the contour, the scaled matrices, the contour sums of inverses, the coefficients and the stages of ETD4, ETD34, ETD5 and ETD35 be computed in any arithmetic of small enough relative error eps and large enough range, with matrix exponentials within kap eps of exact ones and matrix inverses Q' of M with |Q' - M^-1| <= kap eps |M| |M^-1|^2 (the usual bound with the condition number). For every contour there are h0 > 0 and B such that every run with steps at most h0 stays within C (d + q + h^p + B eps/h), respectively C (d + q + H^p + m B eps) after m accepted steps, of u, where C depends only on the problem, q is 8 (ETD4, ETD34) or 12 (ETD5, ETD35) times the error of the contour, and p = 4 (5 for ETD5, ETD35 if L commutes with the derivative of N).",
  "all smooth problems, all matrices L, all contours, all arithmetics, all exponential and inverse routines within the bounds, all runs and configurations",
  "Tests run one arithmetic on a few matrices and cannot separate errors of computed inverses, of the contour sums and of the discretisation; the claim is a limit statement over all arithmetics and step counts.",
  ["rkstiff/etd4.py: _Etd4NonDiagonal", "rkstiff/etd34.py: _Etd34NonDiagonal", "rkstiff/etd5.py: _Etd5NonDiagonal", "rkstiff/etd35.py: _Etd35NonDiagonal", "rkstiff/etd.py: phi functions", "rkstiff/solvercs.py: evolve", "rkstiff/solveras.py: evolve"])
p("C82", "Whole runs in binary64: rounded times, step control and vectors",
  "The claims of C78 to C81 hold when scalars are rounded as well. Times, step sizes, end tests, clamping of the last step, rejection and acceptance, literals such as h/6, contour constants and norms are binary64 numbers (with overflow, infinities and NaN) and every vector operation is rounded. With ka the distance of neighbouring binary64 numbers at the end of the run, every run of a fixed-step solver with step h from a vector within d of u(t0) stays within C (d + q + h^p + (eps + ka)/h) of u at the recorded times, which are themselves rounded sums; every run of an adaptive solver whose recorded times are at most H apart stays within C (d + q + (H + ka)^p + m (eps + ka)) after m steps, and if it returns, the returned vector approximates u(tf). All of this under the smallness conditions of C78 to C81 with eps + ka in place of eps.",
  "all smooth problems, all solvers and operator kinds, all arithmetics rounding scalars to binary64, all runs and configurations",
  "Times that are rounded sums drift away from the sum of the steps taken; whether the recorded vector belongs to the recorded time, for every step size and any number of steps, cannot be seen in a few runs.",
  ["rkstiff/solvercs.py: evolve, step", "rkstiff/solveras.py: evolve, step, _compute_s, _reject_step_size, _accept_step_size", "rkstiff/if4.py", "rkstiff/if34.py", "rkstiff/if45dp.py", "rkstiff/etd4.py", "rkstiff/etd34.py", "rkstiff/etd5.py", "rkstiff/etd35.py"])
p("C83", "Runs for the equations of models.py converge to their solutions",
  "For the KdV and Burgers operators with at least two wave numbers, and the Allen-Cahn operators on any grid, the system of ordinary differential equations u' = L u + N(u) has from every initial array exactly one solution on some interval; every solution on a bounded interval has derivatives of every order along it that are bounded, as C71 to C82 require; and the runs of every solver converge to it: order four (five for IF45DP), up to the contour error of the ETD coefficients.",
  "all wave number arrays, viscosities, grids, initial arrays, intervals on which a solution exists, runs and configurations",
  "That N is differentiable along the solution, with transforms, conjugate symmetric extensions and real parts in it, and that the assumptions of the convergence results hold for every array, is a statement about functions and not about values.",
  ["rkstiff/models.py: kdv_ops, burgers_ops, allen_cahn_ops", "rkstiff/if4.py", "rkstiff/if34.py", "rkstiff/if45dp.py", "rkstiff/etd4.py", "rkstiff/etd34.py", "rkstiff/etd5.py", "rkstiff/etd35.py"])
p("C84", "Symmetries of the equation are symmetries of the runs; real data stay real",
  "Let a symmetry of arrays be a permutation of the entries combined with factors of modulus one and possibly complex conjugation. If the linear operator and the nonlinear function commute with it, then so does every sequence of calls (step, evolve, reset) on a new solver object of any class: moved arguments give the same exceptions, times, step sizes, acceptances and moved arrays (for diagonalize=True, whose error estimate is in other coordinates, the claim is for arrays that the symmetry leaves alone). Arrays left alone by the symmetry lead to such arrays only; in particular a real operator and real nonlinear function turn real arrays into real arrays, although contours and eigenvectors are complex. For models.py: KdV and Burgers runs commute with translations by whole grid cells, Burgers runs with u(x) -> -u(-x), Allen-Cahn runs on [-b, b] with u(x) -> -u(-x), and Allen-Cahn runs keep real data real.",
  "all symmetries, all operators and nonlinear functions that commute with them, all solver classes and strategies, all sequences of calls and configurations",
  "The property compares infinitely many pairs of runs; contour points that do not come in conjugate pairs, or an asymmetric sum, change results only by an amount that tests with a tolerance accept.",
  ["rkstiff/etd.py: psi1, psi2, psi3", "rkstiff/etd4.py", "rkstiff/etd34.py", "rkstiff/etd5.py", "rkstiff/etd35.py", "rkstiff/if4.py", "rkstiff/if34.py", "rkstiff/if45dp.py", "rkstiff/solvercs.py", "rkstiff/solveras.py: _compute_s", "rkstiff/models.py", "rkstiff/grids.py: construct_x_dx_cheb"])
p("C85", "The operators of models.py in rounded arithmetic, and whole binary64 runs with them",
  "Evaluated in rounded complex arithmetic, with transforms and powers of relative error kf eps, the nonlinear functions of kdv_ops, burgers_ops and allen_cahn_ops are within kap eps of the exact functions on bounded sets of arrays, and the linear operators 1j*kx**3, -mu*kx**2 and epsilon*D.D + I (inner part) within kap eps of the exact ones. So every whole run in binary64 that uses the computed operators (rounded times, rounded step control, rounded coefficients) stays near the solution of the system: the distance is at most C (d + e + h^4 (h^5 for IF45DP) + accumulated rounding errors), with d the initial distance and e the error of the contour sums. From every initial array such a solution starts. Sums evaluated with rounded roots of unity meet the hypothesis on the transforms; products meet the one on cubes.",
  "all wave number arrays of at least two entries, viscosities, Chebyshev matrices, initial arrays, arithmetics with small enough eps and large enough range, all computed transforms and powers within the stated errors, all solvers, all strategies for 1-D and 2-D operators",
  "The rounding errors of the transforms, products, coefficients and times all interact; a test observes their sum for one run and cannot bound it for all grids and all data.",
  ["rkstiff/models.py: kdv_ops, burgers_ops, allen_cahn_ops", "rkstiff/etd4.py", "rkstiff/etd34.py", "rkstiff/etd5.py", "rkstiff/etd35.py", "rkstiff/if4.py", "rkstiff/if34.py", "rkstiff/if45dp.py", "rkstiff/solvercs.py", "rkstiff/solveras.py"])
p("C86", "States of shape (n,) never meet a shape error, and shapes are kept",
  "Let arrays carry their numpy shapes, elementwise operations broadcast or raise ValueError, and dot contract or raise ValueError. If all states passed to a new solver object have shape (n,), n being the size of the operator, and the nonlinear function returns arrays of shape (n,) for such states (or raises), then in every sequence of calls of step, evolve and reset, for every solver class and strategy, every returned and every stored array has shape (n,), no exception comes from shapes, and times, step sizes, acceptances, exceptions, effects of the nonlinear function and all entries are those of the calculation on plain vectors.",
  "all operators, nonlinear functions of that kind (with effects and exceptions), all strategies, all sequences of calls, any arithmetic",
  "Broadcasting hides shape mistakes: a stage of shape (1,) or (n, 1) gives no error but another result; tests see the shapes of the runs they make only.",
  ["rkstiff/if4.py: _update_stages", "rkstiff/if34.py: _update_stages", "rkstiff/if45dp.py: _update_stages", "rkstiff/etd4.py: _update_stages", "rkstiff/etd34.py: _update_stages", "rkstiff/etd5.py: _update_stages", "rkstiff/etd35.py: _update_stages", "rkstiff/solveras.py: _compute_s", "rkstiff/solvercs.py", "rkstiff/solveras.py"])
p("C87", "States whose shape does not fit the operator are rejected",
  "A step from a state that does not fit the operator (last axis not of length n for a 1-D operator, neither (n,) nor a matrix with n rows for a 2-D operator) raises an exception instead of returning an array.",
  "all states, operators, nonlinear functions, solver objects in any state, step sizes",
  "Which of the infinitely many shapes slip through by broadcasting, for each of sixteen stage formulas and any nonlinear function, cannot be enumerated.",
  ["rkstiff/if4.py: _update_stages", "rkstiff/if34.py: _update_stages", "rkstiff/if45dp.py: _update_stages", "rkstiff/etd4.py: _update_stages", "rkstiff/etd34.py: _update_stages", "rkstiff/etd5.py: _update_stages", "rkstiff/etd35.py: _update_stages", "rkstiff/solvercs.py: step, evolve", "rkstiff/solveras.py: step, evolve"])
p("C88", "Several states in one array are evolved independently",
  "Let the state be a stack of rows of length n (any number of leading axes) for a 1-D operator, or a matrix of columns of length n for a 2-D operator, and let the nonlinear function treat rows (columns) one by one. Then every row (column) evolves as it would alone: for the fixed-step solvers every sequence of calls gives, row by row, the results, times and snapshots of a solver for that row; for the adaptive solvers every evolve uses one sequence of accepted step sizes for the whole stack, the returned array and every stored array are, row by row, what new solvers give with these step sizes, and the stored times are the sums of the step sizes.",
  "all operators, row-wise (column-wise) nonlinear functions, stacks of any shape, all sequences of calls, any arithmetic",
  "Mixing of rows would show only for some shapes (square stacks) and some operators; the property compares all runs of all stacks with runs of all rows.",
  ["rkstiff/if4.py: _update_stages", "rkstiff/if34.py: _update_stages", "rkstiff/if45dp.py: _update_stages", "rkstiff/etd4.py: _update_stages", "rkstiff/etd34.py: _update_stages", "rkstiff/etd5.py: _update_stages", "rkstiff/etd35.py: _update_stages", "rkstiff/solvercs.py: step, evolve", "rkstiff/solveras.py: step, evolve, _compute_s"])
p("C89", "Stiff stability: perturbations grow at a rate that does not depend on the linear operator",
  "Let all entries of a 1-D operator have real part at most 0 (of any size: 1e9 or 1e300), and let the nonlinear functions N, N' satisfy |N(v) - N'(w)| <= Lam (|v - w| + mu). Then two runs of the same solver with the same steps, for N and N' and from states at distance d, are after time s at distance at most exp(c Lam s)(d + mu) - mu in the maximum norm, where c = 1 (IF4, IF34), 6 (IF45DP), 12 (ETD4, ETD34), 15 (ETD5, ETD35); and a run with |N(v)| <= Lam (|v| + mu) from a state of size d stays below exp(c Lam s)(d + mu) - mu. No step size restriction enters. Dense IF4 and IF34: the same with c = 1 when the exponentials of the operator do not increase the maximum norm.",
  "all dissipative operators of any size, all Lipschitz nonlinear functions and perturbations of them, all step sizes, all step sequences of the adaptive controller, contours with quadrature error at most 1/6",
  "This is the reason to use these solvers: it quantifies over all operators and all step sizes; a coefficient slightly too large makes runs blow up only for particular operators and steps, after many steps.",
  ["rkstiff/if4.py: _IF4Diagonal, _IF4NonDiagonal", "rkstiff/if34.py", "rkstiff/if45dp.py", "rkstiff/etd4.py", "rkstiff/etd34.py", "rkstiff/etd5.py", "rkstiff/etd35.py", "rkstiff/etd.py: psi1, psi2, psi3", "rkstiff/solvercs.py: evolve", "rkstiff/solveras.py: evolve"])
p("C90", "The ETD solvers converge with order three uniformly in the linear operator",
  "For each bound K on the nonlinear part along a solution (values and first two time derivatives of N(u(t)), Lipschitz constant of the second, Lipschitz constant and derivative of N near the solution), each tube radius and each length of time there are constants C, h0, r0 such that for every number of entries, every operator with entries of real part at most 0 and every such solution, every run of ETD4, ETD5, ETD34 and ETD35 from a state at distance d with steps at most H <= h0 is within C (d + e + H^3) of the solution at all stored times, e being the error of the contour sums. The constants do not depend on the operator, its size, or derivatives of u (which grow with the operator).",
  "all dissipative operators of any size and dimension, all solutions and nonlinear functions with the given bounds, all step sequences, all contours with quadrature error at most 1/6",
  "Classical order (C71 to C74) has constants that grow with the operator; order reduction appears only in the limit of large operators, so a test at fixed operator sees the classical order. The claim is about all operators at once.",
  ["rkstiff/etd4.py", "rkstiff/etd34.py", "rkstiff/etd5.py", "rkstiff/etd35.py", "rkstiff/etd.py: psi1, psi2, psi3", "rkstiff/solvercs.py: evolve", "rkstiff/solveras.py: evolve"])
p("C91", "The integrating factor solvers converge uniformly in the linear operator",
  "C90 for the integrating factor solvers IF4, IF34 and IF45DP: constants C, h0, r0 that depend only on bounds of the nonlinear part along the solution such that every run with steps of at most H <= h0 is within C (d + H^p) of the solution, for p = 4, or for some positive p.",
  "all dissipative operators, solutions and nonlinear functions with the given bounds, all step sizes",
  "At a fixed operator IF4 and IF34 have order four and IF45DP five (C71 to C74), so convergence tests pass; the failure needs operators that grow with the number of steps.",
  ["rkstiff/if4.py: _IF4Diagonal", "rkstiff/if34.py: _If34Diagonal", "rkstiff/if45dp.py", "rkstiff/solvercs.py: evolve", "rkstiff/solveras.py: evolve"])
p("C92", "The ETD solvers have order four uniformly in the linear operator",
  "C90 with H^4 in place of H^3: constants that depend only on bounds of the nonlinear part along the solution, its tube and the length of time, such that every run of ETD4 (of ETD5, of ETD34, of ETD35) with steps of at most H <= h0 is within C (d + e + H^4) of the solution, for all operators with entries of real part at most 0.",
  "all dissipative operators of any size and dimension, all solutions and nonlinear functions with the given bounds, all step sizes",
  "For a fixed operator the observed order is four or five (C71 to C74); the loss of an order shows only along a sequence of operators that grow like 1/h.",
  ["rkstiff/etd4.py", "rkstiff/etd5.py", "rkstiff/etd34.py", "rkstiff/etd35.py", "rkstiff/solvercs.py: evolve", "rkstiff/solveras.py: evolve"])
p("C93", "The diagonalized ETD solvers converge with order three, uniformly in the eigenvalues",
  "For all bounds K, rho, T0 on the nonlinear part along a solution, its tube and the length of time, and s, b on the row sums of the eigenvector matrix and its inverse, there are C, h0, r0 such that for every matrix operator of any size diagonalized by such a basis with eigenvalues of real part at most 0, every run of ETD34 and ETD35 with diagonalize=True and steps of at most H <= h0 is within C (d + e + H^3) of the solution, at the stored times and at the end; d is the error of the initial state and e the quadrature error of the contour.",
  "all sizes, all diagonalizable dissipative matrices with bounded eigenbases, all nonlinear functions and solutions with the given bounds, all controller decisions",
  "A uniform constant over all matrices of all sizes cannot be observed in finitely many runs.",
  ["rkstiff/etd34.py: _Etd34Diagonalized", "rkstiff/etd35.py: _Etd35Diagonalized", "rkstiff/solveras.py: evolve"])
p("C94", "Runs with diagonalize=True are stable whatever the size of the eigenvalues",
  "If no eigenvalue has a positive real part and the eigenvector matrix and its inverse have row sums of at most s and b, then two runs of IF34, ETD34 or ETD35 with diagonalize=True that took the same steps, from states d apart and with nonlinear functions that are close to each other (Lipschitz constant Lam, defect Lam mu), are at most s (exp(c b s Lam (t - t0)) (b d + mu) - mu) apart at every stored time, and a single run with a nonlinear function of linear growth is bounded in the same way; c is 1, 12, 15 for the three solvers. Neither the eigenvalues nor the step sizes enter.",
  "all sizes, all eigenvalues with real part at most 0, all bounded eigenbases, all nonlinear functions with the given constants, all step sizes and controller decisions",
  "A bound that is uniform over all stiff matrices and all step sequences cannot be sampled.",
  ["rkstiff/if34.py: _If34Diagonalized", "rkstiff/etd34.py: _Etd34Diagonalized", "rkstiff/etd35.py: _Etd35Diagonalized", "rkstiff/solveras.py: evolve"])
p("C95", "A real problem keeps real states",
  "Dtypes by numpy's promotion rules for int64, float64 and complex128. If the operator, the eigen-decomposition and the initial state are real and nl_func maps real arrays to real arrays, every recorded state of an adaptive run is real. More exactly: from the first step on the states of the ETD solvers are complex128 whatever the dtypes of the operator, of the initial state and of the values of nl_func; those of the integrating factor solvers are complex128 if one of operator, initial state, nl_func(initial state) and nl_func(float array) is complex, and float64 otherwise. In both cases the dtype is the same for all states after the initial one.",
  "all dtypes of operator, eigenvectors, state, all dtype behaviours of nl_func (for IF45DP: complex values for complex arrays if for float arrays), all step sequences and controller decisions, all ETD parameters",
  "Numerical comparisons do not see dtypes: a complex128 state with zero imaginary part compares equal to the real one, but a user nl_func written for real arrays (irfft, float buffers, ordering) fails or drops parts with complex input, and only from the second stage on.",
  ["rkstiff/etd4.py: lin_op.astype(np.complex128)", "rkstiff/etd34.py: lin_op.astype(np.complex128)", "rkstiff/etd5.py: lin_op.astype(np.complex128)", "rkstiff/etd35.py: lin_op.astype(np.complex128)", "rkstiff/if4.py: update_coeffs", "rkstiff/if34.py: update_coeffs", "rkstiff/if45dp.py: update_coeffs", "rkstiff/solveras.py: evolve", "rkstiff/solvercs.py: evolve"])
p("C96", "On a real problem nl_func is called with real arrays only",
  "If the operator and its eigen-decomposition are real and nl_func returns real arrays (or raises) for real arrays, then in every sequence of step, evolve and reset calls with real arrays on one solver object, nl_func is called with real arrays only, and every returned and every recorded array is real.",
  "all real problems, all nl_func with any state and any exceptions on real arrays, all sequences of calls with any step sizes, times and storage options, all controller decisions",
  "nl_func may be called at any stage of any accepted or rejected step and after any exception; a test that compares values does not see that the arguments are complex128, and one problem that works with complex arguments says nothing about others.",
  ["rkstiff/if4.py: update_stages", "rkstiff/if34.py: update_stages", "rkstiff/if45dp.py: update_stages", "rkstiff/etd4.py: update_stages", "rkstiff/etd34.py: update_stages", "rkstiff/etd5.py: update_stages", "rkstiff/etd35.py: update_stages", "rkstiff/solveras.py: step, evolve, reset", "rkstiff/solvercs.py: step, evolve, reset"])
p("C97", "A nonlinear function that rejects complex arrays can be used for real problems",
  "dx_rfft raises TypeError for complex arrays, so a nonlinear function that applies it to the state does too. On a real problem (C96) this test makes no difference: every sequence of step, evolve and reset calls with real arrays gives the same answers, exceptions, step sizes, recorded times and states as with the same function without the test.",
  "all real problems, all nonlinear functions with any state and exceptions on real arrays, all sequences of calls",
  "Whether a stage, a rejected step or a call after an exception ever passes a complex array is a question about all executions; a nonlinear function that tolerates complex arrays, as in the tests, does not show it.",
  ["rkstiff/derivatives.py: dx_rfft", "rkstiff/if4.py: update_stages", "rkstiff/if34.py: update_stages", "rkstiff/if45dp.py: update_stages", "rkstiff/etd4.py: update_stages", "rkstiff/etd34.py: update_stages", "rkstiff/etd5.py: update_stages", "rkstiff/etd35.py: update_stages"])
p("C98", "Linear first integrals are conserved by every run",
  "If a linear functional of the modes vanishes on the right-hand side L v + N(v) for every v, it has the same value for every state recorded or returned by evolve as for the initial state (exact arithmetic).",
  "all 1-D and matrix operators, nonlinear functions, functionals, initial states, step sizes and outcomes of runs, all seven solvers",
  "Conservation for one equation and one run, within a tolerance, does not show whether the schemes conserve every linear integral or only those that vanish on L and N separately.",
  ["rkstiff/if4.py: update_stages", "rkstiff/if34.py: update_stages", "rkstiff/if45dp.py: update_stages", "rkstiff/etd4.py: update_stages", "rkstiff/etd34.py: update_stages", "rkstiff/etd5.py: update_stages", "rkstiff/etd35.py: update_stages", "rkstiff/solvercs.py: evolve", "rkstiff/solveras.py: evolve"])
p("C99", "Modes that the equation does not excite stay zero",
  "If the nonlinear function maps arrays supported on a set of modes to arrays supported on it (for example because it is dealiased, or preserves a symmetry that selects modes), every run from a state supported on the set records and returns only such states (1-D operators, exact arithmetic).",
  "all 1-D operators, sets of modes, nonlinear functions keeping the set, initial states, step sizes and outcomes of runs, all seven solvers",
  "A test checks one set of modes for one equation; that no stage or coefficient mixes modes is a statement about all of them.",
  ["rkstiff/if4.py: update_stages", "rkstiff/if34.py: update_stages", "rkstiff/if45dp.py: update_stages", "rkstiff/etd4.py: update_stages", "rkstiff/etd34.py: update_stages", "rkstiff/etd5.py: update_stages", "rkstiff/etd35.py: update_stages", "rkstiff/solvercs.py: evolve", "rkstiff/solveras.py: evolve"])
out = os.path.join(os.path.dirname(os.path.abspath(__file__)), "..", "properties.jsonl")
with open(out, "w") as f:
    for d in P: f.write(json.dumps(d) + "\n")
print(len(P))
