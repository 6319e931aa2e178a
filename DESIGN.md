# Formal model of whalenpt/rkstiff: design

The code under study is the Python package in `/repo/rkstiff` (pinned commit). It is
read as text only. The model is in `rocq/theories`, logical name `Verif`, Coq 8.16.1.

## 1. Layers of the model

1. **Arithmetic as a record** (`Scalars.v`, `Arrays.v`). Real scalars (times, step sizes, factors) are the
   carrier of a record `tops` of operations; complex array entries are the carrier of a
   record `aops`. The model of the code is written once over these records, in the order of
   operations of the source. Instances:
   * exact reals / exact complex numbers (`R`, Coquelicot's `C`);
   * IEEE binary64 scalars (Flocq's `binary_float 53 1024`, round to nearest even, with NaN,
     infinities and signed zeros) for times and step sizes;
   * any other instance: theorems about control flow, caching, storage and exceptions are
     proved for *every* record, so they hold for floating-point execution too.
2. **Control layer**: `step`, `evolve`, `reset` of the two base classes as functions from
   (solver state, world) to (value or exception, solver state, world). The `world` is the
   state of the user's nonlinear function, an arbitrary effectful oracle that may raise at any
   call. `while` loops take fuel; running out of fuel is a separate outcome, never a value.
   The scheme is a parameter of this layer (a record `method`), as are the error norm etc.
3. **Scheme layer**: one file per solver module; each strategy class has a state record with
   the caches (`NL1`.., coefficients, `n1_init`, `h_coeff`) and its `update_stages`,
   `update_coeffs`, `n1_init`, `_reset` written statement by statement.
4. **Specification layer** (`Spec*.v`): textbook definitions that do not mention the model:
   explicit Runge-Kutta steps from a Butcher tableau, the integrating-factor transform, rooted
   trees and order conditions, exponential Runge-Kutta steps with phi-functions, psi integrals,
   discrete Fourier transform, polynomial derivatives, PDE residuals.
5. **Heap layer** (`Heap*.v`): the same strategies as programs of array statements (bind a new
   array, alias, call the nonlinear function, write in place) executed on a heap of shared arrays;
   the value models of layer 3 are proved to be their executions on values.
6. **Other modules**: configuration, logging registry, grids, derivatives, transforms, models.
7. **Property files** `Props*.v`: the theorems, `Print Assumptions` for each, and `Example`s
   exhibiting non-trivial instances of the hypotheses.

Files by layer:

| layer | files |
|-------|-------|
| arithmetic | `Scalars`, `Arrays`, `CInst` (exact complex), `B64` (binary64), `Rounding`, `RoundingB64`, `RoundingETD`, `RoundingMat`, `RoundingMatETD`, `RoundingRuns`, `RoundingTimes`, `RoundingDP` (rounded complex) |
| control | `Control` (model); `ControlCS`, `ControlCSReal`, `ControlAS`, `ControlASReal`, `ControlSim`, `ControlSound`, `ControlInv`, `ControlRel`, `B64Step` (proofs) |
| schemes | `SchemeBase`, `SchemeIF`, `SchemeETD4`, `SchemeETD5`, `Solvers`, `Tolerance` (model); `SchemeFacts`, `SchemeSound`, `SchemeFamily`, `SchemeCoefs`, `SchemeCost`, `SchemeForm`, `SchemeIFReal`, `SchemeETDReal`, `SchemeETDCoefs` (proofs) |
| heap | `Heap`, `HeapSchemes`, `HeapModel` (model); `HeapLink`, `HeapRuns`, `HeapValue`, `HeapFresh` (proofs) |
| other modules | `Config`, `Logging`, `Grids`, `Derivatives`, `Hankel`, `Models` |
| specification and mathematics | `SpecRK`, `SpecPhi`, `SpecERK`, `SpecPoly`, `ContourReal`, `ContourMatrix`, `MatrixFlow`, `Neumann` (inverses of perturbed matrices), `Fourier` |
| convergence | `Asym` (orders of smallness along a solution), `Solution` (smooth solutions), `LocalRK4`, `Voc`, `LocalKro` (local errors), `Stable`, `Converge` (accumulation), `MatExp` (exponential and phi series of a matrix), `SchemePartial` (soundness of the strategies until the first exception), `ConvRuns`, `ConvMethods`; order conditions of any exponential Runge-Kutta table as a computation: `OrderWords` (expansions in words in L and J), `OrderLocal` (they are the local errors), `OrderMethods` (ETD5, Dormand-Prince), `OrderSharp` (lower bounds); `Estimate`, `ControlAccept`, `ControlTested`, `Raises` (what the controller makes of small estimates), `Polynomial`, `Picard` (smoothness, existence and uniqueness of solutions for polynomial right-hand sides), `ModelPoly` (the functions of models.py as polynomials) |
| symmetry | `RelStep` (relations of arrays kept by all strategies, sessions of calls), `Symmetry` (permutations, conjugation, unimodular factors) |
| shapes | `Shapes` (arrays with shapes, broadcasting, `dot`; the 16 strategies over them), `ShapeTol` (error measure) (model); `ShapeRel`, `ShapeRuns` (proofs), `PropsShapes`, `PropsBatch` |
| stiff bounds | `Stiff` (growth factors of exponential Runge-Kutta steps by norms of their coefficients), `StiffOrder` (solutions with bounds that do not involve the operator, stiff order conditions, accumulation), `StiffMethods` (Krogstad's method and ETD5 meet them), `PropsStiff`, `PropsStiffOrder`, `PropsStiffSharp`, `PropsStiffIF` (the adaptive solvers), `PropsStiffEig`, `PropsStiffDiag` (diagonalize=True) |
| dtypes | `PropsDtype` (the strategies with dtypes as array entries), `PropsDtypeCalls` (the arrays given to `nl_func`), `PropsDtypeStrict` (functions that reject complex arrays) |
| invariants | `ControlInv1` (invariants along runs when coefficient computations may fail), `PropsIntegrals` (linear first integrals, sets of modes), `PropsIntegralsMat` (matrix operators) |
| rounded models | `ModelRounding` (models.py in rounded arithmetic), `PropsModelRounding` |
| properties | `PropsControl`, `PropsCache`, `PropsIF`, `PropsPsi`, `PropsETD`, `PropsLinear`, `PropsTolerance`, `PropsB64`, `PropsConfig`, `PropsLogging`, `PropsGrids`, `PropsCheb`, `PropsDeriv`, `PropsHankel`, `PropsModels`, `PropsSpectral`, `PropsMean`, `PropsMatrix`, `PropsHeap`, `PropsConverge`, `PropsOrder5`, `PropsEstimate`, `PropsAccept`, `PropsDP`, `PropsRounding`, `PropsRoundingETD`, `PropsRoundingMat`, `PropsRoundingMatETD`, `PropsRounding64`, `PropsRuns64`, `PropsModelRuns`, `PropsSymmetry`, `PropsSymModels` |

Arrays of length n are functions from indices (`nat -> E`): entries at indices >= n are never
meaningful. `Shapes` repeats the strategies on arrays that carry shapes, with broadcasting and
shape errors; C86 shows that for states of shape (n,) the two readings agree. Python exceptions are
values.

## 2. Properties: what is modelled and how it is proved

| id | model | proof |
|----|-------|-------|
| C01, C02 | adaptive `evolve`/`step` over exact reals, arbitrary method and error factor | loop invariant on (tc, h): tc + h <= tf, h >= min(h_init, minh) or tc + h = tf; fuel bound from the Archimedean property |
| C03, C04 | `step`, `_reject_step_size`, `_accept_step_size` | induction over the retry loop; relational trace of rejected sizes |
| C05-C07, C09, C65 | `_compute_s` (`Tolerance`) over exact and extended reals, NaN/inf results explicit | real analysis of the power function; witness for the masked component (C06), for a negative `adapt_cutoff` (C65) |
| C08 | C05 + the schemes: zero error vector gives an infinite factor, which is rejected | induction over the retry loop: always an exception (refutation) |
| C10 | all solvers, arbitrary state, arbitrary oracle | reset makes every field that is read equal or overwritten: bisimulation between the two runs |
| C11, C13, C15 | all solvers | invariant "if n1 is initialised then the reused stage is N(u)" and "coefficients = function of h_coeff"; one lemma per strategy, generic lifting to chains and to evolve |
| C12, C14, C16 | same models | concrete witnesses (refutations) and the positive part under the exact condition |
| C17-C22 | constant-step and adaptive `evolve`; exact reals and binary64 | induction on steps; binary64 witnesses by computation |
| C23, C24 | adaptive `evolve` over binary64 | Sterbenz' lemma from Flocq; witnesses for overshoot and stagnation (refutation) |
| C25-C27 | `SolverConfig`, `ETDConfig` over binary64; heap of configuration objects | induction over assignment sequences; witnesses (NaN accepted, shared default objects) |
| C28-C30 | logger registry as a finite map, string parsing | induction over operation sequences |
| C31, C66 | constructors as decision functions on shapes | case analysis |
| C32-C34 | IF schemes over exact complex numbers; spec: tableau RK + transform | function extensionality and field identities; order conditions over all rooted trees of bounded order |
| C35 | IF45DP error weights | witness: constant N, L = 0 (refutation: one weight is 17/1920 instead of 71/1920) |
| C36-C38 | ETD schemes, diagonal and matrix operators, contour-computed weights; spec: exponential RK with phi | closed form of one step, weights compared with phi combinations through the contour bound (scalar and resolvent version) |
| C39-C41 | IF and ETD steps on linear problems, constant forcing | field identities; matrix exponential flow (`MatrixFlow`) |
| C42-C44 | psi and the contour sums; spec: Riemann integrals over complex functions | integration by antiderivative, roots of unity, Taylor remainder; arithmetic with a poison value for x/0 (C44) |
| C45, C46 | contour sums with `inv` of `z I - hL` as an oracle | resolvent identity, partial sums of polynomials, similarity to a matrix of small norm; d = -10, h = 1 gives weights near 0 (refutation of C46) |
| C47, C48 | diagonalized strategies | algebra of S, S^-1; 2x2 witness (C48) |
| C49 | `np.arange` length, exact and binary64 | ceiling lemma; binary64 witness n = 122 on the default interval (refutation); powers of two proved |
| C50-C55 | grids and spectral derivatives, DFT as finite sums | orthogonality of roots of unity; barycentric weights of Chebyshev points; Nyquist witnesses (C54, C55) |
| C56 | validation order as decision functions | case analysis |
| C57 | `mirror_grid` on lists | list lemmas; witness for 2-D with axis -1 |
| C58, C59, C67 | Hankel object as a state machine, Bessel data as oracles | induction over assignments; finite sums; a failing library call as witness (C67) |
| C60-C62, C68 | models | derivatives (Coquelicot); exactness of the spectral operators on band-limited data; invariants of the one-step map along runs; witness for KdV (C61) and for two solitons (C68) |
| C63, C69, C70 | strategies as array programs on a heap shared with caller and nonlinear function | discipline of the programs checked by a boolean function (`wf`), frame and value theorems by induction over programs, relational lifting to runs (`ControlRel`); a nonlinear function that reuses its buffer as witness (C69); snapshots are increasing references (C70) |
| C64 | call log in the world | induction |
| C71, C72 | whole runs of the solver loops compared with a smooth solution of u' = Lu + N(u) (`Solution.smooth`) | variation of constants and Taylor with integral-free remainders (`Voc`, `LocalRK4`, `LocalKro`), stability of exponential Runge-Kutta steps near the solution (`Stable`), accumulation over a list of steps (`Converge`), runs as lists of steps until the first exception (`SchemePartial`, `ConvRuns`), matrix exponential and phi series (`MatExp`); the logistic equation as example |
| C73, C74 | the same runs for ETD5, ETD35, IF45DP | the local error of a table of rational combinations of phi functions is expanded by a verified computation on words in L and J = N'(u(t)) and derivatives of N(u(t)) (`OrderWords.flocal`, `OrderLocal.table_local`), evaluated by `vm_compute`; stability and accumulation as for C71. The h^5 term of ETD5 is a commutator, so order five is refuted by an explicit 2x2 linear problem (`OrderSharp.order_sharp`: local errors in one direction add up); for ETD35 with runs that accept every step (`PropsOrder5AS`) |
| C75 | one attempt of IF34, ETD34, ETD35 near a smooth solution | the estimate is the difference of two methods, both with local error O(h^4) (main: O(h^5)) by the word computation of C73; perturbed start and perturbed coefficients by the stability lemma of C71 (`Estimate`) |
| C76 | runs of the adaptive `evolve` with `_compute_s` on n components | C75 makes the tolerance test (C05) succeed for attempts <= hs; the retry loop then ends with a size >= min(MIN_S, decr_f) hs (`ControlAccept`); accuracy of the recorded values from C71-C73; `Raises`: exceptions of a stage come from the nonlinear function, expm or inv only |
| C77 | one attempt of IF45DP; runs with `_compute_s` | order expansion (`OrderLocal`) of the Lawson method with the coded embedded weights gives the term 9/320 h N(u); `ControlTested`: every recorded step passed the test, so C05 bounds its estimate by the tolerance; C74 for the accuracy of the run. Witness u' = u |
| C78 | the IF models read over `Fops a` for any rounded complex arithmetic `a` (`Rounding`: relative error eps plus underflow eps below an overflow bound Om) | `Rounding`: a calculus of computed quantities near a smooth solution (exact value bounded, computed value within a multiple of eps, for all small h, small eps, large Om), composed stage by stage; accumulation with a perturbation per step (`gronwall_add`); step sequences from the soundness of the control model. `RoundingB64`: schoolbook product, Smith's quotient and componentwise sums with every operation rounded (Flocq's FLT format, 53 bits) |
| C79 | the ETD models over `Fops a`, coefficients included | `RoundingETD`: the calculus of C78 with complex divisions (lower bounds of divisors), contour nodes, sums in any order, masks (for small h the exact and the computed mask agree) and the stage formulas of `SchemeForm`; the exact program is the method with coefficients perturbed by the contour error (C36, C37), `rounded_runs` accumulates discretisation, contour and rounding errors |
| C80 | the eigenbasis strategies of IF34, ETD34, ETD35 and the matrix strategies of IF4, IF34 over `Fops a` | `RoundingMat`: the calculus of C78 and C79 with matrix-vector products (`ok_dot`, `oh_dot_l`, `oh_dot_r`), changes of basis, and the dependence of the matrix exponential on its argument (`psi_lip`, `mexp_all`); exact programs are the methods of C47, C72 and C32; `rounded_runs` as before |
| C81 | the contour strategies for matrices of ETD4, ETD34, ETD5, ETD35 over `Fops a` | `RoundingMatETD`: contour sums as functions of abstract node matrices and inverses (`K4`, `K5`, `etd4n_is`, `etd5n_is`); the calculus for matrices (`mok_*`); computed inverses (`or_inv`) by Neumann series (`inv_perturbed`); the exact program inverts where inverses exist (`find_inv`) and is the method of C36, C37; `rounded_runs` as before |
| C82 | the same models read over `Gops a`: step sizes, literals, quotients of literals and norms are binary64 numbers, and the loops of `evolve` run over `Bops` | `RoundingRuns`: in an arithmetic that rounds the scalars of products, a step with binary64 scalars is the step with exact scalars at the same step size (`cs_Phi_64`, `as_Phi_64`; coefficients too); `RoundingDP`: IF45DP keeps scalars that are rounded twice (`11*h/84.0`), the first of these roundings is bounded by the accuracy of the products (`twice_near`), and cached scalars of zeros of different sign give the same steps (`dp_sound1`); `RoundingTimes`: recorded times, accepted sizes and the end of a run in binary64 (from C23, C24); `PropsRounding64`: the drift of rounded times, and `lift64`, which turns the claims of C78 to C81 into claims about runs; `np64` (`PropsRuns64`): numpy's formulas are such an arithmetic |
| C83 | `advection`, `allen_cahn_nl` (models.py) as right-hand sides of ordinary differential equations, and the runs of C71 to C74 | `ModelPoly`: entries of the results are polynomials in the entries of the array and their conjugates (real parts and Hermitian extension are linear in both); `Polynomial`: derivatives of polynomials along a solution are polynomials, so every solution on a compact interval is smooth; `Picard`: iteration on a short interval, uniqueness by halving the difference |
| C84 | sessions of calls on a solver object (`cs_session`, `as_session`: step, evolve, reset, on the objects of C14/C15 with stored coefficients), all 16 strategies | `RelStep`: a relation of arrays that is closed under sums, multiples and coefficients is kept by stages, coefficient updates, step control and sessions. `Symmetry`: psi functions and contour sums commute with conjugation and with the permutation because the nodes of the contour come in conjugate pairs; matrix exponentials and inverses commute with the moved matrix by uniqueness; in eigenvector coordinates the relation is `S b = move (S a)`. Norms and masks are invariant. `PropsSymModels`: transforms turn factors `exp(2 pi i k s/n)` into shifts, conjugation into reflection; the Chebyshev matrix is odd under reversal of both indices. Not claimed: step sizes of `diagonalize=True` for moved (not symmetric) data |
| C85 | `ModelRounding`: the functions of `Models` over an arithmetic of `Rounding` (`advection_fl`, `allen_cahn_nl_fl`, `kdv_lin_fl`, `burgers_lin_fl`, `allen_cahn_mat_fl`), arrays of matching lengths; transforms and powers are arguments with error bounds (`rfft_near`, `irfft_near`, `rpow_near`, `cube_near`) | The transforms are Lipschitz (`irfft_diff` 1, `rfft_diff` m); errors are followed entry by entry with `near_mul` etc. and explicit constants. Along a solution of C83 this gives `computes_near`, the hypothesis of C78 to C82; C82 is applied to the `smooth` data of `C83_smooth`. `C85_transforms_as_sums`: the hypotheses hold for transforms evaluated as sums (`ro_dot`). |
| C86 | `Shapes`: arrays as shape and entries, `map2` broadcasts or raises, `dot1` contracts or raises, strategies statement by statement; `ShapeTol.compute_s_nd`: boolean mask over an array of another shape | `ShapeRel`: if a relation between shaped arrays and vectors survives sums, multiples and products with coefficients, one call of each strategy keeps it (`cs_call`, `as_call`), with levels for the stored stages that are not yet written; `ShapeRuns`: sessions through `RelStep`; the relation "shape (n,) and these entries" has these closures |
| C87 | as C86, any nonlinear function | `fails`: the first product with the state raises, whatever happened before; refutation by evaluation of all strategies on a (2,1) state over an arbitrary arithmetic |
| C88 | as C86 | rows and columns are relations with the closures of C86; adaptive runs: induction over retries and the loop of `evolve` with the invariant that every slice has a vector solver in a related and sound state (`binv`), so that each accepted step is `as_Phi` on every slice; refutation by evaluation |
| C89 | the strategies over C; `dissipative`, `good_contour`, `close_lip`, `linear_growth` are stated on entries | phi functions are bounded by 1/r! on the left half plane, contour sums by 1/6 more; `amp` follows the stages with these bounds and `amp_kro`, `amp_etd5`, `amp_dp`, `amp_rk4` bound it by exp(c x); runs by `cs_evolve_steps`, `as_evolve_steps` |
| C90 | as C71; `stiff_solution`: a solution of u' = L u + N(u) with bounds on f(t) = N(u(t)) and N only | variation of constants with the phi functions (`duhamel`), Taylor expansion of f, not of u; stages and step are compared with the exact solution through the defects of the rows, which vanish or combine with b2 = b3 (`st_J`); local error C (e h + h^4), stability as in C89, accumulation (`stiff_runs`) |
| C91 | as C90 | IF4 on u' = lam u + 1 adds h per step when exp(h lam / 2) = 1, the solution stays below 2/abs(lam); `C17`-type exact runs (`cs_evolve_exact`). IF34 and IF45DP: adaptive runs in which the controller returns 1, so that all steps are accepted and keep their size (`keep_run`); 90 turns per step make all seven exponentials of IF45DP equal to 1 |
| C92 | as C90 | at z = 8 pi i the weights are polynomials in 1/z (phi_1 = 0), so one step of the witness problem has a closed form (`os_form`); the error per step is bounded below by a real part (`os_D_big`), and all errors are positive multiples of one complex number (`os_iter`); ETD34 and ETD35 propagate the same methods, their runs as in C91 |
| C93 | `stiff_matrix_solution`: C90 with a matrix operator | the equation in the eigenbasis is a `stiff_solution` (`to_eigenbasis`); the diagonalized step is S (diagonal step) S^-1 (`etd34z_eig`), so runs correspond exactly after S^-1 (`eig_claim`) |
| C94 | bounds for runs in the original coordinates (`linear_growth`, `close_lip` of C89), row sums of S and S^-1 | the step is S (1-D step with the eigenvalues) S^-1 (`eig_method`), so runs are 1-D runs after S^-1 (`eig_runs`); the 1-D step is tame (C89) and the constants change by the row sums |
| C95 | numpy's promotion on {int64, float64, complex128} (`promote`), a real dtype is one other than complex128 | the polymorphic models of the strategies are instantiated with dtypes as entries (`Dops`): the same stage and coefficient formulas then compute dtypes. ETD coefficients are complex128 (`etd4d_cplx` ... `etd5n_cplx`, by induction over the contour points for matrices); IF steps by cases over all dtypes; runs by `as_evolve_steps`, `cs_evolve_steps`. The claim "real stays real" is refuted for every ETD strategy by a run |
| C96 | a nonlinear function that records its arguments (`watched`), sessions of requests (C84) | the relation "equal and without complex entries" survives the operations of the IF stages (`RelStep`), and the record of the calls is part of the related worlds; for ETD the first update of a new object is computed and its second call has a complex128 array |
| C97 | the user's function with and without `if iscomplexobj(u): raise TypeError` (`strict`), equality of whole sessions | IF: the two sessions are related by "equal and real" (`RelStep`), hence equal; ETD: the first update is computed, its second call of `nl_func` raises |
| C98 | value of a linear functional (`functional`) on the states of any `evolve` (`along_runs`), 1-D strategies | refuted by one IF4 step with h = 6 (`decay_step`: the sum grows above 1); if it vanishes on L and N separately: weights are zero where L is not, so `f(hL)` multiplies the functional by `f(0)`; invariance of the stages from `PropsMean`. Matrix operators: `a exp(tL) = a` from `exp z = 1 + z psi_1(z)`, and `w a (wI - hL)^-1 = a` at every contour node, so each contour sum keeps the kernel of the functional, inside or outside the contour. `diagonalize=True`: the functional `a S` in the eigenbasis, as for 1-D operators |
| C99 | arrays supported on a set of modes (`only`), 1-D strategies | every coefficient acts mode by mode, same invariance argument |

Properties that turn out false of the faithful model get a theorem `..._refuted` with a witness
and, where possible, a positive theorem under the exact extra hypothesis. `MANIFEST.json` lists the
theorems of each property and says what is refuted and what is assumed.

## 3. Trusted base

* Coq 8.16.1 kernel (and `vm_compute`), coqchk. Libraries: Coq's standard library, Flocq 4.1.0,
  Coquelicot, mathcomp (only as a dependency of Coquelicot).
* Axioms: those of the standard library's real numbers and classical logic reported by
  `Print Assumptions` under each theorem (list in section 5).
* The reading of the Python source: each definition cites file and lines. Not run against the code.
* Oracles (universally quantified; theorems list what they assume of them): the nonlinear function;
  `scipy.linalg.expm`; `numpy.linalg.inv`, `eig`, `cond`; Bessel functions and `jn_zeros`.
  Where correctness of a result is claimed: `inv` returns an inverse for the invertible matrices it
  is given (`inv_ok`), `expm` the exponential series (`exp_series`), `eig`/`inv` matrices with
  `S Sinv = I`, `jn_zeros` positive, increasing, simple zeros.
* Descriptions of library behaviour: `np.arange` has ceil((stop - start)/step) entries
  `start + i*step` with the arithmetic of the instance; `np.linspace`, `fftfreq`, `rfftfreq`,
  `chebpts2`-like expressions as documented; `fft`, `ifft`, `rfft`, `irfft` are the defining sums
  (`irfft` ignores the imaginary parts of entries 0 and n/2 and takes n = 2(m-1) by default);
  `matrix_power` is iterated multiplication; arrays of length 1 broadcast in `mirror_grid`.
* The logging tables (`logging_attr`: names exported by the `logging` module with integer values).
* Dtypes (C95, C96): `np.result_type` on int64, float64, complex128; `/` and `np.exp` of int64 give float64; a Python float or an
  `np.float64` step size promotes like float64; `expm` and `inv` return complex128 exactly for complex128 arguments.
* Heap model: numpy expressions and library calls build new arrays; `x = y` copies no data;
  `x[...] = e` and `x += e` write in place.
* Exact-arithmetic theorems say nothing about rounding inside the vector arithmetic, except C78 to C82; binary64
  theorems before C82 cover time and step-size arithmetic, configuration values and grid lengths only. C78 to C81 take
  `rounds a eps Om` as the description of the vector arithmetic and keep times and step sizes exact;
  `C78_binary64` describes numpy's complex loops and assumes a correctly rounded exponential and modulus.
  C80 assumes that `eig`, `inv` and `expm` return entries within `kap eps` of exact ones (`expm_near` for arguments
  with row sums at most 1). C81 assumes `expm_near` and that `inv` returns `Q'` within `kap eps |M| |M^-1|^2` of `M^-1`
  (`inv_near`). C85 assumes errors of `kf eps` relative to the size of the data for `rfft`, `irfft`, `**2`, `**3` and `np.power(.,3)`. C82 rounds times and step sizes too; `scalars64` says that a real factor of a complex product is rounded to binary64.

## 4. What is not modelled

numpy dtypes other than int64, float64 and complex128 (C95 covers promotion among these; narrower types, whose promotion with Python numbers depends on the numpy version, are left out; for `diagonalize=True` the ETD eigenvalues are taken as complex in C95, see `dt_problem`); nonlinear functions returning plain Python numbers instead of arrays; log message formatting (except that the
progress log evaluates `100*tc/tf`); `python -O` (assert statements are active); threads; plots,
examples and tests. In the heap model, views (two arrays sharing part of their memory) do not
occur: no statement of the solver classes builds one.

## 5. Axioms per theorem (from `Print Assumptions`)

All of them belong to the standard library: `Classical_Prop.classic`, `FunctionalExtensionality.functional_extensionality_dep`, `ClassicalDedekindReals.sig_forall_dec`, `ClassicalDedekindReals.sig_not_dec`.

**none (closed under the global context)**: `C03_at_most_51_attempts`, `C14_failed_coefficients_reused_refuted`, `C16_config_change_ignored_refuted`, `C16_adaptive_config_change_ignored_refuted`, `C20_constant_step_snapshots`, `C20_adaptive_snapshots`, `C20_store_data_false_records_nothing`, `C21_last_snapshot_constant_step`, `C21_last_snapshot_adaptive`, `C25_reachable_configs_in_range`, `C25_rejected_assignment_changes_nothing`, `C25_rejected_etd_assignment_changes_nothing`, `C25_accepted_iff_in_range`, `C27_configuration_changes_only_when_named`, `C27_etd_configuration_changes_only_when_named`, `C27_classes_do_not_share_defaults`, `C28_one_handler_and_last_level`, `C28_exactly_one_handler`, `C29_level_shared_by_class_refuted`, `C29_other_classes_do_not_interfere`, `C29_bad_level_changes_nothing`, `C30_string_accepted_iff_level_name`, `C30_other_values_pass_through`, `C30_level_name_roundtrip`, `C30_aliases_not_inverted`, `C31_construction_succeeds_iff_shape_ok`, `C31_strategy_selection`, `C31_near_singular_not_diagonalized`, `C32_classical_order`, `C33_orders`, `C34_order`, `C35_coded_weights_refuted`, `C35_embedded_order`, `C36_orders`, `C37_orders`, `C57_values_1d`, `C57_values_axis0`, `C57_values_axis1`, `C57_errors`, `C57_default_axis_2d_refuted`, `C58_equals_fresh_construction`, `C58_assignment`, `C58_accepted_iff`, `C64_constant_step_cost`, `C64_adaptive_cost`, `C66_solver_type`, `C67_failed_call_refuted`, `C63_constant_step`, `C63_adaptive`, `C70_constant_step_refuted`, `C70_adaptive_refuted`, `C70_constant_step_distinct`, `C70_adaptive_distinct`, `C87_column_states_are_stretched`, `C87_constant_step_rejects`, `C87_adaptive_rejects`

**`functional_extensionality_dep`**: `C10_constant_step_history`, `C10_adaptive_history`, `C11_constant_step_chain`, `C11_adaptive_chain`, `C12_etd35_step_after_success`, `C13_constant_step_crash_safe`, `C13_adaptive_crash_safe`, `C15_constant_step_coefficients`, `C15_adaptive_coefficients`, `C16_config_used_when_recomputed`, `C69_constant_step`, `C69_adaptive`, `C86_constant_step_runs_have_no_shape_errors`, `C86_adaptive_runs_have_no_shape_errors`, `C87_scalar_states_are_stretched`, `C88_constant_step_rows`, `C88_constant_step_columns`, `C88_adaptive_rows`, `C88_adaptive_columns`

**`sig_forall_dec`**: `C56_dx_cheb`, `C62_errors`

**`functional_extensionality_dep`, `sig_forall_dec`**: `C01_adaptive_run_lands_on_tf`, `C02_adaptive_run_terminates`, `C02_progress_per_step`, `C03_step_contract`, `C04_rejection_factor`, `C04_acceptance_factor`, `C11_constant_step_evolve`, `C15_exact`, `C17_constant_steps_exact`, `C19_step_too_large`, `C19_negative_step`, `C19_backwards_is_noop`, `C19_zero_step_never_returns`, `C22_time_translation_partial`, `C22_time_translation_refuted`, `C25_gives_valid_config`, `lawson_if_step`, `C57_mirror_grid`, `C59_grids`, `C59_fourier_bessel`, `C59_linear`, `C59_round_trip`, `C59_weighted_symmetry`, `C59_wrong_length`, `C95_etd_real_refuted`, `C95_if_real`, `C95_etd_constant`, `C95_etd_adaptive`, `C95_if_constant`, `C95_if_adaptive`, `C96_etd_constant_refuted`, `C96_etd_adaptive_refuted`, `C96_if_constant`, `C96_if_adaptive`, `C97_etd_constant_refuted`, `C97_etd_adaptive_refuted`, `C97_etd_constant_raises`, `C97_etd_adaptive_raises`, `C97_if_constant`, `C97_if_adaptive`, `C97_etd_constant_evolve_raises`, `C97_etd_adaptive_evolve_raises`

**`functional_extensionality_dep`, `sig_forall_dec`, `sig_not_dec`**: `C05_full_norm_without_cutoff`, `C08_rejected_candidate_is_exact`, `C12_step_function_refuted`, `C14_witness_refuted`, `C32_if4_diagonal`, `C32_if4_every_step`, `C32_if4_matrix`, `C33_if34_diagonal`, `C33_if34_matrix`, `C34_if45dp_candidate`, `C35_error_estimate_refuted`, `C35_error_vector`, `C37_weights`, `C37_rows`, `C39_if_trivial_equilibrium`, `C40_linear_exact_constant_step`, `C40_linear_exact_adaptive`, `C40_zero_step_constant_step`, `C40_zero_step_adaptive`, `C41_if34_equal_stages`, `C41_etd34_equal_stages`, `C41_etd35_equal_stages`, `C41_constant_forcing`, `C44_refuted`, `C44_no_zero_division`, `etd4n_stored`, `etd5n_stored`, `C45_polynomials`, `C47_if34_diagonalized`, `C47_if34_same_candidate`, `C48_if34_error_in_eigenbasis`, `C49_uniform_grid`, `C49_errors`, `C49_empty_interval`, `C50_fft_wavenumbers`, `C50_rfft_wavenumbers`, `C51_chebyshev_grid`, `C51_errors`, `C51_range`, `C54_rfft_nyquist_refuted`, `C54_fft_composes`, `C54_rfft_composes`, `C55_nyquist_refuted`, `C55_real_data`, `C56_dx_fft`, `C56_dx_rfft`, `C61_zero_mode`, `C61_errors`, `C61_burgers_mean_step`, `C61_burgers_mean_runs`, `C61_kdv_mean_refuted`, `C69_reused_buffer_refuted`, `C84_constant_step_runs_commute`, `C84_constant_step_symmetry_kept`, `C84_adaptive_symmetry_kept`, `C84_constant_step_real_data`, `C84_adaptive_real_data`, `C84_translation_is_translation`, `C84_odd_is_odd`, `C84_allen_cahn_real`, `C85_nonlinear`, `C85_kdv_lin`, `C85_burgers_lin`, `C85_allen_cahn_lin`, `C85_transforms_as_sums`, `C85_cube_as_products`, `C87_ill_shaped_states_rejected_refuted`, `C98_whole_right_hand_side_refuted`, `C98_linear_integrals`, `C99_mode_sets`, `C98_linear_integrals_diagonalized`

**`classic`, `functional_extensionality_dep`, `sig_forall_dec`, `sig_not_dec`**: `C05_acceptance_criterion`, `C05_accepted_step`, `C06_full_norm_refuted`, `C07_scale_invariant`, `C07_adaptive_step_scales`, `C08_linear_problem_refuted`, `C09_zero_state_refuted`, `C09_step_ends`, `C16_witness_refuted`, `C18_overshoot_refuted`, `C18_binary_grid_lands_on_tf`, `C19_nan_end_time`, `C19_nan_step`, `C19_rounded_range_check_refuted`, `C21_final_state_not_stored_refuted`, `C23_clamped_step_is_exact`, `C23_run_lands_on_tf`, `C23_small_start_refuted`, `C24_passes_tf_refuted`, `C24_never_terminates_refuted`, `C24_at_most_one_ulp_beyond_tf`, `C24_terminates_above_resolution`, `C25_gives_valid64`, `C26_nan_accepted_refuted`, `C26_nan_contour_points_is_a_type_error`, `C26_nan_minh_disables_the_check`, `C26_nan_factors`, `C27_shared_default_config_refuted`, `C27_shared_default_etd_config_refuted`, `C36_exact_krogstad`, `C36_krogstad_up_to_quadrature`, `C36_classical_limit`, `C36_matrix_operators`, `C37_exact_method`, `C37_method_up_to_quadrature`, `C37_classical_limit`, `C37_matrix_operators`, `C38_constant_forcing`, `C38_constant_forcing_any_mode`, `C38_equilibria`, `C38_equilibria_kept`, `forced_solution`, `C38_matrix_constant_forcing`, `C38_matrix_equilibria`, `C38_matrix_refuted`, `C39_if_equilibrium_refuted`, `C42_psi_integrals`, `C42_psi_integrals_at_zero`, `C43_contour_mean`, `C43_default_accuracy`, `C45_accuracy`, `C46_refuted`, `C46_same_method`, `C47_etd_diagonalized`, `C48_if34_error_refuted`, `C48_etd_error_in_eigenbasis`, `C49_one_point_too_many_refuted`, `C49_b64_length`, `C49_b64_power_of_two`, `C52_chebyshev_derivatives`, `C53_fft_exact`, `C53_rfft_exact`, `C60_soliton_solves_kdv`, `C61_operators`, `C62_allen_cahn`, `C62_allen_cahn_exact`, `C65_nonfinite_candidate_rejected`, `C65_accepted_is_finite`, `C65_negative_cutoff_refuted`, `C68_multi_soliton`, `C68_superposition_refuted`, `C71_if4_if34_diagonal`, `C71_if4_if34_matrix`, `C71_etd4_etd34_diagonal`, `C71_etd4_etd34_matrix`, `C72_etd34_eigenbasis`, `C73_order_five_refuted`, `C73_local_order_refuted`, `C73_order_five_commuting`, `C73_order_five_commuting_matrix`, `C73_order_four_diagonal`, `C73_order_four_matrix`, `C74_if45dp`, `C75_if34_diagonal`, `C75_etd34_diagonal`, `C75_etd35_diagonal`, `C75_if34_matrix`, `C75_etd34_matrix`, `C75_etd35_matrix`, `C75_if34_eigenbasis`, `C75_etd_eigenbasis`, `C76_if34_diagonal`, `C76_etd34_diagonal`, `C76_etd35_diagonal`, `C76_if34_matrix`, `C76_etd34_matrix`, `C76_etd35_matrix`, `C76_etd_eigenbasis`, `C77_estimate_refuted`, `C77_leading_term`, `C77_steps`, `C77_growth_steps`, `C78_if4_if34`, `C78_if45dp`, `C78_binary64`, `C79_etd4_etd34`, `C79_etd5_etd35`, `C79_etd5_etd35_commuting`, `C80_if34_eigenbasis`, `C80_etd34_eigenbasis`, `C80_etd35_eigenbasis`, `C80_etd35_eigenbasis_commuting`, `C80_if4_if34_matrix`, `C81_etd4_etd34`, `C81_etd5_etd35`, `C81_etd5_etd35_commuting`, `C82_if4_if34`, `C82_etd4_etd34`, `C82_etd5_etd35`, `C82_etd5_etd35_commuting`, `C82_if34_eigenbasis`, `C82_etd34_eigenbasis`, `C82_etd35_eigenbasis`, `C82_etd35_eigenbasis_commuting`, `C82_if4_if34_matrix`, `C82_etd4_etd34_matrix`, `C82_etd5_etd35_matrix`, `C82_etd5_etd35_matrix_commuting`, `lift64`, `np64_rounds`, `np64_scalars`, `C83_existence`, `C83_uniqueness`, `C83_smooth`, `C83_runs`, `C83_runs_matrix`, `C83_kdv`, `C83_burgers`, `C83_allen_cahn`, `C84_adaptive_runs_commute`, `C84_translations`, `C84_burgers_odd`, `C84_allen_cahn_odd`, `C85_runs`, `C85_runs_matrix`, `C85_kdv`, `C85_burgers`, `C85_allen_cahn`, `C82_if45dp`, `C86_adaptive_runs_measured`, `C88_diagonalized_columns_refuted`, `C88_adaptive_rows_measured`, `C89_constant_step_stability`, `C89_constant_step_growth`, `C89_adaptive_growth`, `C89_adaptive_stability`, `C89_matrix`, `C90_uniform_convergence`, `C91_if4_uniform_refuted`, `C91_if4_parabolic_refuted`, `C92_etd4_order_four_refuted`, `C92_etd5_order_four_refuted`, `C92_order_three`, `C91_if34_uniform_refuted`, `C91_if45dp_uniform_refuted`, `C92_etd34_order_four_refuted`, `C92_etd35_order_four_refuted`, `C92_adaptive_order_three`, `C93_uniform_eigenbasis`, `C94_growth`, `C94_stability`, `C73_etd35_order_five_refuted`, `C98_linear_integrals_matrix`

