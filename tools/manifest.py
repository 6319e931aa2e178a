#!/usr/bin/env python3
"""Regenerates MANIFEST.json. One entry per property; statuses: proved, partial, not_applicable.
A property that is false of the code is 'partial': its note starts with REFUTED and the
theorems include the counterexample and the restricted positive results."""
import json, os
C = []
def c(p, status, theorems, note):
    C.append(dict(property=p, status=status, theorems=theorems.split(), note=note))

c("C01", "proved", "C01_adaptive_run_lands_on_tf", "Exact real arithmetic, any scheme, nonlinear function and error history. Binary64 is C23/C24.")
c("C02", "proved", "C02_adaptive_run_terminates C02_progress_per_step", "Exact real arithmetic; fuel bound explicit.")
c("C03", "proved", "C03_step_contract C03_at_most_51_attempts", "Contract in exact arithmetic; attempt count for any arithmetic.")
c("C04", "proved", "C04_rejection_factor C04_acceptance_factor", "Exact arithmetic, including infinite and NaN estimates.")
c("C05", "proved", "C05_acceptance_criterion C05_accepted_step C05_full_norm_without_cutoff", "Exact arithmetic with NaN/inf results explicit: acceptance iff the masked norm of the error is positive and at most epsilon*safety_f^q times the masked norm of the candidate.")
c("C06", "partial", "C06_full_norm_refuted C05_full_norm_without_cutoff", "REFUTED: components below adapt_cutoff do not take part in the norm (witness: IF34, two modes, default configuration: full-norm error exceeds three times the tolerance). Holds for a negative cutoff.")
c("C07", "proved", "C07_scale_invariant C07_adaptive_step_scales", "Exact arithmetic; every nonzero complex factor.")
c("C08", "partial", "C08_linear_problem_refuted C08_rejected_candidate_is_exact", "REFUTED for every adaptive solver and every linear problem: the error is zero, the factor infinite, and the exact candidate is rejected until an exception.")
c("C09", "partial", "C09_zero_state_refuted C09_step_ends", "REFUTED for every adaptive solver: at a zero state with N(0) = 0 the factor is NaN and step raises. It always ends.")
c("C10", "proved", "C10_constant_step_history C10_adaptive_history", "All sixteen strategies, any arithmetic, any world (so the sequence of calls of the nonlinear function is covered), arbitrary prior solver states.")
c("C11", "proved", "C11_constant_step_chain C11_adaptive_chain C11_constant_step_evolve", "Any arithmetic (evolve version: exact arithmetic). In IEEE arithmetic the only side condition is that step sizes comparing equal give equal coefficients (signed zeros).")
c("C12", "partial", "C12_step_function_refuted C12_etd35_step_after_success", "REFUTED: the first stage of the previous step is re-used for an unrelated vector. Proved for ETD35 after a successful step (it recomputes the first stage).")
c("C13", "proved", "C13_constant_step_crash_safe C13_adaptive_crash_safe", "Arbitrary crash points, arbitrarily many of them. The adaptive version assumes that the error measure itself does not raise.")
c("C14", "partial", "C14_failed_coefficients_reused_refuted C14_witness_refuted", "REFUTED for every solver: the step size is recorded before the coefficients are computed, so the retry silently runs on stale or zero coefficients.")
c("C15", "proved", "C15_constant_step_coefficients C15_adaptive_coefficients C15_exact", "Any sequence of operations, any arithmetic; expm/inv assumed not to raise (C14 shows why).")
c("C16", "partial", "C16_config_change_ignored_refuted C16_adaptive_config_change_ignored_refuted C16_witness_refuted C16_config_used_when_recomputed", "REFUTED while the step size stays the same; proved after a reset or with another step size.")
c("C17", "proved", "C17_constant_steps_exact", "For every memoryless scheme (C11 shows the solvers are). tf = 0 with plain Python numbers is C22.")
c("C18", "partial", "C18_overshoot_refuted C18_binary_grid_lands_on_tf", "REFUTED: 0 -> 1 by 0.1 takes eleven steps in binary64 and returns the state at 1.0999999999999999, for every constant-step solver. Proved when t0, tf, h are multiples of a common power of two (no rounding happens).")
c("C19", "partial", "C19_step_too_large C19_negative_step C19_backwards_is_noop C19_zero_step_never_returns C19_nan_end_time C19_nan_step C19_rounded_range_check_refuted", "Every class holds (real-number classes in exact arithmetic, NaN classes in binary64) except that the range check compares rounded sums: REFUTED for evolve(u, 1, 1, 1e-17), which has h > tf - t0 and does not raise.")
c("C20", "proved", "C20_constant_step_snapshots C20_adaptive_snapshots C20_store_data_false_records_nothing", "Any arithmetic.")
c("C21", "partial", "C21_final_state_not_stored_refuted C21_last_snapshot_constant_step C21_last_snapshot_adaptive", "REFUTED when store_freq does not divide the number of steps; which state is stored last is proved for all runs, any arithmetic.")
c("C22", "partial", "C22_time_translation_partial C22_time_translation_refuted", "REFUTED when tf or tf+shift is 0 (ZeroDivisionError in the progress report after 100 steps); proved otherwise.")
c("C23", "proved", "C23_clamped_step_is_exact C23_run_lands_on_tf C23_small_start_refuted", "Binary64. Single step and whole runs (any scheme, any rejection history); also for negative times. The restriction tf/2 <= tc is necessary (witness).")
c("C24", "partial", "C24_passes_tf_refuted C24_never_terminates_refuted C24_at_most_one_ulp_beyond_tf C24_terminates_above_resolution C23_run_lands_on_tf", "REFUTED: a run from -1 passes tf; a run with h_init = 1e-17 from 1 never moves and never ends. Proved for nonnegative times: at most one unit in the last place beyond tf, and termination when minh and h_init are at least ulp(tf).")
c("C25", "proved", "C25_reachable_configs_in_range C25_rejected_assignment_changes_nothing C25_rejected_etd_assignment_changes_nothing C25_accepted_iff_in_range C25_gives_valid_config C25_gives_valid64", "Every sequence of constructions and assignments, also through solvers; any totally ordered arithmetic, instantiated with the reals and binary64 without NaN.")
c("C26", "partial", "C26_nan_accepted_refuted C26_nan_contour_points_is_a_type_error C26_nan_minh_disables_the_check C26_nan_factors", "REFUTED: every setter that takes a float accepts NaN (contour_points raises TypeError). Consequences for minh, incr_f, decr_f are proved.")
c("C27", "partial", "C27_shared_default_config_refuted C27_shared_default_etd_config_refuted C27_configuration_changes_only_when_named C27_etd_configuration_changes_only_when_named C27_classes_do_not_share_defaults", "REFUTED: default configuration objects are shared by all instances of a class. Proved for solvers holding different objects.")
c("C28", "proved", "C28_one_handler_and_last_level C28_exactly_one_handler", "Every sequence of constructions (failing ones included), level changes and handlers added by user code. The last level counts requests of constructors that then fail.")
c("C29", "partial", "C29_level_shared_by_class_refuted C29_other_classes_do_not_interfere C29_bad_level_changes_nothing", "REFUTED for solvers of the same class, even when the second construction fails; proved across classes.")
c("C30", "proved", "C30_string_accepted_iff_level_name C30_other_values_pass_through C30_level_name_roundtrip C30_aliases_not_inverted", "For every function str.upper; the constants of the logging module are part of the trusted base.")
c("C31", "proved", "C31_construction_succeeds_iff_shape_ok C31_strategy_selection C31_near_singular_not_diagonalized", "Every shape, class and flag; cond, eig, inv are oracles.")
c("C32", "proved", "C32_if4_diagonal C32_if4_every_step C32_if4_matrix C32_classical_order lawson_if_step", "Exact complex arithmetic. For matrices: expm is an oracle obeying the semigroup law.")
c("C33", "proved", "C33_if34_diagonal C33_if34_matrix C33_orders", "Exact complex arithmetic; order conditions over all rooted trees of the given size.")
c("C34", "proved", "C34_if45dp_candidate C34_order", "Exact complex arithmetic.")
c("C35", "partial", "C35_error_estimate_refuted C35_error_vector C35_coded_weights_refuted C35_embedded_order", "REFUTED: the fourth weight is 17/1920 instead of 71/1920; the coded weights do not sum to zero. What the code computes is proved exactly.")
c("C36", "partial", "C36_exact_krogstad C36_krogstad_up_to_quadrature C36_classical_limit C36_orders C36_matrix_operators", "Exact complex arithmetic. 1-D operators: equality with Krogstad's method when every mode reaches the cutoff, and with the quadrature bound otherwise. Matrix operators: the stages and weights are those of the method with operators within the contour bound of the psi-functions, provided hL is similar to a matrix of norm below the contour radius; outside that the code does not run the method (see C46).")
c("C37", "partial", "C37_exact_method C37_method_up_to_quadrature C37_weights C37_rows C37_classical_limit C37_orders C37_matrix_operators", "Order conditions for every rooted tree up to five nodes, and order six refuted. Matrix operators: the method with operators within the contour bound of the psi-functions, provided hL is similar to a matrix of norm below the contour radius.")
c("C38", "partial", "C38_constant_forcing C38_constant_forcing_any_mode C38_equilibria C38_equilibria_kept forced_solution C38_matrix_constant_forcing C38_matrix_equilibria C38_matrix_refuted", "Compared with the unique solution of the initial value problem. Matrix operators inside the contour: exact up to the contour bound. REFUTED for matrix operators outside the contour: the forcing is lost.")
c("C39", "partial", "C39_if_equilibrium_refuted C39_if_trivial_equilibrium", "REFUTED for all three schemes; equilibria with L u = 0 and N(u) = 0 are kept.")
c("C40", "proved", "C40_linear_exact_constant_step C40_linear_exact_adaptive C40_zero_step_constant_step C40_zero_step_adaptive", "All sixteen strategies, exact complex arithmetic; for matrices exp(hL) is what expm returns.")
c("C41", "proved", "C41_if34_equal_stages C41_etd34_equal_stages C41_etd35_equal_stages C41_constant_forcing", "1-D operators for arbitrary stage values; constant N for every kind of operator.")
c("C42", "proved", "C42_psi_integrals C42_psi_integrals_at_zero", "Exact complex arithmetic; Riemann integrals of the real and imaginary parts.")
c("C43", "proved", "C43_contour_mean C43_default_accuracy", "The bound as stated, for psi_1, psi_2, psi_3 and the scalings q z with 0 <= q <= 1 that the schemes use; default configuration: below 1e-34.")
c("C44", "partial", "C44_refuted C44_no_zero_division", "REFUTED when the radius is below modecutoff (accepted by the setters): a contour point can hit zero. Proved for every operator and step size when modecutoff <= radius, by computing with a poison value for x/0.")
c("C45", "proved", "etd4n_stored etd5n_stored C45_polynomials C45_accuracy", "Exact complex arithmetic; inv is an oracle that returns inverses of the invertible matrices it is given. Accuracy for hL similar to a matrix of norm below the radius.")
c("C46", "partial", "C46_refuted C46_same_method", "REFUTED: for a diagonal matrix with h*d outside the contour (d = -10, h = 1) the weights are nearly zero and the steps differ. Inside the contour both runs use the same method with operators within the contour bound.")
c("C47", "proved", "C47_if34_diagonalized C47_if34_same_candidate C47_etd_diagonalized", "Exact complex arithmetic; S and its inverse as returned by eig/inv, assumed inverse to each other.")
c("C48", "partial", "C48_if34_error_refuted C48_if34_error_in_eigenbasis C48_etd_error_in_eigenbasis", "REFUTED (witness: IF34): the error vector stays in the eigenbasis. What it equals is proved for IF34, ETD34 and ETD35.")
c("C49", "partial", "C49_uniform_grid C49_errors C49_empty_interval C49_one_point_too_many_refuted C49_b64_length C49_b64_power_of_two", "Proved in exact arithmetic. REFUTED in binary64 (default interval with n = 122: 123 points); there the grid has n or n+1 points for n <= 2^50, and n points if n is a power of two.")
c("C50", "proved", "C50_fft_wavenumbers C50_rfft_wavenumbers", "Exact arithmetic.")
c("C51", "proved", "C51_chebyshev_grid C51_errors C51_range", "Exact arithmetic.")
c("C52", "proved", "C52_chebyshev_derivatives", "Exact arithmetic; 1-D and column-wise 2-D input, every order.")
c("C53", "proved", "C53_fft_exact C53_rfft_exact", "Exact arithmetic; the transforms are the sums that define them.")
c("C54", "partial", "C54_rfft_nyquist_refuted C54_fft_composes C54_rfft_composes", "REFUTED for dx_rfft on every grid of the package (n even): the first derivative drops the Nyquist component, the second does not. Proved for dx_fft, and for dx_rfft when the length is odd, the inner order is even or the Nyquist component vanishes.")
c("C55", "partial", "C55_nyquist_refuted C55_real_data", "REFUTED for odd orders when the Nyquist component is not zero (the derivative has an imaginary part); proved for even orders and for data without Nyquist component.")
c("C56", "proved", "C56_dx_fft C56_dx_rfft C56_dx_cheb", "All argument combinations in the modelled types; numpy integers count as non-int.")
c("C57", "partial", "C57_mirror_grid C57_values_1d C57_values_axis0 C57_values_axis1 C57_errors C57_default_axis_2d_refuted", "Proved for 1-D data and for 2-D data with axis 0 or 1. REFUTED for 2-D data with the default axis -1: rows are flipped but stacked horizontally.")
c("C58", "proved", "C58_equals_fresh_construction C58_assignment C58_accepted_iff", "Any arithmetic; Bessel functions are oracles. Assumes that the library returns zeros for every admissible size (see C67).")
c("C59", "proved", "C59_grids C59_fourier_bessel C59_linear C59_round_trip C59_weighted_symmetry C59_wrong_length", "Exact arithmetic; of the Bessel oracles only that the zeros are positive, increasing and simple.")
c("C60", "proved", "C60_soliton_solves_kdv", "Exact arithmetic; every amplitude, position and time.")
c("C61", "partial", "C61_operators C61_zero_mode C61_errors C61_burgers_mean_step C61_burgers_mean_runs C61_kdv_mean_refuted", "REFUTED for KdV: on every grid one IF4 step moves the mean of the state that has only a Nyquist component. Proved: both operators equal the transform of the right-hand side of the PDE for band-limited data; the zero mode of the nonlinear term exactly; for Burgers the mean is kept by every step of the seven solvers for 1-D operators and along whole runs if the Nyquist component is real (as it is for rfft of real data). Exact arithmetic.")
c("C62", "proved", "C62_allen_cahn C62_allen_cahn_exact C62_errors", "Exact arithmetic; every interior state on a Chebyshev grid, and equality with eps w'' + w - w^3 for polynomials with the boundary values. (The docstring gives N(u) = u - u^3, the code x - (u + x)^3.)")
c("C64", "proved", "C64_constant_step_cost C64_adaptive_cost", "Exact number of evaluations of a whole run, all accept/reject histories, any arithmetic.")
c("C65", "partial", "C65_nonfinite_candidate_rejected C65_accepted_is_finite C65_negative_cutoff_refuted", "Proved for adapt_cutoff >= 0. REFUTED for a negative adapt_cutoff, which the setter accepts: an infinite candidate is accepted.")
c("C66", "proved", "C66_solver_type", "Every successfully constructed solver.")

c("C67", "partial", "C67_failed_call_refuted", "REFUTED: nr and rmax are stored before the call that can fail; the object then mixes new parameters with old arrays, and later failing assignments to rmax change the scale of ht and iht.")
c("C68", "partial", "C68_multi_soliton C68_superposition_refuted", "REFUTED: the sum of two solitons does not solve the equation; that the function returns the sum is proved.")
c("C63", "proved", "C63_constant_step C63_adaptive", "All strategies, any arithmetic, any library results, every history of calls including writes by the caller to arrays outside solver.u; the nonlinear function may keep references, return its argument or its own arrays, and raise, but writes only to arrays of its own. numpy expressions are taken to build new arrays.")
c("C69", "partial", "C69_constant_step C69_adaptive C69_reused_buffer_refuted", "Proved for nonlinear functions that do not overwrite an array they have returned. REFUTED for a function that fills one output buffer again and again (it writes only to its own array): IF4 for u' = u then returns 3.75 instead of 65/24.")
c("C70", "partial", "C70_constant_step_refuted C70_adaptive_refuted C70_constant_step_distinct C70_adaptive_distinct", "REFUTED for every strategy: solver.u[0] is the array passed to evolve, and with store_freq = 1 the last entry is the array returned. Proved: no two entries of solver.u share memory.")

c("C71", "proved", "C71_if4_if34_diagonal C71_if4_if34_matrix C71_etd4_etd34_diagonal C71_etd4_etd34_matrix", "Exact complex arithmetic. The problem and its constants come first, the solver object, its settings and the run afterwards. Matrix operators: scipy's expm is the exponential series and np.linalg.inv, when it returns, returns an inverse.")
c("C72", "proved", "C71_if4_if34_diagonal C71_if4_if34_matrix C71_etd4_etd34_diagonal C71_etd4_etd34_matrix C72_etd34_eigenbasis", "The C71 theorems contain both solvers. The diagonalised variants assume that np.linalg.eig and inv returned an eigendecomposition.")
c("C73", "partial", "C73_order_five_refuted C73_etd35_order_five_refuted C73_local_order_refuted C73_order_five_commuting C73_order_five_commuting_matrix C73_order_four_diagonal C73_order_four_matrix", "REFUTED as stated: for u0' = -u0 + u1, u1' = u1 + u1 (L = diag(-1,1), N(v) = (v1,v1)) the errors of ETD5 are not O(h^5), those of ETD35 are not either (runs that accept every step with an unchanged size), and the candidate of ETD35 has a local error of size h^5; the leading term is h^5 (JL - LJ)(f''/34560 + J f'/17280). Proved: order four for all smooth problems, order five if L commutes with the derivative of N along the solution.")
c("C74", "proved", "C74_if45dp", "Exact complex arithmetic; N and its derivative along the solution have as many derivatives as the order needs (smooth with 5, Jsmooth).")
c("C75", "proved", "C75_if34_diagonal C75_etd34_diagonal C75_etd35_diagonal C75_if34_matrix C75_etd34_matrix C75_etd35_matrix C75_if34_eigenbasis C75_etd_eigenbasis", "Exact complex arithmetic. IF45DP is not included: its coded error weights do not sum to zero (C35).")
c("C76", "proved", "C76_if34_diagonal C76_etd34_diagonal C76_etd35_diagonal C76_if34_matrix C76_etd34_matrix C76_etd35_matrix C76_etd_eigenbasis", "Exact arithmetic; runs that store every step. The bound H on accepted steps and the non-zero estimates are hypotheses about the run: an estimate that is exactly zero is rejected (C08), and nothing in the code limits a step from above. The nonlinear function, expm and inv are assumed not to raise the controller's own exceptions.")
c("C77", "partial", "C77_estimate_refuted C77_leading_term C77_steps C77_growth_steps", "REFUTED. C77_estimate_refuted: on u' = u no constants give an estimate of order >= 1, because the error weights coded in rkstiff/if45dp.py:232-237 sum to -9/320 (17/1920 instead of 71/1920, see C35). Proved instead: the leading term of the estimate for every smooth problem, the bound h (9/320 nu - C (H + D)) <= eps safety_f^q sqrt(n) (K + D) on every accepted step when some component that counts carries a nonlinear term of size nu, and the resulting lower bound on the number of steps.")
c("C78", "proved", "C78_if4_if34 C78_if45dp C78_binary64", "Rounded: all array operations (the stages and the exponentials). Exact: times, step sizes and scalars computed from step sizes. C78_binary64 assumes for the complex exponential that its components are correctly rounded; e0 is not computed, so whether 2^-46 <= e0 depends on the problem. 1-D operators of the IF solvers (C79: ETD).")

c("C79", "proved", "C79_etd4_etd34 C79_etd5_etd35 C79_etd5_etd35_commuting", "As C78: times, step sizes and scalars computed from step sizes are exact. B, h0 and e0 depend on the contour and are not computed; h0 makes all modes of the problem small modes, so the direct formula for large modes never enters. 1-D operators.")
c("C80", "proved", "C80_if34_eigenbasis C80_etd34_eigenbasis C80_etd35_eigenbasis C80_etd35_eigenbasis_commuting C80_if4_if34_matrix", "As C78 and C79. Eigenvectors, inverse, eigenvalues and matrix exponentials of library routines are assumed within kap eps of exact ones (matrix exponentials only for arguments with row sums at most 1). B and h0 depend on the basis and the contour and are not computed.")
c("C81", "proved", "C81_etd4_etd34 C81_etd5_etd35 C81_etd5_etd35_commuting", "As C79 and C80, for every contour and every x up to half its radius; steps are small enough that h L has row sums at most x. Matrix inverses of library routines are assumed to obey the bound with the condition number (inv_near). B and h0 depend on the contour and are not computed.")

c("C82", "proved", "C82_if4_if34 C82_if45dp C82_etd4_etd34 C82_etd5_etd35 C82_etd5_etd35_commuting C82_if34_eigenbasis C82_etd34_eigenbasis C82_etd35_eigenbasis C82_etd35_eigenbasis_commuting C82_if4_if34_matrix C82_etd4_etd34_matrix C82_etd5_etd35_matrix C82_etd5_etd35_matrix_commuting lift64 np64_rounds np64_scalars", "Runs that store every step, 0 <= t0, tf below 2^1023. The arithmetic has to round the scalar of a product to binary64 (scalars64; numpy's operands are binary64 numbers), which fixes its precision: np64, numpy's formulas, is an instance with eps = 2^-46 and range 2^500. The constants e0, r0 and O0 are not computed, so whether binary64 is fine enough for a given problem is not decided here, and C82_not_vacuous leaves 2^-46 <= e0 and O0 <= 2^500 as premises.")

c("C83", "proved", "C83_existence C83_uniqueness C83_smooth C83_runs C83_runs_matrix C83_kdv C83_burgers C83_allen_cahn", "Existence is local: the length of the interval depends on the initial array, and solutions are not shown to exist for all times. The constants depend on the solution (existence of C, h0, r0). Runs in exact arithmetic; C83_smooth makes the rounding claims C78 to C82 applicable as well, for nonlinear functions computed within a multiple of eps.")

c("C84", "proved", "C84_constant_step_runs_commute C84_adaptive_runs_commute C84_constant_step_symmetry_kept C84_adaptive_symmetry_kept C84_constant_step_real_data C84_adaptive_real_data C84_translation_is_translation C84_translations C84_odd_is_odd C84_burgers_odd C84_allen_cahn_odd C84_allen_cahn_real", "Exact arithmetic. Matrix exponentials are sums of their series, inverses are inverses, eigenvectors diagonalize the matrix. With diagonalize=True symmetric data stay symmetric; that moved data give the same step sizes is not claimed for these strategies, because the norm of the error is taken in eigenvector coordinates.")
c("C85", "proved", "C85_nonlinear C85_kdv_lin C85_burgers_lin C85_allen_cahn_lin C85_runs C85_runs_matrix C85_kdv C85_burgers C85_allen_cahn C85_transforms_as_sums C85_cube_as_products", "The errors of numpy's transforms and powers, of expm, inv and eig are hypotheses (kf eps). Constants, and the largest admissible eps, exist but are not computed.")


c("C86", "proved", "C86_constant_step_runs_have_no_shape_errors C86_adaptive_runs_have_no_shape_errors C86_adaptive_runs_measured", "Any arithmetic. For the adaptive solvers the error measures on arrays and on vectors have to agree on arrays of shape (n,); C86_adaptive_runs_measured shows this for the measure of the code. Nonlinear functions that return plain Python numbers are not modelled.")
c("C87", "partial", "C87_ill_shaped_states_rejected_refuted C87_column_states_are_stretched C87_scalar_states_are_stretched C87_constant_step_rejects C87_adaptive_rejects", "REFUTED: axes of length 1 are stretched, so a column state (n,1) with a 1-D operator returns an (n,n) array (all seven such strategies), and a 0-d state returns (n,) or (n,n). Proved: last axes other than n and 1 (n > 1) are rejected by 1-D operators, and lengths that dot cannot contract by 2-D operators, from any solver object and for any nonlinear function (diagonalize=True: from new objects, after reset and after accepted steps); evolve returns in these cases only if it makes no step.")
c("C88", "partial", "C88_diagonalized_columns_refuted C88_constant_step_rows C88_constant_step_columns C88_adaptive_rows C88_adaptive_columns C88_adaptive_rows_measured", "REFUTED for diagonalize=True: with a square batch the eigenvalues multiply columns instead of rows (IF34, L = diag(0,1), N = 0). Proved for all other strategies. Adaptive: pure nonlinear functions, library results that exist (linalg_total) and an error measure that does not raise (shown for the measure of the code on non-empty stacks).")

c("C89", "proved", "C89_constant_step_stability C89_constant_step_growth C89_adaptive_growth C89_adaptive_stability C89_matrix", "Exact arithmetic. Adaptive comparison of two runs: for runs with equal recorded times. Dense strategies: IF4 and IF34 with exponentials that do not increase the maximum norm; the dense ETD strategies and diagonalize=True are not covered.")
c("C90", "proved", "C90_uniform_convergence", "1-D operators, exact arithmetic. C90_not_vacuous has a family of solutions with the same bounds for all operators diag(0, lam), Re lam <= 0.")
c("C91", "partial", "C91_if4_uniform_refuted C91_if4_parabolic_refuted C91_if34_uniform_refuted C91_if45dp_uniform_refuted C89_constant_step_stability", "REFUTED: for u' = i om u + 1 with om = 4 pi / h the error of IF4 at t = 1 tends to 1 as h tends to 0, so no positive order is uniform; for real operators (u' = -u 24/h + 1) order two is not uniform. The same for runs of IF34 and IF45DP in which every step is accepted with an unchanged size (om = 180 pi / h, real operator -900/h). What holds uniformly is stability (C89); for fixed operators order four (C71), five for IF45DP (C74).")

c("C92", "partial", "C92_etd4_order_four_refuted C92_etd5_order_four_refuted C92_etd34_order_four_refuted C92_etd35_order_four_refuted C92_order_three C92_adaptive_order_three", "REFUTED for all four solvers: u0' = -u0, u1' = i (8 pi / h) u1 + u0; the errors of all steps point in one direction and add up to at least a multiple of h^3. Order three holds uniformly.")

c("C93", "proved", "C93_uniform_eigenbasis", "Exact complex arithmetic. The eigen-decomposition is given (diagonalizes); the bounds of the nonlinear part are in the original coordinates, the tube shrinks by s and the bounds grow by b s^2 in the eigenbasis.")
c("C94", "proved", "C94_growth C94_stability", "Exact complex arithmetic. As C89 with the condition of the eigenbasis; the adaptive runs compared took the same steps.")
c("C95", "partial", "C95_etd_real_refuted C95_if_real C95_etd_constant C95_etd_adaptive C95_if_constant C95_if_adaptive", "REFUTED for every ETD strategy: the operator is converted to complex128, so the states of a real problem are complex128 from the first step on. Holds for the integrating factor strategies (C95_if_real). The other theorems give the exact dtype of all states. Dtypes int64, float64, complex128 only.")
c("C96", "partial", "C96_etd_constant_refuted C96_etd_adaptive_refuted C96_if_constant C96_if_adaptive", "REFUTED for every ETD strategy: the second call of nl_func in the first step has a complex128 array. Holds for all integrating factor strategies and all sessions (C96_if_constant, C96_if_adaptive), expm not raising for matrix operators. Dtypes int64, float64, complex128 only.")
c("C97", "partial", "C97_etd_constant_refuted C97_etd_adaptive_refuted C97_etd_constant_raises C97_etd_adaptive_raises C97_etd_constant_evolve_raises C97_etd_adaptive_evolve_raises C97_if_constant C97_if_adaptive", "REFUTED for every ETD strategy: the first step from a real state, and every evolve of a new instance over a nonempty interval with an admissible step size, always raises the TypeError (C97_etd_*_raises). Holds for all integrating factor strategies (C97_if_constant, C97_if_adaptive).")
c("C98", "partial", "C98_whole_right_hand_side_refuted C98_linear_integrals C98_linear_integrals_matrix C98_linear_integrals_diagonalized", "REFUTED: for u0' = -u0 (linear part), u1' = u0 (nonlinear part) IF4 does not keep u0 + u1. Holds for functionals that vanish on L and on N separately (C98_linear_integrals; for matrix operators, IF and ETD without diagonalization, C98_linear_integrals_matrix, which assumes exact expm and inv and an expm that does not raise; for diagonalize=True with exact eigenvectors, C98_linear_integrals_diagonalized).")
c("C99", "proved", "C99_mode_sets", "1-D operators, exact arithmetic; N deterministic, may raise.")
json.dump(dict(claims=C), open(os.path.join(os.path.dirname(__file__), "..", "MANIFEST.json"), "w"), indent=1)
