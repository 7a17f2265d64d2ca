{
 "claims": [
  {
   "property": "C01",
   "status": "proved",
   "theorems": [
    "C01_slicewise_elementwise"
   ],
   "note": "for every elementwise function, range and stepsize; independent of the np.empty content"
  },
  {
   "property": "C02",
   "status": "proved",
   "theorems": [
    "C02_slicewise_partition",
    "C02_slicewise_bad_step",
    "C02_slicewise_negative_length",
    "C02_slicewise_int_step",
    "C02_slicewise_terminates"
   ],
   "note": "complete characterisation of slicewise_eval for stateful/failing functions, error branches, termination"
  },
  {
   "property": "C03",
   "status": "proved",
   "theorems": [
    "C03_free_energy_table",
    "C03_beyond_nmax",
    "C03_table_length",
    "C03_free_energy_primed_sum"
   ],
   "note": "strided sums against an independent divisibility sum; primed Matsubara sum for frequency-wise geometries"
  },
  {
   "property": "C04",
   "status": "proved",
   "theorems": [
    "C04_force_refuted",
    "C04_force_is_free_energy",
    "C04_force_fails_from_50_terms"
   ],
   "note": "the code violates the documented meaning of force(): C04_force_refuted plus exact characterisation of what it returns"
  },
  {
   "property": "C05",
   "status": "proved",
   "theorems": [
    "C05_history_independence",
    "C05_force_first_refuted"
   ],
   "note": "history independence over all call sequences after the first success; force-first counterexample (_refuted)"
  },
  {
   "property": "C06",
   "status": "proved",
   "theorems": [
    "C06_entropy"
   ],
   "note": "exactness for affine/quadratic tables, edge formulas, error for fewer than two temperatures"
  },
  {
   "property": "C07",
   "status": "proved",
   "theorems": [
    "C07_auto_nmax",
    "C07_auto_nmax_exists",
    "C07_auto_nmax_scale",
    "C07_auto_nmax_symmetric",
    "C07_explicit_nmax_kept"
   ],
   "note": ">=1, existence for separated spheres, scale invariance, symmetry, explicit value kept"
  },
  {
   "property": "C08",
   "status": "proved",
   "theorems": [
    "C08_half_weight_analytic",
    "C08_half_weight_nonanalytic",
    "C08_no_zero_unweighted",
    "C08_zero_mode",
    "C08_single_zero_refuted"
   ],
   "note": "both evaluation modes; the [0]-only defect is C08_single_zero_refuted"
  },
  {
   "property": "C09",
   "status": "proved",
   "theorems": [
    "C09_mSumme_partial_sum",
    "C09_mSumme_errors",
    "C09_mSumme_k0_partial_sum"
   ],
   "note": "loop invariant over all term sequences incl. NaN/inf, stop rule in both directions, error propagation, zero-frequency loop"
  },
  {
   "property": "C10",
   "status": "proved",
   "theorems": [
    "C10_leading_zero",
    "C10_empty"
   ],
   "note": "exact equation incl. state and errors"
  },
  {
   "property": "C11",
   "status": "proved",
   "theorems": [
    "C11_cache_right",
    "C11_cache_right_in_sums",
    "C11_cache_history_refuted"
   ],
   "note": "exact result after every request history; defect for isolated m>=2 requests is C11_cache_history_refuted"
  },
  {
   "property": "C12",
   "status": "proved",
   "theorems": [
    "C12_k0_cache_right",
    "C12_k0_cache_history",
    "C12_k0_cache_refuted"
   ],
   "note": "exact result after every request history; defect is C12_k0_cache_refuted"
  },
  {
   "property": "C13",
   "status": "proved",
   "theorems": [
    "C13_scaled_round_trip",
    "C13_single_k_scale",
    "C13_dynamic_scaling",
    "C13_lndet_of_round_trip",
    "C13_no_orders"
   ],
   "note": "similarity of the full TE/TM matrix to T1 V12 T2 V21 with explicit diagonal similarity, consequences for traces of powers, det, characteristic polynomial, diagonal; end-to-end log-determinant"
  },
  {
   "property": "C14",
   "status": "proved",
   "theorems": [
    "C14_balance_similar",
    "C14_argument_overwritten"
   ],
   "note": "exact arithmetic; explicit heap for the overwritten argument"
  },
  {
   "property": "C15",
   "status": "proved",
   "theorems": [
    "C15_terminates",
    "C15_stopping_condition",
    "C15_conv_above_one_never_returns"
   ],
   "note": "termination for every conv < 1 in exact arithmetic, stopping condition for all powers of two, idempotence, divergence for conv > 1"
  },
  {
   "property": "C16",
   "status": "proved",
   "theorems": [
    "C16_balance_never_returns_refuted",
    "C16_infinite_square",
    "C16_nan_returned_unchanged",
    "C16_result_rescaled"
   ],
   "note": "the defect: C16_balance_never_returns_refuted, in binary64 arithmetic (SpecFloat)"
  },
  {
   "property": "C17",
   "status": "proved",
   "theorems": [
    "C17_balanced_slogdet",
    "C17_balanced_slogdet_returns",
    "C17_balanced_slogdet_not_square",
    "C17_sln_det_3d",
    "C17_sln_det_3d_returns",
    "C17_sln_det_3d_shape",
    "C17_blockdiagonal",
    "C17_blockdiagonal_returns",
    "C17_blockdiagonal_shape",
    "C17_blockdiagonal_1x1",
    "C17_blockdiagonal_1x1_refuted"
   ],
   "note": "all sizes and frequencies; partial correctness plus termination for conv < 1; defect is C17_blockdiagonal_1x1_refuted. LAPACK slogdet is modelled as the exact determinant"
  },
  {
   "property": "C18",
   "status": "proved",
   "theorems": [
    "C18_matrix_append",
    "C18_entries",
    "C18_wrong_length",
    "C18_wrong_shape"
   ],
   "note": "as block matrix and entry by entry; all error cases"
  },
  {
   "property": "C19",
   "status": "proved",
   "theorems": [
    "C19_block_inverse",
    "C19_shape",
    "C19_singular_block",
    "C19_invertible_rejected"
   ],
   "note": "incl. for every size an invertible matrix that is rejected"
  },
  {
   "property": "C20",
   "status": "proved",
   "theorems": [
    "C20_trace_dot",
    "C20_linear"
   ],
   "note": "value and linearity"
  },
  {
   "property": "C21",
   "status": "proved",
   "theorems": [
    "C21_int_order",
    "C21_bad_order",
    "C21_automatic_records_one_too_many_refuted",
    "C21_automatic_returns",
    "C21_negative_precision_never_returns"
   ],
   "note": "int, bad and automatic orders; the defect is C21_automatic_records_one_too_many_refuted"
  },
  {
   "property": "C22",
   "status": "proved",
   "theorems": [
    "C22_lmax_exists",
    "C22_lmax_positive",
    "C22_lmax_symmetric",
    "C22_lmax_scale_invariant",
    "C22_lmax_monotone",
    "C22_lmax_far",
    "C22_lssmax_at_least_lmax"
   ],
   "note": "existence, >=1, symmetry, scale invariance, monotonicity in gap/precision/offset, far limit, lssmax >= lmax"
  },
  {
   "property": "C23",
   "status": "proved",
   "theorems": [
    "C23_constructor",
    "C23_bad_evaluation",
    "C23_overlap_refuted",
    "C23_coated_arguments_refuted"
   ],
   "note": "full characterisation of a successful construction; defects are C23_overlap_refuted and C23_coated_arguments_refuted"
  },
  {
   "property": "C24",
   "status": "proved",
   "theorems": [
    "C24_lnknu_closed_form",
    "C24_positive_and_ode",
    "C24_order_check"
   ],
   "note": "all arrays of positive arguments, all lmax; closed form and differential equation proved; error values for non-integer and negative lmax"
  },
  {
   "property": "C25",
   "status": "proved",
   "theorems": [
    "C25_reference_functions",
    "C25_columns_0_and_1",
    "C25_order_0_only"
   ],
   "note": "reference functions defined by their power series; Taylor error bounds proved with series and logarithm remainders"
  },
  {
   "property": "C26",
   "status": "proved",
   "theorems": [
    "C26_orders_from_2",
    "C26_exact_ratio",
    "C26_fraction_brackets",
    "C26_fraction_converges",
    "C26_one_sided_error",
    "C26_accuracy",
    "C26_ascending_arrays",
    "C26_large_arguments_refuted",
    "C26_empty_and_errors"
   ],
   "note": "including geometric convergence of the fraction, one-sided error bounds and the limit ln 2 (C26_large_arguments_refuted is the defect)"
  },
  {
   "property": "C27",
   "status": "proved",
   "theorems": [
    "C27_orders_0_1_elementwise",
    "C27_other_orders_elementwise",
    "C27_rows_permuted_refuted",
    "C27_truncation_refuted"
   ],
   "note": "characterisation for all arrays; the two failures are C27_rows_permuted_refuted and C27_truncation_refuted, each for a whole family of arguments"
  },
  {
   "property": "C28",
   "status": "proved",
   "theorems": [
    "C28_mie_bessels",
    "C28_lmin_above_lmax",
    "C28_trans_bessels",
    "C28_i_fraction"
   ],
   "note": "for lmin >= 0 and non-empty arrays of positive arguments; also i_fraction"
  },
  {
   "property": "C29",
   "status": "proved",
   "theorems": [
    "C29_no_fault",
    "C29_zero_beyond"
   ],
   "note": "every array access, divisor, and function argument checked in the model; C int overflow is not modelled"
  },
  {
   "property": "C30",
   "status": "proved",
   "theorems": [
    "C30_symmetric"
   ],
   "note": "for all non-negative orders and all m"
  },
  {
   "property": "C31",
   "status": "proved",
   "theorems": [
    "C31_linearization",
    "C31_integrals"
   ],
   "note": "for all orders and m, pointwise on [-1,1] and as integrals (RInt) over the sphere; Legendre polynomials, their differential equation, orthogonality and norm are proved in Gaunt_Proofs3 to 6"
  },
  {
   "property": "C32",
   "status": "proved",
   "theorems": [
    "C32_lfac",
    "C32_ln_2dbl"
   ],
   "note": "for all natural numbers"
  },
  {
   "property": "C33",
   "status": "proved",
   "theorems": [
    "C33_num_derivative",
    "C33_exact_on_polynomials",
    "C33_linear",
    "C33_errors"
   ],
   "note": "complete characterisation, exactness against the analytic derivative, linearity, all error cases; interpolate=False"
  },
  {
   "property": "C34",
   "status": "proved",
   "theorems": [
    "C34_epsilon_elementwise",
    "C34_epsilon_float",
    "C34_epsilon_at_least_one",
    "C34_epsilon_nonincreasing",
    "C34_epsilon_decreasing",
    "C34_epsilon_high_frequency",
    "C34_epsilon_additive",
    "C34_epsilon_order_independent",
    "C34_smith",
    "C34_smith_assertion"
   ],
   "note": "elementwise, >=1, monotone, limit, additive, order independent"
  },
  {
   "property": "C35",
   "status": "proved",
   "theorems": [
    "C35_is_dielectric",
    "C35_is_sigma_finite",
    "C35_static_value",
    "C35_static_value_float"
   ],
   "note": "both flags against boundedness of the textbook permittivity as k->0"
  },
  {
   "property": "C36",
   "status": "proved",
   "theorems": [
    "C36_mu_none",
    "C36_mu_value",
    "C36_mu_static_and_range",
    "C36_is_magnetic",
    "C36_mu_integer_argument"
   ],
   "note": "values, bounds, limits, flag"
  },
  {
   "property": "C37",
   "status": "proved",
   "theorems": [
    "C37_predefined_materials",
    "C37_flags"
   ],
   "note": "all predefined materials"
  },
  {
   "property": "C38",
   "status": "proved",
   "theorems": [
    "C38_materials",
    "C38_fresnel_pointwise",
    "C38_bounded",
    "C38_antisymmetric",
    "C38_equal_media",
    "C38_denser",
    "C38_formula",
    "C38_perfect_conductor"
   ],
   "note": "for all materials with finite positive permittivity and permeability; also the textbook form of the formula and the perfect conductor limit"
  },
  {
   "property": "C39",
   "status": "proved",
   "theorems": [
    "C39_mie_defined",
    "C39_mie_matched",
    "C39_mie_internal_defined",
    "C39_mie_internal_matched"
   ],
   "note": "with the Bessel functions the code computes; positive denominators shown for arrays that are ascending or on one side of 1e-3 (see C27); the index-matched result needs no such condition"
  },
  {
   "property": "C40",
   "status": "proved",
   "theorems": [
    "C40_mie",
    "C40_mie_internal",
    "C40_perfect_conductor"
   ],
   "note": "with exact Bessel functions in place of mie_bessels (accuracy of mie_bessels is C25/C26): existence and uniqueness, exterior, interior and perfectly conducting case"
  },
  {
   "property": "C41",
   "status": "proved",
   "theorems": [
    "C41_static_exterior",
    "C41_static_plasma",
    "C41_static_interior",
    "C41_static_plasma_exterior_refuted",
    "C41_conducting_media_rejected"
   ],
   "note": "limits of the model of mie/mie_internal with exact Bessel functions (as in C40); plasma cases for mu(0)=1 (the code ignores mu in the plasma argument); the plasma exterior is refuted"
  },
  {
   "property": "C42",
   "status": "proved",
   "theorems": [
    "C42_coating_of_medium",
    "C42_coating_of_core",
    "C42_outer_shells",
    "C42_stratified_matching",
    "C42_stratified_matching_pec_core"
   ],
   "note": "coating of the medium and of the core with the computed Bessel functions; outer shells for any Bessel functions; matching problem of all shells (finite or perfectly conducting core) with exact ones"
  },
  {
   "property": "C43",
   "status": "proved",
   "theorems": [
    "C43_lists_after_call",
    "C43_unchanged_iff",
    "C43_second_call",
    "C43_lists_modified_refuted"
   ],
   "note": "exact content of the lists after the call for all inputs, iff-criterion, idempotence; the defect is C43_lists_modified_refuted. Core and coating evaluations are parameters (modelled in C39-C42)"
  },
  {
   "property": "C44",
   "status": "proved",
   "theorems": [
    "C44_parity",
    "C44_no_mixing_for_m0",
    "C44_symmetric",
    "C44_opposite_m",
    "C44_defined",
    "C44_failures"
   ],
   "note": "for any Bessel functions; success and shapes with the Bessel functions of the code"
  },
  {
   "property": "C45",
   "status": "proved",
   "theorems": [
    "C45_static_exterior",
    "C45_static_interior",
    "C45_static_table",
    "C45_identity_at_zero_distance"
   ],
   "note": "both geometries, with the Bessel functions the code computes, in insulating and Drude media"
  },
  {
   "property": "C46",
   "status": "proved",
   "theorems": [
    "C46_exterior",
    "C46_interior",
    "C46_gap",
    "C46_increasing",
    "C46_symmetric",
    "C46_out_of_range",
    "C46_inner_sphere_second_refuted"
   ],
   "note": "the defect is C46_inner_sphere_second_refuted"
  },
  {
   "property": "C47",
   "status": "proved",
   "theorems": [
    "C47_values",
    "C47_sums",
    "C47_exchange",
    "C47_equal_plates",
    "C47_repulsion",
    "C47_negative_separation_refuted"
   ],
   "note": "half spaces of any material with positive permittivity and permeability, or perfect conductors; the defect is C47_negative_separation_refuted"
  },
  {
   "property": "C48",
   "status": "proved",
   "theorems": [
    "C48_derivative",
    "C48_pressure_refuted",
    "C48_integrated"
   ],
   "note": "pointwise and integrated (RInt with differentiation under the integral); the defect is C48_pressure_refuted"
  },
  {
   "property": "C49",
   "status": "proved",
   "theorems": [
    "C49_grid_kept",
    "C49_interpolation_bounds",
    "C49_no_overlap",
    "C49_single_frequency_refuted",
    "C49_descending_refuted"
   ],
   "note": "curve_fit result is a parameter; scipy interp1d modelled as linear interpolation; two defects as _refuted"
  },
  {
   "property": "C50",
   "status": "proved",
   "theorems": [
    "C50_fresh_file",
    "C50_existing_file_kept",
    "C50_history_refuted"
   ],
   "note": "all run histories; job_infos/savetxt assumed to succeed"
  },
  {
   "property": "C51",
   "status": "proved",
   "theorems": [
    "C51_transform",
    "C51_argument_modified_refuted",
    "C51_failure_half_way"
   ],
   "note": "explicit heap; defect is C51_argument_modified_refuted"
  },
  {
   "property": "C52",
   "status": "proved",
   "theorems": [
    "C52_trace_never_stops_early",
    "C52_trace_stops_on_cancellation_refuted"
   ],
   "note": "no early stop for one-signed contributions; stop on cancellation (_refuted)"
  },
  {
   "property": "C53",
   "status": "proved",
   "theorems": [
    "C53_accepted_iff",
    "C53_values",
    "C53_bad_radius",
    "C53_precision_automatic_refuted",
    "C53_analytic_n0_ignored_refuted",
    "C53_analytic_n0"
   ],
   "note": "material names are not modelled; option values by parse class"
  },
  {
   "property": "C54",
   "status": "proved",
   "theorems": [
    "C54_diagonal_blocks",
    "C54_m0",
    "C54_offdiagonal_error_refuted",
    "C54_example_refuted"
   ],
   "note": "against derivable_pt_lim; the defect is C54_offdiagonal_error_refuted (exact difference) and C54_example_refuted"
  },
  {
   "property": "C55",
   "status": "proved",
   "theorems": [
    "C55_free_energy",
    "C55_pressure",
    "C55_zero_temperature",
    "C55_high_temperature",
    "C55_force",
    "C55_energy",
    "C55_force_ignores_shielding_refuted",
    "C55_energy_integrand_raises",
    "C55_attraction",
    "C55_omitted_terms"
   ],
   "note": "scipy quad is a universally quantified parameter"
  },
  {
   "property": "C56",
   "status": "proved",
   "theorems": [
    "C56_argument_modified_refuted",
    "C56_frequency_terms",
    "C56_free_energy",
    "C56_limits_of_temperature",
    "C56_energy_from_force",
    "C56_force_is_not_derivative_refuted"
   ],
   "note": "scipy quad is a universally quantified parameter; defects are C56_argument_modified_refuted and C56_force_is_not_derivative_refuted"
  },
  {
   "property": "C57",
   "status": "proved",
   "theorems": [
    "C57_matrix",
    "C57_static_limit",
    "C57_lndet",
    "C57_magnetic_refuted",
    "C57_leading_zero"
   ],
   "note": "the Bessel functions are those the code computes; the magnetic medium is C57_magnetic_refuted"
  },
  {
   "property": "C58",
   "status": "proved",
   "theorems": [
    "C58_exchange",
    "C58_lndet",
    "C58_static"
   ],
   "note": "for any Bessel routine of the Mie coefficients, solid and layered spheres; static blocks for solid spheres and mu(0)=1"
  },
  {
   "property": "C59",
   "status": "proved",
   "theorems": [
    "C59_opposite_m",
    "C59_lndet"
   ],
   "note": "for any Bessel routine of the Mie coefficients, both geometries"
  },
  {
   "property": "C60",
   "status": "proved",
   "theorems": [
    "C60_scale",
    "C60_static",
    "C60_constructor"
   ],
   "note": "as equality of programs: no assumption on the Bessel routines"
  },
  {
   "property": "C61",
   "status": "proved",
   "theorems": [
    "C61_attraction",
    "C61_repulsion",
    "C61_perfect_reflectors"
   ],
   "note": "dielectric spheres with exact Bessel functions in the Mie coefficients (as C40), perfect reflectors with the computed ones"
  },
  {
   "property": "C62",
   "status": "proved",
   "theorems": [
    "C62_screening",
    "C62_far",
    "C62_static_decay"
   ],
   "note": "for any Bessel routine of the Mie coefficients; n is sqrt(eps), as in the translation coefficients of the code"
  },
  {
   "property": "C63",
   "status": "proved",
   "theorems": [
    "C63_interior_refuted",
    "C63_single_order"
   ],
   "note": "solid spheres with static coefficients (perfect reflector, insulator, Drude); the error is C63_interior_refuted, the single pair C63_single_order"
  },
  {
   "property": "C64",
   "status": "proved",
   "theorems": [
    "C64_paths",
    "C64_complete",
    "C64_sums",
    "C64_force"
   ],
   "note": "forceFlag through given derivative coefficients (C64_force)"
  },
  {
   "property": "C65",
   "status": "proved",
   "theorems": [
    "C65_zero_frequency_refuted",
    "C65_m0_refuted",
    "C65_single_order",
    "C65_each_block",
    "C65_determinant_refuted"
   ],
   "note": "defects are C65_zero_frequency_refuted, C65_m0_refuted and C65_determinant_refuted"
  },
  {
   "property": "C66",
   "status": "proved",
   "theorems": [
    "C66_free_energy",
    "C66_free_energy_numeric",
    "C66_repulsion",
    "C66_attraction",
    "C66_far_apart"
   ],
   "note": "solid spheres, no worker processes; both geometries, except C66_free_energy (analytic zero term, see C72) and C66_far_apart: exterior; Bessel routines that act elementwise on the slices: exact ones (C66_bubble, C66_gold) and those of the code between its switching points (C66_mirrors)"
  },
  {
   "property": "C67",
   "status": "proved",
   "theorems": [
    "C67_mSumme",
    "C67_mSumme_k0"
   ],
   "note": "as C66 (C67_mSumme_k0: exterior geometry, see C72); determinants zero give -inf terms, as in the code"
  },
  {
   "property": "C68",
   "status": "proved",
   "theorems": [
    "C68_flag_refuted",
    "C68_flag_zero_refuted",
    "C68_trace_dot_refuted",
    "C68_cleared",
    "C68_force_refuted",
    "C68_force_is_energy_refuted"
   ],
   "note": "all defects: theorems with _refuted; C68_cleared is the positive part; both geometries, those on zero frequency exterior"
  },
  {
   "property": "C69",
   "status": "proved",
   "theorems": [
    "C69_sum_refuted",
    "C69_class_refuted",
    "C69_traces",
    "C69_free_energy",
    "C69_sign_refuted"
   ],
   "note": "defects are C69_sum_refuted, C69_class_refuted (Python 3) and C69_sign_refuted; C69_traces and C69_free_energy hold where the name xrange exists; both geometries"
  },
  {
   "property": "C70",
   "status": "proved",
   "theorems": [
    "C70_e0",
    "C70_e0_flag_refuted",
    "C70_tempcorr_refuted",
    "C70_konvergenz_refuted"
   ],
   "note": "positive part C70_e0; defects are C70_e0_flag_refuted, C70_tempcorr_refuted and C70_konvergenz_refuted; both geometries"
  },
  {
   "property": "C71",
   "status": "proved",
   "theorems": [
    "C71_finite_refuted",
    "C71_free_energy_refuted",
    "C71_reachable",
    "C71_core_refuted",
    "C71_default_refuted"
   ],
   "note": "all defects: theorems with _refuted; C71_reachable: the cache stays empty"
  },
  {
   "property": "C72",
   "status": "proved",
   "theorems": [
    "C72_static_refuted",
    "C72_analytic_refuted"
   ],
   "note": "both theorems are defects (suffix _refuted); Example C72_shell shows the numeric calculation (C66_repulsion) that does succeed for the same pair"
  },
  {
   "property": "C74",
   "status": "proved",
   "theorems": [
    "C74_signs",
    "C74_decay"
   ],
   "note": "for the Bessel functions as computed by the code (the recursion for k_l is exact in ideal arithmetic)"
  },
  {
   "property": "C75",
   "status": "proved",
   "theorems": [
    "C75_distance",
    "C75_perfect_reflectors",
    "C75_free_energy"
   ],
   "note": "dielectric bodies with exact radial functions, perfect reflectors with those of the code; the statement on free energies is for perfect reflectors and precision <= 0, as an early stop of the sum over m can differ between two distances"
  },
  {
   "property": "C76",
   "status": "proved",
   "theorems": [
    "C76_mie",
    "C76_translation",
    "C76_truncation",
    "C76_perfect_reflectors",
    "C76_free_energy"
   ],
   "note": "traces and single values for dielectric bodies with exact radial functions, strict statements and free energies for perfect reflectors with the Bessel functions of the code; free energies for precision <= 0 only, as an early stop of the sum over m can differ between two truncations"
  },
  {
   "property": "C73",
   "status": "proved",
   "theorems": [
    "C73_expansion",
    "C73_perfect_reflectors",
    "C73_sum",
    "C73_free_energy"
   ],
   "note": "dielectric bodies with exact radial functions, perfect reflectors with those of the code; free_energy with analytic_n0 = False"
  },
  {
   "property": "C77",
   "status": "proved",
   "theorems": [
    "C77_coefficients",
    "C77_spheres",
    "C77_bound",
    "C77_perfect_reflectors"
   ],
   "note": "with exact radial functions; materials are compared at the wavenumber in question"
  },
  {
   "property": "C78",
   "status": "proved",
   "theorems": [
    "C78_signs",
    "C78_growth"
   ],
   "note": "with exact Bessel functions i_l in place of the continued fractions of fixed length that the code uses for l >= 2 (C26)"
  },
  {
   "property": "C79",
   "status": "proved",
   "theorems": [
    "C79_wall",
    "C79_cavity",
    "C79_perfect_reflectors",
    "C79_small_sphere"
   ],
   "note": "with exact radial functions and exact translation functions i_l (C78); materials are compared at the wavenumber in question"
  },
  {
   "property": "C80",
   "status": "proved",
   "theorems": [
    "C80_traces",
    "C80_disjoint",
    "C80_limit",
    "C80_far"
   ],
   "note": "with exact radial functions in the Mie coefficients (the translation functions are those of the code); the limit of ln det is stated where the bound of the trace is below 1, convergence of the traces without that condition"
  },
  {
   "property": "C81",
   "status": "proved",
   "theorems": [
    "C81_round_trips",
    "C81_free_energy",
    "C81_frequencies"
   ],
   "note": "with exact radial functions in the Mie coefficients (the translation functions are those of the code); strict contrast of both spheres at every frequency is assumed so that no partial sum over m stops early"
  },
  {
   "property": "C82",
   "status": "proved",
   "theorems": [
    "C82_description",
    "C82_multiplier_one",
    "C82_power_law",
    "C82_power_law_exact",
    "C82_limit",
    "C82_errors"
   ],
   "note": "exact arithmetic; logarithms of non-positive numbers (data that are all zero, non-positive nodes) and unsorted nodes are Unmodelled"
  },
  {
   "property": "C83",
   "status": "proved",
   "theorems": [
    "C83_files",
    "C83_all_or_nothing",
    "C83_header_refuted",
    "C83_repeated_refuted",
    "C83_partial_file_refuted",
    "C83_free_energy",
    "C83_enclosed_refuted"
   ],
   "note": "the configuration is given as parsed; eval of materials, float() of the third argument and quantities other than free_energy(), entropy(), force() of two solid spheres are arbitrary parameters; exceptions of a failing np.savetxt as in current numpy"
  },
  {
   "property": "C84",
   "status": "proved",
   "theorems": [
    "C84_drawing",
    "C84_geometry",
    "C84_errors",
    "C84_status_refuted",
    "C84_message",
    "C84_labels",
    "C84_cut_off_refuted"
   ],
   "note": "float() of a text is an arbitrary partial function to real numbers; colours and layout of the window are not modelled"
  },
  {
   "property": "C85",
   "status": "proved",
   "theorems": [
    "C85_static_limit",
    "C85_zero_term",
    "C85_free_energy",
    "C85_repulsion",
    "C85_worker",
    "C85_worker_repulsion"
   ],
   "note": "exact Bessel functions (in the code for arguments up to 5, C15); exact arithmetic"
  },
  {
   "property": "C86",
   "status": "proved",
   "theorems": [
    "C86_determinants",
    "C86_opposite",
    "C86_disjoint"
   ],
   "note": "exact Bessel functions (in the code for arguments up to 5, C15); exact arithmetic; whether w can vanish for spheres on the same side is left open"
  },
  {
   "property": "C87",
   "status": "proved",
   "theorems": [
    "C87_orders",
    "C87_limit"
   ],
   "note": "exact Bessel functions (in the code for arguments up to 5, C15); exact arithmetic; for distances between one and two sums of the radii the limit for nmax to infinity is not bounded"
  },
  {
   "property": "C88",
   "status": "proved",
   "theorems": [
    "C88_attraction",
    "C88_orders",
    "C88_limit",
    "C88_worker",
    "C88_worker_repulsion"
   ],
   "note": "exact Bessel functions (in the code for arguments up to 5, C15); exact arithmetic; strictness for temperatures without any frequency below nmax is not claimed"
  },
  {
   "property": "C89",
   "status": "proved",
   "theorems": [
    "C89_frequency",
    "C89_high_temperature",
    "C89_zero_temperature",
    "C89_temperature",
    "C89_force",
    "C89_constants",
    "C89_unit_tests"
   ],
   "note": "scipy.integrate.quad is replaced by any function that returns improper integrals exactly when they exist (such a function is exhibited); exact arithmetic"
  },
  {
   "property": "C90",
   "status": "proved",
   "theorems": [
    "C90_frequency",
    "C90_high_temperature",
    "C90_temperature",
    "C90_distance",
    "C90_force",
    "C90_signs"
   ],
   "note": "scipy.integrate.quad is replaced by any function that returns improper integrals exactly when they exist; exact arithmetic; zero temperature is C94"
  },
  {
   "property": "C91",
   "status": "proved",
   "theorems": [
    "C91_frequency",
    "C91_derivative_refuted",
    "C91_temperature",
    "C91_casimir_refuted",
    "C91_constants"
   ],
   "note": "the property expected of the code (pressure = minus the derivative of the energy) is refuted, its exact form proved; scipy.integrate.quad is replaced by any function that returns improper integrals exactly when they exist; exact arithmetic"
  },
  {
   "property": "C92",
   "status": "proved",
   "theorems": [
    "C92_high_temperature",
    "C92_zero_temperature",
    "C92_temperature",
    "C92_spheres",
    "C92_energy_refuted"
   ],
   "note": "the energy expected at high temperature is refuted, its exact form proved; scipy.integrate.quad is replaced by any function that returns improper integrals exactly when they exist; exact arithmetic"
  },
  {
   "property": "C93",
   "status": "proved",
   "theorems": [
    "C93_translation",
    "C93_polarizability",
    "C93_determinant",
    "C93_far_frequency",
    "C93_far_static",
    "C93_free_energy",
    "C93_matsubara_sum",
    "C93_constants",
    "C93_mirrors",
    "C93_test_formula"
   ],
   "note": "the round-trip coefficients of m = 0 must not cancel (s <> 0), since otherwise the loop over m stops after its first term; medium with static permeability 1; exact arithmetic; logdet iterations with sufficient fuel as in C66"
  },
  {
   "property": "C94",
   "status": "proved",
   "theorems": [
    "C94_zero_temperature",
    "C94_distance",
    "C94_force",
    "C94_limit",
    "C94_materials"
   ],
   "note": "scipy.integrate.quad is replaced by any function that returns improper integrals exactly when they exist; exact arithmetic"
  },
  {
   "property": "C95",
   "status": "proved",
   "theorems": [
    "C95_partial_sums",
    "C95_half",
    "C95_window",
    "C95_attraction",
    "C95_repulsion"
   ],
   "note": "exact arithmetic; materials of the test with infinite static conductivity (plasma) are not covered, their static coefficients are not the limits (C41)"
  },
  {
   "property": "C96",
   "status": "proved",
   "theorems": [
    "C96_magnetic_response",
    "C96_magnetic_dielectric",
    "C96_vanishing_core",
    "C96_strong_conductor",
    "C96_conductor_inverse"
   ],
   "note": "exact Bessel functions in place of bessel_sk (their error is C25, C26); exact arithmetic"
  },
  {
   "property": "C97",
   "status": "proved",
   "theorems": [
    "C97_far_frequency",
    "C97_far_static",
    "C97_free_energy",
    "C97_mirrors"
   ],
   "note": "s <> 0 for the free energy, as in C93; exact arithmetic; logdet iterations with sufficient fuel as in C66"
  },
  {
   "property": "C98",
   "status": "proved",
   "theorems": [
    "C98_coefficients",
    "C98_attraction",
    "C98_repulsion",
    "C98_comparison",
    "C98_far",
    "C98_enclosing_wall_refuted"
   ],
   "note": "the property expected of an enclosing stratified wall is refuted, its exact form proved; exact Bessel functions in place of bessel_sk (their error is C25, C26); exact arithmetic; stratified spheres have no analytic zero-frequency term in the code (NotImplementedError)"
  },
  {
   "property": "C99",
   "status": "proved",
   "theorems": [
    "C99_mSumme",
    "C99_free_energy",
    "C99_repulsion",
    "C99_attraction"
   ],
   "note": "exact Bessel functions in place of bessel_sk (their error is C25, C26); exact arithmetic; one process; stratified spheres have no analytic zero-frequency term in the code (NotImplementedError), so the wavenumber 1e-10 stands for it, as the code does; comparison with perfect reflectors for precision <= 0, where no sum over m stops early"
  },
  {
   "property": "C100",
   "status": "proved",
   "theorems": [
    "C100_coefficients",
    "C100_traces",
    "C100_disjoint",
    "C100_limit",
    "C100_far"
   ],
   "note": "exact Bessel functions in place of bessel_sk (their error is C25, C26); exact arithmetic; bodies less dense than the medium: C103"
  },
  {
   "property": "C101",
   "status": "proved",
   "theorems": [
    "C101_coefficients",
    "C101_free_energy",
    "C101_frequencies",
    "C101_attraction"
   ],
   "note": "exact Bessel functions in place of bessel_sk (their error is C25, C26); exact arithmetic; one process; stratified spheres have no analytic zero-frequency term in the code (NotImplementedError), so the wavenumber 1e-10 stands for it, as the code does; no early end of the m sum (precision <= 0)"
  },
  {
   "property": "C102",
   "status": "proved",
   "theorems": [
    "C102_distance",
    "C102_strict",
    "C102_free_energy"
   ],
   "note": "exact Bessel functions in place of bessel_sk (their error is C25, C26); exact arithmetic; one process; complete calculations with the wavenumber 1e-10 for the zero-frequency term (stratified spheres have no analytic one in the code) and without early end of the m sum (precision <= 0)"
  },
  {
   "property": "C103",
   "status": "proved",
   "theorems": [
    "C103_coefficients",
    "C103_traces",
    "C103_disjoint",
    "C103_limit",
    "C103_far"
   ],
   "note": "exact Bessel functions in place of bessel_sk (their error is C25, C26); exact arithmetic; convergence needs both bodies on the same side of the medium, the bound of the coefficients does not"
  },
  {
   "property": "C104",
   "status": "proved",
   "theorems": [
    "C104_determinants",
    "C104_opposite",
    "C104_disjoint"
   ],
   "note": "exact Bessel functions in place of bessel_sk (their error is C25, C26); exact arithmetic"
  },
  {
   "property": "C105",
   "status": "proved",
   "theorems": [
    "C105_coefficients",
    "C105_orders",
    "C105_limit",
    "C105_frequencies"
   ],
   "note": "exact Bessel functions in place of bessel_sk (their error is C25, C26); exact arithmetic; one process; complete calculations with the wavenumber 1e-10 for the zero-frequency term (stratified spheres have no analytic one in the code) and without early end of the m sum (precision <= 0)"
  },
  {
   "property": "C106",
   "status": "proved",
   "theorems": [
    "C106_limit",
    "C106_strict",
    "C106_distance",
    "C106_frequencies",
    "C106_attraction"
   ],
   "note": "exact Bessel functions in place of bessel_sk (their error is C25, C26); exact arithmetic; one process; complete calculations with the wavenumber 1e-10 for the zero-frequency term (stratified spheres have no analytic one in the code) and without early end of the m sum (precision <= 0)"
  }
 ]
}