# Formal model of UmrathSt/CasSphSph in Rocq (Coq 8.16.1)

## 1. What is modelled

The code is numerical Python (numpy) plus two Cython kernels.  Nothing is run here: the tie
between code and model is the citation in front of every definition.

* **Arithmetic.**  Numeric code is modelled over the real numbers of the standard library
  (`Reals`): exact arithmetic, no rounding.  `exp`, `ln`, `sqrt`, `PI` are the library's;
  `lgamma/gammaln` at `n+1` is `ln (n!)`.  Loops whose control flow depends on IEEE special
  values are modelled over `xr` (`Fin r | PInf | NInf | NaN`: exact reals with numpy's rules
  for division by zero, infinities and NaN), and the balancing kernel also over IEEE binary64
  (`SpecFloat`) where the property is about infinities.
* **Arrays.**  Lists (1-d), lists of columns (2-d), or shape + index function where shapes matter
  (`arr2`, `arr3` of `Lin_Model.v`).
* **Exceptions** are values: `res A = Ok a | Err e`, `e` the Python exception class.
* **State.**  Objects with caches (`finiteT`, `SphereSphere`) are records threaded through the
  methods; aliasing of Python lists is modelled by an explicit heap where a property is about it.
* **External code** (numpy.linalg.slogdet/inv, scipy quad/curve_fit/interp1d, the file system)
  is either modelled by its mathematical meaning (ln|det|, inverse or LinAlgError) or a
  universally quantified function.

File layout (`rocq/theories`): `*_Model.v` (definitions only, each citing file and lines),
`*_Spec.v` (independent specification), `*_Proofs.v`, `*_Props.v` (property theorems only,
each followed by `Print Assumptions`, with non-vacuity examples).

## 2. Plan per property

(kept in step with MANIFEST.json; see section 4 for what was actually proved)

| Id | Model | Proof |
|----|-------|-------|
| C01,C02 | `slicewise_eval` as a fuelled loop on Z with numpy slice assignment | induction on the remaining range; strong invariant "prefix written" |
| C03 | `free_energy` over a list of Matsubara terms, stride sums | list induction; spec = sum over divisible n |
| C04,C05,C08 | `finiteT` object as a state machine over an abstract geometry object | case analysis, induction over call histories; refutations by concrete witnesses |
| C06 | `np.gradient` | index computation, `field` |
| C07,C22 | formulas over R with `int()` truncation | monotonicity of truncation, real algebra |
| C09,C10 | `mSumme`, `mSumme_k0` loops over `xr` | induction over the remaining m |
| C11,C12 | `SphereSphere` cache state machine with array lengths | invariant over request histories; refutation witnesses |
| C13 | `single_k_scale` etc. on index functions | explicit diagonal similarity, mathcomp determinants |
| C14,C15,C17 | `balance` with fuelled loops over R | invariant "diagonally similar by powers of 2"; termination by decrease of the off-diagonal Frobenius norm |
| C16 | inner loop over binary64 | invariant: c = +inf is preserved |
| C18–C21 | block operations on lists / mathcomp matrices | mathcomp block matrix algebra |
| C23 | constructor as a function to `res` | case analysis |
| C24–C28 | recursion of `lnknu`, `lniknu`, continued fraction | induction on l, closed forms, derivatives with Coquelicot |
| C29–C31 | `gaunt` with checked array accesses | index arithmetic; symmetry by algebra; linearization via the differential equation of the product |
| C32,C33 | helper functions | induction on n; polynomial identities by `field` |
| C34–C37 | oscillator lists over R | list induction, limits |
| C38–C42 | Fresnel/Mie formulas per (k,l) | real algebra, Bessel facts of C24–C26 |
| C43,C51 | heap model of list objects | computation |
| C44,C45 | translation coefficients as sums over l'' | parity of l'', asymptotics of k_l |
| C46–C48 | PFA integrands | derivatives, monotonicity of exp/ln/sqrt |
| C49 | list filters over a sorted grid | sortedness invariants |
| C50 | file system as a finite map, history of runs | computation, induction |
| C51 | heap model of `transform` | computation |
| C52 | `mSum_roundtrips` loop over `xr` | induction over m |
| C53 | configuration file as an option map | case analysis |
| C54 | blocks with forceFlag | derivatives of products |
| C55,C56 | PFA sums over a universally quantified quadrature | list sums, explicit remainder bound |
| C57,C63 | composed blocks at k and at 0 | limits of all coefficients, continuity of determinants, signature similarity |
| C58,C59 | composed round trip | det(1-AB)=det(1-BA), transposition, signature matrices |
| C60 | composed program, scaled input | equality of programs, induction over lists |
| C61 | traces of powers | the round trip is similar to a product of two positive semidefinite matrices; Turan inequalities for Bessel functions |
| C62 | composed round trip | bounds on k_l, continuity of the determinant |
| C64,C65 | the two variants of `blockmatrices` | block products; extended reals; concrete determinant |
| C66,C67 | `Run_Model`: composition of the three layers with the attributes of the object | state invariant, uniqueness of the stopping index, slices; C57, C61, C62 for signs and decay |
| C68 | `Run_Model`: force flag in the object state | state invariant through failing calls |
| C69 | `Run_Model`: oneRoundtrip | simulation by finiteT without analytic term; trace of scaled blocks; C61 for the sign |
| C70 | `Zero_Model`: e0 and its relatives; quad as an adaptive strategy | induction on the strategy with the state invariant of C67 |
| C71 | `Coat_Model`: coated spheres | state invariant (empty cache) |
| C72 | `Run_Model` in the enclosed geometry | state invariant; C63 for the error |
| C74 | `Trans_Model`: get_vl1l2 | k_l as Laplace transform of Legendre polynomials; the sum over lpp becomes the transform of a polynomial whose derivatives at 1 are all non-negative |
| C75 | composed round trip at two distances | signs removed by diagonal matrices, entrywise comparison of Gram matrices, expansion of -ln det; C74 for the translation coefficients |
| C76 | composed round trip for two truncations | coefficients nested (prefix stability of the recursions), smaller matrix padded with zeros, comparison of C75 |
| C73 | trace evaluation of the composed program | expansion of -ln det of a Gram matrix with remainder; fuel monotone; negative terms exclude an early stop in m |
| C77 | Mie coefficients and composed round trip for two pairs of spheres | Riccati equation of the logarithmic derivatives: derivative with respect to the radius has a sign; Moebius function of the inner logarithmic derivative; comparison of C75 |
| C78 | `Trans_Model`: get_vl1l2, interior geometry | i_l as integral of Legendre polynomials against e^(xt) over [-1,1]; the sum over lpp becomes the integral of a polynomial whose moments are all non-negative, by recurrences with non-negative coefficients |
| C79 | composed round trip for a sphere in a cavity (`rt_lndet` with exact translation functions) | conjugation with (-1)^l removes the signs of the interior coefficients without changing the determinant; C77 for the sphere, its analogue with i_l and k_l exchanged for the wall; C78 for the distance; the coefficients vanish like r^(2l+1) |
| C80 | composed round trip (`rt_lndet`), all truncations at once | bounds uniform in the orders: i_l by its leading power times exp(2x), Mie coefficients by those of a perfect reflector, the Laplace-type integral of C74 by its leading power, binomial coefficients by (ra+rb)^(l1+l2); the trace is a double sum below a geometric series; ln det of dominated Gram matrices by the trace expansion and Cauchy-Schwarz; completeness of R |
| C81 | composed program (`free_energy` over `ops`), all truncations and numbers of frequencies at once | the bound of C80 with exponent share 3/5 is explicit for L >= 5(ra+rb); strict signs of the Mie coefficients exclude early stops; geometric series over m and over the frequencies; monotone limits over three indices |
| C82 | `Help_Model2.num_derivative_ip` | interp1d on logarithms is a power law; index bookkeeping of the refined grid; exactness of the stencils on polynomials; derivatives at the nodes for the limit |
| C83 | `Worker_Model.worker` (command line, options, files) over `Run_Model` | case analysis of the script; for solid spheres the run is free_energy of C66 or the failure of C72 |
| C84 | `Gui_Model.retrieve_input` | case analysis; plane geometry of two discs |
| C85 | `Run_Model.free_energy`, `Worker_Model.worker` with the analytic term | static limits of blocks for every good Bessel implementation; bounds of C81 pass to the limit; det(1+A) between 1 + tr A and exp(tr A) for opposite sides |
| C86 | `RT_Model.rt_lndet`, `trip` | det(1+xA) as a polynomial with coefficients that grow with A for A >= 0, hence differences of det(1-A) are bounded by those of det(1+A), and these by exp of traces |
| C87 | `Run_Model.free_energy`, `RT_Model.trip` | strictly positive traces of round trips with strict contrast, Gram form of the shifted determinant, monotone bounded families; geometric series in the frequencies |
| C88 | `Run_Model.free_energy`, `Worker_Model.worker` | the static sum as limit of the sums of logarithms (uniqueness of limits), bounds and monotonicity pass to it; monotone bounded families |
| C89 | `PFA_Model.planeplaneFreeEnergy`, `spheresphereForce` | polylogarithms as power series give antiderivatives of both integrands; zeta(4) from sums of 1/sin^4 over halved angles, zeta(3) by telescoping bounds; monotone Riemann sums for the temperature |
| C90 | `PFA_Model.planeplaneFreeEnergy`, `spheresphereForce` | Cauchy criterion for improper integrals dominated by those of C89, monotony and strictness of integrals of continuous functions |
| C91 | `PFA_Model.planeplanePressure`, `pressureRoundTrip`, `raw_pressure` | polylogarithms as in C89, derivative of the energy term in L, Riemann sums of a decreasing function |
| C92 | `PFA_Model.raw_pp`, `raw_force`, `raw_energy` | lemmas of C89 and C91, comparison of sums of different length |
| C93 | `Trans_Model`, `Scat_Model.mie`, `RT_Model`, `Run_Model.ops`, `Thermo_Model.free_energy` | Gaunt coefficients for l = 1 by computation, two by two determinants, limits of the Mie coefficients, power sums of geometric type |
| C94 | `PFA_Model.planeplane_e0`, `raw_e0`, `spheresphereForce` | continuity in two variables, improper integrals with a parameter dominated by those of perfect reflectors, Riemann sums |
| C95 | `Thermo_Model.F_alle`, `Run_Model.geo_mSumme`, `geo_mSumme_k0` | limits of finite sums decide strict comparisons near zero; C57, C67, C85, C88 |
| C96 | `Scat_Model.mie`, `mie_internal`, `mie_coated` | Riccati equation of i_{l+2}/i_{l+1} and the mean value theorem for secants of the logarithmic derivative; two-sided linear bounds of the logarithmic derivatives; continuity of the shell formula |
| C97 | `Run_Model.ops`, `RT_Model.rt_with`, `Thermo_Model.free_energy` | determinants of 1 - dE to first order in d for all sizes; entries divided by (r1 r2/L^2)^3 bounded, trace reduces to the dipole corner |
| C98 | `Scat_Model.strat`, `RT_Model.mieA`, `mieB`, `rt_lndet` | fields in shells as states (field, slope) that stay non-negative outwards; a Wronskian of two fields grows outwards (Sturm comparison); C77 and C81 for the matrices |
| C99 | `Thermo_Model.free_energy`, `Run_Model.geo_mSumme`, `ops`, `Scat_Model.strat` | coefficients of an array of wavenumbers are those of each wavenumber, by uniqueness of the matched fields (C42); then as C66, with C98 for signs and comparison; C81 for two reflectors |
| C100 | `Scat_Model.strat`, `mie`, `RT_Model.mieA`, `mieB`, `rt_lndet` | coefficients independent of the largest order by uniqueness of the matched fields (C42); contributions to the trace below those of two reflectors (C98), bounded in C80; then as C80 |
| C101 | `Thermo_Model.free_energy`, `Run_Model.ops`, `Scat_Model.strat`, `mie`, `RT_Model.mieA`, `mieB`, `rt_lndet` | strict Sturm comparison of the field in the shells with that in the medium; C100 for the bounds of all truncations, C99 for the Matsubara sum; a bounded decreasing function of three numbers converges |
| C102 | `Thermo_Model.free_energy`, `Run_Model.ops`, `Scat_Model.strat`, `mie`, `RT_Model.mieA`, `mieB`, `rt_lndet` | signs of the coefficients (C98, C101) and decay of the translation coefficients (C74) give smaller positive matrices (as C75); Matsubara sums of C99 |
| C103 | `Scat_Model.strat`, `mie`, `RT_Model.mieA`, `mieB`, `rt_lndet` | the coefficients increase with the logarithmic derivative of the field in the body, whose range is that of the reflector conditions; amplitudes and translation coefficients bounded in C80; then as C100 |
| C104 | `Scat_Model.strat`, `mie`, `RT_Model.mieA`, `mieB`, `rt_lndet` | round trips of all truncations as parts of one Gram matrix, up to a sign (as C86), with the bound of the coefficients of C103 and their independence of the largest order (C100) |
| C105 | `Thermo_Model.free_energy`, `Run_Model.ops`, `Scat_Model.strat`, `mie`, `RT_Model.mieA`, `mieB` | strict Sturm comparison of the field in the medium with that in the shells (dual of C101); Gram matrices of C104; Matsubara sums of C99; then as C87 |
| C106 | `Thermo_Model.free_energy`, `Run_Model.ops`, `Scat_Model.strat`, `mie`, `RT_Model.mieA`, `mieB` | bounds and Gram matrices of C103 on either side; strict coefficients of C105; Matsubara sums of C99; then as C101 and C102 |

## 3. Trusted base

Coq's kernel; the axioms of the standard library's `Reals` (`ClassicalDedekindReals.sig_forall_dec`,
`ClassicalDedekindReals.sig_not_dec`, `FunctionalExtensionality.functional_extensionality_dep`), `Classical_Prop.classic`
and, where mathcomp matrices over R are used, `Epsilon.epsilon_statement`, all of the standard library (section 4.4 lists
them per theorem); the reading of the Python code documented in the comments of the `*_Model.v` files.


## 4. What was proved

Properties C01-C53 were listed first, C54 and later ones were added while modelling.  MANIFEST.json maps every property
to its theorems; no property is `partial`.

### 4.1 Modelled parts, per source file

| Source | Model | Not modelled |
|--------|-------|--------------|
| bessel_sk.py | `Bessel_Model` (whole file), arguments positive | rounding; log of non-positive numbers |
| cython_gaunt.pyx | `Gaunt_Model` (whole file), array accesses checked | C integer overflow, rounding |
| matrix_balancing.pyx | `Lin_Model.balance` over R, `FBal_Model` in binary64 | - |
| helper_functions.py | `Help_Model`; num_derivative(interpolate=True): `Help_Model2` | logarithms of non-positive numbers, unsorted nodes |
| materials.py | `Mat_Model` (whole file, all predefined materials) | - |
| materials_converter.py | `Misc_Model` with a heap | the printing main part |
| data_inter_extrapolation.py | `Misc_Model`; interp1d linear, curve_fit a parameter | plotting |
| scattering.py | `Scat_Model`: mie, miePEC, their internal and k=0 variants, fresnel, coated spheres | - |
| stratified_sphere_scattering.py | `Misc_Model` (lists, heap), `Scat_Model.strat` (formula) | - |
| translation.py | `Trans_Model` (whole file) | k=0 mixed with other wavenumbers after construction |
| geometry.py | `Geo_Model` (constructor, get_lmax, caches, sums over m), `Lin_Model` (linear algebra, scaling, expansion), `RT_Model` (composition), `Chan_Model` (channels, debug), `Run_Model` (with caches and flag, complete calculations), `Coat_Model` (CoatedSphereSphere) | see 4.2 |
| thermodynamics.py | `Thermo_Model`: finiteT constructor, free_energy, force, entropy, get_f_matsubaras, F_alle, slicewise_eval; `Run_Model`: oneRoundtrip; `Zero_Model`: e0, F_tempcorr, l_konvergenz, quad a parameter | - |
| PFA.py, raw_PFA.py | `PFA_Model`; quad a parameter | plotting main parts |
| worker.py | `Misc_Model`: assign_radius, return_geometry, do_calculation, save_result; `Worker_Model`: the whole script on a file system | parsing by configparser, eval of materials and of other quantities (parameters), layout of the text in the file |
| textbox_get_example.py | `Gui_Model`: the callback of the button | layout of the window, inputs nan and inf |
| setup scripts, tests | - | build scripts |

### 4.2 Simplifications

* Exact real arithmetic except in `FBal_Model`; numpy overflow and underflow do not occur in the model.
* LAPACK's slogdet and inv are the exact determinant and inverse.
* Python 3 (integer division, no xrange; C69 also treats the case that xrange exists).
* numpy broadcasting of arrays of length one against longer ones is modelled only where it can happen in the program; elsewhere
  a shape mismatch is an exception and the comment says so.
* RT_Model composes the coefficients of a request that hits consistent caches; C11 and C12 say when that is the case.


### 4.3 Where the code violates the intended property

The statement in properties.jsonl says what holds and what fails; the failing part is a theorem with `refuted` in its name.

* **C04** force() should sum the force operator, but the code does not (defect) (`C04_force_refuted`)
* **C05** results do not depend on the order of previous calls (`C05_force_first_refuted`)
* **C08** the zeroth Matsubara term enters with weight one half (`C08_single_zero_refuted`)
* **C11** caching of Mie coefficients is transparent for sums over m, but not for isolated requests (defect) (`C11_cache_history_refuted`)
* **C12** caching of zero-frequency Mie coefficients is transparent if the first request had m <= 1 (`C12_k0_cache_refuted`)
* **C16** balancing never returns when an off-diagonal square overflows (defect) (`C16_balance_never_returns_refuted`)
* **C17** the log-determinant functions return ln|det(1-M)|, except for 1x1 blocks of opposite sign (`C17_blockdiagonal_1x1_refuted`)
* **C21** the round-trip expansion sums traces of powers; the automatic mode records one order too many (defect) (`C21_automatic_records_one_too_many_refuted`)
* **C23** geometry construction validates the evaluation mode and derives its attributes, but not the geometry (defect) (`C23_overlap_refuted`, `C23_coated_arguments_refuted`)
* **C26** lniknu higher orders follow from the Wronskian with a continued fraction of fixed length (defect for large arguments) (`C26_large_arguments_refuted`)
* **C27** Bessel evaluation is elementwise only for ascending or one-sided arrays (defect) (`C27_rows_permuted_refuted`, `C27_truncation_refuted`)
* **C41** zero-frequency Mie coefficients are the limits of the finite-frequency ones, except for plasma exteriors (defect) (`C41_static_plasma_exterior_refuted`)
* **C43** evaluating a stratified sphere cuts the caller's lists in place (defect) (`C43_lists_modified_refuted`)
* **C46** PFA surface distance, wrong if the inner sphere is the second one (defect) (`C46_inner_sphere_second_refuted`)
* **C47** PFA round-trip functions are consistent and have the right sign, except for negative separations (defect) (`C47_negative_separation_refuted`)
* **C48** the PFA pressure is half of the negative distance derivative of the free energy (defect) (`C48_pressure_refuted`)
* **C49** interpolated and extrapolated dielectric data keep the requested grid, except for single and descending requests (`C49_single_frequency_refuted`, `C49_descending_refuted`)
* **C50** saving results keeps the first result but overwrites later ones (defect) (`C50_history_refuted`)
* **C51** unit conversion overwrites its input (defect) (`C51_argument_modified_refuted`)
* **C52** trace evaluation: the stopping rule of the sum over m tests the wrong quantity (defect) (`C52_trace_stops_on_cancellation_refuted`)
* **C53** the worker accepts a configuration exactly if ... and maps it to constructor arguments (`C53_precision_automatic_refuted`, `C53_analytic_n0_ignored_refuted`)
* **C54** matrices of the force evaluation: diagonal blocks follow the product rule, off-diagonal blocks do not (defect) (`C54_offdiagonal_error_refuted`, `C54_example_refuted`)
* **C55** PFA Matsubara sums have the right weights; the force ignores the shielding flag (defect) (`C55_force_ignores_shielding_refuted`)
* **C56** raw_PFA: frequency terms overwrite the caller's array, and force and energy are inconsistent (defects) (`C56_argument_modified_refuted`, `C56_force_is_not_derivative_refuted`)
* **C57** static round-trip blocks are the zero-frequency limit of the finite-frequency round trip, except in magnetic media (defect) (`C57_magnetic_refuted`)
* **C63** the zero-frequency term of the enclosed geometry raises for all but one pair of orders (defect) (`C63_interior_refuted`)
* **C65** blockmatrices_debug changes the determinant and fails for m = 0 and for zero frequency (defect) (`C65_zero_frequency_refuted`, `C65_m0_refuted`, `C65_determinant_refuted`)
* **C68** the force flag of the geometry makes every evaluation fail, and forces are free energies (defect) (`C68_flag_refuted`, `C68_flag_zero_refuted`, `C68_trace_dot_refuted`, `C68_force_refuted`, `C68_force_is_energy_refuted`)
* **C69** the single-round-trip class cannot run, and its sign is reversed (defect) (`C69_sum_refuted`, `C69_class_refuted`, `C69_sign_refuted`)
* **C70** e0 integrates the sum over m; the other zero-temperature methods always fail (defect) (`C70_e0_flag_refuted`, `C70_tempcorr_refuted`, `C70_konvergenz_refuted`)
* **C71** CoatedSphereSphere cannot evaluate anything at finite frequency and ignores the cores at zero frequency (defect) (`C71_finite_refuted`, `C71_free_energy_refuted`, `C71_core_refuted`, `C71_default_refuted`)
* **C72** a sphere inside a cavity has no free energy with the analytic zero-frequency term (defect) (`C72_static_refuted`, `C72_analytic_refuted`)
* **C83** worker.py from command line to result file: what is written, and when results are lost (defects) (`C83_header_refuted`, `C83_repeated_refuted`, `C83_partial_file_refuted`, `C83_enclosed_refuted`)
* **C84** the window of textbox_get_example.py draws the geometry to scale, but its label misleads (defect) (`C84_status_refuted`, `C84_cut_off_refuted`)
* **C91** the pressure between perfect reflectors is half of Casimir's pressure (defect) (`C91_derivative_refuted`, `C91_casimir_refuted`)
* **C92** raw_PFA between perfect reflectors: agreement with PFA, Casimir's values, and a high-temperature energy that is half the potential of the force (defect) (`C92_energy_refuted`)
* **C98** stratified spheres: signs, comparison, attraction; an enclosing stratified wall is treated as a sphere seen from outside (defect) (`C98_enclosing_wall_refuted`)

### 4.4 Print Assumptions

Output of `Print Assumptions`, grouped.  D = ClassicalDedekindReals.sig_forall_dec and ClassicalDedekindReals.sig_not_dec,
F = FunctionalExtensionality.functional_extensionality_dep, C = Classical_Prop.classic, E = Epsilon.epsilon_statement.

* **D**: C36_mu_none, C43_lists_after_call, C43_lists_modified_refuted, C43_second_call, C43_unchanged_iff, C53_accepted_iff, C53_analytic_n0, C53_analytic_n0_ignored_refuted, C53_bad_radius, C53_precision_automatic_refuted, C53_values

* **D + F**: C01_slicewise_elementwise, C02_slicewise_bad_step, C02_slicewise_int_step, C02_slicewise_negative_length, C02_slicewise_partition, C02_slicewise_terminates, C03_beyond_nmax, C03_free_energy_primed_sum, C03_free_energy_table, C03_table_length, C04_force_fails_from_50_terms, C04_force_is_free_energy, C04_force_refuted, C05_force_first_refuted, C05_history_independence, C06_entropy, C07_auto_nmax, C07_auto_nmax_exists, C07_auto_nmax_scale, C07_auto_nmax_symmetric, C07_explicit_nmax_kept, C08_half_weight_analytic, C08_half_weight_nonanalytic, C08_no_zero_unweighted, C08_single_zero_refuted, C08_zero_mode, C09_mSumme_errors, C09_mSumme_k0_partial_sum, C09_mSumme_partial_sum, C10_leading_zero, C11_cache_history_refuted, C11_cache_right, C11_cache_right_in_sums, C13_dynamic_scaling, C13_no_orders, C13_single_k_scale, C14_argument_overwritten, C15_conv_above_one_never_returns, C15_terminates, C19_shape, C21_bad_order, C28_i_fraction, C33_errors, C33_exact_on_polynomials, C33_linear, C33_num_derivative, C34_epsilon_additive, C34_epsilon_at_least_one, C34_epsilon_decreasing, C34_epsilon_elementwise, C34_epsilon_float, C34_epsilon_high_frequency, C34_epsilon_nonincreasing, C34_epsilon_order_independent, C34_smith, C34_smith_assertion, C35_is_dielectric, C35_is_sigma_finite, C35_static_value, C35_static_value_float, C36_is_magnetic, C36_mu_integer_argument, C36_mu_static_and_range, C36_mu_value, C37_flags, C37_predefined_materials, C38_antisymmetric, C38_bounded, C38_denser, C38_equal_media, C38_formula, C38_fresnel_pointwise, C38_materials, C38_perfect_conductor, C42_outer_shells, C46_exterior, C46_gap, C46_increasing, C46_inner_sphere_second_refuted, C46_interior, C46_out_of_range, C46_symmetric, C49_descending_refuted, C49_grid_kept, C49_interpolation_bounds, C49_no_overlap, C49_single_frequency_refuted, C51_argument_modified_refuted, C51_failure_half_way, C51_transform, C52_trace_never_stops_early, C52_trace_stops_on_cancellation_refuted, C54_diagonal_blocks, C54_example_refuted, C54_m0, C54_offdiagonal_error_refuted, C55_pressure, C60_constructor, C70_tempcorr_refuted, C84_cut_off_refuted, C84_drawing, C84_errors, C84_geometry, C84_labels, C84_message, C84_status_refuted, C90_signs, C95_window

* **D + F + C**: C100_coefficients, C101_coefficients, C103_coefficients, C105_coefficients, C17_balanced_slogdet_not_square, C17_balanced_slogdet_returns, C17_blockdiagonal_returns, C17_blockdiagonal_shape, C17_sln_det_3d_returns, C17_sln_det_3d_shape, C22_lmax_exists, C22_lmax_far, C22_lmax_monotone, C22_lmax_positive, C22_lmax_scale_invariant, C22_lmax_symmetric, C22_lssmax_at_least_lmax, C23_coated_arguments_refuted, C23_constructor, C23_overlap_refuted, C24_lnknu_closed_form, C24_order_check, C24_positive_and_ode, C25_columns_0_and_1, C25_order_0_only, C25_reference_functions, C26_accuracy, C26_ascending_arrays, C26_empty_and_errors, C26_exact_ratio, C26_fraction_brackets, C26_fraction_converges, C26_large_arguments_refuted, C26_one_sided_error, C26_orders_from_2, C27_orders_0_1_elementwise, C27_other_orders_elementwise, C27_rows_permuted_refuted, C27_truncation_refuted, C28_lmin_above_lmax, C28_mie_bessels, C28_trans_bessels, C29_no_fault, C29_zero_beyond, C30_symmetric, C32_lfac, C32_ln_2dbl, C39_mie_defined, C39_mie_internal_defined, C39_mie_internal_matched, C39_mie_matched, C40_mie, C40_mie_internal, C40_perfect_conductor, C41_conducting_media_rejected, C41_static_exterior, C41_static_interior, C41_static_plasma, C41_static_plasma_exterior_refuted, C42_coating_of_core, C42_coating_of_medium, C42_stratified_matching, C42_stratified_matching_pec_core, C44_defined, C44_failures, C44_no_mixing_for_m0, C44_opposite_m, C44_parity, C44_symmetric, C45_static_exterior, C45_static_table, C47_equal_plates, C47_exchange, C47_negative_separation_refuted, C47_repulsion, C47_sums, C47_values, C48_derivative, C48_integrated, C48_pressure_refuted, C55_attraction, C55_energy, C55_energy_integrand_raises, C55_force, C55_force_ignores_shielding_refuted, C55_free_energy, C55_high_temperature, C55_omitted_terms, C55_zero_temperature, C56_argument_modified_refuted, C56_energy_from_force, C56_force_is_not_derivative_refuted, C56_free_energy, C56_frequency_terms, C56_limits_of_temperature, C57_leading_zero, C60_scale, C60_static, C63_interior_refuted, C65_each_block, C65_m0_refuted, C65_single_order, C65_zero_frequency_refuted, C68_flag_refuted, C70_e0_flag_refuted, C70_konvergenz_refuted, C71_core_refuted, C71_default_refuted, C71_finite_refuted, C71_free_energy_refuted, C71_reachable, C72_analytic_refuted, C72_static_refuted, C76_mie, C76_translation, C77_coefficients, C79_wall, C82_description, C82_errors, C82_limit, C82_multiplier_one, C82_power_law, C82_power_law_exact, C83_all_or_nothing, C83_enclosed_refuted, C83_files, C83_header_refuted, C83_partial_file_refuted, C83_repeated_refuted, C88_attraction, C88_limit, C88_orders, C89_constants, C89_force, C89_frequency, C89_high_temperature, C89_temperature, C89_unit_tests, C89_zero_temperature, C90_distance, C90_force, C90_frequency, C90_high_temperature, C90_temperature, C91_casimir_refuted, C91_constants, C91_derivative_refuted, C91_frequency, C91_temperature, C92_energy_refuted, C92_high_temperature, C92_spheres, C92_temperature, C92_zero_temperature, C93_constants, C93_matsubara_sum, C93_polarizability, C93_test_formula, C93_translation, C94_distance, C94_force, C94_limit, C94_materials, C94_zero_temperature, C95_attraction, C95_half, C95_partial_sums, C95_repulsion, C96_conductor_inverse, C96_magnetic_dielectric, C96_magnetic_response, C96_strong_conductor, C96_vanishing_core, C98_coefficients, C98_enclosing_wall_refuted

* **D + F + E**: C13_scaled_round_trip, C14_balance_similar, C15_stopping_condition, C19_block_inverse, C19_invertible_rejected, C19_singular_block, C20_linear, C20_trace_dot, C21_automatic_records_one_too_many_refuted, C21_automatic_returns, C21_int_order, C21_negative_precision_never_returns, C64_complete, C64_force, C64_paths

* **D + F + C + E**: C100_disjoint, C100_far, C100_limit, C100_traces, C101_attraction, C101_free_energy, C101_frequencies, C102_distance, C102_free_energy, C102_strict, C103_disjoint, C103_far, C103_limit, C103_traces, C104_determinants, C104_disjoint, C104_opposite, C105_frequencies, C105_limit, C105_orders, C106_attraction, C106_distance, C106_frequencies, C106_limit, C106_strict, C13_lndet_of_round_trip, C17_balanced_slogdet, C17_blockdiagonal, C17_blockdiagonal_1x1, C17_blockdiagonal_1x1_refuted, C17_sln_det_3d, C31_integrals, C31_linearization, C45_identity_at_zero_distance, C45_static_interior, C57_lndet, C57_magnetic_refuted, C57_matrix, C57_static_limit, C58_exchange, C58_lndet, C58_static, C59_lndet, C59_opposite_m, C61_attraction, C61_perfect_reflectors, C61_repulsion, C62_far, C62_screening, C62_static_decay, C63_single_order, C64_sums, C65_determinant_refuted, C66_attraction, C66_far_apart, C66_free_energy, C66_free_energy_numeric, C66_repulsion, C67_mSumme, C67_mSumme_k0, C68_cleared, C68_flag_zero_refuted, C68_force_is_energy_refuted, C68_force_refuted, C68_trace_dot_refuted, C69_class_refuted, C69_free_energy, C69_sign_refuted, C69_sum_refuted, C69_traces, C70_e0, C73_expansion, C73_free_energy, C73_perfect_reflectors, C73_sum, C74_decay, C74_signs, C75_distance, C75_free_energy, C75_perfect_reflectors, C76_free_energy, C76_perfect_reflectors, C76_truncation, C77_bound, C77_perfect_reflectors, C77_spheres, C78_growth, C78_signs, C79_cavity, C79_perfect_reflectors, C79_small_sphere, C80_disjoint, C80_far, C80_limit, C80_traces, C81_free_energy, C81_frequencies, C81_round_trips, C83_free_energy, C85_free_energy, C85_repulsion, C85_static_limit, C85_worker, C85_worker_repulsion, C85_zero_term, C86_determinants, C86_disjoint, C86_opposite, C87_limit, C87_orders, C88_worker, C88_worker_repulsion, C93_determinant, C93_far_frequency, C93_far_static, C93_free_energy, C93_mirrors, C97_far_frequency, C97_far_static, C97_free_energy, C97_mirrors, C98_attraction, C98_comparison, C98_far, C98_repulsion, C99_attraction, C99_free_energy, C99_mSumme, C99_repulsion

* **closed under the global context**: C10_empty, C12_k0_cache_history, C12_k0_cache_refuted, C12_k0_cache_right, C16_balance_never_returns_refuted, C16_infinite_square, C16_nan_returned_unchanged, C16_result_rescaled, C18_entries, C18_matrix_append, C18_wrong_length, C18_wrong_shape, C23_bad_evaluation, C50_existing_file_kept, C50_fresh_file, C50_history_refuted
