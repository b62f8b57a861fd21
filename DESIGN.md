# Formal model of gftools: design

The code under `/repo/gftool` is read as text (pinned commit); nothing is executed.  Models and
proofs live in `rocq/theories`, built with Coq 8.16.1.

## Approach

* **Arithmetic is exact.**  numpy float64/complex128/longdouble arithmetic is modelled by exact
  arithmetic in a field: an arbitrary field (record `Fld` in Base.v) where only algebra is used, Coq's
  real numbers `R` or Coquelicot's complex numbers `C` where exp, order, imaginary parts, limits or
  integrals occur.  Rounding, overflow, NaN payloads, signed zeros and convergence of iterative numerical
  routines are *not* modelled.
* **Division by zero** is the error value `NonFinite` (numpy: inf or nan), or excluded by an explicit
  hypothesis exactly where it would occur.
* **Exceptions are values**: `result A` with `Ok` and `Err e`, where `e` is the Python exception.
* **External routines** (LAPACK qr/eig/svd/lstsq/solve, scipy root finders, minimize_scalar, elliptic
  integrals) are oracles: section variables that become universally quantified function arguments with
  explicit contracts.  Contracts are shown to be satisfiable, so the theorems are not vacuous.
  numpy.fft and numpy.polynomial are modelled by their documented defining sums.
* **Broadcasting** over leading axes is modelled per item: functions act independently on each 1-D item.
* **Loops** are structural recursion or, where termination is a property of its own (`number_poles`,
  `chemical_potential`), a fuelled recursion with `OutOfFuel`; the theorems state that enough fuel exists.

## Layout

Each topic T has `T_Model.v` (definitions citing source lines), `T_Spec.v` where an independent
specification is needed, `T_Proofs.v` (and further lemma files) and `T_Props.v` (property theorems only,
with `Print Assumptions` and satisfiability examples).  `MANIFEST.json` lists the theorems of each property.
Theorems named `..._refuted` show that a documented or expected behaviour is *false* of the model, with a
witness; theorems named `..._partial` prove a part of the stated property.

General libraries: `Base` (fields, results), `FSum` (sums), `Mat`, `MatAlg`, `Linalg_Proofs` (matrices as
functions, Gaussian elimination in `Herm_Gauss`), `Cauchy` (Cauchy matrices), `Backend` (existence of QR,
triangular solve and least squares over R and C), `FTA` (fundamental theorem of algebra), `Schur`
(triangular form and rank revealing bases), `CBase`, `CExp`, `CSqrt` (complex numbers, exponential, complex
derivative, principal square root), `LatMom_Int`, `LatInt_*` (integrals, Fubini for Lipschitz functions).

## Modelled code

| file in /repo/gftool | modelled in | not modelled |
|---|---|---|
| pade.py | Pade_Model (kinds, coefficients, calc_iterator), Masked_Model (masked_coefficients), PadeAvg_Model (Averager at one output point, filters, apply_filter), PadeFull_Model (averaged, avg_no_neg_imag), PadeMod_Model (Averager and Mod_Averager with error and all output points) | the log messages |
| hermpade.py | Herm_Model (pade, pade_lstsq, pader, hermite2, hermite2_lstsq), HermEval_Model (Hermite2, _Hermite2Ret) | `fast=True` of `pade` uses the Toeplitz solver, an oracle |
| linearprediction.py | LinPred_Model | `plot_roots` |
| linalg.py | Linalg_Model | stacked matrices are item-wise |
| matrix.py, siam.py | Matrix_Model, UDec_Model (`UDecomposition.s`, legacy constructors) | deprecation warnings, `__str__` |
| basis/__init__.py | Rat_Model | |
| basis/pole.py, density.py | Pole_Model, PoleFit_*, Density_Model | |
| statistics.py | Stat_Model, PadeFreq_Model, ZeroT_Model (beta = inf) | |
| cpa.py | Cpa_Model | log messages, the options passed to the root finder |
| beb.py | Beb_Model | log messages, the options passed to the root finder |
| fourier.py | Fourier_Model, FourierMom_Model, FourierPade_Model | numexpr variant of `_phase` (same formula) |
| polepade.py | NPoles_Model (loop of number_poles), PPade_Model (everything else) | `plot`, a `vandermond` whose columns are not polynomials of exact degree 0, 1, 2, ... |
| lattice/{bethe,bethez,onedim,box}.py | Lattice_Model, LatTime_* | |
| lattice/{square,rectangular,lieb,honeycomb,kagome}.py | LatDer_Model, LatRdos_Model | |
| lattice/{sc,bcc,fcc,triangular}.py | LatEll_Model |  |
| lattice/*.py: dos_moment and its tables | LatMom_Model | rounding of decimal literals |
| lattice/*.py: dos_mp, sc.gf_z_mp, square.stress_trafo | LatMp_Model | mp.workdps, rounding of mpmath |
| __init__.py | Lattice_Model (surface_gf_zeps, hubbard_dimer_gf_z, hubbard_I_self_z), Pole_Model (pole_gf_tau_b), OldDens_Model (density, density_error, density_error2, check_convergence) | the option total as a tuple of axes |
| _util.py, _precision.py | inside the callers | numpy gufunc wrappers, dtypes |

Simplifications are stated in the header of each model file and next to the definitions.

## Trusted base

* Coq's kernel (the development is also checked with `coqchk`), and the reading of the python code by the
  modeller: that the definitions in `*_Model.v` say what the cited lines do in exact arithmetic.
* The specification files `*_Spec.v` and the statements in `*_Props.v`.
* The contracts assumed of external routines, each stated as a hypothesis of the theorems that need it:
  `backend_ok` (Linalg_Proofs.v: complete QR, triangular solve, least squares, allclose), `qr_spec`,
  `solve_spec` (Mat.v), `nullvec_ok`, `lstsq_ok`, `solve_ok` (Herm_Spec.v), `qrr_spec`, `svd_spec`, `eig_ok`
  (PPade_*.v), eigen-decompositions (Matrix_*.v, Beb_*.v), `computes_K`, `elliptic_like` (elliptic integral,
  LatInt_Spec.v, LatDer_Spec.v), Bessel's integral (LatTime_*.v).
* Axioms: only those of Coq's standard library.  Coquelicot, mathcomp and the standard library's real
  numbers bring the first three below; `classic` enters through the standard library's theory of
  integrals and continuity; `constructive_indefinite_description` only in C63_backends_exist, which turns
  the existence proofs for matrix factorizations into functions.

What `Print Assumptions` lists, by group of theorems:

* *Closed under the global context* (123): C01_interpolation, C02_continued_fraction, C02_count, C02_finite, C02_fraction_is_nested_division, C03_error_iff_lengths_differ, C03_length, C03_prefix_stable, C04_kindgf_parity, C04_kindgf_tail, C04_kindself_parity, C04_kindself_tail, C05_kindgf_window, C05_kindself_window, C06_accepted_kinds_are_good, C06_count_partial, C06_count_refuted, C06_empty_average_refuted, C06_stacked_refuted, C07_mean_of_valid, C07_mean_of_valid_stacked, C07_only_valid_matter, C07_rationals_have_char0, C07_stacked_invalid_nan_refuted, C07_unfiltered, C07_unfiltered_raises, C07_unfiltered_stacked, C08_apply_filter, C08_apply_filter_error, C08_apply_single_no_raise_refuted, C08_argsort_contract_satisfiable, C08_neg_imag, C08_neg_imag_num, C08_neg_imag_num_rel_refuted, C09_count, C09_discarded_are_removed_refuted, C09_greedy, C09_one, C09_rel_num_zero_refuted, C10_contracts_satisfiable, C10_pade_accepts, C10_pade_accurate, C10_pade_rejects, C11_from_taylor, C11_hermite2_accepts, C11_hermite2_accurate, C11_hermite2_lstsq, C11_hermite2_rejects, C11_lstsq_contract_satisfiable, C13_accuracy_partial, C13_polynomial_never, C13_polynomial_refuted, C13_reduction_refuted, C13_zero_refuted, C14_degree_refuted, C14_degrees_partial, C14_fix_q_ignored, C15_predict_negative_num, C15_predict_recurrence, C16_covar_rejects, C16_covar_reproduces, C17_companion_eigenvalues, C17_companion_rejects, C17_companion_steps, C19_gf_z_at_pole, C19_moments_expansion, C20_no_moments, C20_solve_exists, C24_lstsq_ec, C24_lstsq_ec_rank_deficient, C24_lstsq_ec_unconstrained, C25_complement, C25_complement_needs_rank, C25_orth_compl, C25_orth_compl_rejects, C32_construct_gf, C32_diag_is_diagonal, C32_inverse, C32_other_kinds, C32_product, C34_bath_energy_refuted, C34_finite_only_off_spectrum, C34_hermitian, C34_hybridization, C34_integer_hopping_refuted, C34_resolvent_partial, C35_components, C35_fixed_point, C35_root_iff_cpa_condition_partial, C35_root_value, C35_shift, C35_single_component, C35_zero_gf_refuted, C37_join_split, C37_scalar_always_fails, C37_scalar_refuted, C37_split_join_partial, C39_diag, C39_partition, C39_zero_eigenvalue_refuted, C40_assertion_refuted, C40_columns, C40_columns_refuted, C40_degree_refuted, C40_exact, C40_result, C40_terminates_partial, C40_tight_refuted, C40_zero_start_refuted, C55_poles_zeros, C55_reciprocal, C55_to_ratpol, C57_stable_equals_naive, C58_never_raises, C60_decompose_her, C60_decompose_her_rejects, C60_decompose_mat, C60_decompose_sym, C60_decompose_sym_rejects, C74_truncates, C80_beb_solution, C80_gf_loc_is_cpa, C80_root_iff_cpa_root
* `functional_extensionality_dep` (2): C39_lattice_sum_partial, C61_root_equation
* `functional_extensionality_dep`, `sig_forall_dec` (50): C25_complement_rank_refuted, C30_complete, C30_monotone, C30_not_converged, C30_returns_genuine, C30_root, C36_beb_physical_unchanged, C36_beb_values, C36_beb_zero_is_physical_root, C36_physical_unchanged, C36_zero_is_physical_root, C38_beb_correct, C38_beb_failure, C38_beb_no_assertion, C38_beb_solve_root, C38_solve_root, C38_solve_root_correct, C42_interpolant, C43_simps_sum, C44_tt2z_guard, C50_bcc, C50_digits_refuted, C50_fcc, C50_honeycomb, C50_kagome, C50_onedim, C50_orders, C50_sc, C50_square, C50_triangular, C54_pade_contract, C58_inconsistent_raises_refuted, C60_decompose_sym_isotropic_refuted, C63_bases, C63_svd, C75_error_bounds_spread, C75_error_zero, C77_from_gf, C77_hamiltonian_unchecked, C81_iteration_physical, C81_levels, C81_restricted_total, C81_step_physical, C82_components_retarded, C82_effective_medium, C82_lattice_integral, C82_lattice_sum, C82_medium_damping, C82_retarded, C82_start_physical
* `functional_extensionality_dep`, `sig_forall_dec`, `sig_not_dec` (197): C12_branches_defined, C12_branches_order, C12_branches_solve, C12_eval_nearest, C12_eval_retarded, C18_burg_monotone, C18_burg_reflection_bounded, C18_burg_stable, C19_moments_asymptotic, C20_from_moments, C20_single_moment, C20_width_None, C20_width_zero, C21_at_beta, C21_boundary, C21_complex_pole, C21_complex_pole_refuted, C21_formula, C21_nonpositive, C21_out_of_range, C22_fluctuation_dissipation, C22_gr_minus_le, C22_ret_negative_time, C22_ret_positive_time, C22_siam_causal, C22_siam_gr_le_ret, C22_siam_spectral, C23_derivative, C24_backend_exists, C24_lstsq_ec_complex, C26_from_tau, C26_from_tau_occ_only, C26_from_tau_occ_shape, C26_from_tau_overconstrained, C26_from_z, C26_from_z_overconstrained, C26_iff_overconstrained_refuted, C26_occ_only_refuted, C26_occ_zero_refuted, C27_fermi_bounds, C27_fermi_complex, C27_fermi_complex_on_reals, C27_fermi_definition, C27_fermi_symmetric, C28_bose_zero, C29_matsubara_bosonic, C29_matsubara_fermionic, C29_matsubara_spacing, C29_matsubara_symmetric, C31_error, C31_exact_for_fit, C31_exact_for_tail, C33_hilbert, C33_real_energies, C33_resolvent_diagonal, C36_values, C38_fxdocc, C38_fxdocc_failure, C38_occ_none_fails, C40_exact_data, C41_dft_empty, C41_dft_injective, C41_dft_roundtrip, C41_dft_roundtrip_tau, C42_tau2iv_ft_lin_total, C42_tt2z_lin_total, C43_simps_two_points_refuted, C43_tt2z_simps, C43_tt2z_trapz, C43_tt2z_trapz_total, C45_backends_zero, C45_iw2tau_adds_back, C45_iw2tau_exact, C45_iw2tau_fit_exact, C45_izp2tau_exact, C45_izp2tau_width, C45_pole_pair, C45_tau2iw_adds_back, C46_branch, C46_equation, C46_finite, C46_inverse, C47_d1, C47_d2, C48_bethe_limit, C48_cavity, C48_chain, C48_dos_chain, C48_low_coordination_refuted, C49_bethe, C49_bethez, C49_onedim, C49_shape, C50_digits, C50_lieb, C50_lieb_hopping_refuted, C51_elliptic_scaling_dos, C51_elliptic_scaling_gf, C51_honeycomb, C51_honeycomb_dos, C51_kagome, C51_kagome_dos, C51_lieb, C51_lieb_dos, C51_rectangular, C51_scaling_dos, C51_triangular_scaling_partial, C51_triangular_scaling_refuted, C51_weights, C52_center_partial, C52_center_unit_partial, C52_retarded, C53_dimer, C53_dimer_particle_hole, C53_dimer_weight, C53_hubbard_I, C53_surface, C54_herm2_quadratic, C54_lpz_start_refuted, C54_pade_exact_continued, C54_pade_rational, C55_amplitude, C56_burg_errors, C56_burg_optimal, C57_stable_bounded, C59_negative_pole, C59_zero_pole_refuted, C62_iw2tau_series, C62_iw2tau_soft_series, C62_tau2iv_riemann, C62_tau2iw_ignores_beta, C62_tau2iw_riemann, C63_continuation_partial, C63_real_asymp_refuted, C63_single_pole_refuted, C63_std_refuted, C63_zero_refuted, C65_bcc_dos, C65_conj_derived, C65_conj_elliptic, C65_even, C65_odd, C66_closed, C66_fcc, C66_sc_expansion_partial, C66_sc_gf, C66_sc_partial, C66_sc_refuted, C66_triangular_partial, C68_check_convergence, C68_check_convergence_matrix_refuted, C68_error, C68_error2, C68_exact, C68_matrix_refuted, C69_one, C69_returns, C69_scaling, C69_unique, C74_assertion, C74_bounded, C74_huge_pole, C74_interpolates_remaining_refuted, C74_kept, C74_kept_interpolates, C74_like_coefficients, C74_ok, C74_point, C74_tiny_zero, C75_average, C75_linear, C75_mod_average, C75_mod_average_stacked, C75_nan_dropped_refuted, C75_stacked_invalid_refuted, C75_variance_refuted, C76_no_neg_imag, C76_reproduces_samples, C76_returns, C77_operator_norm, C77_singular_values, C77_stacked_refuted, C77_stacked_rows, C78_all_moments, C78_errors, C78_free, C78_moments, C78_norm_refuted, C79_fermi_level_refuted, C81_bethe, C81_components_retarded, C81_density, C81_hermitian_lattice, C82_density_components, C82_density_definite, C82_density_retarded, C82_solution_bound
* `classic`, `functional_extensionality_dep`, `sig_forall_dec`, `sig_not_dec` (142): C21_equal_time, C21_equation_of_motion, C21_matsubara, C26_from_tau_occ_optimal_partial, C26_from_tau_occ_partial, C27_fermi_decreasing, C27_fermi_derivative, C27_fermi_inv_left, C27_fermi_inv_right, C27_no_overflow, C28_bose_definition_partial, C28_bose_definition_refuted, C28_bose_integers_truncated, C28_bose_positive, C28_bose_symmetric, C29_matsubara_complete, C31_limit, C42_tau2iv_ft_lin, C42_tau2iw_ft_lin_error, C42_tau2iw_ft_lin_partial, C42_tau2iw_ft_lin_refuted, C42_tt2z_lin, C42_tt2z_lin_refuted, C43_simps_cubic, C43_simps_linear, C43_trapz_linear, C43_tt2z_trapz_integral, C45_iw2tau_converges, C45_tau2iv_adds_back, C45_tau2iv_ft_lin, C45_tau2iw_exact, C45_tau2izp_exact, C45_tau2izp_width, C49_box, C50_bethe, C50_box, C51_scaling_gf, C52_bethe_transform, C52_box_transform, C52_center_refuted, C54_lpz_exact, C54_pade_exact, C54_pade_exceptions, C54_pade_resolves, C54_pade_spurious_refuted, C59_boundary, C59_formula, C59_integral, C59_matsubara, C60_decompose_her_every, C62_iw2tau_converges, C62_iw2tau_ends, C62_iw2tau_ends_refuted, C64_bethe, C64_bethez, C64_box, C64_elliptic, C64_lieb, C64_onedim, C64_onedim_dos, C64_onedim_hilbert, C64_square, C65_conj, C65_odd_box, C66_triangular_refuted, C67_stress, C68_limit, C68_matrix, C68_noisy_refuted, C68_total, C69_converges, C69_density, C69_density_moments, C69_fermi, C70_bcc, C70_fcc, C70_fcc_above, C70_fcc_below_refuted, C70_fcc_real, C70_rectangular, C70_rectangular_square, C70_sc, C70_triangular, C70_triangular_above, C70_triangular_below_refuted, C70_triangular_mask_refuted, C71_bcc, C71_fcc, C71_lieb, C71_rectangular, C71_rectangular_edge, C71_rectangular_scale0_refuted, C71_sc, C71_square, C71_triangular, C72_bcc, C72_bcc_gf, C72_fcc, C72_fcc_gf, C72_lieb, C72_lieb_gf, C72_onedim, C72_onedim_gf, C72_rectangular, C72_rectangular_gf, C72_sc, C72_sc_gf, C72_square, C72_square_gf, C72_triangular, C72_triangular_gf, C73_bcc, C73_bcc_walks, C73_fcc, C73_fcc_walks, C73_lieb, C73_lieb_walks, C73_onedim, C73_onedim_walks, C73_sc, C73_sc_walks, C73_square, C73_square_walks, C73_triangular, C73_triangular_walks, C79_finite, C79_gr_le, C79_occ, C79_siam, C79_statistics, C79_tau, C79_tau_b, C81_bcc, C81_bethez, C81_box, C81_fcc, C81_lieb, C81_onedim, C81_rectangular, C81_sc, C81_square, C81_triangular
* `classic`, `constructive_definite_description`, `functional_extensionality_dep`, `sig_forall_dec`, `sig_not_dec` (17): C70_honeycomb, C70_honeycomb_above, C70_kagome, C70_kagome_above, C71_honeycomb, C71_kagome, C72_honeycomb, C72_honeycomb_gf, C72_kagome, C72_kagome_gf, C72_normalised, C73_honeycomb, C73_honeycomb_walks, C73_kagome, C73_kagome_walks, C81_honeycomb, C81_kagome
* `classic`, `constructive_indefinite_description`, `functional_extensionality_dep`, `sig_forall_dec`, `sig_not_dec` (3): C45_width_example, C63_backends_exist, C69_example

Full names: `ClassicalDedekindReals.sig_forall_dec`, `ClassicalDedekindReals.sig_not_dec`,
`FunctionalExtensionality.functional_extensionality_dep`, `Classical_Prop.classic`,
`IndefiniteDescription.constructive_indefinite_description`, `Description.constructive_definite_description`.

## Properties

For each property: status, what is proved (theorem names), remarks.

* **C01** Thiele-Pade approximants interpolate their input data — *proved*.  For every field, all lengths; hypotheses: the yields concerned are finite (no division by zero).
  Theorems: C01_interpolation.
* **C02** calc_iterator evaluates the continued fraction of exactly the first k+2 coefficients — *proved*.  Value, three-term/continued-fraction form, sufficient condition for finiteness and number of yields.
  Theorems: C02_continued_fraction, C02_fraction_is_nested_division, C02_finite, C02_count.
* **C03** Pade coefficients are prefix stable — *proved*.  
  Theorems: C03_prefix_stable, C03_length, C03_error_iff_lengths_differ.
* **C04** KindGf approximants decay like 1/z, KindSelf approximants approach a constant — *proved*.  Formal degrees; leading denominator coefficient a1*a3*... given explicitly.
  Theorems: C04_kindgf_tail, C04_kindself_tail, C04_kindgf_parity, C04_kindself_parity.
* **C05** Kind selectors: exact acceptance and selected window — *proved*.  
  Theorems: C05_kindgf_window, C05_kindself_window.
* **C06** averaged() really offers the approximants its kind counts — *partial*.  The claim is false of the code: refuted with witnesses (count, empty average, stacked IndexError). Exact condition under which it holds is proved (C06_count_partial).
  Theorems: C06_count_refuted, C06_empty_average_refuted, C06_stacked_refuted, C06_count_partial, C06_accepted_kinds_are_good.
* **C07** Averager averages exactly the valid approximants — *partial*.  Proved for 1-D masks and for stacked masks with finite approximants; refuted for a NaN in an invalid approximant of a stacked mask. The error estimate is C75.
  Theorems: C07_mean_of_valid, C07_only_valid_matter, C07_mean_of_valid_stacked, C07_stacked_invalid_nan_refuted, C07_rationals_have_char0, C07_unfiltered, C07_unfiltered_raises, C07_unfiltered_stacked.
* **C08** Pade filters keep what they promise — *partial*.  FilterNegImag, FilterNegImagNum(abs_num) and apply_filter with 0 or >=2 filters proved; rel_num and the single-filter raise are refuted.
  Theorems: C08_neg_imag, C08_neg_imag_num, C08_neg_imag_num_rel_refuted, C08_apply_filter, C08_apply_single_no_raise_refuted, C08_argsort_contract_satisfiable, C08_apply_filter_error.
* **C09** FilterHighVariance keeps exactly the requested number — *partial*.  Count proved; identity of discarded and removed approximants refuted; rel_num rounding to 0 refuted.
  Theorems: C09_count, C09_discarded_are_removed_refuted, C09_rel_num_zero_refuted, C09_greedy, C09_one.
* **C10** Rational Pade approximants are accurate through order — *proved*.  Null vector (QR) and Toeplitz solver are oracles with a contract that is shown satisfiable.
  Theorems: C10_pade_accurate, C10_pade_accepts, C10_pade_rejects, C10_contracts_satisfiable.
* **C11** Square Hermite-Pade approximants are accurate through order — *proved*.  hermite2, hermite2_lstsq (conditional on a consistent system) and the degrees of the guiding Pade.
  Theorems: C11_hermite2_accurate, C11_hermite2_accepts, C11_hermite2_rejects, C11_hermite2_lstsq, C11_from_taylor, C11_lstsq_contract_satisfiable.
* **C12** Both Hermite-Pade branches solve the quadratic and evaluation picks one of them — *proved*.  Complex numbers, principal square root; signed zeros not modelled; r(z)=0 is outside (non-finite).
  Theorems: C12_branches_solve, C12_branches_defined, C12_branches_order, C12_eval_nearest, C12_eval_retarded.
* **C13** Robust Pade (pader) agrees with its contract on degenerate input — *partial*.  False of the code: num_deg=0, den_deg=0 and polynomials are refuted. Accuracy in the remaining cases is proved (C13_accuracy_partial).
  Theorems: C13_zero_refuted, C13_polynomial_refuted, C13_polynomial_never, C13_reduction_refuted, C13_accuracy_partial.
* **C14** pade_lstsq respects the requested numerator degree — *partial*.  den_deg >= 1 proved; den_deg = 0 refuted; fix_q is ignored.
  Theorems: C14_degrees_partial, C14_degree_refuted, C14_fix_q_ignored.
* **C15** Linear prediction extends a series by its recurrence — *proved*.  1-D data; coefficient vector not longer than the series (the quantifier of the property).
  Theorems: C15_predict_recurrence, C15_predict_negative_num.
* **C16** Covariance-fitted prediction reproduces exactly predictable series — *proved*.  lstsq is an oracle with a contract; the residual vector replaces its norm.
  Theorems: C16_covar_reproduces, C16_covar_rejects.
* **C17** The companion matrix steps the recurrence — *proved*.  Eigenvalues characterised by existence of an eigenvector, over every field.
  Theorems: C17_companion_steps, C17_companion_eigenvalues, C17_companion_rejects.
* **C18** Burg's method is stable — *proved*.  Complex 1-D data; a zero denominator (division by zero in the code) is an error value.
  Theorems: C18_burg_stable, C18_burg_reflection_bounded, C18_burg_monotone.
* **C19** Pole Green's function moments are the high-frequency expansion — *proved*.  
  Theorems: C19_moments_expansion, C19_moments_asymptotic, C19_gf_z_at_pole.
* **C20** Pole fits from moments reproduce the moments — *proved*.  Relative to the contract of np.linalg.solve (satisfied by Gaussian elimination, C20_solve_exists).
  Theorems: C20_from_moments, C20_width_None, C20_no_moments, C20_width_zero, C20_single_moment, C20_solve_exists.
* **C21** Imaginary-time pole Green's function: boundary values — *proved*.  Proved for real poles and complex poles with non-zero real part; the same formula is refuted for purely imaginary complex poles. For 0 < tau < beta the value is proved to be the limit of the truncated Matsubara series, at the ends the series gives the mean of both limits.
  Theorems: C21_matsubara, C21_equal_time, C21_formula, C21_out_of_range, C21_at_beta, C21_boundary, C21_nonpositive, C21_equation_of_motion, C21_complex_pole, C21_complex_pole_refuted.
* **C22** Greater minus lesser equals retarded — *proved*.  Pole functions and the SIAM impurity functions: greater - lesser = retarded, causality, and the spectral representation with non-negative weights summing to one. The Hermitian eigen-solver is an oracle with a per-call contract.
  Theorems: C22_siam_gr_le_ret, C22_siam_causal, C22_siam_spectral, C22_ret_negative_time, C22_ret_positive_time, C22_gr_minus_le, C22_fluctuation_dissipation.
* **C23** gf_d1_z is the derivative of gf_z for pole functions — *proved*.  
  Theorems: C23_derivative.
* **C24** Constrained least squares satisfies the constraints exactly and is optimal — *proved*.  QR, triangular solve and lstsq are oracles with contracts for the calls made; field-generic, instantiated with complex Euclidean norm. 2-D arrays.
  Theorems: C24_lstsq_ec, C24_lstsq_ec_complex, C24_lstsq_ec_unconstrained, C24_backend_exists, C24_lstsq_ec_rank_deficient.
* **C25** orth_compl yields the orthogonal complement — *proved*.  QR is an oracle (any complete QR decomposition). Without linear independence of the columns part of the complement is missing (C25_complement_rank_refuted).
  Theorems: C25_orth_compl, C25_orth_compl_rejects, C25_complement, C25_complement_needs_rank, C25_complement_rank_refuted.
* **C26** Pole fits honour their moment constraints — *partial*.  gf_from_z and gf_from_tau without occ: moments exact, ValueError when overconstrained, optimal residues, for every exact-arithmetic back-end. With occ the moments and occupation are honoured only when n_pole >= 2*len(moments); refuted otherwise (ValueError although solvable; occ without moments always ValueError; occ=0 ignored). n_pole = 0 raises ZeroDivisionError.
  Theorems: C26_from_z, C26_from_z_overconstrained, C26_from_tau, C26_from_tau_overconstrained, C26_from_tau_occ_partial, C26_from_tau_occ_optimal_partial, C26_from_tau_occ_shape, C26_from_tau_occ_only, C26_iff_overconstrained_refuted, C26_occ_only_refuted, C26_occ_zero_refuted.
* **C27** Fermi function branches agree with the definition — *proved*.  
  Theorems: C27_fermi_definition, C27_fermi_bounds, C27_fermi_decreasing, C27_fermi_symmetric, C27_fermi_inv_left, C27_fermi_inv_right, C27_fermi_derivative, C27_fermi_complex, C27_fermi_complex_on_reals, C27_no_overflow.
* **C28** Bose function branches agree with the definition — *partial*.  Proved for float arguments; refuted for integer arguments (result buffer has the integer dtype, so values are truncated).
  Theorems: C28_bose_definition_partial, C28_bose_zero, C28_bose_symmetric, C28_bose_positive, C28_bose_integers_truncated, C28_bose_definition_refuted.
* **C29** Matsubara frequencies are the poles of the statistics — *proved*.  
  Theorems: C29_matsubara_fermionic, C29_matsubara_bosonic, C29_matsubara_complete, C29_matsubara_symmetric, C29_matsubara_spacing.
* **C30** Chemical potential search returns only genuine brackets — *proved*.  root_scalar is an arbitrary oracle returning (root, converged) or an exception; reals, no NaN.
  Theorems: C30_returns_genuine, C30_complete, C30_not_converged, C30_root, C30_monotone.
* **C31** Density from Matsubara sum is exact for pole functions in the limit / high-frequency shift — *proved*.  n_fit = 0: exact for the tail with any frequencies/weights; n_fit >= 1: exact for every function on the fitted poles with the given moments when 2*N >= n_pole; the exact error formula for arbitrary pole functions; and convergence to the occupation for every pole function when the first N Matsubara frequencies with unit weights are used and the first moment is right. np.linalg.solve / lstsq are exact-arithmetic oracles.
  Theorems: C31_exact_for_tail, C31_exact_for_fit, C31_error, C31_limit.
* **C32** Decomposition reconstruct kinds agree — *proved*.  All kinds; inverse and product of reconstructions; einsum itself is an opaque argument. numpy's broadcasting of axes of length one is not modelled.
  Theorems: C32_diag_is_diagonal, C32_inverse, C32_product, C32_other_kinds, C32_construct_gf.
* **C33** 2x2 matrix Green's function is the diagonal resolvent — *proved*.  Complex arithmetic with the principal square root; trivial Hilbert transform and discrete densities of states.
  Theorems: C33_resolvent_diagonal, C33_real_energies, C33_hilbert.
* **C34** SIAM non-interacting impurity Green's function is the resolvent element — *partial*.  Proved for z different from every bath energy and hoppings whose dtype keeps the energies; refuted at z = e_bath (non-finite although the resolvent exists) and for integer hoppings (energies truncated in hamiltonian_matrix).
  Theorems: C34_resolvent_partial, C34_finite_only_off_spectrum, C34_hermitian, C34_hybridization, C34_bath_energy_refuted, C34_integer_hopping_refuted.
* **C35** CPA root equation vanishes exactly at the CPA condition — *partial*.  Root equation zero iff averaged component Green's functions equal the coherent one, for every field, Hilbert transform and component list, given g<>0; its value is 1/g - 1/average; fixed points, single component and shift invariance. Missing: g=0, where the equivalence is refuted.
  Theorems: C35_root_iff_cpa_condition_partial, C35_components, C35_root_value, C35_fixed_point, C35_single_component, C35_shift, C35_zero_gf_refuted.
* **C36** Restricted CPA root search cannot return unphysical roots — *proved*.  cpa: zero of the restricted function iff physical root (any Hilbert transform, any array length), values of clipped entries, in-place change of the argument. beb: the same for the diagonal, for any shape-preserving root function.
  Theorems: C36_beb_zero_is_physical_root, C36_beb_physical_unchanged, C36_beb_values, C36_zero_is_physical_root, C36_physical_unchanged, C36_values.
* **C37** CPA join/split round trip — *partial*.  Round trips for arrays of all shapes; a scalar in any position but the last is refuted (TypeError because np.prod(()) is a float).
  Theorems: C37_split_join_partial, C37_join_split, C37_scalar_refuted, C37_scalar_always_fails.
* **C38** CPA/BEB solvers never return unconverged results silently — *proved*.  All three solvers for an arbitrary root finder oracle; result only on success, RuntimeError otherwise; exact zero of the solver's function gives the CPA/BEB equation, for fixed occupation with on-site energies shifted by the returned mu and the requested occupation. occ=None (the default) never returns.
  Theorems: C38_beb_solve_root, C38_beb_failure, C38_beb_correct, C38_beb_no_assertion, C38_solve_root, C38_solve_root_correct, C38_fxdocc, C38_fxdocc_failure, C38_occ_none_fails.
* **C39** BEB local Green's function equals the lattice sum in full and truncated form — *partial*.  Lattice sum identity for every field, component number, rank and discrete DOS (full-rank and truncated branch), diag=True, partition. Hypotheses: numpy contracts, discarded eigenvalues are exactly zero. Refuted where the reduced matrix has a zero eigenvalue (division by zero although the sum exists).
  Theorems: C39_lattice_sum_partial, C39_diag, C39_partition, C39_zero_eigenvalue_refuted.
* **C40** number_poles terminates with a consistent pole count — *partial*.  number_poles with the numerical rank as oracle: result, exactness for rational data with at least 2k+degree+5 points and termination proved; C40_exact_data derives the rank from samples of a rational function and the contracts of QR and SVD. Refuted parts: fewer points give k+1 poles or RuntimeError (C40_tight_refuted), endless loops for n_poles0=0 and for degree 1, AssertionError for an even number z.size-degree <= 100 with the default start value, and for degree < -n-1 the slice [..., :n_zeros+1] with a negative end keeps numerator columns which should not exist (C40_columns_refuted).
  Theorems: C40_columns, C40_columns_refuted, C40_terminates_partial, C40_result, C40_exact, C40_tight_refuted, C40_zero_start_refuted, C40_degree_refuted, C40_assertion_refuted, C40_exact_data.
* **C41** Imaginary-time DFT and Matsubara DFT are inverse — *proved*.  iw2tau_dft followed by tau2iw_dft returns the input for every non-empty list and non-zero beta; the converse holds up to the value at beta, which tau2iw_dft ignores.
  Theorems: C41_dft_roundtrip, C41_dft_empty, C41_dft_roundtrip_tau, C41_dft_injective.
* **C42** Filon transforms integrate the linear spline exactly — *partial*.  tau2iv_ft_lin exact for every grid size and frequency including zero; tt2z_lin exact on equidistant grids, every z; tau2iw_ft_lin exact iff g(0)+g(beta)=0 (refuted otherwise, with the exact error); tt2z_lin refuted on tiny non-equidistant grids that np.isclose accepts.
  Theorems: C42_tau2iv_ft_lin, C42_tau2iv_ft_lin_total, C42_interpolant, C42_tau2iw_ft_lin_error, C42_tau2iw_ft_lin_partial, C42_tau2iw_ft_lin_refuted, C42_tt2z_lin, C42_tt2z_lin_total, C42_tt2z_lin_refuted.
* **C43** Trapezoidal and Simpson weights — *partial*.  Trapezoidal rule on any grid; Simpson weights exact for cubic (odd) and linear (even, at least 4 points) data; refuted for two points.
  Theorems: C43_tt2z_trapz, C43_tt2z_trapz_total, C43_tt2z_trapz_integral, C43_simps_cubic, C43_simps_linear, C43_simps_sum, C43_trapz_linear, C43_tt2z_simps, C43_simps_two_points_refuted.
* **C44** tt2z accepts exactly retarded or advanced data — *proved*.  The guard of tt2z for one-dimensional arrays and every back-end.
  Theorems: C44_tt2z_guard.
* **C45** Moment subtraction in the Fourier transforms is exact — *proved*.  For every back-end: iw2tau with moments and tau2iw with moments subtract one fixed pole function with exactly these moments and add back its transform (adds_back theorems: result = back-end(rest) + exact transform); pole functions lying in the fitted space are transformed exactly (fit theorems); iw2tau with iw2tau_dft and the right first moment converges on the closed interval for every pole function; tau2iv transforms the linear part exactly and leaves the rest to the back-end; izp2tau/tau2izp exact for any non-zero optimiser width. lstsq/QR/solve are oracles with spec backend_ok/solve_spec (instance real_backend proved).
  Theorems: C45_pole_pair, C45_iw2tau_adds_back, C45_iw2tau_exact, C45_iw2tau_fit_exact, C45_tau2iw_adds_back, C45_tau2iw_exact, C45_backends_zero, C45_izp2tau_exact, C45_tau2izp_exact, C45_izp2tau_width, C45_tau2izp_width, C45_tau2iv_adds_back, C45_tau2iv_ft_lin, C45_iw2tau_converges.
* **C46** Bethe lattice Green's function solves its self-consistency equation on the physical branch — *proved*.  For every z other than 0 and D > 0 over exact complex numbers; signed zeros on the cut are not modelled.
  Theorems: C46_equation, C46_finite, C46_branch, C46_inverse.
* **C47** Bethe derivatives are derivatives — *proved*.  Complex derivative at every z off the band, D > 0.
  Theorems: C47_d1, C47_d2.
* **C48** Bethe lattice with coordination Z interpolates between chain and Bethe lattice — *proved*.  Chain identity for gf_z and dos for every argument, limit and cavity equations; C48_low_coordination_refuted records that for 1 < Z < 2, which the code accepts, gf_z has a pole outside the band.
  Theorems: C48_chain, C48_bethe_limit, C48_cavity, C48_dos_chain, C48_low_coordination_refuted.
* **C49** DOS equals the spectral function of the Green's function — *proved*.  One-sided limit of -Im gf_z(eps+ih)/pi for all energies except the band edges of onedim, box and bethez(Z=2) where the function diverges or jumps; bethez for Z >= 2.
  Theorems: C49_bethe, C49_onedim, C49_bethez, C49_box, C49_shape.
* **C50** Tabulated DOS moments equal the closed-walk counts of the lattice — *proved*.  All literals of dos_moment_coefficients against closed-walk counts on explicitly defined neighbour graphs (all orders accepted), odd orders for all m by two-colouring, bethe and box against the integral over the modelled dos; C50_lieb_hopping_refuted records the documented hopping t=D*2**1.5. Decimal literals agree to 4e-15 relative; C50_digits: correctly rounded to 15 digits for onedim, square, sc, bcc, honeycomb, lieb, within one unit of the 15th digit for triangular and kagome, 1.4 units for fcc (C50_digits_refuted: the 13th moment of fcc is off by 1.3 units, not all printed digits are right).
  Theorems: C50_onedim, C50_square, C50_sc, C50_bcc, C50_fcc, C50_triangular, C50_honeycomb, C50_kagome, C50_lieb, C50_digits, C50_digits_refuted, C50_bethe, C50_box, C50_orders, C50_lieb_hopping_refuted.
* **C51** Derived lattices are consistent with their parents — *partial*.  Honeycomb, kagome and Lieb Green's functions are the Bloch averages of the resolvents of their own lattices, dos is the boundary value of the Green's function, weights add up to one, scale covariance for every lattice. Missing: the triangular lattice masks the frequency -1 for every half-bandwidth (C51_triangular_scaling_refuted), covariance holds otherwise (C51_triangular_scaling_partial).
  Theorems: C51_honeycomb, C51_kagome, C51_lieb, C51_honeycomb_dos, C51_kagome_dos, C51_lieb_dos, C51_weights, C51_scaling_gf, C51_scaling_dos, C51_rectangular, C51_elliptic_scaling_gf, C51_elliptic_scaling_dos, C51_triangular_scaling_partial, C51_triangular_scaling_refuted.
* **C52** Shifted retarded-time lattice Green's functions rotate with the band center — *partial*.  The retarded functions of the box and Bethe lattice with center 0 are proved to be -i times the Fourier integral of the dos over its support for every t >= 0 and D > 0: exactly for D t >= small, within (D t)^6/5040 (box) or (D t)^6/9216 (Bethe) where the code uses its Taylor expansion. They vanish for t < 0. The documented role of center, a rotation with exp(-i center t), is refuted for every D /= 1: the code multiplies center by half_bandwidth (C52_center_refuted). It is proved as documented for D = 1, and with the extra factor D in general. Oracle: jv(1, x) as Bessel's integral.
  Theorems: C52_box_transform, C52_bethe_transform, C52_retarded, C52_center_partial, C52_center_unit_partial, C52_center_refuted.
* **C53** Hubbard dimer, Hubbard-I and surface Green's functions — *proved*.  Dimer against exact diagonalisation of the documented Hamiltonian on the 16-dimensional Fock space; t /= 0 or U > 0.
  Theorems: C53_surface, C53_hubbard_I, C53_dimer, C53_dimer_particle_hole, C53_dimer_weight.
* **C54** Fourier-Pade transform of exponential signals is exact — *partial*.  tt2z_pade: rational function of exp(i z dt) matching the weighted data to the guaranteed order, exact (limit of the infinite quadrature sum, and its continuation) for sums of n exponentials with 2n+1 samples, no spurious pole when the order is tight; tt2z_lpz exact for order > n; tt2z_herm2 solves the matching quadratic. Not true of tt2z_lpz on grids with tt[0] /= 0: the phase exp(i z tt[0]) is lost (C54_lpz_start_refuted). With more samples than needed the transform fails for at most (N-degree-2)/2 values of exp(i z dt) and is exact elsewhere (C54_pade_exceptions); such values exist above the real axis, as the null vector of a Householder QR shows (C54_pade_spurious_refuted).
  Theorems: C54_pade_contract, C54_pade_rational, C54_pade_exact, C54_pade_exact_continued, C54_pade_resolves, C54_pade_exceptions, C54_pade_spurious_refuted, C54_lpz_exact, C54_herm2_quadratic, C54_lpz_start_refuted.
* **C55** Rational function representations agree — *proved*.  ZeroPole.eval/reciprocal/to_ratpol and RatPol.eval over every field; numpy's Polynomial.fromroots and evaluation modelled by their definition. The large z limit is proved over the complex numbers.
  Theorems: C55_to_ratpol, C55_poles_zeros, C55_reciprocal, C55_amplitude.
* **C56** Burg's reflection coefficients minimise the prediction error — *proved*.  
  Theorems: C56_burg_errors, C56_burg_optimal.
* **C57** Stable prediction: same as naive prediction without growing modes, bounded always — *proved*.  The eigen-decomposition is an oracle: contract needed for the equality, none for the bound.
  Theorems: C57_stable_equals_naive, C57_stable_bounded.
* **C58** Contradictory constraints are reported — *partial*.  Refuted: np.linalg.lstsq returns no residuals for the square system, so the check never fires; proved that it never raises.
  Theorems: C58_never_raises, C58_inconsistent_raises_refuted.
* **C59** Bosonic imaginary-time pole functions — *partial*.  Proved for positive poles and negative poles, including convergence of the bosonic Matsubara series to the value for 0 < tau < beta; the documented ValueError for a pole equal to 0 is refuted.
  Theorems: C59_matsubara, C59_formula, C59_negative_pole, C59_zero_pole_refuted, C59_boundary, C59_integral.
* **C60** Matrix decompositions reproduce the matrix and its resolvent — *partial*.  Proved whenever the call returns; refuted part: decompose_sym fails (division by zero) for isotropic eigenvectors, which numpy may return for degenerate complex symmetric matrices. eig, eigh, inv are oracles with per-call contracts.
  Theorems: C60_decompose_mat, C60_decompose_sym, C60_decompose_sym_rejects, C60_decompose_her, C60_decompose_her_rejects, C60_decompose_sym_isotropic_refuted, C60_decompose_her_every.
* **C61** BEB root equation uses the exact inverse of the local Green's function — *proved*.  Value of the root equation and characterisation of its zeros, full-rank and truncated.
  Theorems: C61_root_equation.
* **C62** Discrete Fourier transforms are truncated Matsubara series and Riemann sums — *proved*.  Every grid size, beta and data; fft calls modelled by their defining sums. For pole functions iw2tau_dft converges inside of the interval; at tau = 0 and beta it converges to half the jump (refutes convergence there without moments).
  Theorems: C62_iw2tau_series, C62_iw2tau_soft_series, C62_tau2iw_riemann, C62_tau2iw_ignores_beta, C62_tau2iv_riemann, C62_iw2tau_converges, C62_iw2tau_ends, C62_iw2tau_ends_refuted.
* **C63** polepade.continuation reproduces rational functions — *partial*.  continuation with all its stages (pole count from the data, poles and zeros from the generalised eigenvalues of null space blocks, asymptotic, residues with and without moments, rotation) is proved to reproduce every rational function with simple poles in exact arithmetic, for every back-end meeting its contract; the contracts are shown to be satisfiable (fundamental theorem of algebra and triangular form proved). Refuted parts: a single pole with degree -1 raises ValueError, real_asymp drops a complex amplitude, a sample at a zero gives no finite asymptotic, the weighted std is a variance. The argument vandermond may be any system of polynomials of degrees 0, 1, 2, ... (graded; C63_bases: the default and all numpy bases with a recurrence of three terms). Missing: noise and rounding.
  Theorems: C63_continuation_partial, C63_single_pole_refuted, C63_real_asymp_refuted, C63_zero_refuted, C63_std_refuted, C63_bases, C63_backends_exist, C63_svd.
* **C64** Lattice Green's functions are Hilbert transforms of the densities of states and Brillouin-zone averages — *proved*.  bethe, bethez (Z > 2) and box: gf_z is the integral of the returned dos over z - e for every z off the band; the chain: gf_z is the average of 1/(z - D cos k) over the Brillouin zone, and for any continuous function the improper integral against onedim_dos equals its average over the Brillouin zone. Square lattice: with an ellipk that computes Legendre's integral off [1, oo), gf_z is the iterated integral over the Brillouin zone of the resolvent of the Bloch band built from the neighbour list of LatMom_Spec; Fubini is proved for Lipschitz integrands. Lieb: C51_lieb with its hypotheses about mean and parent discharged. C64_elliptic: Legendre's integral itself satisfies computes_K and elliptic_like, so the oracle hypotheses of C51, C64, C65 are satisfiable. Not covered: integrals for the rectangular, triangular, cubic lattices.
  Theorems: C64_bethe, C64_bethez, C64_box, C64_onedim, C64_onedim_dos, C64_onedim_hilbert, C64_square, C64_lieb, C64_elliptic.
* **C65** Lattice Green's functions have the particle-hole and Schwarz reflection symmetry of their lattices — *proved*.  Particle-hole symmetry and Schwarz reflection of the models of all lattices; the simple cubic lattice's reflection is not claimed (its nested roots are only symmetric through an identity of the elliptic integral). bcc.dos against the boundary value for elliptic integrals that are continuous and symmetric off the cut.
  Theorems: C65_odd, C65_odd_box, C65_even, C65_conj, C65_conj_elliptic, C65_conj_derived, C65_bcc_dos.
* **C66** Multi-precision densities of states equal the vectorised ones — *partial*.  Proved for bethe, onedim, square, lieb, bcc, fcc and sc.gf_z_mp. sc.dos_mp agrees with sc.dos outside the expansion around the band centre and inside it for half_bandwidth=3; for half_bandwidth=1 they differ arbitrarily close to the centre since the energy is not rescaled (C66_sc_refuted). triangular, honeycomb, kagome: exact up to the factor c*pi^2/2 where c is the double 2/np.pi**2, which is not 1 (C66_triangular_refuted). Elliptic integrals are oracles.
  Theorems: C66_closed, C66_fcc, C66_triangular_partial, C66_triangular_refuted, C66_sc_gf, C66_sc_partial, C66_sc_expansion_partial, C66_sc_refuted.
* **C67** square.stress_trafo is the Hilbert transform weighted with the inverse mass — *proved*.  square.stress_trafo is the Brillouin zone average of the second derivative of the band times the resolvent; elliptic integral as in C64.
  Theorems: C67_stress.
* **C68** The deprecated density converges to the particle number and its error estimates bound the truncation error — *partial*.  Convergence for scalar potentials, totals and matrix potentials with real eigenvectors, exactness for the tail, both error bounds (density_error2 is too large by pi^2) and the data of check_convergence are proved. Refuted: density with a complex Hermitian matrix raises TypeError; check_convergence(matrix=True) raises ValueError; the signed estimate used for the warning can be negative. np.linalg.eigh is an exact oracle.
  Theorems: C68_limit, C68_exact, C68_total, C68_matrix, C68_matrix_refuted, C68_error, C68_error2, C68_check_convergence, C68_check_convergence_matrix_refuted, C68_noisy_refuted.
* **C69** Padé frequencies reproduce the Fermi function and replace the Matsubara frequencies in density_iw — *proved*.  All clauses: shape, order and sign of frequencies and residues, passing of the assertions, error bound of the Fermi function from the continued fraction of tanh, convergence with num, error of density_iw (default and arbitrary moments), independence of the eigenvalue routine, scaling, closed form for num = 1. scipy.linalg.eig(a, b) and np.linalg.inv are exact oracles with satisfiable contracts (success for every num is proved possible through the spectral theorem); exact arithmetic, so np.allclose and np.iscomplex see no rounding.
  Theorems: C69_returns, C69_fermi, C69_converges, C69_density, C69_density_moments, C69_unique, C69_scaling, C69_one, C69_example.
* **C70** The Green's functions given by elliptic integrals are the local Green's functions of their lattices — *partial*.  Proved for the rectangular, triangular, honeycomb, kagome, simple, body-centred and face-centred cubic lattices, for every complex z off the band. For the triangular, honeycomb, kagome and face-centred cubic lattices there is a curve on which the parameter of an elliptic integral is on its branch cut: with an elliptic integral continuous from above on the cut the claim holds there too (C70_*_above), with one continuous from below (documented for mpmath) it is refuted (C70_triangular_below_refuted at z = -sqrt(3) below the band, C70_fcc_below_refuted). The mask of the triangular lattice at z = -1 is refuted.
  Theorems: C70_rectangular, C70_rectangular_square, C70_triangular, C70_triangular_mask_refuted, C70_honeycomb, C70_kagome, C70_bcc, C70_sc, C70_fcc, C70_fcc_real, C70_triangular_above, C70_honeycomb_above, C70_kagome_above, C70_fcc_above, C70_triangular_below_refuted, C70_fcc_below_refuted.
* **C71** The densities of states given by elliptic integrals are the spectral functions of their own lattices — *proved*.  One theorem per lattice; the limit is over the whole upper half plane and the Green's function is the Brillouin zone average (LatSpf_Spec), not the gf_z of the code. Energies left out: band edges, van Hove singularities and flat bands as listed in each theorem; for sc the interval |3 eps/D| < small in which the code uses an expansion. For the rectangular lattice scale > 0; with scale = 0 the code divides by zero (C71_rectangular_scale0_refuted); at its band edge the code returns the value a relative machine epsilon inside the band (C71_rectangular_edge). The dos of the chain, Bethe and box are treated in C05, C51 and C64.
  Theorems: C71_rectangular_edge, C71_square, C71_rectangular, C71_rectangular_scale0_refuted, C71_triangular, C71_bcc, C71_sc, C71_fcc, C71_lieb, C71_honeycomb, C71_kagome.
* **C72** The density of states of a lattice is the distribution of its band energies and its Hilbert transform is gf_z — *proved*.  One theorem per lattice (C72_<lattice>): the model of dos equals a function d off finitely many energies, and the improper integral of d phi is the Brillouin zone average of phi of the band energies, for every phi continuous on the band. C72_<lattice>_gf: the integral of d/(z - e) is the value of gf_z (on the cut of the elliptic integral under the convention cut_from_above, see C70), C72_normalised: weights 1 and 2/3. The eigenvalues for several sites are characterised by the trace of the resolvent of the Bloch matrix. For the simple cubic lattice d is the formula without the expansion around e = 0; dos equals it outside of the interval of the expansion.
  Theorems: C72_square, C72_triangular, C72_rectangular, C72_bcc, C72_sc, C72_fcc, C72_honeycomb, C72_kagome, C72_lieb, C72_square_gf, C72_rectangular_gf, C72_triangular_gf, C72_bcc_gf, C72_sc_gf, C72_fcc_gf, C72_honeycomb_gf, C72_kagome_gf, C72_lieb_gf, C72_normalised, C72_onedim, C72_onedim_gf.
* **C73** dos_moment gives the moments of dos — *proved*.  C73_<lattice>_walks: the improper integral of e^m d(e) is t^m times the number of closed walks per site, for every m (the Brillouin zone average of the trace of the m-th power of the Bloch matrix; for several sites the power sums of the spectrum are the traces of the powers); C73_<lattice>: agreement with the table. d is any function which has the values of dos away from the singular energies; simple cubic: of the formula without the expansion around 0. The rounding of the literals to double is not modelled. bethe and box: see C50_bethe, C50_box. rectangular and bethez have no dos_moment.
  Theorems: C73_square_walks, C73_triangular_walks, C73_bcc_walks, C73_sc_walks, C73_fcc_walks, C73_honeycomb_walks, C73_kagome_walks, C73_lieb_walks, C73_square, C73_triangular, C73_bcc, C73_sc, C73_fcc, C73_honeycomb, C73_kagome, C73_lieb, C73_onedim_walks, C73_onedim.
* **C74** masked_coefficients eliminates points and keeps Pade coefficients — *proved*.  Masked_Model over exact complex numbers, the literal 1e-4 is exact and infinite entries are values. Tameness (Masked_Spec) is stated on the inverse differences; the negative half of the statement is a theorem (truncation) with a witness (refuted). C74_point, C74_huge_pole and C74_tiny_zero follow the value of one remaining point without assumptions on the others: interpolated, pole or zero of the continued fraction.
  Theorems: C74_ok, C74_assertion, C74_like_coefficients, C74_kept, C74_kept_interpolates, C74_point, C74_huge_pole, C74_tiny_zero, C74_bounded, C74_truncates, C74_interpolates_remaining_refuted.
* **C75** Averager and Mod_Averager: mean and error at every output point — *proved*.  PadeMod_Model: approximants are rows over the output points, NaN is a value; mod_fct is an arbitrary function on rows which broadcasts over leading axes. The parts which differ from the documentation are refuted with witnesses.
  Theorems: C75_average, C75_mod_average, C75_mod_average_stacked, C75_linear, C75_error_bounds_spread, C75_error_zero, C75_variance_refuted, C75_nan_dropped_refuted, C75_stacked_invalid_refuted.
* **C76** averaged and avg_no_neg_imag from end to end — *proved*.  PadeFull_Model composes coefficients, calc_iterator, the kind, apply_filter and Averager for one function. Giving both or none of fct_z and coeff is excluded by the type of the model. The samples reproduced are those with index at most k_start + 1, where k_start + 1 is n_min rounded up to the parity of the kind.
  Theorems: C76_no_neg_imag, C76_reproduces_samples, C76_returns.
* **C77** UDecomposition.s holds the singular values; legacy constructors — *proved*.  singular_values (UDec_Spec) is the singular value decomposition, stated without the model; numpy.linalg.eigh enters by its contract eigh_spec, which C60_decompose_her_every shows to be satisfiable for every Hermitian matrix; for decompose_hamiltonian the contract is that only the lower triangle is read. Stacks have one leading axis. The documentation promises descending order for every shape: C77_stacked_refuted. decompose_gf and from_gf are wrappers of decompose_mat (C60). SpecDec of beb.py inherits s, which is only logged there.
  Theorems: C77_singular_values, C77_operator_norm, C77_stacked_rows, C77_stacked_refuted, C77_hamiltonian_unchecked, C77_from_gf.
* **C78** residues_ols: constrained least-squares residues and their residual — *partial*.  misfit2, pole_moment (PResid_Spec) are stated without the model; QR, triangular solve and lstsq enter by the contracts of C35 (backend_ok) and the documented residuals of np.linalg.lstsq (lstsq_residuals), met together by C78_backend. Proved: constraint, optimality, residual with moments. Refuted part: without moments the second return value is the squared norm (C78_norm_refuted).
  Theorems: C78_moments, C78_free, C78_norm_refuted, C78_errors, C78_all_moments.
* **C79** beta=inf is zero temperature — *partial*.  IEEE rules for infinities and NaN are modelled (ZeroT_Model.v), signed zeros, overflow and rounding are not. Proved for all energies off the Fermi level; at the Fermi level the code returns NaN (C79_fermi_level_refuted).
  Theorems: C79_finite, C79_statistics, C79_tau, C79_occ, C79_tau_b, C79_gr_le, C79_siam, C79_fermi_level_refuted.
* **C80** BEB with component-independent hopping is the CPA — *proved*.  For exact arithmetic over any field with the eigen-decomposition and inverse oracles of C39; the calls of the root finder are not part of the claim.
  Theorems: C80_root_iff_cpa_root, C80_gf_loc_is_cpa, C80_beb_solution.
* **C81** The CPA equations are causal — *proved*.  Exact complex arithmetic; the Hilbert transform is any function with the retarded property, which is proved for the lattices of the package (elliptic integrals as in C64 and C70).
  Theorems: C81_step_physical, C81_iteration_physical, C81_components_retarded, C81_restricted_total, C81_levels, C81_density, C81_bethe, C81_onedim, C81_square, C81_sc, C81_bcc, C81_bethez, C81_box, C81_triangular, C81_fcc, C81_hermitian_lattice, C81_honeycomb, C81_kagome, C81_lieb, C81_rectangular.
* **C82** The BEB local Green's function is causal — *proved*.  Exact complex arithmetic; inv, eig, eigh and emath.sqrt of numpy meet the specification beb_env of C39; densities of states are discrete with any number of levels, or continuous on a finite band (C82_lattice_integral, C82_density_retarded, C82_density_definite, C82_density_components); the statements on the root equation are for discrete densities.
  Theorems: C82_lattice_sum, C82_retarded, C82_components_retarded, C82_effective_medium, C82_start_physical, C82_lattice_integral, C82_density_retarded, C82_medium_damping, C82_solution_bound, C82_density_definite, C82_density_components.

## Findings

Behaviour of the code that differs from its documentation or from what a caller may expect.  Those with a
theorem are proved of the model, the others were noticed while modelling.

* pade.py
  * `averaged`/`Averager`: fewer approximants than `len(kind)` are produced, an empty average is possible, stacked masks raise IndexError (C06_*_refuted).
  * A NaN in an approximant marked invalid spoils the average of stacked masks (C07_*_refuted).
  * `FilterNegImagNum(rel_num=...)` and `apply_filter` with a single filter do not do what is documented (C08_*_refuted).
  * `FilterHighVariance`: the discarded approximants are not those that were removed; `rel_num` may round to zero (C09_*_refuted).
  * `masked_coefficients` sets the coefficients of eliminated points to zero, but `calc_iterator` with the same points then ignores all data behind the first eliminated point (C74_truncates, C74_interpolates_remaining_refuted); the cutoff 1e-4 is absolute, so a function of small magnitude raises AssertionError (C74_assertion).
  * `err` of `Averager`/`Mod_Averager` is documented as variance but is the standard deviation, NaN for a single valid approximant; `Mod_Averager` drops NaNs of `mod_fct` without notice, and for stacked masks hands rows of NaN to `mod_fct` (C75_*_refuted).
* hermpade.py
  * `pader` returns 0/1 for num_deg=0, raises ValueError for den_deg=0 (C13_*_refuted); `pade_lstsq` ignores `fix_q` and needs den_deg >= 1 (C14_*_refuted).
  * `_Hermite2Ret.from_taylor` has its degree arguments in reversed order.
* linearprediction.py
  * `predict` with more coefficients than data uses a negative slice; a real array `x` with complex coefficients cannot hold the prediction.
* linalg.py
  * `orth_compl` of a tall matrix with dependent columns returns only part of the orthogonal complement (C25_complement_rank_refuted).
  * `lstsq_ec`: `rcond` is ignored; the check for inconsistent constraints never fires for square systems (C58_*_refuted).
* basis/pole.py, density.py, __init__.py
  * Purely imaginary complex poles lose the Fermi factor in `gf_tau` (C21_*_refuted).
  * `gf_from_tau`: the row for `occ` is duplicated, `occ` without moments raises ValueError, `occ=0` is ignored (C26_*_refuted); n_pole=0 gives ZeroDivisionError.
  * `pole_gf_tau_b` does not raise the documented ValueError for a pole at 0 (C59_*_refuted).
* statistics.py
  * Integer arguments of `fermi_fct`/`fermi_fct_d1`/`bose_fct` are truncated since the result buffer has the integer dtype (C28_*_refuted).
* matrix.py, siam.py
  * `UDecomposition.s` of stacked matrices: `np.sort(...)[::-1]` reverses the first axis, so the matrices are exchanged and the values ascend (C77_stacked_refuted); it is only logged by beb.py.
  * `decompose_hamiltonian` uses `check=False`: for a matrix that is not Hermitian it silently decomposes the Hermitian matrix with the same lower triangle (C77_hamiltonian_unchecked).
  * `gf0_loc_z` is not finite at z = e_bath; `hamiltonian_matrix` truncates energies to the dtype of an integer hopping (C34_*_refuted).
  * `decompose_sym` divides by zero for isotropic eigenvectors (C60_*_refuted); `gf_2x2_z` is not finite for degenerate levels without hopping.
* cpa.py, beb.py
  * `_split` fails for scalars in front because `np.prod(())` is a float (C37_*_refuted); `restrict_self_root_eq` changes its argument in place; the default `occ=None` of the fixed occupation solver never returns (C38); `solve_root` with a list of on-site energies and `self_cpa_z0` given raises TypeError.
  * The CPA equivalence fails where the Hilbert transform vanishes (C35_*_refuted); beb: a zero eigenvalue of the reduced matrix gives a division by zero (C39_*_refuted); a hopping given as list has no `.shape`.
* polepade.py
  * `number_poles`: too few points give k+1 poles or RuntimeError, endless loops for n_poles0=0 and degree 1, AssertionError for z.size - degree even and <= 100 with the default start (C40_*_refuted).
  * `continuation` of a function with a single pole raises ValueError with the default degree -1; `real_asymp` drops a complex amplitude; a sample at a zero of the function spoils the asymptotic; the weighted `std` of `asymptotic` is a variance (C63_*_refuted).
  * `residues_ols` returns the norm of the residual with `moments`, but its square without, or nothing if there are no more samples than poles (C78_norm_refuted, C78_free).
  * `residues_ols`: the error message for too many moments says too many poles; `degree <= -2` makes slices wrap around.
* statistics.py, basis/pole.py, siam.py with beta=np.inf
  * a pole, energy or eigenvalue at exactly the Fermi level gives NaN although the zero temperature limit exists (C79_fermi_level_refuted).
* fourier.py
  * `tau2iw_ft_lin` is exact iff g(0)+g(beta)=0; `tt2z_lin` accepts tiny non-equidistant grids because of `atol` (C42_*_refuted); `tt2z_simps` does not check equidistance, for two points its weights are 5/6 and 1/2 (C43_*_refuted).
  * `tt2z_pade` with more samples than the signal needs has common zeros of numerator and denominator, also above the real axis, where it is 0/0 (C54_pade_spurious_refuted).
  * `iw2tau_dft` does not converge at tau = 0 and beta whatever the number of frequencies (C62_iw2tau_ends_refuted); `tau2iw_dft` ignores g(beta); `tau2iw` with an empty list of moments raises IndexError; `tt2z_lpz` ignores the phase of tt[0] (C54_lpz_start_refuted).
* lattice
  * `center` of `bethe.gf_ret_t` and `box.gf_ret_t` is multiplied with the half-bandwidth (C52_center_refuted).
  * Lieb: documented hopping t=D*2**1.5 should be D*2**-1.5 (C50_lieb_hopping_refuted).
  * The last printed digit of 12 tabulated moments of fcc, triangular and kagome is not correctly rounded; fcc m=13 is off by 1.3 units (C50_digits_refuted).
  * `rectangular.dos` divides by sqrt(scale): for `scale=0`, where `gf_z` works, it raises ZeroDivisionError at every energy (C71_rectangular_scale0_refuted); at |eps| = D it returns the value at D (1 - 2.2e-16).
  * `dos_moment(0)` raises NotImplementedError for bethe, square, sc, bcc, triangular, honeycomb.
  * triangular: `singular = D*z == -1` after rescaling masks a regular frequency for D /= 1 (C51_triangular_scaling_refuted); below the band it returns -1j*inf where the Brillouin zone average is finite (C70_triangular_mask_refuted).
  * triangular, honeycomb, kagome and fcc: on a curve of frequencies off the band the parameter of the elliptic integral is on its cut [1, oo), where the code adds no correction; the result is right if the elliptic integral is continuous from above there and wrong if it is continuous from below, as mpmath documents (C70_triangular_below_refuted, C70_fcc_below_refuted). For floats the curve is met by accident only.
  * bethez for 1 < Z < 2: spurious pole outside the band (C48_low_coordination_refuted); for Z=2 `dos` is 0/0 at the band edge.
  * fcc.dos_mp: the guard `if 3 < eps < -1` is never true (harmless, C66_fcc) and the elliptic integrals are evaluated in double precision; triangular.dos_mp: the double `2 / np.pi**2` limits every precision (C66_triangular_refuted), honeycomb and kagome inherit it; sc.dos_mp: the expansion for small eps is not scaled with the half-bandwidth (C66_sc_refuted); bcc.dos, fcc.dos: `zeros_like(eps)` truncates for integer eps; fcc.dos at -0.5 D is inf.
* __init__.py (deprecated functions)
  * `density_error2` has the denominator `1./2.*np.pi/wn**2` where the integral test needs 1/(2 pi wn^2): the bound is valid but pi^2 too large (C68_error2); `check_convergence(matrix=True)` passes the arguments of the outer sum in the wrong order and raises ValueError (C68_check_convergence_matrix_refuted); `density(matrix=True)` adds a complex array in place to a real one for complex Hermitian matrices: TypeError (C68_matrix_refuted); the estimate behind `return_err` is a signed mean which can be negative, so that no warning is issued for a wrong result (C68_noisy_refuted).


## Testing the theorems

`seeded/LOG.jsonl` records wrong programs: realistic edits of the model definitions made in a scratch copy,
the claim each breaks, the theorems that failed to build, and the theorems tightened where none did.
