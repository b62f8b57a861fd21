{
 "claims": [
  {
   "property": "C01",
   "status": "proved",
   "theorems": [
    "C01_interpolation"
   ],
   "note": "For every field, all lengths; hypotheses: the yields concerned are finite (no division by zero)."
  },
  {
   "property": "C02",
   "status": "proved",
   "theorems": [
    "C02_continued_fraction",
    "C02_fraction_is_nested_division",
    "C02_finite",
    "C02_count"
   ],
   "note": "Value, three-term/continued-fraction form, sufficient condition for finiteness and number of yields."
  },
  {
   "property": "C03",
   "status": "proved",
   "theorems": [
    "C03_prefix_stable",
    "C03_length",
    "C03_error_iff_lengths_differ"
   ],
   "note": ""
  },
  {
   "property": "C04",
   "status": "proved",
   "theorems": [
    "C04_kindgf_tail",
    "C04_kindself_tail",
    "C04_kindgf_parity",
    "C04_kindself_parity"
   ],
   "note": "Formal degrees; leading denominator coefficient a1*a3*... given explicitly."
  },
  {
   "property": "C05",
   "status": "proved",
   "theorems": [
    "C05_kindgf_window",
    "C05_kindself_window"
   ],
   "note": ""
  },
  {
   "property": "C06",
   "status": "partial",
   "theorems": [
    "C06_count_refuted",
    "C06_empty_average_refuted",
    "C06_stacked_refuted",
    "C06_count_partial",
    "C06_accepted_kinds_are_good"
   ],
   "note": "The claim is false of the code: refuted with witnesses (count, empty average, stacked IndexError). Exact condition under which it holds is proved (C06_count_partial)."
  },
  {
   "property": "C07",
   "status": "partial",
   "theorems": [
    "C07_mean_of_valid",
    "C07_only_valid_matter",
    "C07_mean_of_valid_stacked",
    "C07_stacked_invalid_nan_refuted",
    "C07_rationals_have_char0",
    "C07_unfiltered",
    "C07_unfiltered_raises",
    "C07_unfiltered_stacked"
   ],
   "note": "Proved for 1-D masks and for stacked masks with finite approximants; refuted for a NaN in an invalid approximant of a stacked mask. The error estimate is C75."
  },
  {
   "property": "C08",
   "status": "partial",
   "theorems": [
    "C08_neg_imag",
    "C08_neg_imag_num",
    "C08_neg_imag_num_rel_refuted",
    "C08_apply_filter",
    "C08_apply_single_no_raise_refuted",
    "C08_argsort_contract_satisfiable",
    "C08_apply_filter_error"
   ],
   "note": "FilterNegImag, FilterNegImagNum(abs_num) and apply_filter with 0 or >=2 filters proved; rel_num and the single-filter raise are refuted."
  },
  {
   "property": "C09",
   "status": "partial",
   "theorems": [
    "C09_count",
    "C09_discarded_are_removed_refuted",
    "C09_rel_num_zero_refuted",
    "C09_greedy",
    "C09_one"
   ],
   "note": "Count proved; identity of discarded and removed approximants refuted; rel_num rounding to 0 refuted."
  },
  {
   "property": "C10",
   "status": "proved",
   "theorems": [
    "C10_pade_accurate",
    "C10_pade_accepts",
    "C10_pade_rejects",
    "C10_contracts_satisfiable"
   ],
   "note": "Null vector (QR) and Toeplitz solver are oracles with a contract that is shown satisfiable."
  },
  {
   "property": "C11",
   "status": "proved",
   "theorems": [
    "C11_hermite2_accurate",
    "C11_hermite2_accepts",
    "C11_hermite2_rejects",
    "C11_hermite2_lstsq",
    "C11_from_taylor",
    "C11_lstsq_contract_satisfiable"
   ],
   "note": "hermite2, hermite2_lstsq (conditional on a consistent system) and the degrees of the guiding Pade."
  },
  {
   "property": "C12",
   "status": "proved",
   "theorems": [
    "C12_branches_solve",
    "C12_branches_defined",
    "C12_branches_order",
    "C12_eval_nearest",
    "C12_eval_retarded"
   ],
   "note": "Complex numbers, principal square root; signed zeros not modelled; r(z)=0 is outside (non-finite)."
  },
  {
   "property": "C13",
   "status": "partial",
   "theorems": [
    "C13_zero_refuted",
    "C13_polynomial_refuted",
    "C13_polynomial_never",
    "C13_reduction_refuted",
    "C13_accuracy_partial"
   ],
   "note": "False of the code: num_deg=0, den_deg=0 and polynomials are refuted. Accuracy in the remaining cases is proved (C13_accuracy_partial)."
  },
  {
   "property": "C14",
   "status": "partial",
   "theorems": [
    "C14_degrees_partial",
    "C14_degree_refuted",
    "C14_fix_q_ignored"
   ],
   "note": "den_deg >= 1 proved; den_deg = 0 refuted; fix_q is ignored."
  },
  {
   "property": "C15",
   "status": "proved",
   "theorems": [
    "C15_predict_recurrence",
    "C15_predict_negative_num"
   ],
   "note": "1-D data; coefficient vector not longer than the series (the quantifier of the property)."
  },
  {
   "property": "C16",
   "status": "proved",
   "theorems": [
    "C16_covar_reproduces",
    "C16_covar_rejects"
   ],
   "note": "lstsq is an oracle with a contract; the residual vector replaces its norm."
  },
  {
   "property": "C17",
   "status": "proved",
   "theorems": [
    "C17_companion_steps",
    "C17_companion_eigenvalues",
    "C17_companion_rejects"
   ],
   "note": "Eigenvalues characterised by existence of an eigenvector, over every field."
  },
  {
   "property": "C18",
   "status": "proved",
   "theorems": [
    "C18_burg_stable",
    "C18_burg_reflection_bounded",
    "C18_burg_monotone"
   ],
   "note": "Complex 1-D data; a zero denominator (division by zero in the code) is an error value."
  },
  {
   "property": "C19",
   "status": "proved",
   "theorems": [
    "C19_moments_expansion",
    "C19_moments_asymptotic",
    "C19_gf_z_at_pole"
   ],
   "note": ""
  },
  {
   "property": "C20",
   "status": "proved",
   "theorems": [
    "C20_from_moments",
    "C20_width_None",
    "C20_no_moments",
    "C20_width_zero",
    "C20_single_moment",
    "C20_solve_exists"
   ],
   "note": "Relative to the contract of np.linalg.solve (satisfied by Gaussian elimination, C20_solve_exists)."
  },
  {
   "property": "C21",
   "status": "proved",
   "theorems": [
    "C21_matsubara",
    "C21_equal_time",
    "C21_formula",
    "C21_out_of_range",
    "C21_at_beta",
    "C21_boundary",
    "C21_nonpositive",
    "C21_equation_of_motion",
    "C21_complex_pole",
    "C21_complex_pole_refuted"
   ],
   "note": "Proved for real poles and complex poles with non-zero real part; the same formula is refuted for purely imaginary complex poles. For 0 < tau < beta the value is proved to be the limit of the truncated Matsubara series, at the ends the series gives the mean of both limits."
  },
  {
   "property": "C22",
   "status": "proved",
   "theorems": [
    "C22_siam_gr_le_ret",
    "C22_siam_causal",
    "C22_siam_spectral",
    "C22_ret_negative_time",
    "C22_ret_positive_time",
    "C22_gr_minus_le",
    "C22_fluctuation_dissipation"
   ],
   "note": "Pole functions and the SIAM impurity functions: greater - lesser = retarded, causality, and the spectral representation with non-negative weights summing to one. The Hermitian eigen-solver is an oracle with a per-call contract."
  },
  {
   "property": "C23",
   "status": "proved",
   "theorems": [
    "C23_derivative"
   ],
   "note": ""
  },
  {
   "property": "C24",
   "status": "proved",
   "theorems": [
    "C24_lstsq_ec",
    "C24_lstsq_ec_complex",
    "C24_lstsq_ec_unconstrained",
    "C24_backend_exists",
    "C24_lstsq_ec_rank_deficient"
   ],
   "note": "QR, triangular solve and lstsq are oracles with contracts for the calls made; field-generic, instantiated with complex Euclidean norm. 2-D arrays."
  },
  {
   "property": "C25",
   "status": "proved",
   "theorems": [
    "C25_orth_compl",
    "C25_orth_compl_rejects",
    "C25_complement",
    "C25_complement_needs_rank",
    "C25_complement_rank_refuted"
   ],
   "note": "QR is an oracle (any complete QR decomposition). Without linear independence of the columns part of the complement is missing (C25_complement_rank_refuted)."
  },
  {
   "property": "C26",
   "status": "partial",
   "theorems": [
    "C26_from_z",
    "C26_from_z_overconstrained",
    "C26_from_tau",
    "C26_from_tau_overconstrained",
    "C26_from_tau_occ_partial",
    "C26_from_tau_occ_optimal_partial",
    "C26_from_tau_occ_shape",
    "C26_from_tau_occ_only",
    "C26_iff_overconstrained_refuted",
    "C26_occ_only_refuted",
    "C26_occ_zero_refuted"
   ],
   "note": "gf_from_z and gf_from_tau without occ: moments exact, ValueError when overconstrained, optimal residues, for every exact-arithmetic back-end. With occ the moments and occupation are honoured only when n_pole >= 2*len(moments); refuted otherwise (ValueError although solvable; occ without moments always ValueError; occ=0 ignored). n_pole = 0 raises ZeroDivisionError."
  },
  {
   "property": "C27",
   "status": "proved",
   "theorems": [
    "C27_fermi_definition",
    "C27_fermi_bounds",
    "C27_fermi_decreasing",
    "C27_fermi_symmetric",
    "C27_fermi_inv_left",
    "C27_fermi_inv_right",
    "C27_fermi_derivative",
    "C27_fermi_complex",
    "C27_fermi_complex_on_reals",
    "C27_no_overflow"
   ],
   "note": ""
  },
  {
   "property": "C28",
   "status": "partial",
   "theorems": [
    "C28_bose_definition_partial",
    "C28_bose_zero",
    "C28_bose_symmetric",
    "C28_bose_positive",
    "C28_bose_integers_truncated",
    "C28_bose_definition_refuted"
   ],
   "note": "Proved for float arguments; refuted for integer arguments (result buffer has the integer dtype, so values are truncated)."
  },
  {
   "property": "C29",
   "status": "proved",
   "theorems": [
    "C29_matsubara_fermionic",
    "C29_matsubara_bosonic",
    "C29_matsubara_complete",
    "C29_matsubara_symmetric",
    "C29_matsubara_spacing"
   ],
   "note": ""
  },
  {
   "property": "C30",
   "status": "proved",
   "theorems": [
    "C30_returns_genuine",
    "C30_complete",
    "C30_not_converged",
    "C30_root",
    "C30_monotone"
   ],
   "note": "root_scalar is an arbitrary oracle returning (root, converged) or an exception; reals, no NaN."
  },
  {
   "property": "C31",
   "status": "proved",
   "theorems": [
    "C31_exact_for_tail",
    "C31_exact_for_fit",
    "C31_error",
    "C31_limit"
   ],
   "note": "n_fit = 0: exact for the tail with any frequencies/weights; n_fit >= 1: exact for every function on the fitted poles with the given moments when 2*N >= n_pole; the exact error formula for arbitrary pole functions; and convergence to the occupation for every pole function when the first N Matsubara frequencies with unit weights are used and the first moment is right. np.linalg.solve / lstsq are exact-arithmetic oracles."
  },
  {
   "property": "C32",
   "status": "proved",
   "theorems": [
    "C32_diag_is_diagonal",
    "C32_inverse",
    "C32_product",
    "C32_other_kinds",
    "C32_construct_gf"
   ],
   "note": "All kinds; inverse and product of reconstructions; einsum itself is an opaque argument. numpy's broadcasting of axes of length one is not modelled."
  },
  {
   "property": "C33",
   "status": "proved",
   "theorems": [
    "C33_resolvent_diagonal",
    "C33_real_energies",
    "C33_hilbert"
   ],
   "note": "Complex arithmetic with the principal square root; trivial Hilbert transform and discrete densities of states."
  },
  {
   "property": "C34",
   "status": "partial",
   "theorems": [
    "C34_resolvent_partial",
    "C34_finite_only_off_spectrum",
    "C34_hermitian",
    "C34_hybridization",
    "C34_bath_energy_refuted",
    "C34_integer_hopping_refuted"
   ],
   "note": "Proved for z different from every bath energy and hoppings whose dtype keeps the energies; refuted at z = e_bath (non-finite although the resolvent exists) and for integer hoppings (energies truncated in hamiltonian_matrix)."
  },
  {
   "property": "C35",
   "status": "partial",
   "theorems": [
    "C35_root_iff_cpa_condition_partial",
    "C35_components",
    "C35_root_value",
    "C35_fixed_point",
    "C35_single_component",
    "C35_shift",
    "C35_zero_gf_refuted"
   ],
   "note": "Root equation zero iff averaged component Green's functions equal the coherent one, for every field, Hilbert transform and component list, given g<>0; its value is 1/g - 1/average; fixed points, single component and shift invariance. Missing: g=0, where the equivalence is refuted."
  },
  {
   "property": "C36",
   "status": "proved",
   "theorems": [
    "C36_beb_zero_is_physical_root",
    "C36_beb_physical_unchanged",
    "C36_beb_values",
    "C36_zero_is_physical_root",
    "C36_physical_unchanged",
    "C36_values"
   ],
   "note": "cpa: zero of the restricted function iff physical root (any Hilbert transform, any array length), values of clipped entries, in-place change of the argument. beb: the same for the diagonal, for any shape-preserving root function."
  },
  {
   "property": "C37",
   "status": "partial",
   "theorems": [
    "C37_split_join_partial",
    "C37_join_split",
    "C37_scalar_refuted",
    "C37_scalar_always_fails"
   ],
   "note": "Round trips for arrays of all shapes; a scalar in any position but the last is refuted (TypeError because np.prod(()) is a float)."
  },
  {
   "property": "C38",
   "status": "proved",
   "theorems": [
    "C38_beb_solve_root",
    "C38_beb_failure",
    "C38_beb_correct",
    "C38_beb_no_assertion",
    "C38_solve_root",
    "C38_solve_root_correct",
    "C38_fxdocc",
    "C38_fxdocc_failure",
    "C38_occ_none_fails"
   ],
   "note": "All three solvers for an arbitrary root finder oracle; result only on success, RuntimeError otherwise; exact zero of the solver's function gives the CPA/BEB equation, for fixed occupation with on-site energies shifted by the returned mu and the requested occupation. occ=None (the default) never returns."
  },
  {
   "property": "C39",
   "status": "partial",
   "theorems": [
    "C39_lattice_sum_partial",
    "C39_diag",
    "C39_partition",
    "C39_zero_eigenvalue_refuted"
   ],
   "note": "Lattice sum identity for every field, component number, rank and discrete DOS (full-rank and truncated branch), diag=True, partition. Hypotheses: numpy contracts, discarded eigenvalues are exactly zero. Refuted where the reduced matrix has a zero eigenvalue (division by zero although the sum exists)."
  },
  {
   "property": "C40",
   "status": "partial",
   "theorems": [
    "C40_columns",
    "C40_columns_refuted",
    "C40_terminates_partial",
    "C40_result",
    "C40_exact",
    "C40_tight_refuted",
    "C40_zero_start_refuted",
    "C40_degree_refuted",
    "C40_assertion_refuted",
    "C40_exact_data"
   ],
   "note": "number_poles with the numerical rank as oracle: result, exactness for rational data with at least 2k+degree+5 points and termination proved; C40_exact_data derives the rank from samples of a rational function and the contracts of QR and SVD. Refuted parts: fewer points give k+1 poles or RuntimeError (C40_tight_refuted), endless loops for n_poles0=0 and for degree 1, AssertionError for an even number z.size-degree <= 100 with the default start value, and for degree < -n-1 the slice [..., :n_zeros+1] with a negative end keeps numerator columns which should not exist (C40_columns_refuted)."
  },
  {
   "property": "C41",
   "status": "proved",
   "theorems": [
    "C41_dft_roundtrip",
    "C41_dft_empty",
    "C41_dft_roundtrip_tau",
    "C41_dft_injective"
   ],
   "note": "iw2tau_dft followed by tau2iw_dft returns the input for every non-empty list and non-zero beta; the converse holds up to the value at beta, which tau2iw_dft ignores."
  },
  {
   "property": "C42",
   "status": "partial",
   "theorems": [
    "C42_tau2iv_ft_lin",
    "C42_tau2iv_ft_lin_total",
    "C42_interpolant",
    "C42_tau2iw_ft_lin_error",
    "C42_tau2iw_ft_lin_partial",
    "C42_tau2iw_ft_lin_refuted",
    "C42_tt2z_lin",
    "C42_tt2z_lin_total",
    "C42_tt2z_lin_refuted"
   ],
   "note": "tau2iv_ft_lin exact for every grid size and frequency including zero; tt2z_lin exact on equidistant grids, every z; tau2iw_ft_lin exact iff g(0)+g(beta)=0 (refuted otherwise, with the exact error); tt2z_lin refuted on tiny non-equidistant grids that np.isclose accepts."
  },
  {
   "property": "C43",
   "status": "partial",
   "theorems": [
    "C43_tt2z_trapz",
    "C43_tt2z_trapz_total",
    "C43_tt2z_trapz_integral",
    "C43_simps_cubic",
    "C43_simps_linear",
    "C43_simps_sum",
    "C43_trapz_linear",
    "C43_tt2z_simps",
    "C43_simps_two_points_refuted"
   ],
   "note": "Trapezoidal rule on any grid; Simpson weights exact for cubic (odd) and linear (even, at least 4 points) data; refuted for two points."
  },
  {
   "property": "C44",
   "status": "proved",
   "theorems": [
    "C44_tt2z_guard"
   ],
   "note": "The guard of tt2z for one-dimensional arrays and every back-end."
  },
  {
   "property": "C45",
   "status": "proved",
   "theorems": [
    "C45_pole_pair",
    "C45_iw2tau_adds_back",
    "C45_iw2tau_exact",
    "C45_iw2tau_fit_exact",
    "C45_tau2iw_adds_back",
    "C45_tau2iw_exact",
    "C45_backends_zero",
    "C45_izp2tau_exact",
    "C45_tau2izp_exact",
    "C45_izp2tau_width",
    "C45_tau2izp_width",
    "C45_tau2iv_adds_back",
    "C45_tau2iv_ft_lin",
    "C45_iw2tau_converges"
   ],
   "note": "For every back-end: iw2tau with moments and tau2iw with moments subtract one fixed pole function with exactly these moments and add back its transform (adds_back theorems: result = back-end(rest) + exact transform); pole functions lying in the fitted space are transformed exactly (fit theorems); iw2tau with iw2tau_dft and the right first moment converges on the closed interval for every pole function; tau2iv transforms the linear part exactly and leaves the rest to the back-end; izp2tau/tau2izp exact for any non-zero optimiser width. lstsq/QR/solve are oracles with spec backend_ok/solve_spec (instance real_backend proved)."
  },
  {
   "property": "C46",
   "status": "proved",
   "theorems": [
    "C46_equation",
    "C46_finite",
    "C46_branch",
    "C46_inverse"
   ],
   "note": "For every z other than 0 and D > 0 over exact complex numbers; signed zeros on the cut are not modelled."
  },
  {
   "property": "C47",
   "status": "proved",
   "theorems": [
    "C47_d1",
    "C47_d2"
   ],
   "note": "Complex derivative at every z off the band, D > 0."
  },
  {
   "property": "C48",
   "status": "proved",
   "theorems": [
    "C48_chain",
    "C48_bethe_limit",
    "C48_cavity",
    "C48_dos_chain",
    "C48_low_coordination_refuted"
   ],
   "note": "Chain identity for gf_z and dos for every argument, limit and cavity equations; C48_low_coordination_refuted records that for 1 < Z < 2, which the code accepts, gf_z has a pole outside the band."
  },
  {
   "property": "C49",
   "status": "proved",
   "theorems": [
    "C49_bethe",
    "C49_onedim",
    "C49_bethez",
    "C49_box",
    "C49_shape"
   ],
   "note": "One-sided limit of -Im gf_z(eps+ih)/pi for all energies except the band edges of onedim, box and bethez(Z=2) where the function diverges or jumps; bethez for Z >= 2."
  },
  {
   "property": "C50",
   "status": "proved",
   "theorems": [
    "C50_onedim",
    "C50_square",
    "C50_sc",
    "C50_bcc",
    "C50_fcc",
    "C50_triangular",
    "C50_honeycomb",
    "C50_kagome",
    "C50_lieb",
    "C50_digits",
    "C50_digits_refuted",
    "C50_bethe",
    "C50_box",
    "C50_orders",
    "C50_lieb_hopping_refuted"
   ],
   "note": "All literals of dos_moment_coefficients against closed-walk counts on explicitly defined neighbour graphs (all orders accepted), odd orders for all m by two-colouring, bethe and box against the integral over the modelled dos; C50_lieb_hopping_refuted records the documented hopping t=D*2**1.5. Decimal literals agree to 4e-15 relative; C50_digits: correctly rounded to 15 digits for onedim, square, sc, bcc, honeycomb, lieb, within one unit of the 15th digit for triangular and kagome, 1.4 units for fcc (C50_digits_refuted: the 13th moment of fcc is off by 1.3 units, not all printed digits are right)."
  },
  {
   "property": "C51",
   "status": "partial",
   "theorems": [
    "C51_honeycomb",
    "C51_kagome",
    "C51_lieb",
    "C51_honeycomb_dos",
    "C51_kagome_dos",
    "C51_lieb_dos",
    "C51_weights",
    "C51_scaling_gf",
    "C51_scaling_dos",
    "C51_rectangular",
    "C51_elliptic_scaling_gf",
    "C51_elliptic_scaling_dos",
    "C51_triangular_scaling_partial",
    "C51_triangular_scaling_refuted"
   ],
   "note": "Honeycomb, kagome and Lieb Green's functions are the Bloch averages of the resolvents of their own lattices, dos is the boundary value of the Green's function, weights add up to one, scale covariance for every lattice. Missing: the triangular lattice masks the frequency -1 for every half-bandwidth (C51_triangular_scaling_refuted), covariance holds otherwise (C51_triangular_scaling_partial)."
  },
  {
   "property": "C52",
   "status": "partial",
   "theorems": [
    "C52_box_transform",
    "C52_bethe_transform",
    "C52_retarded",
    "C52_center_partial",
    "C52_center_unit_partial",
    "C52_center_refuted"
   ],
   "note": "The retarded functions of the box and Bethe lattice with center 0 are proved to be -i times the Fourier integral of the dos over its support for every t >= 0 and D > 0: exactly for D t >= small, within (D t)^6/5040 (box) or (D t)^6/9216 (Bethe) where the code uses its Taylor expansion. They vanish for t < 0. The documented role of center, a rotation with exp(-i center t), is refuted for every D /= 1: the code multiplies center by half_bandwidth (C52_center_refuted). It is proved as documented for D = 1, and with the extra factor D in general. Oracle: jv(1, x) as Bessel's integral."
  },
  {
   "property": "C53",
   "status": "proved",
   "theorems": [
    "C53_surface",
    "C53_hubbard_I",
    "C53_dimer",
    "C53_dimer_particle_hole",
    "C53_dimer_weight"
   ],
   "note": "Dimer against exact diagonalisation of the documented Hamiltonian on the 16-dimensional Fock space; t /= 0 or U > 0."
  },
  {
   "property": "C54",
   "status": "partial",
   "theorems": [
    "C54_pade_contract",
    "C54_pade_rational",
    "C54_pade_exact",
    "C54_pade_exact_continued",
    "C54_pade_resolves",
    "C54_pade_exceptions",
    "C54_pade_spurious_refuted",
    "C54_lpz_exact",
    "C54_herm2_quadratic",
    "C54_lpz_start_refuted"
   ],
   "note": "tt2z_pade: rational function of exp(i z dt) matching the weighted data to the guaranteed order, exact (limit of the infinite quadrature sum, and its continuation) for sums of n exponentials with 2n+1 samples, no spurious pole when the order is tight; tt2z_lpz exact for order > n; tt2z_herm2 solves the matching quadratic. Not true of tt2z_lpz on grids with tt[0] /= 0: the phase exp(i z tt[0]) is lost (C54_lpz_start_refuted). With more samples than needed the transform fails for at most (N-degree-2)/2 values of exp(i z dt) and is exact elsewhere (C54_pade_exceptions); such values exist above the real axis, as the null vector of a Householder QR shows (C54_pade_spurious_refuted)."
  },
  {
   "property": "C55",
   "status": "proved",
   "theorems": [
    "C55_to_ratpol",
    "C55_poles_zeros",
    "C55_reciprocal",
    "C55_amplitude"
   ],
   "note": "ZeroPole.eval/reciprocal/to_ratpol and RatPol.eval over every field; numpy's Polynomial.fromroots and evaluation modelled by their definition. The large z limit is proved over the complex numbers."
  },
  {
   "property": "C56",
   "status": "proved",
   "theorems": [
    "C56_burg_errors",
    "C56_burg_optimal"
   ],
   "note": ""
  },
  {
   "property": "C57",
   "status": "proved",
   "theorems": [
    "C57_stable_equals_naive",
    "C57_stable_bounded"
   ],
   "note": "The eigen-decomposition is an oracle: contract needed for the equality, none for the bound."
  },
  {
   "property": "C58",
   "status": "partial",
   "theorems": [
    "C58_never_raises",
    "C58_inconsistent_raises_refuted"
   ],
   "note": "Refuted: np.linalg.lstsq returns no residuals for the square system, so the check never fires; proved that it never raises."
  },
  {
   "property": "C59",
   "status": "partial",
   "theorems": [
    "C59_matsubara",
    "C59_formula",
    "C59_negative_pole",
    "C59_zero_pole_refuted",
    "C59_boundary",
    "C59_integral"
   ],
   "note": "Proved for positive poles and negative poles, including convergence of the bosonic Matsubara series to the value for 0 < tau < beta; the documented ValueError for a pole equal to 0 is refuted."
  },
  {
   "property": "C60",
   "status": "partial",
   "theorems": [
    "C60_decompose_mat",
    "C60_decompose_sym",
    "C60_decompose_sym_rejects",
    "C60_decompose_her",
    "C60_decompose_her_rejects",
    "C60_decompose_sym_isotropic_refuted",
    "C60_decompose_her_every"
   ],
   "note": "Proved whenever the call returns; refuted part: decompose_sym fails (division by zero) for isotropic eigenvectors, which numpy may return for degenerate complex symmetric matrices. eig, eigh, inv are oracles with per-call contracts."
  },
  {
   "property": "C61",
   "status": "proved",
   "theorems": [
    "C61_root_equation"
   ],
   "note": "Value of the root equation and characterisation of its zeros, full-rank and truncated."
  },
  {
   "property": "C62",
   "status": "proved",
   "theorems": [
    "C62_iw2tau_series",
    "C62_iw2tau_soft_series",
    "C62_tau2iw_riemann",
    "C62_tau2iw_ignores_beta",
    "C62_tau2iv_riemann",
    "C62_iw2tau_converges",
    "C62_iw2tau_ends",
    "C62_iw2tau_ends_refuted"
   ],
   "note": "Every grid size, beta and data; fft calls modelled by their defining sums. For pole functions iw2tau_dft converges inside of the interval; at tau = 0 and beta it converges to half the jump (refutes convergence there without moments)."
  },
  {
   "property": "C65",
   "status": "proved",
   "theorems": [
    "C65_odd",
    "C65_odd_box",
    "C65_even",
    "C65_conj",
    "C65_conj_elliptic",
    "C65_conj_derived",
    "C65_bcc_dos"
   ],
   "note": "Particle-hole symmetry and Schwarz reflection of the models of all lattices; the simple cubic lattice's reflection is not claimed (its nested roots are only symmetric through an identity of the elliptic integral). bcc.dos against the boundary value for elliptic integrals that are continuous and symmetric off the cut."
  },
  {
   "property": "C64",
   "status": "proved",
   "theorems": [
    "C64_bethe",
    "C64_bethez",
    "C64_box",
    "C64_onedim",
    "C64_onedim_dos",
    "C64_onedim_hilbert",
    "C64_square",
    "C64_lieb",
    "C64_elliptic"
   ],
   "note": "bethe, bethez (Z > 2) and box: gf_z is the integral of the returned dos over z - e for every z off the band; the chain: gf_z is the average of 1/(z - D cos k) over the Brillouin zone, and for any continuous function the improper integral against onedim_dos equals its average over the Brillouin zone. Square lattice: with an ellipk that computes Legendre's integral off [1, oo), gf_z is the iterated integral over the Brillouin zone of the resolvent of the Bloch band built from the neighbour list of LatMom_Spec; Fubini is proved for Lipschitz integrands. Lieb: C51_lieb with its hypotheses about mean and parent discharged. C64_elliptic: Legendre's integral itself satisfies computes_K and elliptic_like, so the oracle hypotheses of C51, C64, C65 are satisfiable. Not covered: integrals for the rectangular, triangular, cubic lattices."
  },
  {
   "property": "C63",
   "status": "partial",
   "theorems": [
    "C63_continuation_partial",
    "C63_single_pole_refuted",
    "C63_real_asymp_refuted",
    "C63_zero_refuted",
    "C63_std_refuted",
    "C63_bases",
    "C63_backends_exist",
    "C63_svd"
   ],
   "note": "continuation with all its stages (pole count from the data, poles and zeros from the generalised eigenvalues of null space blocks, asymptotic, residues with and without moments, rotation) is proved to reproduce every rational function with simple poles in exact arithmetic, for every back-end meeting its contract; the contracts are shown to be satisfiable (fundamental theorem of algebra and triangular form proved). Refuted parts: a single pole with degree -1 raises ValueError, real_asymp drops a complex amplitude, a sample at a zero gives no finite asymptotic, the weighted std is a variance. The argument vandermond may be any system of polynomials of degrees 0, 1, 2, ... (graded; C63_bases: the default and all numpy bases with a recurrence of three terms). Missing: noise and rounding."
  },
  {
   "property": "C66",
   "status": "partial",
   "theorems": [
    "C66_closed",
    "C66_fcc",
    "C66_triangular_partial",
    "C66_triangular_refuted",
    "C66_sc_gf",
    "C66_sc_partial",
    "C66_sc_expansion_partial",
    "C66_sc_refuted"
   ],
   "note": "Proved for bethe, onedim, square, lieb, bcc, fcc and sc.gf_z_mp. sc.dos_mp agrees with sc.dos outside the expansion around the band centre and inside it for half_bandwidth=3; for half_bandwidth=1 they differ arbitrarily close to the centre since the energy is not rescaled (C66_sc_refuted). triangular, honeycomb, kagome: exact up to the factor c*pi^2/2 where c is the double 2/np.pi**2, which is not 1 (C66_triangular_refuted). Elliptic integrals are oracles."
  },
  {
   "property": "C67",
   "status": "proved",
   "theorems": [
    "C67_stress"
   ],
   "note": "square.stress_trafo is the Brillouin zone average of the second derivative of the band times the resolvent; elliptic integral as in C64."
  },
  {
   "property": "C68",
   "status": "partial",
   "theorems": [
    "C68_limit",
    "C68_exact",
    "C68_total",
    "C68_matrix",
    "C68_matrix_refuted",
    "C68_error",
    "C68_error2",
    "C68_check_convergence",
    "C68_check_convergence_matrix_refuted",
    "C68_noisy_refuted"
   ],
   "note": "Convergence for scalar potentials, totals and matrix potentials with real eigenvectors, exactness for the tail, both error bounds (density_error2 is too large by pi^2) and the data of check_convergence are proved. Refuted: density with a complex Hermitian matrix raises TypeError; check_convergence(matrix=True) raises ValueError; the signed estimate used for the warning can be negative. np.linalg.eigh is an exact oracle."
  },
  {
   "property": "C69",
   "status": "proved",
   "theorems": [
    "C69_returns",
    "C69_fermi",
    "C69_converges",
    "C69_density",
    "C69_density_moments",
    "C69_unique",
    "C69_scaling",
    "C69_one",
    "C69_example"
   ],
   "note": "All clauses: shape, order and sign of frequencies and residues, passing of the assertions, error bound of the Fermi function from the continued fraction of tanh, convergence with num, error of density_iw (default and arbitrary moments), independence of the eigenvalue routine, scaling, closed form for num = 1. scipy.linalg.eig(a, b) and np.linalg.inv are exact oracles with satisfiable contracts (success for every num is proved possible through the spectral theorem); exact arithmetic, so np.allclose and np.iscomplex see no rounding."
  },
  {
   "property": "C70",
   "status": "partial",
   "theorems": [
    "C70_rectangular",
    "C70_rectangular_square",
    "C70_triangular",
    "C70_triangular_mask_refuted",
    "C70_honeycomb",
    "C70_kagome",
    "C70_bcc",
    "C70_sc",
    "C70_fcc",
    "C70_fcc_real",
    "C70_triangular_above",
    "C70_honeycomb_above",
    "C70_kagome_above",
    "C70_fcc_above",
    "C70_triangular_below_refuted",
    "C70_fcc_below_refuted"
   ],
   "note": "Proved for the rectangular, triangular, honeycomb, kagome, simple, body-centred and face-centred cubic lattices, for every complex z off the band. For the triangular, honeycomb, kagome and face-centred cubic lattices there is a curve on which the parameter of an elliptic integral is on its branch cut: with an elliptic integral continuous from above on the cut the claim holds there too (C70_*_above), with one continuous from below (documented for mpmath) it is refuted (C70_triangular_below_refuted at z = -sqrt(3) below the band, C70_fcc_below_refuted). The mask of the triangular lattice at z = -1 is refuted."
  },
  {
   "property": "C71",
   "status": "proved",
   "theorems": [
    "C71_rectangular_edge",
    "C71_square",
    "C71_rectangular",
    "C71_rectangular_scale0_refuted",
    "C71_triangular",
    "C71_bcc",
    "C71_sc",
    "C71_fcc",
    "C71_lieb",
    "C71_honeycomb",
    "C71_kagome"
   ],
   "note": "One theorem per lattice; the limit is over the whole upper half plane and the Green's function is the Brillouin zone average (LatSpf_Spec), not the gf_z of the code. Energies left out: band edges, van Hove singularities and flat bands as listed in each theorem; for sc the interval |3 eps/D| < small in which the code uses an expansion. For the rectangular lattice scale > 0; with scale = 0 the code divides by zero (C71_rectangular_scale0_refuted); at its band edge the code returns the value a relative machine epsilon inside the band (C71_rectangular_edge). The dos of the chain, Bethe and box are treated in C05, C51 and C64."
  },
  {
   "property": "C72",
   "status": "proved",
   "theorems": [
    "C72_square",
    "C72_triangular",
    "C72_rectangular",
    "C72_bcc",
    "C72_sc",
    "C72_fcc",
    "C72_honeycomb",
    "C72_kagome",
    "C72_lieb",
    "C72_square_gf",
    "C72_rectangular_gf",
    "C72_triangular_gf",
    "C72_bcc_gf",
    "C72_sc_gf",
    "C72_fcc_gf",
    "C72_honeycomb_gf",
    "C72_kagome_gf",
    "C72_lieb_gf",
    "C72_normalised",
    "C72_onedim",
    "C72_onedim_gf"
   ],
   "note": "One theorem per lattice (C72_<lattice>): the model of dos equals a function d off finitely many energies, and the improper integral of d phi is the Brillouin zone average of phi of the band energies, for every phi continuous on the band. C72_<lattice>_gf: the integral of d/(z - e) is the value of gf_z (on the cut of the elliptic integral under the convention cut_from_above, see C70), C72_normalised: weights 1 and 2/3. The eigenvalues for several sites are characterised by the trace of the resolvent of the Bloch matrix. For the simple cubic lattice d is the formula without the expansion around e = 0; dos equals it outside of the interval of the expansion."
  },
  {
   "property": "C73",
   "status": "proved",
   "theorems": [
    "C73_square_walks",
    "C73_triangular_walks",
    "C73_bcc_walks",
    "C73_sc_walks",
    "C73_fcc_walks",
    "C73_honeycomb_walks",
    "C73_kagome_walks",
    "C73_lieb_walks",
    "C73_square",
    "C73_triangular",
    "C73_bcc",
    "C73_sc",
    "C73_fcc",
    "C73_honeycomb",
    "C73_kagome",
    "C73_lieb",
    "C73_onedim_walks",
    "C73_onedim"
   ],
   "note": "C73_<lattice>_walks: the improper integral of e^m d(e) is t^m times the number of closed walks per site, for every m (the Brillouin zone average of the trace of the m-th power of the Bloch matrix; for several sites the power sums of the spectrum are the traces of the powers); C73_<lattice>: agreement with the table. d is any function which has the values of dos away from the singular energies; simple cubic: of the formula without the expansion around 0. The rounding of the literals to double is not modelled. bethe and box: see C50_bethe, C50_box. rectangular and bethez have no dos_moment."
  },
  {
   "property": "C74",
   "status": "proved",
   "theorems": [
    "C74_ok",
    "C74_assertion",
    "C74_like_coefficients",
    "C74_kept",
    "C74_kept_interpolates",
    "C74_point",
    "C74_huge_pole",
    "C74_tiny_zero",
    "C74_bounded",
    "C74_truncates",
    "C74_interpolates_remaining_refuted"
   ],
   "note": "Masked_Model over exact complex numbers, the literal 1e-4 is exact and infinite entries are values. Tameness (Masked_Spec) is stated on the inverse differences; the negative half of the statement is a theorem (truncation) with a witness (refuted). C74_point, C74_huge_pole and C74_tiny_zero follow the value of one remaining point without assumptions on the others: interpolated, pole or zero of the continued fraction."
  },
  {
   "property": "C75",
   "status": "proved",
   "theorems": [
    "C75_average",
    "C75_mod_average",
    "C75_mod_average_stacked",
    "C75_linear",
    "C75_error_bounds_spread",
    "C75_error_zero",
    "C75_variance_refuted",
    "C75_nan_dropped_refuted",
    "C75_stacked_invalid_refuted"
   ],
   "note": "PadeMod_Model: approximants are rows over the output points, NaN is a value; mod_fct is an arbitrary function on rows which broadcasts over leading axes. The parts which differ from the documentation are refuted with witnesses."
  },
  {
   "property": "C76",
   "status": "proved",
   "theorems": [
    "C76_no_neg_imag",
    "C76_reproduces_samples",
    "C76_returns"
   ],
   "note": "PadeFull_Model composes coefficients, calc_iterator, the kind, apply_filter and Averager for one function. Giving both or none of fct_z and coeff is excluded by the type of the model. The samples reproduced are those with index at most k_start + 1, where k_start + 1 is n_min rounded up to the parity of the kind."
  },
  {
   "property": "C77",
   "status": "proved",
   "theorems": [
    "C77_singular_values",
    "C77_operator_norm",
    "C77_stacked_rows",
    "C77_stacked_refuted",
    "C77_hamiltonian_unchecked",
    "C77_from_gf"
   ],
   "note": "singular_values (UDec_Spec) is the singular value decomposition, stated without the model; numpy.linalg.eigh enters by its contract eigh_spec, which C60_decompose_her_every shows to be satisfiable for every Hermitian matrix; for decompose_hamiltonian the contract is that only the lower triangle is read. Stacks have one leading axis. The documentation promises descending order for every shape: C77_stacked_refuted. decompose_gf and from_gf are wrappers of decompose_mat (C60). SpecDec of beb.py inherits s, which is only logged there."
  },
  {
   "property": "C78",
   "status": "partial",
   "theorems": [
    "C78_moments",
    "C78_free",
    "C78_norm_refuted",
    "C78_errors",
    "C78_all_moments"
   ],
   "note": "misfit2, pole_moment (PResid_Spec) are stated without the model; QR, triangular solve and lstsq enter by the contracts of C35 (backend_ok) and the documented residuals of np.linalg.lstsq (lstsq_residuals), met together by C78_backend. Proved: constraint, optimality, residual with moments. Refuted part: without moments the second return value is the squared norm (C78_norm_refuted)."
  },
  {
   "property": "C79",
   "status": "partial",
   "theorems": [
    "C79_finite",
    "C79_statistics",
    "C79_tau",
    "C79_occ",
    "C79_tau_b",
    "C79_gr_le",
    "C79_siam",
    "C79_fermi_level_refuted"
   ],
   "note": "IEEE rules for infinities and NaN are modelled (ZeroT_Model.v), signed zeros, overflow and rounding are not. Proved for all energies off the Fermi level; at the Fermi level the code returns NaN (C79_fermi_level_refuted)."
  },
  {
   "property": "C80",
   "status": "proved",
   "theorems": [
    "C80_root_iff_cpa_root",
    "C80_gf_loc_is_cpa",
    "C80_beb_solution"
   ],
   "note": "For exact arithmetic over any field with the eigen-decomposition and inverse oracles of C39; the calls of the root finder are not part of the claim."
  },
  {
   "property": "C81",
   "status": "proved",
   "theorems": [
    "C81_step_physical",
    "C81_iteration_physical",
    "C81_components_retarded",
    "C81_restricted_total",
    "C81_levels",
    "C81_density",
    "C81_bethe",
    "C81_onedim",
    "C81_square",
    "C81_sc",
    "C81_bcc",
    "C81_bethez",
    "C81_box",
    "C81_triangular",
    "C81_fcc",
    "C81_hermitian_lattice",
    "C81_honeycomb",
    "C81_kagome",
    "C81_lieb",
    "C81_rectangular"
   ],
   "note": "Exact complex arithmetic; the Hilbert transform is any function with the retarded property, which is proved for the lattices of the package (elliptic integrals as in C64 and C70)."
  },
  {
   "property": "C82",
   "status": "proved",
   "theorems": [
    "C82_lattice_sum",
    "C82_retarded",
    "C82_components_retarded",
    "C82_effective_medium",
    "C82_start_physical",
    "C82_lattice_integral",
    "C82_density_retarded",
    "C82_medium_damping",
    "C82_solution_bound",
    "C82_density_definite",
    "C82_density_components"
   ],
   "note": "Exact complex arithmetic; inv, eig, eigh and emath.sqrt of numpy meet the specification beb_env of C39; densities of states are discrete with any number of levels, or continuous on a finite band (C82_lattice_integral, C82_density_retarded, C82_density_definite, C82_density_components); the statements on the root equation are for discrete densities."
  }
 ]
}