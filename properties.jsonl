{"id": "C01", "title": "Thiele-Pade approximants interpolate their input data", "statement": "For support points z_in and data fct_z, the k-th value yielded by `pade.calc_iterator(z_in[j], z_in, pade.coefficients(z_in, fct_z))` equals fct_z[j] for every j <= k+1 (the k-th approximant uses the first k+2 points and reproduces the function at all of them), whenever no division by zero occurs in the computation.", "quantifier": "every number of support points, every choice of support points and data over any field, every yielded index k, every support index j <= k+1", "why_tests_cant": "The recursion has unbounded depth and the degenerate inputs (zero divisions) form a measure-zero set that random tests never hit; a test only checks a few sizes up to a tolerance.", "anchors": ["gftool/pade.py:coefficients", "gftool/pade.py:calc_iterator"]}
{"id": "C02", "title": "calc_iterator evaluates the continued fraction of exactly the first k+2 coefficients", "statement": "The k-th yield of `calc_iterator(z, z_in, coeff)` is the value at z of the finite continued fraction a0/(1+a1(z-z0)/(1+a2(z-z1)/(...(1+a_{k+1}(z-z_k))))) built from the first k+2 coefficients and the first k+1 support points only, it is a quotient of two polynomials obeying the standard three-term recursion, and there are exactly len(coeff)-1 yields.", "quantifier": "every evaluation point, every list of support points and coefficients, every yield index for which the intermediate denominators are non-zero", "why_tests_cant": "A test evaluates a handful of float arrays; the claim ranges over every size and every value and is an exact identity that sampling with a tolerance cannot settle.", "anchors": ["gftool/pade.py:calc_iterator"]}
{"id": "C03", "title": "Pade coefficients are prefix stable", "statement": "`coefficients(z, f)` has the length of f; the coefficients computed from the first n points and values are the first n coefficients computed from all of them, so truncating input (as `averaged` does) or appending more Matsubara points never changes earlier coefficients; mismatching lengths raise ValueError and nothing else does.", "quantifier": "every list of points and values and every truncation length", "why_tests_cant": "Quantifies over all pairs of (list, extension); a test compares single truncations.", "anchors": ["gftool/pade.py:coefficients", "gftool/pade.py:averaged"]}
{"id": "C04", "title": "KindGf approximants decay like 1/z, KindSelf approximants approach a constant", "statement": "Every approximant selected by `KindGf(n_min, n_max)` is a rational function whose numerator degree is strictly smaller than its formal denominator degree (tail 1/z), and every approximant selected by `KindSelf` one with numerator and denominator of equal formal degree (constant tail); the selectors select exactly the approximants of the matching parity and skip none in their window.", "quantifier": "every n_min, n_max accepted by the constructors, every coefficient list, every evaluation point", "why_tests_cant": "Asymptotics is a statement about z -> infinity and about all approximants of a parity class.", "anchors": ["gftool/pade.py:KindGf", "gftool/pade.py:KindSelf", "gftool/pade.py:calc_iterator"]}
{"id": "C05", "title": "Kind selectors: exact acceptance and selected window", "statement": "`KindGf(n_min,n_max)` / `KindSelf(n_min,n_max)` raise ValueError exactly if, after rounding n_min up to the next odd (Gf) or even (Self) number m, m < 1 or n_max <= m; otherwise islice, slice, indexing and len all agree and select the iteration indices m-1, m+1, m+3, ... that are < n_max-1, in increasing order without repetition.", "quantifier": "all integers n_min, n_max and every iterable length", "why_tests_cant": "Boundary behaviour over all integers incl. zero and negatives.", "anchors": ["gftool/pade.py:KindSelector", "gftool/pade.py:KindGf", "gftool/pade.py:KindSelf"]}
{"id": "C06", "title": "averaged() really offers the approximants its kind counts", "statement": "For `averaged(z_out, z_in, fct_z=..., kind=K)` with at least n_max input points, the number of approximants actually produced by the truncated input equals len(K) (so the default all-true validity mask matches the list of approximants) and an average over at least one approximant is formed.", "quantifier": "all accepted selectors K and all input lengths >= n_max", "why_tests_cant": "The mismatch depends on the parity of n_max only; the existing tests use one parity and 1-D data where zip hides it.", "anchors": ["gftool/pade.py:averaged", "gftool/pade.py:KindSelector.__len__", "gftool/pade.py:Averager"]}
{"id": "C07", "title": "Averager averages exactly the valid approximants", "statement": "`Averager` rejects masks with no True entry (RuntimeError); otherwise the returned function yields x = arithmetic mean of exactly those selected approximants whose mask entry is True; approximants with a False mask entry cannot influence the result, and changing the order of nothing else matters. Without filters `averaged` is the mean of all approximants it forms and raises RuntimeError if one of them is not finite; for stacked functions it does so per function if the selector window has even width.", "quantifier": "every mask, every list of approximants, every evaluation point", "why_tests_cant": "Ranges over all masks (2^n) and all discarded values.", "anchors": ["gftool/pade.py:Averager"]}
{"id": "C08", "title": "Pade filters keep what they promise", "statement": "FilterNegImag(threshold) keeps exactly the approximants whose imaginary part is below threshold at every output point; FilterNegImagNum(abs_num) keeps every approximant with non-positive imaginary part, keeps at least abs_num approximants when that many exist, and never drops an approximant while keeping a worse invalid one; apply_filter with several filters keeps an approximant iff every filter in turn keeps it among the survivors of the previous ones, and raises RuntimeError iff nothing survives.", "quantifier": "every list of approximants, every threshold/number, every sequence of filters", "why_tests_cant": "All data orderings, ties and list lengths.", "anchors": ["gftool/pade.py:FilterNegImag", "gftool/pade.py:FilterNegImagNum", "gftool/pade.py:apply_filter"]}
{"id": "C09", "title": "FilterHighVariance keeps exactly the requested number", "statement": "With abs_num < number of approximants, FilterHighVariance keeps exactly abs_num approximants, and the ones discarded are those that were iteratively removed as having the largest deviation from the running mean.", "quantifier": "every list of approximants and every abs_num/rel_num", "why_tests_cant": "Depends on ranking changes between iterations, which only adversarial data exhibits.", "anchors": ["gftool/pade.py:FilterHighVariance"]}
{"id": "C10", "title": "Rational Pade approximants are accurate through order", "statement": "For `hermpade.pade(an, num_deg, den_deg)` the returned rational p/q satisfies q(x) f(x) - p(x) = O(x^(num_deg+den_deg+1)) for every power series f starting with an, deg p <= num_deg, deg q <= den_deg and q is not the zero polynomial; too few coefficients are rejected.", "quantifier": "every coefficient list, all degree pairs accepted by the function, every solution the linear-algebra back-end may return that solves its system", "why_tests_cant": "An identity for infinitely many sizes and all coefficient values, including singular Toeplitz systems.", "anchors": ["gftool/hermpade.py:pade", "gftool/hermpade.py:_nullvec", "gftool/basis/__init__.py:RatPol"]}
{"id": "C11", "title": "Square Hermite-Pade approximants are accurate through order", "statement": "For `hermpade.hermite2(an, p_deg, q_deg, r_deg)` the returned polynomials satisfy p + q f + r f^2 = O(x^(p_deg+q_deg+r_deg+2)) with the requested degrees and are not all zero.", "quantifier": "every coefficient list and all degree triples accepted", "why_tests_cant": "A test evaluates a handful of float arrays; the claim ranges over every size and every value and is an exact identity that sampling with a tolerance cannot settle.", "anchors": ["gftool/hermpade.py:hermite2", "gftool/hermpade.py:hermite2_lstsq"]}
{"id": "C12", "title": "Both Hermite-Pade branches solve the quadratic and evaluation picks one of them", "statement": "`Hermite2.eval_branches(z)` returns two values that both satisfy p(z) + q(z) G + r(z) G^2 = 0 and are all its solutions wherever r(z) != 0; `Hermite2.eval` returns the branch nearer to the guiding Pade approximant, `_Hermite2Ret.eval` returns a branch with non-positive imaginary part whenever one exists.", "quantifier": "all polynomial values p,q,r at any complex point", "why_tests_cant": "Cancellation-avoiding branch selection with sign cases; ranges over all complex triples.", "anchors": ["gftool/hermpade.py:Hermite2.eval_branches", "gftool/hermpade.py:Hermite2.eval", "gftool/hermpade.py:_Hermite2Ret.eval"]}
{"id": "C13", "title": "Robust Pade (pader) agrees with its contract on degenerate input", "statement": "`hermpade.pader(an, num_deg, den_deg)` returns a rational approximant for every non-negative degree pair with enough coefficients: in particular for a polynomial request (den_deg = 0) it returns the truncated Taylor polynomial, and a zero function is returned only if the truncated series is zero.", "quantifier": "all degree pairs and coefficient lists", "why_tests_cant": "Only the boundary degrees (0) and series with vanishing leading coefficients trigger the branches.", "anchors": ["gftool/hermpade.py:pader"]}
{"id": "C14", "title": "pade_lstsq respects the requested numerator degree", "statement": "`hermpade.pade_lstsq(an, num_deg, den_deg)` returns p/q with deg p <= num_deg and deg q <= den_deg for all accepted degrees, and q(0) or the requested fixed coefficient of q is 1.", "quantifier": "all degree pairs and coefficient lists", "why_tests_cant": "Boundary degree 0 path.", "anchors": ["gftool/hermpade.py:pade_lstsq"]}
{"id": "C15", "title": "Linear prediction extends a series by its recurrence", "statement": "`linearprediction.predict(x, pcoeff, num)` raises ValueError for num < 0 and otherwise returns x followed by exactly num values, each new value x_l being -sum_k a_k x_{l-k} over the preceding len(pcoeff) values; the given data are unchanged.", "quantifier": "every series, every coefficient vector not longer than the series, every num", "why_tests_cant": "Iterated self-referential update, all lengths.", "anchors": ["gftool/linearprediction.py:predict"]}
{"id": "C16", "title": "Covariance-fitted prediction reproduces exactly predictable series", "statement": "If the least-squares residual of `pcoeff_covar(x, order)` is zero, then predicting from the first `order` (or any longer prefix of) entries of x reproduces all of x.", "quantifier": "every series, every order, every least-squares solution with zero residual", "why_tests_cant": "A test evaluates a handful of float arrays; the claim ranges over every size and every value and is an exact identity that sampling with a tolerance cannot settle.", "anchors": ["gftool/linearprediction.py:pcoeff_covar", "gftool/linearprediction.py:predict"]}
{"id": "C17", "title": "The companion matrix steps the recurrence", "statement": "`companion(pcoeff)` applied to the vector of the last `order` samples (newest first) yields the vector shifted by one predicted sample; its eigenvalues are exactly the roots of the prediction polynomial z^n + a_1 z^{n-1} + ... + a_n.", "quantifier": "every coefficient vector of every order", "why_tests_cant": "A test evaluates a handful of float arrays; the claim ranges over every size and every value and is an exact identity that sampling with a tolerance cannot settle.", "anchors": ["gftool/linearprediction.py:companion"]}
{"id": "C18", "title": "Burg's method is stable", "statement": "In `pcoeff_burg` every reflection coefficient has modulus <= 1, the returned residual power rho is non-negative and does not increase with the order, and the prediction polynomial z^n + a_1 z^{n-1} + ... + a_n has no root outside the unit circle (and none on it if rho > 0).", "quantifier": "every complex series and every order", "why_tests_cant": "Inequality over all data; tests sample.", "anchors": ["gftool/linearprediction.py:pcoeff_burg"]}
{"id": "C19", "title": "Pole Green's function moments are the high-frequency expansion", "statement": "`pole.moments(poles, weights, order)` are the coefficients of the 1/z expansion of `pole.gf_z`: for every n, gf_z(z) - sum_{k=1..n} m_k z^-k = z^-n sum_j w_j eps_j^n/(z - eps_j).", "quantifier": "all poles, weights, truncation orders, and z different from 0 and the poles", "why_tests_cant": "A test evaluates a handful of float arrays; the claim ranges over every size and every value and is an exact identity that sampling with a tolerance cannot settle.", "anchors": ["gftool/basis/pole.py:moments", "gftool/basis/pole.py:gf_z"]}
{"id": "C20", "title": "Pole fits from moments reproduce the moments", "statement": "The PoleFct returned by `pole.gf_from_moments(moments, width)` has exactly the given high-frequency moments and distinct poles with |pole| <= |width|, for any number of moments and any width != 0; with width=None and |moments[1]| >= 0.1 the outermost pole is |moments[1]|; no moments give no poles; width 0 gives one pole of weight moments[0] for one moment and raises LinAlgError for more.", "quantifier": "every moment list and width", "why_tests_cant": "A test evaluates a handful of float arrays; the claim ranges over every size and every value and is an exact identity that sampling with a tolerance cannot settle.", "anchors": ["gftool/basis/pole.py:gf_from_moments", "gftool/basis/pole.py:_chebyshev_points"]}
{"id": "C21", "title": "Imaginary-time pole Green's function: boundary values", "statement": "`pole_gf_tau` satisfies G(0+) + G(beta) = -sum of weights, -G(beta) = occupation = sum_j w_j f(eps_j), is the stable form of -sum_j w_j (1-f(eps_j)) exp(-tau eps_j) for real poles and is non-positive for non-negative weights on [0, beta].", "quantifier": "all real poles, weights, beta > 0 and tau in [0,beta]", "why_tests_cant": "A test evaluates a handful of float arrays; the claim ranges over every size and every value and is an exact identity that sampling with a tolerance cannot settle.", "anchors": ["gftool/basis/pole.py:gf_tau", "gftool/basis/pole.py:_single_pole_gf_tau", "gftool/__init__.py:pole_gf_tau"]}
{"id": "C22", "title": "Greater minus lesser equals retarded", "statement": "For pole Green's functions and for the SIAM impurity, gr_t(t) - le_t(t) = ret_t(t) for t >= 0, the retarded function vanishes for t < 0 and equals -i sum_j w_j exp(-i eps_j t) for t >= 0.", "quantifier": "all poles, weights, finite temperatures (T=0 is C79) and times", "why_tests_cant": "A test evaluates a handful of float arrays; the claim ranges over every size and every value and is an exact identity that sampling with a tolerance cannot settle.", "anchors": ["gftool/basis/pole.py:gf_ret_t", "gftool/__init__.py:pole_gf_gr_t/pole_gf_le_t", "gftool/siam.py:gf0_loc_gr_t"]}
{"id": "C23", "title": "gf_d1_z is the derivative of gf_z for pole functions", "statement": "`pole.gf_d1_z(z)` is the complex derivative of `pole.gf_z` at every z that is not a pole.", "quantifier": "all pole sets, weights and points", "why_tests_cant": "Derivative is a limit.", "anchors": ["gftool/basis/pole.py:gf_d1_z"]}
{"id": "C24", "title": "Constrained least squares satisfies the constraints exactly and is optimal", "statement": "`linalg.lstsq_ec(a, b, c, d)` returns x with c x = d exactly, and no other feasible x has a smaller residual norm |a x - b|; without constraints it is the plain least-squares solution.", "quantifier": "all matrices with full row rank constraints, all right-hand sides, given correct QR/triangular/lstsq back-ends", "why_tests_cant": "Optimality over an infinite feasible set.", "anchors": ["gftool/linalg.py:lstsq_ec", "gftool/linalg.py:orth_compl"]}
{"id": "C25", "title": "orth_compl yields the orthogonal complement", "statement": "`linalg.orth_compl(mat)` for a tall matrix returns perp with perp @ mat = 0 having orthonormal rows whose number is the difference of the dimensions; if the columns of mat are linearly independent, its rows span everything orthogonal to them (v @ mat = 0 exactly if v is a combination of the rows, perp @ v = 0 exactly if v is a combination of the columns), for dependent columns part of the complement is missing; other shapes raise ValueError.", "quantifier": "all matrices with more rows than columns, every complete QR decomposition of them", "why_tests_cant": "A test evaluates a handful of float arrays; the claim ranges over every size and every value and is an exact identity that sampling with a tolerance cannot settle.", "anchors": ["gftool/linalg.py:orth_compl"]}
{"id": "C26", "title": "Pole fits honour their moment constraints", "statement": "`pole.gf_from_z` / `gf_from_tau` return a PoleFct whose first moments equal the given moments exactly (and whose occupation equals occ if given), and raise ValueError iff there are more constraints than poles.", "quantifier": "all data, all moment lists, all widths", "why_tests_cant": "Constraint path for special values (occ = 0, fractional occ, several moments) is only hit by specific inputs.", "anchors": ["gftool/basis/pole.py:gf_from_z", "gftool/basis/pole.py:gf_from_tau"]}
{"id": "C27", "title": "Fermi function branches agree with the definition", "statement": "`fermi_fct(eps, beta)` equals 1/(exp(beta eps)+1) for every real eps, lies strictly in (0,1), is strictly decreasing for beta>0, satisfies f(eps)+f(-eps)=1, never evaluates an exponential of a positive argument, and `fermi_fct_inv` inverts it; `fermi_fct_d1` is its derivative.", "quantifier": "all real eps and beta > 0", "why_tests_cant": "A test evaluates a handful of float arrays; the claim ranges over every size and every value and is an exact identity that sampling with a tolerance cannot settle.", "anchors": ["gftool/statistics.py:fermi_fct", "gftool/statistics.py:fermi_fct_inv", "gftool/statistics.py:fermi_fct_d1"]}
{"id": "C28", "title": "Bose function branches agree with the definition", "statement": "`bose_fct(eps, beta)` equals 1/(exp(beta eps)-1) for every non-zero argument in both of its branches, satisfies n(-eps) = -1-n(eps) and is positive for eps>0.", "quantifier": "all real eps /= 0, beta > 0", "why_tests_cant": "A test evaluates a handful of float arrays; the claim ranges over every size and every value and is an exact identity that sampling with a tolerance cannot settle.", "anchors": ["gftool/statistics.py:bose_fct"]}
{"id": "C29", "title": "Matsubara frequencies are the poles of the statistics", "statement": "exp(beta * matsubara_frequencies(n)) = -1 and exp(beta * matsubara_frequencies_b(n)) = +1 for every integer n; fermionic frequencies satisfy iw_{-1-n} = -iw_n, and consecutive ones are 2 pi/beta apart.", "quantifier": "all integers n, beta > 0", "why_tests_cant": "A test evaluates a handful of float arrays; the claim ranges over every size and every value and is an exact identity that sampling with a tolerance cannot settle.", "anchors": ["gftool/statistics.py:matsubara_frequencies", "gftool/statistics.py:matsubara_frequencies_b"]}
{"id": "C30", "title": "Chemical potential search returns only genuine brackets", "statement": "`chemical_potential(occ_root, mu0, step0)` returns mu0 only if occ_root(mu0) = 0, passes to the root finder only a bracket [a,b] with a <= b that contains a sign change (or zero) of occ_root, raises RuntimeError if no sign change is found within the iteration limit, raises RuntimeError if the root finder did not converge, and otherwise returns the root finder's point; for a monotonically non-decreasing occ_root it walks in the right direction and finds a bracket whenever a sign change lies within the reach of the doubling steps.", "quantifier": "every occupation function (arbitrary oracle), every mu0, step0 and root-finder behaviour", "why_tests_cant": "Search loop with data dependent direction and doubling; all monotone functions.", "anchors": ["gftool/density.py:chemical_potential"]}
{"id": "C31", "title": "Density from Matsubara sum is exact for pole functions in the limit / high-frequency shift", "statement": "`density_iw` subtracts fitted pole tail and adds its exact occupation: if gf_iw is itself the pole function used for the tail, the result equals the exact occupation regardless of how many frequencies are used.", "quantifier": "all pole sets, all numbers of frequencies", "why_tests_cant": "A test evaluates a handful of float arrays; the claim ranges over every size and every value and is an exact identity that sampling with a tolerance cannot settle.", "anchors": ["gftool/density.py:density_iw"]}
{"id": "C32", "title": "Decomposition reconstruct kinds agree", "statement": "`Decomposition.reconstruct(eig, kind='diag')` is the diagonal of kind='full'; reconstructing with 1/eig gives the inverse of the reconstruction with eig whenever rv and rv_inv are inverse and eig has no zero; unknown kinds are passed to einsum and empty/prefix strings select diag or full.", "quantifier": "all matrices of all sizes, all eigenvalue vectors, all kind strings", "why_tests_cant": "A test evaluates a handful of float arrays; the claim ranges over every size and every value and is an exact identity that sampling with a tolerance cannot settle.", "anchors": ["gftool/matrix.py:Decomposition.reconstruct"]}
{"id": "C33", "title": "2x2 matrix Green's function is the diagonal resolvent", "statement": "`matrix.gf_2x2_z(z, eps0, eps1, hopping, hilbert_trafo)` with the trivial Hilbert transform equals the diagonal of (z - H)^-1 for H = [[eps0, t],[conj t, eps1]].", "quantifier": "all complex z, real energies, hoppings with non-degenerate spectrum", "why_tests_cant": "A test evaluates a handful of float arrays; the claim ranges over every size and every value and is an exact identity that sampling with a tolerance cannot settle.", "anchors": ["gftool/matrix.py:gf_2x2_z"]}
{"id": "C34", "title": "SIAM non-interacting impurity Green's function is the resolvent element", "statement": "`siam.gf0_loc_z` = 1/(z - e_onsite - hybrid_z) equals element (0,0) of the inverse of z - `siam.hamiltonian_matrix`, the Hamiltonian matrix is Hermitian for real energies, and `hybrid_z` is the pole function with weights |hopping|^2.", "quantifier": "all bath sizes, energies, hoppings and z off the spectrum", "why_tests_cant": "A test evaluates a handful of float arrays; the claim ranges over every size and every value and is an exact identity that sampling with a tolerance cannot settle.", "anchors": ["gftool/siam.py:hamiltonian_matrix", "gftool/siam.py:gf0_loc_z", "gftool/siam.py:hybrid_z"]}
{"id": "C35", "title": "CPA root equation vanishes exactly at the CPA condition", "statement": "`cpa.self_root_eq` returns 0 exactly for self-energies for which the averaged component Green's functions equal the coherent Green's function, for any concentrations summing to one and any Hilbert transform; `self_fxdpnt_eq` has exactly these self-energies as fixed points.", "quantifier": "all numbers of components, on-site energies, concentrations, Hilbert transforms (arbitrary functions), z and self-energies with finite component functions", "why_tests_cant": "A test evaluates a handful of float arrays; the claim ranges over every size and every value and is an exact identity that sampling with a tolerance cannot settle.", "anchors": ["gftool/cpa.py:self_root_eq", "gftool/cpa.py:self_fxdpnt_eq", "gftool/cpa.py:gf_cmpt_z"]}
{"id": "C36", "title": "Restricted CPA root search cannot return unphysical roots", "statement": "If `cpa.restrict_self_root_eq` / `beb.restrict_self_root_eq` returns zero then the self-energy passed in has non-positive imaginary part(s) and is a root of the unrestricted equation; conversely every such root is a zero.", "quantifier": "all self-energies and parameters", "why_tests_cant": "Penalty term and in-place clipping interact.", "anchors": ["gftool/cpa.py:restrict_self_root_eq", "gftool/beb.py:restrict_self_root_eq"]}
{"id": "C37", "title": "CPA join/split round trip", "statement": "`cpa._split(cpa._join(a, b, ...), shapes)` returns the original arrays, and joining after splitting returns the original vector, for arrays of any shapes incl. scalars.", "quantifier": "all lists of arrays and shapes", "why_tests_cant": "A test evaluates a handful of float arrays; the claim ranges over every size and every value and is an exact identity that sampling with a tolerance cannot settle.", "anchors": ["gftool/cpa.py:_join", "gftool/cpa.py:_split"]}
{"id": "C38", "title": "CPA/BEB solvers never return unconverged results silently", "statement": "`cpa.solve_root`, `cpa.solve_fxdocc_root` and `beb.solve_root` return only if the root finder reported success, else raise RuntimeError; the returned self-energy is the solver's point; `solve_fxdocc_root` moves the mean energy consistently so the reported chemical potential and self-energy describe the same Green's function.", "quantifier": "every root-finder behaviour (oracle)", "why_tests_cant": "Solver failure paths.", "anchors": ["gftool/cpa.py:solve_root", "gftool/cpa.py:solve_fxdocc_root", "gftool/beb.py:solve_root"]}
{"id": "C39", "title": "BEB local Green's function equals the lattice sum in full and truncated form", "statement": "`beb.gf_loc_z` computes sum_k w_k (z - Sigma - T eps_k)^-1 for every discrete DOS, and truncating the zero singular values of the hopping matrix (rank-deficient case) does not change it; SpecDec.partition reproduces the matrix.", "quantifier": "all component numbers, hopping matrices, ranks, DOS and z where the inverses exist", "why_tests_cant": "A test evaluates a handful of float arrays; the claim ranges over every size and every value and is an exact identity that sampling with a tolerance cannot settle.", "anchors": ["gftool/beb.py:gf_loc_z", "gftool/beb.py:SpecDec"]}
{"id": "C40", "title": "number_poles terminates with a consistent pole count", "statement": "`polepade.number_poles` terminates for every null-space dimension behaviour; a returned number n satisfies 0 <= n <= the admissible maximum and either has one-dimensional null space or was announced by a warning; no assertion fails for admissible input sizes; the linear system has one unknown for every coefficient of the denominator (degree n) and of the numerator (degree n+degree, none if negative).", "quantifier": "every oracle for null-space dimensions, every number of points and degree", "why_tests_cant": "Termination over all oracle behaviours; assertion for particular parity of the number of points.", "anchors": ["gftool/polepade.py:number_poles"]}
{"id": "C41", "title": "Imaginary-time DFT and Matsubara DFT are inverse", "statement": "`tau2iw_dft(iw2tau_dft(gf_iw))` returns gf_iw for every gf_iw (with iw2tau's Hermitian extension), with normalisation and phase factors exactly compensating.", "quantifier": "all numbers of frequencies and all values", "why_tests_cant": "A test evaluates a handful of float arrays; the claim ranges over every size and every value and is an exact identity that sampling with a tolerance cannot settle.", "anchors": ["gftool/fourier.py:iw2tau_dft", "gftool/fourier.py:tau2iw_dft", "gftool/fourier.py:tau2iv_dft"]}
{"id": "C42", "title": "Filon transforms integrate the linear spline exactly", "statement": "`tau2iv_ft_lin`, `tau2iw_ft_lin` and `tt2z_lin` return the exact Fourier/Laplace integral of the piecewise-linear interpolant of the given data, including the special frequency zero.", "quantifier": "all grids sizes, data, and frequencies", "why_tests_cant": "Exact integral identity for all data; tests compare with tolerance to an approximate transform.", "anchors": ["gftool/fourier.py:tau2iv_ft_lin", "gftool/fourier.py:tau2iw_ft_lin", "gftool/fourier.py:tt2z_lin"]}
{"id": "C43", "title": "Trapezoidal and Simpson weights", "statement": "`tt2z_trapz` equals the composite trapezoidal rule sum_i (f_i+f_{i+1})/2 * dt_i on any (also non-equidistant) grid; `_simps_weight(endpoint=True)` integrates cubic polynomials exactly for an odd number of points and linear ones for an even number.", "quantifier": "all grid sizes, grids and data", "why_tests_cant": "A test evaluates a handful of float arrays; the claim ranges over every size and every value and is an exact identity that sampling with a tolerance cannot settle.", "anchors": ["gftool/fourier.py:tt2z_trapz", "gftool/fourier.py:_trapz_weight", "gftool/fourier.py:_simps_weight"]}
{"id": "C44", "title": "tt2z accepts exactly retarded or advanced data", "statement": "`tt2z` raises ValueError exactly if neither (all tt >= 0 and all Im z >= 0) nor (all tt <= 0 and all Im z <= 0) holds, and otherwise, for non-empty data, returns exactly what the chosen back-end returns; empty data yield NaN of the broadcast shape.", "quantifier": "all times and frequencies", "why_tests_cant": "Boundary values (zero, empty).", "anchors": ["gftool/fourier.py:tt2z"]}
{"id": "C45", "title": "Moment subtraction in the Fourier transforms is exact", "statement": "`tau2iw` / `tau2iv` / `iw2tau` with given moments add back exactly what they subtract: for a Green's function that is itself the subtracted pole function the result is the exact transform, independent of the numerical back-end (which then sees zero), for every linear back-end. `izp2tau` / `tau2izp` transform the pole function of the best width: if `minimize_scalar` returns a minimum, no constrained fit of another width is nearer to the data.", "quantifier": "all pole functions, beta, grid sizes and linear back-ends; all data, weights and widths", "why_tests_cant": "A test evaluates a handful of float arrays; the claim ranges over every size and every value and is an exact identity that sampling with a tolerance cannot settle.", "anchors": ["gftool/fourier.py:tau2iw", "gftool/fourier.py:iw2tau", "gftool/fourier.py:tau2iv", "gftool/fourier.py:izp2tau"]}
{"id": "C46", "title": "Bethe lattice Green's function solves its self-consistency equation on the physical branch", "statement": "`lattice.bethe.gf_z(z, D)` satisfies (D/2)^2 G^2 - z G + 1 = 0 (so gf_z_inv(gf_z(z)) = z), has negative imaginary part for Im z > 0, is bounded by |G| <= 2/D, and gf_z_inv inverts it the other way for all G in the image.", "quantifier": "all complex z /= 0 off the cut, D > 0", "why_tests_cant": "Branch choice over the whole complex plane.", "anchors": ["gftool/lattice/bethe.py:gf_z", "gftool/lattice/bethe.py:gf_z_inv"]}
{"id": "C47", "title": "Bethe derivatives are derivatives", "statement": "`bethe.gf_d1_z` and `bethe.gf_d2_z` are the first and second derivative of `bethe.gf_z`.", "quantifier": "all z where gf_z is differentiable, D > 0", "why_tests_cant": "Derivative is a limit.", "anchors": ["gftool/lattice/bethe.py:gf_d1_z", "gftool/lattice/bethe.py:gf_d2_z"]}
{"id": "C48", "title": "Bethe lattice with coordination Z interpolates between chain and Bethe lattice", "statement": "`bethez.gf_z` at coordination 2 equals `onedim.gf_z`, tends to `bethe.gf_z` for Z -> infinity and satisfies the Bethe-lattice cavity equation; `bethez.dos` at Z=2 equals `onedim.dos`.", "quantifier": "all z, half-bandwidths and Z > 1", "why_tests_cant": "A test evaluates a handful of float arrays; the claim ranges over every size and every value and is an exact identity that sampling with a tolerance cannot settle.", "anchors": ["gftool/lattice/bethez.py:gf_z", "gftool/lattice/bethez.py:dos"]}
{"id": "C49", "title": "DOS equals the spectral function of the Green's function", "statement": "For the lattices with closed form (Bethe, one-dimensional, Bethe-Z, box) `dos(eps) = -Im gf_z(eps + i0)/pi` inside the band, is zero outside, non-negative and symmetric.", "quantifier": "all energies and half-bandwidths", "why_tests_cant": "A test evaluates a handful of float arrays; the claim ranges over every size and every value and is an exact identity that sampling with a tolerance cannot settle.", "anchors": ["gftool/lattice/bethe.py:dos", "gftool/lattice/onedim.py:dos", "gftool/lattice/bethez.py:dos", "gftool/lattice/box.py:dos"]}
{"id": "C50", "title": "Tabulated DOS moments equal the closed-walk counts of the lattice", "statement": "For every lattice and every order m that `dos_moment` accepts, the returned coefficient equals the m-th moment of the tight-binding DOS, i.e. the number of closed m-step walks on the lattice scaled to half-bandwidth one (to all printed digits); all other orders raise NotImplementedError except the vanishing odd ones.", "quantifier": "every lattice module and every integer order", "why_tests_cant": "Tables of up to 21 literals per lattice; tests integrate numerically with tolerance.", "anchors": ["gftool/lattice/*.py:dos_moment", "gftool/lattice/*.py:dos_moment_coefficients"]}
{"id": "C51", "title": "Derived lattices are consistent with their parents", "statement": "honeycomb, kagome and lieb Green's functions and DOS are the documented transforms of triangular/square ones: scale covariance G(s z, s D) = G(z, D)/s holds for every lattice, gf and dos versions use the same transform, and the flat-band weights sum to one.", "quantifier": "all energies and half-bandwidths, arbitrary parent function", "why_tests_cant": "A test evaluates a handful of float arrays; the claim ranges over every size and every value and is an exact identity that sampling with a tolerance cannot settle.", "anchors": ["gftool/lattice/honeycomb.py", "gftool/lattice/kagome.py", "gftool/lattice/lieb.py", "gftool/lattice/rectangular.py", "gftool/lattice/square.py"]}
{"id": "C52", "title": "Shifted retarded-time lattice Green's functions rotate with the band center", "statement": "`box.gf_ret_t(t, D, center)` and `bethe.gf_ret_t(t, D, center)` equal exp(-i center t) times the unshifted function, with center in absolute units as documented.", "quantifier": "all times, half-bandwidths and centers", "why_tests_cant": "Tests use half_bandwidth=1 or center=0 where the scaling error is invisible.", "anchors": ["gftool/lattice/box.py:gf_ret_t", "gftool/lattice/bethe.py:gf_ret_t"]}
{"id": "C53", "title": "Hubbard dimer, Hubbard-I and surface Green's functions", "statement": "`hubbard_dimer_gf_z` has spectral weight one and the symmetry of the half-filled dimer, `hubbard_I_self_z` reproduces the atomic-limit Green's function 1/(z-Sigma) = (1-n)/z + n/(z-U), and `surface_gf_zeps` satisfies the semi-infinite chain recursion t^2 g^2 - (z-eps) g + 1 = 0.", "quantifier": "all frequencies, interactions, hoppings, occupations", "why_tests_cant": "A test evaluates a handful of float arrays; the claim ranges over every size and every value and is an exact identity that sampling with a tolerance cannot settle.", "anchors": ["gftool/__init__.py:hubbard_dimer_gf_z", "gftool/__init__.py:hubbard_I_self_z", "gftool/__init__.py:surface_gf_zeps"]}
{"id": "C54", "title": "Fourier-Pade transform of exponential signals is exact", "statement": "`tt2z_pade`/`tt2z_lpz` evaluate a rational function of exp(i z dt) whose Taylor coefficients agree with the weighted data through the guaranteed order; a signal that is a finite sum of exponentials with enough samples is transformed to the exact discrete Laplace sum.", "quantifier": "all exponential signals with at most the resolvable number of terms", "why_tests_cant": "A test evaluates a handful of float arrays; the claim ranges over every size and every value and is an exact identity that sampling with a tolerance cannot settle.", "anchors": ["gftool/fourier.py:tt2z_pade", "gftool/fourier.py:tt2z_lpz"]}
{"id": "C55", "title": "Rational function representations agree", "statement": "`ZeroPole.eval` and the evaluation of its `to_ratpol` agree at every point, `ZeroPole.reciprocal` evaluates to the reciprocal, and `RatPol.eval` is numerator over denominator.", "quantifier": "all zeros, poles, amplitudes and points", "why_tests_cant": "A test evaluates a handful of float arrays; the claim ranges over every size and every value and is an exact identity that sampling with a tolerance cannot settle.", "anchors": ["gftool/basis/__init__.py:ZeroPole", "gftool/basis/__init__.py:RatPol"]}
{"id": "C56", "title": "Burg's reflection coefficients minimise the prediction error", "statement": "At every stage of `pcoeff_burg` the arrays eforw/eback are exactly the forward and backward prediction errors of the data for the current coefficients, and the chosen reflection coefficient is the unique minimiser of their summed squared moduli.", "quantifier": "every complex series, every order for which the stage is defined (non-zero error power)", "why_tests_cant": "Optimality over a continuum of alternatives at every stage.", "anchors": ["gftool/linearprediction.py:pcoeff_burg"]}
{"id": "C57", "title": "Stable prediction: same as naive prediction without growing modes, bounded always", "statement": "`predict(x, pcoeff, num, stable=True)` equals `predict(x, pcoeff, num)` whenever the companion matrix is diagonalised correctly and no root lies outside the unit circle; for any coefficients the predicted values stay below a bound that does not depend on num.", "quantifier": "every series, coefficient vector and num; any result of the eigen-decomposition for the bound", "why_tests_cant": "Boundedness for all num and equality of two different algorithms for all inputs.", "anchors": ["gftool/linearprediction.py:_predict_stable", "gftool/linearprediction.py:predict"]}
{"id": "C58", "title": "Contradictory constraints are reported", "statement": "`linalg.lstsq_ec(a, b, c, d)` raises LinAlgError when the constraint system c x = d has no solution (this is what the singular fallback, which checks the residual of the least-squares solution, is written for).", "quantifier": "all constraint matrices and right-hand sides with at most as many constraints as unknowns", "why_tests_cant": "The branch is only reached by exactly singular factors; whether the check can ever fire is a statement about all of them.", "anchors": ["gftool/linalg.py:lstsq_ec"]}
{"id": "C59", "title": "Bosonic imaginary-time pole functions", "statement": "`pole_gf_tau_b(tau, poles, weights, beta)` for positive poles is -sum_j w_j (1 + n(eps_j)) exp(-tau eps_j) with the Bose function n, satisfies G(0) - G(beta) = -sum of weights, integrates over [0, beta] to -sum_j w_j/eps_j, and raises ValueError if a pole is not positive.", "quantifier": "all positive poles, weights, beta > 0, tau in [0, beta]", "why_tests_cant": "A test evaluates sample arrays; the claim is an exact identity over every pole set, and the documented rejection of poles equal to 0 only shows at that boundary value.", "anchors": ["gftool/__init__.py:pole_gf_tau_b"]}
{"id": "C60", "title": "Matrix decompositions reproduce the matrix and its resolvent", "statement": "`matrix.decompose_mat`, `decompose_sym` and `decompose_her` return decompositions whose `reconstruct(kind='full')` is the input matrix and whose reconstruction with 1/(z - eig) is its resolvent; `decompose_sym` returns orthonormalised (transpose) eigenvectors and `decompose_her` has rv_inv = rv^H with real eigenvalues; with check=True a matrix that is not symmetric/Hermitian raises ValueError.", "quantifier": "all square matrices, sizes and z off the spectrum, every eigen-solver result meeting the numpy contract", "why_tests_cant": "Tests use random float matrices, which are almost surely well conditioned; degenerate complex symmetric matrices, for which the eigenvectors may be isotropic, are never sampled.", "anchors": ["gftool/matrix.py:decompose_mat", "gftool/matrix.py:decompose_sym", "gftool/matrix.py:decompose_her"]}
{"id": "C61", "title": "BEB root equation uses the exact inverse of the local Green's function", "statement": "`beb.self_root_eq` evaluates G_loc^-1 - diag((G_loc^-1 + Sigma - e)/c) with G_loc the lattice sum of the resolvents, both for full-rank and truncated hopping; it vanishes exactly if G_loc^-1 is diagonal and (G_loc^-1)_ii + Sigma_ii - e_i = c_i (G_loc^-1)_ii for all components.", "quantifier": "all component numbers, hopping matrices, discrete densities of states, z, self-energies, on-site energies and non-zero concentrations", "why_tests_cant": "The identity relates a truncated spectral formula to a lattice sum for every rank; tests check converged solutions of one float model.", "anchors": ["gftool/beb.py:self_root_eq", "gftool/beb.py:SpecDec"]}
{"id": "C62", "title": "Discrete Fourier transforms are truncated Matsubara series and Riemann sums", "statement": "`iw2tau_dft` returns at the points tau_k of linspace(0, beta, 2N+1) the truncated Matsubara sum 2/beta*sum_j Re(gf_iw[j]*exp(-iw_j tau_k)); `iw2tau_dft_soft` the sum of the data continued by the cosine tail, on the same grid; `tau2iw_dft` and the positive frequencies of `tau2iv_dft` are the left Riemann sums of int_0^beta exp(iw tau) gf(tau) dtau (so gf(beta) is ignored), and the zero frequency of `tau2iv_dft` is the trapezoidal sum.", "quantifier": "all data, grid sizes and beta", "why_tests_cant": "The indexing, phase and normalisation of half-complex FFT calls must be right for every size and every value; float tests with tolerance check a few.", "anchors": ["gftool/fourier.py:iw2tau_dft", "gftool/fourier.py:iw2tau_dft_soft", "gftool/fourier.py:tau2iw_dft", "gftool/fourier.py:tau2iv_dft"]}
{"id": "C65", "title": "Lattice Green's functions have the particle-hole and Schwarz reflection symmetry of their lattices", "statement": "`gf_z(-z) = -gf_z(z)` for the bipartite lattices (bethe, bethez, onedim, square, rectangular, sc, bcc, lieb, honeycomb, box) and their `dos` is even; `gf_z(conj(z)) = conj(gf_z(z))` off the real axis, so advanced and retarded functions are conjugate; `bcc.dos` is the spectral function of `bcc.gf_z`.", "quantifier": "all complex frequencies (off the real axis for reflection), half-bandwidths and coordination numbers; any function in place of the elliptic integral, or one symmetric off its branch cut", "why_tests_cant": "Symmetry has to hold on every branch of the nested square roots over the whole complex plane; tests sample a few frequencies.", "anchors": ["gftool/lattice/sc.py:gf_z", "gftool/lattice/bcc.py:gf_z", "gftool/lattice/bcc.py:dos", "gftool/lattice/fcc.py:gf_z", "gftool/lattice/triangular.py:gf_z", "gftool/lattice/square.py:gf_z", "gftool/lattice/rectangular.py:gf_z", "gftool/lattice/box.py:gf_z"]}
{"id": "C64", "title": "Lattice Green's functions are Hilbert transforms of the densities of states and Brillouin-zone averages", "statement": "For every positive half-bandwidth D and every complex z off the real interval [-D, D]: `bethe_gf_z`, `bethez_gf_z` (coordination Z > 2) and `box_gf_z` return the integral of dos(e)/(z - e) over the band, `onedim_gf_z` returns the average of 1/(z - D cos k) over the Brillouin zone and the (improper) Hilbert transform of `onedim_dos`; `bethez_dos` and `onedim_dos` integrate to one. `square_gf_z` returns the Brillouin-zone average of the resolvent of the nearest-neighbour band with hopping D/4, and `lieb_gf_z` the average over sites and wave vectors of the resolvent of the three-site Bloch Hamiltonian with hopping D/sqrt(8), provided the elliptic integral called is Legendre's integral off its branch cut.", "quantifier": "all D > 0, all complex z off the band including real z outside it, all coordination numbers Z > 2, all continuous test functions of the energy (chain)", "why_tests_cant": "tests compare quadratures at sampled frequencies and tolerances; the identity is between a closed form with branch choices and an integral for a continuum of frequencies, including ones arbitrarily close to the cut", "anchors": ["gftool/lattice/bethe.py: gf_z, dos", "gftool/lattice/bethez.py: gf_z, dos", "gftool/lattice/box.py: gf_z, dos", "gftool/lattice/onedim.py: gf_z, dos", "gftool/lattice/square.py: gf_z", "gftool/lattice/lieb.py: gf_z"]}
{"id": "C63", "title": "polepade.continuation reproduces rational functions", "statement": "`polepade.continuation(z, fct_z, degree, weight, moments, rotate, real_asymp)` applied to samples of f(x) = c + sum_j r_j/(x - p_j) with k distinct poles (degree 0 for c != 0, degree -1 for c = 0 and non-vanishing sum of residues) returns a `PadeApprox` whose poles and residues are the p_j, r_j up to order, whose amplitude is the leading coefficient of f, whose moments are the moments of f, and `eval_polefct` and `eval_zeropole` both return f(x) at every x that is no pole; rotation, weights and constraining true moments do not change this.", "quantifier": "all complex functions with finitely many simple poles, all numbers and positions of samples (distinct, neither poles nor zeros, at least 2k+degree+5), all non-zero weights, every implementation of QR, SVD, least squares and generalised eigenvalues meeting its mathematical contract", "why_tests_cant": "Tests compare single functions within a tolerance; that the rank loop, the two eigenvalue problems, the asymptotic and the constrained least squares problem recover every rational function depends on linear algebra for arbitrary degree.", "anchors": ["gftool/polepade.py:continuation", "gftool/polepade.py:number_poles", "gftool/polepade.py:poles", "gftool/polepade.py:zeros", "gftool/polepade.py:asymptotic", "gftool/polepade.py:residues_ols", "gftool/polepade.py:PadeApprox"]}
{"id": "C66", "title": "Multi-precision densities of states equal the vectorised ones", "statement": "For every real energy and positive half-bandwidth, `bethe_dos_mp`, `onedim_dos_mp`, `square_dos_mp`, `lieb_dos_mp`, `bcc_dos_mp` and `fcc_dos_mp` return a finite value exactly when `bethe_dos`, `onedim_dos`, ... do, and then the same value, in exact arithmetic; so do `sc_gf_z_mp` and `sc_gf_z` at every complex z, `sc_dos_mp` and `sc_dos`, and `triangular_dos_mp`, `honeycomb_dos_mp`, `kagome_dos_mp` and their vectorised counterparts.", "quantifier": "all energies, all positive half-bandwidths, all complex z, every implementation of the elliptic integrals meeting its contract", "why_tests_cant": "Tests compare at sampled energies within 1e-7 and only with the default half-bandwidth; the two functions use different closed forms, guards and branch choices which must agree on the whole line and at the edges, and errors below double precision are invisible to them.", "anchors": ["gftool/lattice/bethe.py: dos_mp", "gftool/lattice/onedim.py: dos_mp", "gftool/lattice/square.py: dos_mp", "gftool/lattice/lieb.py: dos_mp", "gftool/lattice/bcc.py: dos_mp", "gftool/lattice/fcc.py: dos_mp, _signed_mp_sqrt", "gftool/lattice/sc.py: gf_z_mp, dos_mp", "gftool/lattice/triangular.py: dos_mp", "gftool/lattice/honeycomb.py: dos_mp", "gftool/lattice/kagome.py: dos_mp"]}
{"id": "C67", "title": "square.stress_trafo is the Hilbert transform weighted with the inverse mass", "statement": "For every positive half-bandwidth D and complex z off the band, `square.stress_trafo(z, D)` returns the average over the Brillouin zone of (d^2 eps_k / d k_x^2)/(z - eps_k) where eps_k is the nearest neighbour band of the square lattice with hopping D/4.", "quantifier": "all D > 0, all complex z off [-D, D], every elliptic integral which is Legendre's integral off its cut", "why_tests_cant": "The identity is between a closed form and a double integral for a continuum of frequencies.", "anchors": ["gftool/lattice/square.py: stress_trafo, gf_z"]}
{"id": "C68", "title": "The deprecated density converges to the particle number and its error estimates bound the truncation error", "statement": "`density` of the Matsubara data of any pole function with total weight one converges with the number of frequencies to sum_j r_j f(eps_j), for scalar potentials, totals and Hermitian matrix potentials, whatever the potential; it is exact for the subtracted tail itself. If omega_n^2 |Delta_n| (the data of `check_convergence`) does not grow beyond the last 90% of the data, `density_error(noisy=False)` bounds the error; the same holds for `density_error2` with omega^3. `density` warns whenever the error exceeds a given tolerance, and `check_convergence` supports the options of `density`.", "quantifier": "all poles, weights, potentials, beta > 0, numbers of frequencies; for the bounds all Matsubara data whose sum converges", "why_tests_cant": "Convergence and the integral test are statements about infinite sums.", "anchors": ["gftool/__init__.py: density, density_error, density_error2, check_convergence"]}
{"id": "C69", "title": "Pad\u00e9 frequencies reproduce the Fermi function and replace the Matsubara frequencies in density_iw", "statement": "`pade_frequencies(num, beta)` returns `num` frequencies i z_p with 0 < z_1 < z_2 < ... and positive residues; its assertions never fail. The poles +-i z_p with residues -resids/beta approximate the Fermi function at every energy eps with an error of at most |beta eps/2|^(4 num+1)/(2 ((4 num-1)!!)^2 (4 num+1)), which tends to zero with num. `density_iw` of a pole function of weight one, evaluated at these frequencies with `weights=resids`, is correct up to the weighted sum of these bounds over the poles. The result does not depend on the eigenvalue routine, and the temperature only scales the frequencies.", "quantifier": "all num >= 1, beta > 0, energies eps, pole functions with real poles and residues, moments of the tail; all eigenvalue routines meeting the contract of scipy.linalg.eig", "why_tests_cant": "Tests compare a few densities at a few energies and values of num; the error bound, the reality, ordering and symmetry of the spectrum and the passing of the assertions are statements for all num and all energies.", "anchors": ["gftool/statistics.py:_pade_frequencies", "gftool/statistics.py:pade_frequencies", "gftool/density.py:density_iw"]}
{"id": "C70", "title": "The Green's functions given by elliptic integrals are the local Green's functions of their lattices", "statement": "For every positive half-bandwidth and every complex z off the band, `gf_z` (= `hilbert_transform`) of the rectangular, triangular, honeycomb, kagome, body-centred, simple and face-centred cubic lattices returns the average of the resolvent 1/(z - eps_k) over the Brillouin zone, with eps_k the nearest neighbour band whose hopping amplitude belongs to the half-bandwidth as documented. This includes the choice of the Riemann sheet of the elliptic integrals for every z.", "quantifier": "all half-bandwidths D > 0, scales >= 0, all complex z off the band, every elliptic integral which is Legendre's integral off its cut", "why_tests_cant": "The identity is between closed forms with branch cuts and multiple integrals for a continuum of frequencies; a wrong sheet shows up only in a part of the complex plane.", "anchors": ["gftool/lattice/rectangular.py: gf_z", "gftool/lattice/triangular.py: gf_z", "gftool/lattice/honeycomb.py: gf_z", "gftool/lattice/kagome.py: gf_z", "gftool/lattice/bcc.py: gf_z", "gftool/lattice/sc.py: gf_z", "gftool/lattice/fcc.py: gf_z"]}
{"id": "C71", "title": "The densities of states given by elliptic integrals are the spectral functions of their own lattices", "statement": "For every positive half-bandwidth and every real energy eps other than a band edge, a van Hove singularity or a flat band, `dos(eps, half_bandwidth)` of the square, rectangular (with a positive `scale`), triangular, Lieb, honeycomb, kagome, body-centred, simple and face-centred cubic lattices equals -Im G(eps + i0)/pi, where G is the Brillouin zone average of the resolvent of the nearest neighbour hopping Hamiltonian of that lattice (averaged over the sites of the unit cell), with the hopping amplitude which the documentation assigns to the half-bandwidth. In particular `dos` vanishes outside of the band and the band edges are where they are documented. For the simple cubic lattice the interval around eps = 0 in which the code uses an expansion is left out. At the band edge the rectangular lattice returns the spectral function a relative machine epsilon inside the band.", "quantifier": "all half-bandwidths D > 0, all scales > 0, all real energies off the listed ones, every elliptic integral which is Legendre's integral off its cut (`ellipkm1`: on (0, 1])", "why_tests_cant": "The identity relates a closed form to a singular limit of multiple integrals for a continuum of energies; tests compare against gf_z of the same module, which shares the formulas.", "anchors": ["gftool/lattice/square.py: dos", "gftool/lattice/rectangular.py: dos", "gftool/lattice/triangular.py: dos", "gftool/lattice/lieb.py: dos", "gftool/lattice/honeycomb.py: dos", "gftool/lattice/kagome.py: dos", "gftool/lattice/bcc.py: dos", "gftool/lattice/sc.py: dos", "gftool/lattice/fcc.py: dos"]}
{"id": "C72", "title": "The density of states of a lattice is the distribution of its band energies and its Hilbert transform is gf_z", "statement": "For every positive half-bandwidth, the function `dos(., half_bandwidth)` of the square, rectangular, triangular, Lieb, honeycomb, kagome, body-centred, simple and face-centred cubic lattices satisfies: for every function phi continuous on the band, the integral of phi(eps) dos(eps) over the band equals the Brillouin zone average of phi(eps_k), where eps_k are the band energies of the nearest neighbour hopping Hamiltonian (averaged over the bands, with the flat band of the Lieb and kagome lattice left out). Consequently dos is normalised to one (2/3 for Lieb and kagome), and the integral of dos(eps)/(z - eps) is the value returned by `gf_z(z, half_bandwidth)` (up to the pole of the flat band), so density of states and Green's function of a lattice always belong together.", "quantifier": "all half-bandwidths D > 0, all scales > 0, all continuous phi, all z off the band (both half planes and the real axis outside of the band), every elliptic integral which is Legendre's integral off its cut", "why_tests_cant": "The improper integral over a density with van Hove singularities is only approximated by quadrature at a few points; the statement holds for every continuous function and every z.", "anchors": ["gftool/lattice/square.py: dos, gf_z", "gftool/lattice/rectangular.py: dos, gf_z", "gftool/lattice/triangular.py: dos, gf_z", "gftool/lattice/lieb.py: dos, gf_z", "gftool/lattice/honeycomb.py: dos, gf_z", "gftool/lattice/kagome.py: dos, gf_z", "gftool/lattice/bcc.py: dos, gf_z", "gftool/lattice/sc.py: dos, gf_z", "gftool/lattice/fcc.py: dos, gf_z"]}
{"id": "C73", "title": "dos_moment gives the moments of dos", "statement": "For every positive half-bandwidth and every order m >= 0 for which `dos_moment(m, half_bandwidth)` returns a value, this value is the integral of eps^m dos(eps, half_bandwidth) over the band, up to the 15 digits printed in the tables (relative error 4e-15): onedim, square, triangular, honeycomb, simple, body-centred and face-centred cubic lattices. For the kagome and the Lieb lattice it is the integral plus the contribution of the flat band, (1/3)(-2D/3)^m and (1/3) 0^m, which `dos` omits. For every order, tabulated or not, the integral is t^m times the number of closed walks of m steps per site of the lattice.", "quantifier": "all half-bandwidths D > 0, all orders m, every elliptic integral which is Legendre's integral off its cut", "why_tests_cant": "The tests integrate numerically over a singular density for a few orders with tolerances far above 1e-15.", "anchors": ["gftool/lattice/*.py: dos_moment, dos_moment_coefficients, dos"]}
{"id": "C74", "title": "masked_coefficients eliminates points and keeps Pade coefficients", "statement": "`pade.masked_coefficients(z, fct_z)` for different points returns as many coefficients as points, the first being fct_z[0], and raises AssertionError exactly if |fct_z[0]| <= 1e-4. If no inverse difference is extreme the result is that of `coefficients`. Otherwise the non-zero coefficients are the result of `coefficients` for the points that were not eliminated (provided these are not extreme), so that the approximant through those points reproduces the values, and no coefficient after the first exceeds 10001/min|z_i-z_j|. Passed to `calc_iterator` together with all points, however, everything behind the first eliminated point is ignored, and the values at the points that were not eliminated are in general not reproduced. A remaining point whose value is not extreme in any column is interpolated by the continued fraction up to its coefficient, whatever the other points are; a value more than 1e4 times the first one becomes a pole, one smaller than 1e-4 of it a zero.", "quantifier": "all complex points and values, any number of points; the truncation for all coefficients over every field", "why_tests_cant": "There is no test of the function; the outcome depends on magnitudes of the whole triangle of inverse differences.", "anchors": ["gftool/pade.py: masked_coefficients, coefficients, calc_iterator"]}
{"id": "C75", "title": "Averager and Mod_Averager: mean and error at every output point", "statement": "The functions created by `pade.Averager` and `pade.Mod_Averager` return for every output point the mean `x` of the valid (modified) approximants and as `err` the sample standard deviations (n-1 in the denominator) of their real and imaginary parts, NaN exactly if there is only one value. For a linear `mod_fct` the result is `mod_fct` of the average. `err` is zero exactly if the valid approximants agree, and each differs from the mean by at most (n-1)/sqrt(n) err. `err` is not the documented variance; NaNs returned by `mod_fct` are dropped from the mean without notice; for stacked masks a `mod_fct` that replaces NaN lets the invalid approximants contribute.", "quantifier": "all numbers of approximants and output points, all masks, all functions mod_fct, all finite complex approximants", "why_tests_cant": "The tests compare a single mean with a reference; the error and mod_fct with stacked masks are not tested.", "anchors": ["gftool/pade.py: Averager, Mod_Averager, _nan_std"]}
{"id": "C76", "title": "averaged and avg_no_neg_imag from end to end", "statement": "`pade.avg_no_neg_imag(z_out, z_in, valid_z=..., fct_z=... or coeff=..., threshold=..., kind=...)` returns at every output point mean and sample standard deviation of exactly those approximants of the kind whose imaginary part is finite and below the threshold at all points of `valid_z` (default `z_out`). For every choice of filters `averaged` reproduces the samples used by all approximants: if z_out[j] = z_in[i] with i <= n_min (rounded to the parity of the kind), x[j] = fct_z[i] and err[j] = 0 (NaN for a single approximant). Without filter the call returns whenever the approximants are finite at the output points.", "quantifier": "all samples, numbers of points, kinds, thresholds, filters and output points", "why_tests_cant": "The tests continue a few model functions; which approximants enter depends on the signs of the imaginary parts for the data at hand.", "anchors": ["gftool/pade.py: averaged, avg_no_neg_imag, FilterNegImag, Averager, calc_iterator, coefficients"]}
{"id": "C77", "title": "UDecomposition.s holds the singular values; legacy constructors", "statement": "For a single Hermitian matrix `decompose_her(mat).s` are the singular values of `mat` in descending order: non-negative, sorted, and `mat = U diag(s) V^dagger` with unitary U and V; s[0] and s[-1] bound norm(mat x)/norm(x) from above and below and are attained. For stacked matrices row i of `s` belongs to the i-th matrix counted from the end and is ascending, so it does in general not hold the singular values of its matrix. `decompose_hamiltonian` and `Decomposition.from_hamiltonian` do not check their argument: `reconstruct` gives the matrix back exactly if it is Hermitian, otherwise the Hermitian matrix with its lower triangle. `Decomposition.from_gf` of an inverse Green's function gives a decomposition that reconstructs it, whose reciprocal eigenvalues reconstruct the Green's function, and which the constructor passes through unchanged.", "quantifier": "all sizes, all Hermitian matrices, all stacks of eigenvalues, all eigendecompositions which numpy.linalg.eigh may return", "why_tests_cant": "The attribute s is not tested; a wrong order or axis is invisible for single matrices with few examples.", "anchors": ["gftool/matrix.py: UDecomposition.s, decompose_her, decompose_hamiltonian, decompose_gf, Decomposition.from_hamiltonian, Decomposition.from_gf", "gftool/matrix.py:Decomposition.from_gf"]}
{"id": "C78", "title": "residues_ols: constrained least-squares residues and their residual", "statement": "`polepade.residues_ols(z, fct_z, poles, weight, moments)` returns residues whose moments sum_j r_j p_j^i equal `moments[i]`, such that no other residues with these moments have a smaller weighted misfit to the samples, together with the norm of that misfit. As many moments as poles fix the residues whatever the samples. Without moments the residues are the unconstrained best fit, but the returned residual is the square of the norm, or empty if there are no more samples than poles. More moments than poles raise ValueError.", "quantifier": "all samples, poles, weights and moments, all back-ends meeting the contracts of QR, triangular solve and least squares", "why_tests_cant": "Optimality quantifies over all other residues; tests look at few exact cases whose misfit vanishes, where norm and squared norm agree.", "anchors": ["gftool/polepade.py: residues_ols", "gftool/linalg.py: lstsq_ec"]}
{"id": "C79", "title": "beta=inf is zero temperature", "statement": "`fermi_fct`, `bose_fct`, `pole_gf_tau`, `PoleGf.occ`, `pole_gf_tau_b` and the greater and lesser functions of a pole and of the SIAM impurity called with beta=np.inf return the limit of their values for beta -> infinity: occupations are a step function, the imaginary-time function is -sum over the positive poles of w exp(-tau eps), and greater minus lesser is retarded for t >= 0. States exactly at the Fermi level should give the limit as well (1/2 for the Fermi function).", "quantifier": "all real energies, pole sets, weights, times and Hermitian impurity Hamiltonians", "why_tests_cant": "The limit over all temperatures and the treatment of infinities by every branch of the formulas concern all inputs; tests use finite temperatures only.", "anchors": ["gftool/statistics.py:fermi_fct", "gftool/statistics.py:bose_fct", "gftool/basis/pole.py:_single_pole_gf_tau", "gftool/basis/pole.py:gf_tau", "gftool/basis/pole.py:_single_pole_gf_gr_t", "gftool/basis/pole.py:_single_pole_gf_le_t", "gftool/__init__.py:pole_gf_tau_b", "gftool/siam.py:gf0_loc_gr_t", "gftool/siam.py:gf0_loc_le_t"]}
{"id": "C80", "title": "BEB with component-independent hopping is the CPA", "statement": "If all entries of the hopping matrix are one, `beb.self_root_eq` vanishes exactly if the self-energy matrix is Sigma_ii = s + 1/g - (s + 1/g - e_i)/c_i, Sigma_ij = s + 1/g - z for a root s of `cpa.self_root_eq`, where g = hilbert_trafo(z - s). At such a self-energy `beb.gf_loc_z` is the diagonal matrix of c_i times the component Green's functions `cpa.gf_cmpt_z`, and its trace is the CPA Green's function g.", "quantifier": "all component numbers, frequencies, self-energy matrices, on-site energies, non-zero concentrations summing to one and Hilbert transforms (an arbitrary function)", "why_tests_cant": "The equivalence of two separately coded root equations concerns every number of components and every lattice; tests compare one converged float solution.", "anchors": ["gftool/beb.py:self_root_eq", "gftool/beb.py:gf_loc_z", "gftool/beb.py:SpecDec", "gftool/cpa.py:self_root_eq", "gftool/cpa.py:gf_cmpt_z"]}
{"id": "C81", "title": "The CPA equations are causal", "statement": "For frequencies in the upper half plane, a lattice with positive spectral weight, concentrations that are non-negative and sum to one, and real (or retarded) on-site energies: `cpa.self_fxdpnt_eq` evaluated at a physical self-energy (Im <= 0) is finite and again physical, so any number of fixed-point steps stays physical; `cpa.gf_cmpt_z` is finite, retarded (Im < 0) and bounded by 1/Im z; the equation `solve_root` hands to the root finder for restricted=True is finite for every trial self-energy. The lattice hypothesis is met by the Green's functions of the Bethe lattice (infinite and finite coordination), the box-shaped density, chain, square, rectangular, triangular, honeycomb, kagome, Lieb, simple cubic, body-centered and face-centered cubic lattice and by every Hilbert transform of a normalised density.", "quantifier": "all z with Im z > 0, physical self-energies, numbers of components, on-site energies, concentrations, half-bandwidths and trial vectors", "why_tests_cant": "Causality and the absence of divisions by zero concern all self-energies and lattices; tests run the solver at a few parameter sets.", "anchors": ["gftool/cpa.py:self_fxdpnt_eq", "gftool/cpa.py:self_root_eq", "gftool/cpa.py:gf_cmpt_z", "gftool/cpa.py:restrict_self_root_eq", "gftool/cpa.py:solve_root"]}
{"id": "C82", "title": "The BEB local Green's function is causal", "statement": "For a Hermitian hopping matrix, a frequency in the upper half plane, a self-energy matrix whose anti-Hermitian part is negative semidefinite, and the Hilbert transform of a discrete density of states with non-negative weights summing to one: the lattice matrices z - Sigma - eps*T are all invertible, `beb.gf_loc_z` is the weighted average of their inverses, its spectral matrix is positive definite (Im v^+ G v < 0 for every v != 0), and with diag=True every component Green's function has a negative imaginary part. The inverse local Green's function in `beb.self_root_eq` has a positive definite imaginary part, so the self-energy from which `beb.solve_root` starts without a guess (the root equation at Sigma = 0, real on-site energies, concentrations in (0, 1]) has a diagonal with non-positive imaginary part, strictly negative where the concentration is below one. The imaginary part of (inverse local Green's function + Sigma) is at least Im z as a matrix; hence at a solution of the root equation with real on-site energies the local Green's function is diagonal, retarded, and its i-th entry is bounded by c_i / Im z. For the Hilbert transform of a non-negative, normalised density of states d on [-D, D], `beb.gf_loc_z` is the integral of d(eps) times the inverse of z - Sigma - eps*T, entry by entry; its spectral matrix is positive definite, and with diag=True every component Green's function has a negative imaginary part.", "quantifier": "all numbers of components, Hermitian hopping matrices, damping self-energies, z with Im z > 0, numbers, weights and energies of the levels; all non-negative normalised densities on a finite band", "why_tests_cant": "Positivity for every vector, every self-energy and every hopping matrix is a universally quantified inequality; tests compare a few numbers.", "anchors": ["gftool/beb.py:gf_loc_z", "gftool/beb.py:SpecDec", "gftool/beb.py:self_root_eq", "gftool/beb.py:solve_root"]}
