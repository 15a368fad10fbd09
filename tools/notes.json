{
 "C03": {
  "status": "proved",
  "note": "Proved for representable exponent sums and for any expression on a common grid; the unrestricted law is refuted by C03_associative_refuted (limit_denominator rounding)."
 },
 "C04": {
  "status": "proved",
  "note": "All laws proved; (u*v)**n needs representable sums, refuted otherwise (C04_power_of_product_refuted)."
 },
 "C05": {
  "status": "proved",
  "note": "root-then-power refuted when the intermediate denominator exceeds 10^6 (C05_root_then_power_refuted)."
 },
 "C10": {
  "status": "proved",
  "note": "Also refutes the naive expectation that si.A could mean angstrom: C10_angstrom_symbol_refuted (the later ampere wins)."
 },
 "C17": {
  "status": "proved",
  "note": "The property is FALSE of the code: named tuples make every pytree operation raise TypeError (refutation theorems); the theorems state exactly what happens."
 },
 "C19": {
  "status": "proved",
  "note": "Equality of dimensions is decided after limit_denominator: C19_add_refuted exhibits two different dimensions whose difference rounds to zero and are added without error (needs denominators near 10^6)."
 },
 "C20": {
  "status": "proved",
  "note": "Per table row, torch's own numerical function being any function with the stated scaling law (textbook instances are given). Refuted for in-place functions, linalg_* aliases of the wrong arity and rounding division: C20_inplace_refuted, C20_inplace_add_refuted, C20_linalg_refuted, C20_rounded_division_refuted; C20_no_rule: functions without a rule raise."
 },
 "C23": {
  "status": "proved",
  "note": "C23_unit_argument_refuted: a Unit passed as an argument of einsum/trapezoid-like functions is counted twice."
 },
 "C25": {
  "status": "proved",
  "note": "For well-formed lengths (those of a uniform nested list). Lengths are not validated: C25_unvalidated_refuted."
 },
 "C26": {
  "status": "proved",
  "note": "For well-formed shapes; C26_illformed_refuted shows what happens otherwise."
 },
 "C28": {
  "status": "proved",
  "note": "Refuted outside the stated class: C28_mixed_refuted, C28_empty_refuted, C28_depth_refuted."
 },
 "C30": {
  "status": "proved",
  "note": "Order 0 raises TypeError for every list (C30_zero_raises) instead of being 1."
 },
 "C32": {
  "status": "proved",
  "note": "For any left inverse of the matrix; roots are only assumed continuous, their differentiability is part of the conclusion. With repeated roots no inverse exists (C32_inverse)."
 },
 "C34": {
  "status": "proved",
  "note": "Exact arithmetic, principal square root, any cube root. On the degenerate branch b^2=3c with 2b^3-9bc+27d on the negative imaginary axis the formula returns a non-root three times (C34_exception_refuted); IEEE signed zeros are not modelled. Real coefficients are never exceptional (C34_real)."
 },
 "C35": {
  "status": "proved",
  "note": "As C34 for the resolvent cubic; unconditional for biquadratics and for real coefficients (C35_biquadratic, C35_real)."
 },
 "C37": {
  "status": "proved",
  "note": "One-knot grids raise (C37_single_knot_refuted)."
 },
 "C39": {
  "status": "proved",
  "note": "Inside the grid. Outside it the code neither extrapolates nor clamps: C39_extrapolation_refuted."
 },
 "C56": {
  "status": "proved",
  "note": "The right grid must be sorted (C56_unsorted_refuted). Batched merge_grids and Linear1dInterpolator.merge (which reads a missing attribute) are outside the model; see DESIGN.md."
 },
 "C40": {
  "status": "proved",
  "note": "torch.linalg.solve and Tensor.inverse enter through contracts (linear_solver, matrix_inverter in SplinesSpec.v). Degrees other than 1 and 3 always raise: C40_degree. Cubic: existence and uniqueness for every increasing knot list. The weights theorems assume Tensor.inverse returned."
 },
 "C43": {
  "status": "proved",
  "note": "The law and the documented equation of state are proved for LambdaCDM, wCDM, w0waCDM and wpwaCDM (flat or not, with or without radiation), for every instance with any history. It is false for w0wzCDM: C43_w0wz_refuted gives the exact value today, exp(-6 wz), and the exact slope, and shows both claims fail for every wz other than 0."
 },
 "C44": {
  "status": "proved",
  "note": "Any constructor call and any number of assignments. Read-back and frame are proved for every parameter (the temperature in C48). C44_w0wz_refuted: the expansion rate today is not 1 for w0wzCDM. C44_constructor_readback names the arguments that another argument replaces."
 },
 "C45": {
  "status": "proved",
  "note": "Holds for FlatLambdaCDM and FlatLambdaCDMR after any history. False for the other flat classes, which require Ode0 (against their stubs) and do not constrain it: C45_refuted, C45_Ode0_required_refuted. C45_Ode0_ignored_refuted: FlatLambdaCDM silently ignores Ode0."
 },
 "C46": {
  "status": "proved",
  "note": "Complementarity holds for classes that define the age, and for the closed form of FlatLambdaCDM, with 0 < Om0 < 1, it is proved against the integral of the lookback-time integrand, with the limit 0. It is false for classes that only define the lookback time (odeint): C46_lookback_only_refuted; C46_drivers says which driver classes raise."
 },
 "C47": {
  "status": "proved",
  "note": "The listing is complete and exact; it does not exclude derived parameters (C47_derived_refuted: the test in the code compares a pair). C47_rebuild: constructing from the listing gives the same cosmology."
 },
 "C48": {
  "status": "proved",
  "note": "Round trips and the constructor are proved for nonnegative Neff, nonzero H0 and positive constants. Independence of order is false: C48_order_refuted, C48_module_refuted."
 },
 "C49": {
  "status": "proved",
  "note": "For the concrete classes everything holds; components.Omega is wrong (C49_components_refuted): it lacks the present density, and the test on the number of components is inverted. C49_components_sum is the law it does satisfy."
 },
 "C41": {
  "status": "proved",
  "note": "The comoving distance of the driver is a parameter of the model; everything built on it (transverse, angular-diameter, luminosity distances, the two-redshift form, the distance modulus, Hubble-distance scaling) is modelled and proved, exact real arithmetic, one batch element."
 },
 "C42": {
  "status": "proved",
  "note": "The derivative of the tensor branch's volume is 4 pi DM^2 wherever the small-argument series is not taken, and on that series the relative error is at most 2 eps^2 (C42_small_error). For a distance that is not a tensor the code has no small-argument test and divides by a zero curvature: C42_scalar_refuted."
 },
 "C50": {
  "status": "proved",
  "note": "C50_polynomial: E(z)^2 is the leading coefficient times the product of (z - root) over the roots the driver stores. Exact arithmetic; torch.linalg.eigvals is assumed to return the eigenvalues of the companion matrix of the coefficients (used with radiation only); principal square roots and cube roots are assumed to be roots."
 },
 "C59": {
  "status": "proved",
  "note": "C59_comoving for all four classes. elliprf is assumed to return Carlson's integral R_F (computes_RF, stated as an improper Riemann integral in CarlsonSpec.v); a function doing so exists (some_RF_ok). With radiation the theorem needs Om0 >= 0 and both redshifts >= -1. Exact arithmetic."
 },
 "C60": {
  "status": "proved",
  "note": "C60_lookback for LambdaCDM and FlatLambdaCDM, under the contracts computes_RC and computes_RJ. The closed form with radiation (LambdaCDMR) is not covered."
 },
 "C51": {
  "status": "proved",
  "note": "Values are exact reals (Python uses Fraction or float). The import machinery is reduced to globals plus module __getattr__; identifiers are NFKC-normalised. The Rydberg constant is within 3e-10 of the recommended value (it is recomputed from rounded inputs), the others within one standard uncertainty."
 },
 "C61": {
  "status": "proved",
  "note": "All units of units/astro.py and eV; prefixed versions follow from C46-C49's prefix theorems. Values are exact reals."
 },
 "C53": {
  "status": "proved",
  "note": "Model of utils/function_context.py and of every Function class of special/{ellip,ellipr,gamma,gammainc}.py (FuncCtx.v): class creation, inherited gradient slots, gradfuncs list/dict/property, forward saving, backward masking and the process wrapper. The MRO is given as a list, a tensor is one complex number (one batch element). Counterexamples proved: an explicit gradfuncs list hides a subclass's overriding rule (C53_explicit_override_refuted), an explicit list in a subclass of an automatic class is ignored (C53_explicit_list_refuted). Not modelled: ninputs = None (padded would then never return)."
 },
 "C54": {
  "status": "proved",
  "note": "InverseFunctionMixin: argument reordering, the slots it generates, the classes of the package that use it (Gammaincinv) and, from the differentiability of the forward function alone, that the generated slots hold the partial derivatives of the inverse (C54_inverse_gradients). C54_classmethod_refuted: with a class-method rule the identity test fails and the slot of the inverted variable gets -1; no class of the package does this."
 },
 "C55": {
  "status": "proved",
  "note": "Real arguments in exact arithmetic, with an arbitrary epsilon (at most 1, 2^-22 for R_J): termination of each loop, truncation error of each tail series against the improper integral, divergence where infinity is returned, R_G through its identity, Legendre's integrals by the substitution t = 1/sin^2 - 1/sin^2(phi). Rounding errors and complex arguments are not modelled. C55_elliprj_equal_refuted, C55_ellippi_equal_refuted: not a number when p equals x, y or z (n = m). C55_elliprc_pv_zero_refuted: x = 0 > y is not real. C55_incomplete_even, C55_negative_amplitude_refuted: the incomplete functions are even and have period PI in the amplitude, unlike the integrals."
 },
 "C52": {
  "status": "proved",
  "note": "Real arguments and exact arithmetic. The Carlson functions are parameters assumed exact on positive arguments (exact_carlson; C55 is about their computation). Condition circular: the last arguments of the R_J and R_C calls are positive; C52_cubic, C52_quartic_basic and C52_quartic replace it by conditions on the coefficients only. C52_principal_value_needed shows a valid input (a=[529,100,25,4], x=96, y=0) where that argument is negative and the code needs principal values. x=y is excluded: the code then calls R_J with equal arguments."
 },
 "C62": {
  "status": "proved",
  "note": "C62_limits and C62_parameters are about the true derivative of the integral (is_derive). The parameter slot needs the reduction to be exact at the exponent vector with one exponent lowered, which C52 supplies."
 },
 "C63": {
  "status": "proved",
  "note": "Real arguments, exact arithmetic. The functions called by the rules are parameters with the values of the integrals (carlson_functions). The condition resolved: two arguments are equal or at least the tolerance apart (different, when devil_may_care is set). C63_close_refuted: for y = 9x with 8x below the tolerance the gradient returned by elliprc is less than a third of the derivative. R_F and R_G through the backward pass of the symmetric functions for every needs-grad mask."
 },
 "C64": {
  "status": "proved",
  "note": "Real arguments, exact arithmetic, amplitudes in [0, PI/2]. Not covered because the rules divide by zero there although the derivative exists: n = 0, n = m, m = 1, and the amplitude derivative at 0 and PI/2."
 },
 "C65": {
  "status": "proved",
  "note": "LambdaCDM without radiation, curved or flat. Carlson's R_F and R_D by contract (CarlsonSpec.v). C65_bounce_refuted: when E^2 vanishes above both redshifts the code returns the integral minus 4/3 (E(z2)-E(z1))/Om0 (product of principal square roots has the opposite sign). C65_zero_refuted: equal redshifts give 0/0. With radiation (LambdaCDMR) the quartic formula is not modelled."
 },
 "C66": {
  "status": "proved",
  "note": "Real arguments, exact arithmetic. log Gamma, digamma and the extension's Tgamma are parameters with the values of Euler's integral, its logarithmic derivative and the integral representation of T(m,a,z) (GammaSpec.v); C66_nonvacuous constructs such functions. Forward values (gammainc.h, gammaincinv.h) are not modelled. C66_Tgamma_one_refuted: the rule for z at m = 1 calls Tgamma(0), which raises."
 },
 "C67": {
  "status": "proved",
  "note": "Tensors as shape and function of indices; the solver (torchdiffeq, outside the repo) by contract: it rejects non-monotone times and otherwise returns the exact integral (OdeintSpec.v). Adjoint gradients, dtypes and devices not modelled. Exceptions proved as C67_unsorted_refuted, C67_zero_refuted, C67_many_first, C67_luminosity_lengths_refuted and C67_luminosity_axes_refuted; C67_luminosity covers the cases in which the axes agree."
 },
 "C68": {
  "status": "proved",
  "note": "One batch element, exact arithmetic, values inside [0,1]. The interpolators are the models of C38 and C39. C68_one_dimension_refuted (more_itertools.last of an empty generator), C68_spacing_refuted and C68_marginal_refuted show the exceptions; C68_even_grid the case in which the table's distribution is that of the interpolated density at the knots. rsample's use of torch.rand is not modelled."
 },
 "C69": {
  "status": "proved",
  "note": "Complex version of elliptic_reduction/core.py for exponents with at most one entry different from zero (the only ones the driver uses), the recursion bounded by a fuel that the theorems fix from below. Reduces to C59, C60 and C65. Not covered: lookback time and absorption distance with radiation (degree 4); age_dimless raises NotImplementedError. computes_RF etc. are the hypotheses on the Carlson functions, as for C59."
 },
 "C70": {
  "status": "proved",
  "note": "Exact complex arithmetic. The gamma function and the power of a positive number are hypotheses (gamma_function, power_function in HyperSpec.v, both shown to be satisfiable). T(2, a, z) for integer a and T(m, a, z) for m >= 3 are computed at moved parameters; only that fact is proved for them (C70_Tgamma_perturbed, C70_shift). Exceptions: C70_early_refuted, C70_maxterms_refuted."
 },
 "C71": {
  "status": "partial",
  "note": "Real arguments, exact arithmetic, M_PI/LOGPI/SQRT2PI/LOGSQRT2PI taken as the exact constants; the series coefficients are the literals of the code. Missing: complex arguments; within 1e-9 of the poles the proved bound is 2e-9, not the accuracy the code reaches."
 },
 "C72": {
  "status": "partial",
  "note": "Exact arithmetic; lgamma is assumed to be the logarithm of the gamma function, erfc to satisfy erfc(t)+erfc(-t)=2. Lanczos's formula with the code's coefficients is proved accurate to 1e-14 (C72_lanczos). Missing: the accuracy of the uniform asymptotic expansion (only the complement is proved there); the series (refuted at 1e6) and the continued fraction for a > 1900."
 },
 "C73": {
  "status": "partial",
  "note": "Real arguments, exact arithmetic, M_PI the exact constant; pi/tan(pi x) is read as pi cos/sin, 0 where the tangent is infinite. Missing: complex arguments."
 },
 "C74": {
  "status": "partial",
  "note": "Exact arithmetic; tgamma and lgamma are assumed to be the gamma function and its logarithm, erfc to satisfy erfc(t)+erfc(-t)=2. Missing: the accuracy for the other starting values (eqs. 22 to 36, so most of a > 1), p outside the stated ranges; infinite a is not modelled."
 }
}