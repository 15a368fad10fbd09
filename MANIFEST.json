{
 "claims": [
  {
   "property": "C01",
   "status": "proved",
   "theorems": [
    "C01_canonical",
    "C01_constructor",
    "C01_lookup",
    "C01_extensional"
   ],
   "note": ""
  },
  {
   "property": "C02",
   "status": "proved",
   "theorems": [
    "C02_commutative",
    "C02_neutral",
    "C02_inverse",
    "C02_inverse_of_product"
   ],
   "note": ""
  },
  {
   "property": "C03",
   "status": "proved",
   "theorems": [
    "C03_associative_representable",
    "C03_exact_on_grid",
    "C03_regrouping",
    "C03_associative_refuted"
   ],
   "note": "Proved for representable exponent sums and for any expression on a common grid; the unrestricted law is refuted by C03_associative_refuted (limit_denominator rounding)."
  },
  {
   "property": "C04",
   "status": "proved",
   "theorems": [
    "C04_repeated_product",
    "C04_negative_power",
    "C04_power_sum",
    "C04_power_power",
    "C04_power_of_product",
    "C04_power_of_product_refuted"
   ],
   "note": "All laws proved; (u*v)**n needs representable sums, refuted otherwise (C04_power_of_product_refuted)."
  },
  {
   "property": "C05",
   "status": "proved",
   "theorems": [
    "C05_power_then_root",
    "C05_root_then_power",
    "C05_power_power_rational",
    "C05_root_then_power_refuted"
   ],
   "note": "root-then-power refuted when the intermediate denominator exceeds 10^6 (C05_root_then_power_refuted)."
  },
  {
   "property": "C06",
   "status": "proved",
   "theorems": [
    "C06_to_value",
    "C06_to_error",
    "C06_to_groupoid",
    "C06_to_product"
   ],
   "note": ""
  },
  {
   "property": "C07",
   "status": "proved",
   "theorems": [
    "C07_equivalence",
    "C07_hash",
    "C07_hash_key_injective",
    "C07_insertion_order",
    "C07_not_a_dimension"
   ],
   "note": ""
  },
  {
   "property": "C08",
   "status": "proved",
   "theorems": [
    "C08_identity",
    "C08_bounded",
    "C08_closest",
    "C08_error",
    "C08_negation",
    "C08_recovers"
   ],
   "note": ""
  },
  {
   "property": "C09",
   "status": "proved",
   "theorems": [
    "C09_prefix_table_is_SI",
    "C09_no_duplicate_prefix",
    "C09_apply",
    "C09_prefixes_compose",
    "C09_inverse_prefixes_cancel",
    "C09_kilogram"
   ],
   "note": ""
  },
  {
   "property": "C10",
   "status": "proved",
   "theorems": [
    "C10_names_exact",
    "C10_binding_sound",
    "C10_last_wins",
    "C10_names_of_string",
    "C10_si_prefixed_names",
    "C10_si_plain_names",
    "C10_si_additional_names",
    "C10_angstrom_symbol_refuted"
   ],
   "note": "Also refutes the naive expectation that si.A could mean angstrom: C10_angstrom_symbol_refuted (the later ampere wins)."
  },
  {
   "property": "C11",
   "status": "proved",
   "theorems": [
    "C11_registered_value",
    "C11_no_name_lost",
    "C11_warnings",
    "C11_return_value"
   ],
   "note": ""
  },
  {
   "property": "C12",
   "status": "proved",
   "theorems": [
    "C12_export_registered",
    "C12_helpers_dropped",
    "C12_exit_final",
    "C12_finaliser_exports",
    "C12_block_bindings_survive",
    "C12_rebinding_survives_refuted",
    "C12_all_names"
   ],
   "note": ""
  },
  {
   "property": "C13",
   "status": "proved",
   "theorems": [
    "C13_flatten_gives_leaves",
    "C13_unflatten_flatten",
    "C13_flatten_unflatten",
    "C13_specs_of_structures"
   ],
   "note": ""
  },
  {
   "property": "C14",
   "status": "proved",
   "theorems": [
    "C14_unflatten_length",
    "C14_no_leaf_lost"
   ],
   "note": ""
  },
  {
   "property": "C15",
   "status": "proved",
   "theorems": [
    "C15_tree_map",
    "C15_identity",
    "C15_composition",
    "C15_structure_and_leaves"
   ],
   "note": ""
  },
  {
   "property": "C16",
   "status": "proved",
   "theorems": [
    "C16_broadcast_iff_prefix",
    "C16_otherwise_none",
    "C16_values",
    "C16_self"
   ],
   "note": ""
  },
  {
   "property": "C17",
   "status": "proved",
   "theorems": [
    "C17_namedtuple_refuted",
    "C17_any_namedtuple_inside_refuted",
    "C17_namedtuple_subclass_refuted",
    "C17_tuple_subclass"
   ],
   "note": "The property is FALSE of the code: named tuples make every pytree operation raise TypeError (refutation theorems); the theorems state exactly what happens."
  },
  {
   "property": "C18",
   "status": "proved",
   "theorems": [
    "C18_value",
    "C18_error",
    "C18_roundtrip",
    "C18_objects",
    "C18_none",
    "C18_dtype_refuted",
    "C18_integer_refuted"
   ],
   "note": ""
  },
  {
   "property": "C19",
   "status": "proved",
   "theorems": [
    "C19_shared",
    "C19_add",
    "C19_add_refuted",
    "C19_roles",
    "C19_list",
    "C19_histc_defaults"
   ],
   "note": "Equality of dimensions is decided after limit_denominator: C19_add_refuted exhibits two different dimensions whose difference rounds to zero and are added without error (needs denominators near 10^6)."
  },
  {
   "property": "C20",
   "status": "proved",
   "theorems": [
    "C20_shared",
    "C20_compare",
    "C20_product",
    "C20_quotient",
    "C20_reversed_quotient",
    "C20_degree",
    "C20_roles",
    "C20_role_functions",
    "C20_addcmul",
    "C20_addcdiv",
    "C20_addmm",
    "C20_unit_independent",
    "C20_product_unit_independent",
    "C20_list",
    "C20_multi",
    "C20_no_rule",
    "C20_inplace_refuted",
    "C20_inplace_add_refuted",
    "C20_linalg_refuted",
    "C20_rounded_division_refuted"
   ],
   "note": "Per table row, torch's own numerical function being any function with the stated scaling law (textbook instances are given). Refuted for in-place functions, linalg_* aliases of the wrong arity and rounding division: C20_inplace_refuted, C20_inplace_add_refuted, C20_linalg_refuted, C20_rounded_division_refuted; C20_no_rule: functions without a rule raise."
  },
  {
   "property": "C21",
   "status": "proved",
   "theorems": [
    "C21_error",
    "C21_value",
    "C21_reversed",
    "C21_bare_base",
    "C21_exponent_tensor"
   ],
   "note": ""
  },
  {
   "property": "C22",
   "status": "proved",
   "theorems": [
    "C22_sum",
    "C22_rsub"
   ],
   "note": ""
  },
  {
   "property": "C23",
   "status": "proved",
   "theorems": [
    "C23_det_any",
    "C23_det",
    "C23_products",
    "C23_chain",
    "C23_unit_argument_refuted"
   ],
   "note": "C23_unit_argument_refuted: a Unit passed as an argument of einsum/trapezoid-like functions is counted twice."
  },
  {
   "property": "C24",
   "status": "proved",
   "theorems": [
    "C24_value",
    "C24_error"
   ],
   "note": ""
  },
  {
   "property": "C25",
   "status": "proved",
   "theorems": [
    "C25_sizes",
    "C25_every_shape",
    "C25_unvalidated_refuted"
   ],
   "note": "For well-formed lengths (those of a uniform nested list). Lengths are not validated: C25_unvalidated_refuted."
  },
  {
   "property": "C26",
   "status": "proved",
   "theorems": [
    "C26_values",
    "C26_error",
    "C26_length",
    "C26_illformed_refuted"
   ],
   "note": "For well-formed shapes; C26_illformed_refuted shows what happens otherwise."
  },
  {
   "property": "C27",
   "status": "proved",
   "theorems": [
    "C27_compose"
   ],
   "note": ""
  },
  {
   "property": "C28",
   "status": "proved",
   "theorems": [
    "C28_terminates",
    "C28_faithful",
    "C28_mixed_refuted",
    "C28_empty_refuted",
    "C28_depth_refuted"
   ],
   "note": "Refuted outside the stated class: C28_mixed_refuted, C28_empty_refuted, C28_depth_refuted."
  },
  {
   "property": "C29",
   "status": "proved",
   "theorems": [
    "C29_vieta",
    "C29_exactly",
    "C29_injective"
   ],
   "note": ""
  },
  {
   "property": "C30",
   "status": "proved",
   "theorems": [
    "C30_symmetric",
    "C30_recursion",
    "C30_first_and_last",
    "C30_beyond",
    "C30_zero_raises"
   ],
   "note": "Order 0 raises TypeError for every list (C30_zero_raises) instead of being 1."
  },
  {
   "property": "C31",
   "status": "proved",
   "theorems": [
    "C31_characteristic",
    "C31_powers",
    "C31_eigenvalues",
    "C31_numeric",
    "C31_errors"
   ],
   "note": ""
  },
  {
   "property": "C32",
   "status": "proved",
   "theorems": [
    "C32_gradient",
    "C32_formula",
    "C32_inverse"
   ],
   "note": "For any left inverse of the matrix; roots are only assumed continuous, their differentiability is part of the conclusion. With repeated roots no inverse exists (C32_inverse)."
  },
  {
   "property": "C33",
   "status": "proved",
   "theorems": [
    "C33_quadratic"
   ],
   "note": ""
  },
  {
   "property": "C34",
   "status": "proved",
   "theorems": [
    "C34_cubic",
    "C34_exception_refuted",
    "C34_real"
   ],
   "note": "Exact arithmetic, principal square root, any cube root. On the degenerate branch b^2=3c with 2b^3-9bc+27d on the negative imaginary axis the formula returns a non-root three times (C34_exception_refuted); IEEE signed zeros are not modelled. Real coefficients are never exceptional (C34_real)."
  },
  {
   "property": "C35",
   "status": "proved",
   "theorems": [
    "C35_quartic",
    "C35_biquadratic",
    "C35_real"
   ],
   "note": "As C34 for the resolvent cubic; unconditional for biquadratics and for real coefficients (C35_biquadratic, C35_real)."
  },
  {
   "property": "C36",
   "status": "proved",
   "theorems": [
    "C36_sorted",
    "C36_quartic_order"
   ],
   "note": ""
  },
  {
   "property": "C37",
   "status": "proved",
   "theorems": [
    "C37_bracket",
    "C37_cases",
    "C37_single_knot_refuted"
   ],
   "note": "One-knot grids raise (C37_single_knot_refuted)."
  },
  {
   "property": "C38",
   "status": "proved",
   "theorems": [
    "C38_knots",
    "C38_cell",
    "C38_between",
    "C38_affine",
    "C38_continuous",
    "C38_derivative"
   ],
   "note": ""
  },
  {
   "property": "C39",
   "status": "proved",
   "theorems": [
    "C39_grid_points",
    "C39_multilinear",
    "C39_bounds",
    "C39_wrong_dimension",
    "C39_extrapolation_refuted"
   ],
   "note": "Inside the grid. Outside it the code neither extrapolates nor clamps: C39_extrapolation_refuted."
  },
  {
   "property": "C40",
   "status": "proved",
   "theorems": [
    "C40_degree",
    "C40_conditions",
    "C40_cubic",
    "C40_pieces",
    "C40_knots",
    "C40_affine",
    "C40_degree1",
    "C40_weights",
    "C40_nd_grid_points",
    "C40_nd_product"
   ],
   "note": "torch.linalg.solve and Tensor.inverse enter through contracts (linear_solver, matrix_inverter in SplinesSpec.v). Degrees other than 1 and 3 always raise: C40_degree. Cubic: existence and uniqueness for every increasing knot list. The weights theorems assume Tensor.inverse returned."
  },
  {
   "property": "C41",
   "status": "proved",
   "theorems": [
    "C41_transverse",
    "C41_flat",
    "C41_relations",
    "C41_curved",
    "C41_two_redshifts",
    "C41_additive",
    "C41_distmod"
   ],
   "note": "The comoving distance of the driver is a parameter of the model; everything built on it (transverse, angular-diameter, luminosity distances, the two-redshift form, the distance modulus, Hubble-distance scaling) is modelled and proved, exact real arithmetic, one batch element."
  },
  {
   "property": "C42",
   "status": "proved",
   "theorems": [
    "C42_volume",
    "C42_flat",
    "C42_small",
    "C42_scalar_refuted",
    "C42_redshift",
    "C42_redshift_flat",
    "C42_small_error"
   ],
   "note": "The derivative of the tensor branch's volume is 4 pi DM^2 wherever the small-argument series is not taken, and on that series the relative error is at most 2 eps^2 (C42_small_error). For a distance that is not a tensor the code has no small-argument test and divides by a zero curvature: C42_scalar_refuted."
  },
  {
   "property": "C43",
   "status": "proved",
   "theorems": [
    "C43_w",
    "C43_law",
    "C43_w0wz_refuted"
   ],
   "note": "The law and the documented equation of state are proved for LambdaCDM, wCDM, w0waCDM and wpwaCDM (flat or not, with or without radiation), for every instance with any history. It is false for w0wzCDM: C43_w0wz_refuted gives the exact value today, exp(-6 wz), and the exact slope, and shows both claims fail for every wz other than 0."
  },
  {
   "property": "C44",
   "status": "proved",
   "theorems": [
    "C44_constructor",
    "C44_no_error",
    "C44_closure",
    "C44_expansion",
    "C44_w0wz_refuted",
    "C44_readback",
    "C44_frame",
    "C44_constructor_readback"
   ],
   "note": "Any constructor call and any number of assignments. Read-back and frame are proved for every parameter (the temperature in C48). C44_w0wz_refuted: the expansion rate today is not 1 for w0wzCDM. C44_constructor_readback names the arguments that another argument replaces."
  },
  {
   "property": "C45",
   "status": "proved",
   "theorems": [
    "C45_zero_curvature",
    "C45_flat_lambda",
    "C45_expansion",
    "C45_refuted",
    "C45_Ode0_required_refuted",
    "C45_Ode0_ignored_refuted"
   ],
   "note": "Holds for FlatLambdaCDM and FlatLambdaCDMR after any history. False for the other flat classes, which require Ode0 (against their stubs) and do not constrain it: C45_refuted, C45_Ode0_required_refuted. C45_Ode0_ignored_refuted: FlatLambdaCDM silently ignores Ode0."
  },
  {
   "property": "C46",
   "status": "proved",
   "theorems": [
    "C46_complement",
    "C46_lookback_only_refuted",
    "C46_neither",
    "C46_drivers",
    "C46_flat"
   ],
   "note": "Complementarity holds for classes that define the age, and for the closed form of FlatLambdaCDM, with 0 < Om0 < 1, it is proved against the integral of the lookback-time integrand, with the limit 0. It is false for classes that only define the lookback time (odeint): C46_lookback_only_refuted; C46_drivers says which driver classes raise."
  },
  {
   "property": "C47",
   "status": "proved",
   "theorems": [
    "C47_listing",
    "C47_values",
    "C47_derived_refuted",
    "C47_rebuild"
   ],
   "note": "The listing is complete and exact; it does not exclude derived parameters (C47_derived_refuted: the test in the code compares a pair). C47_rebuild: constructing from the listing gives the same cosmology."
  },
  {
   "property": "C48",
   "status": "proved",
   "theorems": [
    "C48_temperature",
    "C48_density",
    "C48_constructor",
    "C48_order_refuted",
    "C48_module_refuted",
    "C48_redshift"
   ],
   "note": "Round trips and the constructor are proved for nonnegative Neff, nonzero H0 and positive constants. Independence of order is false: C48_order_refuted, C48_module_refuted."
  },
  {
   "property": "C49",
   "status": "proved",
   "theorems": [
    "C49_expansion",
    "C49_sum",
    "C49_today",
    "C49_matter",
    "C49_density",
    "C49_components_sum",
    "C49_components_refuted",
    "C49_components_e2"
   ],
   "note": "For the concrete classes everything holds; components.Omega is wrong (C49_components_refuted): it lacks the present density, and the test on the number of components is inverted. C49_components_sum is the law it does satisfy."
  },
  {
   "property": "C50",
   "status": "proved",
   "theorems": [
    "C50_polynomial"
   ],
   "note": "C50_polynomial: E(z)^2 is the leading coefficient times the product of (z - root) over the roots the driver stores. Exact arithmetic; torch.linalg.eigvals is assumed to return the eigenvalues of the companion matrix of the coefficients (used with radiation only); principal square roots and cube roots are assumed to be roots."
  },
  {
   "property": "C51",
   "status": "proved",
   "theorems": [
    "C51_any_codata_set",
    "C51_value_in_any_history",
    "C51_one_object_per_constant",
    "C51_recommended_values",
    "C51_wien_wavelength",
    "C51_wien_frequency"
   ],
   "note": "Values are exact reals (Python uses Fraction or float). The import machinery is reduced to globals plus module __getattr__; identifiers are NFKC-normalised. The Rydberg constant is within 3e-10 of the recommended value (it is recomputed from rounded inputs), the others within one standard uncertainty."
  },
  {
   "property": "C52",
   "status": "proved",
   "theorems": [
    "C52_reduction",
    "C52_exchange",
    "C52_cubic",
    "C52_quartic_basic",
    "C52_quartic"
   ],
   "note": "Real arguments and exact arithmetic. The Carlson functions are parameters assumed exact on positive arguments (exact_carlson; C55 is about their computation). Condition circular: the last arguments of the R_J and R_C calls are positive; C52_cubic, C52_quartic_basic and C52_quartic replace it by conditions on the coefficients only. C52_principal_value_needed shows a valid input (a=[529,100,25,4], x=96, y=0) where that argument is negative and the code needs principal values. x=y is excluded: the code then calls R_J with equal arguments."
  },
  {
   "property": "C53",
   "status": "proved",
   "theorems": [
    "C53_inherited_slots",
    "C53_backward",
    "C53_no_incoming_gradient",
    "C53_package",
    "C53_forward_arguments",
    "C53_symmetric_slots",
    "C53_alternative_slots",
    "C53_explicit_override_refuted",
    "C53_explicit_list_refuted"
   ],
   "note": "Model of utils/function_context.py and of every Function class of special/{ellip,ellipr,gamma,gammainc}.py (FuncCtx.v): class creation, inherited gradient slots, gradfuncs list/dict/property, forward saving, backward masking and the process wrapper. The MRO is given as a list, a tensor is one complex number (one batch element). Counterexamples proved: an explicit gradfuncs list hides a subclass's overriding rule (C53_explicit_override_refuted), an explicit list in a subclass of an automatic class is ignored (C53_explicit_list_refuted). Not modelled: ninputs = None (padded would then never return)."
  },
  {
   "property": "C54",
   "status": "proved",
   "theorems": [
    "C54_reorder",
    "C54_slots",
    "C54_package",
    "C54_inverse_gradients",
    "C54_classmethod_refuted"
   ],
   "note": "InverseFunctionMixin: argument reordering, the slots it generates, the classes of the package that use it (Gammaincinv) and, from the differentiability of the forward function alone, that the generated slots hold the partial derivatives of the inverse (C54_inverse_gradients). C54_classmethod_refuted: with a class-method rule the identity test fails and the slot of the inverted variable gets -1; no class of the package does this."
  },
  {
   "property": "C55",
   "status": "proved",
   "theorems": [
    "C55_elliprf",
    "C55_elliprf_infinite",
    "C55_elliprc",
    "C55_elliprc_pv",
    "C55_elliprc_pv_zero_refuted",
    "C55_elliprd",
    "C55_elliprj",
    "C55_elliprj_equal_refuted",
    "C55_elliprj_infinite",
    "C55_elliprg",
    "C55_elliprg_last_zero",
    "C55_elliprg_zeros",
    "C55_ellipkinc",
    "C55_ellipdinc",
    "C55_ellipeinc",
    "C55_ellippiinc",
    "C55_ellippiinc_zero",
    "C55_ellipk",
    "C55_ellipd",
    "C55_ellipe",
    "C55_ellippi",
    "C55_ellippi_equal_refuted",
    "C55_complete_at_one",
    "C55_incomplete_at_zero",
    "C55_incomplete_even",
    "C55_negative_amplitude_refuted",
    "C55_symmetric"
   ],
   "note": "Real arguments in exact arithmetic, with an arbitrary epsilon (at most 1, 2^-22 for R_J): termination of each loop, truncation error of each tail series against the improper integral, divergence where infinity is returned, R_G through its identity, Legendre's integrals by the substitution t = 1/sin^2 - 1/sin^2(phi). Rounding errors and complex arguments are not modelled. C55_elliprj_equal_refuted, C55_ellippi_equal_refuted: not a number when p equals x, y or z (n = m). C55_elliprc_pv_zero_refuted: x = 0 > y is not real. C55_incomplete_even, C55_negative_amplitude_refuted: the incomplete functions are even and have period PI in the amplitude, unlike the integrals."
  },
  {
   "property": "C56",
   "status": "proved",
   "theorems": [
    "C56_merge",
    "C56_unsorted_refuted"
   ],
   "note": "The right grid must be sorted (C56_unsorted_refuted). Batched merge_grids and Linear1dInterpolator.merge (which reads a missing attribute) are outside the model; see DESIGN.md."
  },
  {
   "property": "C57",
   "status": "proved",
   "theorems": [
    "C57_coherent_units",
    "C57_cgs_units",
    "C57_angular_units",
    "C57_names_denote_their_unit",
    "C57_additional_units"
   ],
   "note": ""
  },
  {
   "property": "C58",
   "status": "proved",
   "theorems": [
    "C58_to_base",
    "C58_missing_base"
   ],
   "note": ""
  },
  {
   "property": "C59",
   "status": "proved",
   "theorems": [
    "C59_comoving"
   ],
   "note": "C59_comoving for all four classes. elliprf is assumed to return Carlson's integral R_F (computes_RF, stated as an improper Riemann integral in CarlsonSpec.v); a function doing so exists (some_RF_ok). With radiation the theorem needs Om0 >= 0 and both redshifts >= -1. Exact arithmetic."
  },
  {
   "property": "C60",
   "status": "proved",
   "theorems": [
    "C60_lookback"
   ],
   "note": "C60_lookback for LambdaCDM and FlatLambdaCDM, under the contracts computes_RC and computes_RJ. The closed form with radiation (LambdaCDMR) is not covered."
  },
  {
   "property": "C61",
   "status": "proved",
   "theorems": [
    "C61_units_from_constants",
    "C61_rydberg_energy"
   ],
   "note": "All units of units/astro.py and eV; prefixed versions follow from C46-C49's prefix theorems. Values are exact reals."
  },
  {
   "property": "C62",
   "status": "proved",
   "theorems": [
    "C62_no_gradient",
    "C62_limits",
    "C62_parameters"
   ],
   "note": "C62_limits and C62_parameters are about the true derivative of the integral (is_derive). The parameter slot needs the reduction to be exact at the exponent vector with one exponent lowered, which C52 supplies."
  },
  {
   "property": "C63",
   "status": "proved",
   "theorems": [
    "C63_elliprc",
    "C63_elliprj_x",
    "C63_elliprj_y",
    "C63_elliprj_z",
    "C63_elliprj_p",
    "C63_elliprd_x",
    "C63_elliprd_y",
    "C63_elliprd_z",
    "C63_elliprf",
    "C63_elliprg",
    "C63_close_refuted"
   ],
   "note": "Real arguments, exact arithmetic. The functions called by the rules are parameters with the values of the integrals (carlson_functions). The condition resolved: two arguments are equal or at least the tolerance apart (different, when devil_may_care is set). C63_close_refuted: for y = 9x with 8x below the tolerance the gradient returned by elliprc is less than a third of the derivative. R_F and R_G through the backward pass of the symmetric functions for every needs-grad mask."
  },
  {
   "property": "C64",
   "status": "proved",
   "theorems": [
    "C64_ellipkinc",
    "C64_ellipeinc",
    "C64_ellipdinc",
    "C64_ellippiinc_m",
    "C64_ellippiinc_n",
    "C64_complete",
    "C64_ellippi",
    "C64_amplitude"
   ],
   "note": "Real arguments, exact arithmetic, amplitudes in [0, PI/2]. Not covered because the rules divide by zero there although the derivative exists: n = 0, n = m, m = 1, and the amplitude derivative at 0 and PI/2."
  },
  {
   "property": "C65",
   "status": "proved",
   "theorems": [
    "C65_absorption",
    "C65_bounce_refuted",
    "C65_zero_refuted",
    "C65_distance"
   ],
   "note": "LambdaCDM without radiation, curved or flat. Carlson's R_F and R_D by contract (CarlsonSpec.v). C65_bounce_refuted: when E^2 vanishes above both redshifts the code returns the integral minus 4/3 (E(z2)-E(z1))/Om0 (product of principal square roots has the opposite sign). C65_zero_refuted: equal redshifts give 0/0. With radiation (LambdaCDMR) the quartic formula is not modelled."
  },
  {
   "property": "C66",
   "status": "proved",
   "theorems": [
    "C66_gammainc_a",
    "C66_gammainc_x",
    "C66_gammaincc_a",
    "C66_gammaincc_x",
    "C66_Tgamma_a",
    "C66_Tgamma_z",
    "C66_Tgamma_one_refuted",
    "C66_gammaincinv",
    "C66_gammainccinv"
   ],
   "note": "Real arguments, exact arithmetic. log Gamma, digamma and the extension's Tgamma are parameters with the values of Euler's integral, its logarithmic derivative and the integral representation of T(m,a,z) (GammaSpec.v); C66_nonvacuous constructs such functions. Forward values (gammainc.h, gammaincinv.h) are not modelled. C66_Tgamma_one_refuted: the rule for z at m = 1 calls Tgamma(0), which raises."
  },
  {
   "property": "C67",
   "status": "proved",
   "theorems": [
    "C67_comoving",
    "C67_lookback",
    "C67_absorption",
    "C67_unsorted_refuted",
    "C67_zero_refuted",
    "C67_many_first",
    "C67_luminosity",
    "C67_luminosity_lengths_refuted",
    "C67_luminosity_axes_refuted",
    "C67_parameter_shape",
    "C67_parameter_element"
   ],
   "note": "Tensors as shape and function of indices; the solver (torchdiffeq, outside the repo) by contract: it rejects non-monotone times and otherwise returns the exact integral (OdeintSpec.v). Adjoint gradients, dtypes and devices not modelled. Exceptions proved as C67_unsorted_refuted, C67_zero_refuted, C67_many_first, C67_luminosity_lengths_refuted and C67_luminosity_axes_refuted; C67_luminosity covers the cases in which the axes agree."
  },
  {
   "property": "C68",
   "status": "proved",
   "theorems": [
    "C68_icdf",
    "C68_monotone",
    "C68_one_dimension_refuted",
    "C68_spacing_refuted",
    "C68_even_grid",
    "C68_marginal_refuted"
   ],
   "note": "One batch element, exact arithmetic, values inside [0,1]. The interpolators are the models of C38 and C39. C68_one_dimension_refuted (more_itertools.last of an empty generator), C68_spacing_refuted and C68_marginal_refuted show the exceptions; C68_even_grid the case in which the table's distribution is that of the interpolated density at the knots. rsample's use of torch.rand is not modelled."
  },
  {
   "property": "C69",
   "status": "proved",
   "theorems": [
    "C69_comoving",
    "C69_lookback",
    "C69_absorption"
   ],
   "note": "Complex version of elliptic_reduction/core.py for exponents with at most one entry different from zero (the only ones the driver uses), the recursion bounded by a fuel that the theorems fix from below. Reduces to C59, C60 and C65. Not covered: lookback time and absorption distance with radiation (degree 4); age_dimless raises NotImplementedError. computes_RF etc. are the hypotheses on the Carlson functions, as for C59."
  },
  {
   "property": "C70",
   "status": "proved",
   "theorems": [
    "C70_value",
    "C70_error",
    "C70_converges",
    "C70_early_refuted",
    "C70_maxterms_refuted",
    "C70_exp",
    "C70_Tgamma1",
    "C70_Tgamma1_defined",
    "C70_Tgamma2",
    "C70_Tgamma2_defined",
    "C70_shift",
    "C70_Tgamma_perturbed",
    "C70_Tgamma_moved",
    "C70_discard"
   ],
   "note": "Exact complex arithmetic. The gamma function and the power of a positive number are hypotheses (gamma_function, power_function in HyperSpec.v, both shown to be satisfiable). T(2, a, z) for integer a and T(m, a, z) for m >= 3 are computed at moved parameters; only that fact is proved for them (C70_Tgamma_perturbed, C70_shift). Exceptions: C70_early_refuted, C70_maxterms_refuted."
  },
  {
   "property": "C71",
   "status": "partial",
   "theorems": [
    "C71_loggamma",
    "C71_loggamma_positive",
    "C71_nan",
    "C71_gamma",
    "C71_gamma_near_pole"
   ],
   "note": "Real arguments, exact arithmetic, M_PI/LOGPI/SQRT2PI/LOGSQRT2PI taken as the exact constants; the series coefficients are the literals of the code. Missing: complex arguments; within 1e-9 of the poles the proved bound is 2e-9, not the accuracy the code reaches."
  },
  {
   "property": "C72",
   "status": "partial",
   "theorems": [
    "C72_lanczos",
    "C72_lower",
    "C72_upper_fraction",
    "C72_upper_complement",
    "C72_upper_small",
    "C72_complement",
    "C72_edges",
    "C72_underflow_refuted",
    "C72_truncation_refuted"
   ],
   "note": "Exact arithmetic; lgamma is assumed to be the logarithm of the gamma function, erfc to satisfy erfc(t)+erfc(-t)=2. Lanczos's formula with the code's coefficients is proved accurate to 1e-14 (C72_lanczos). Missing: the accuracy of the uniform asymptotic expansion (only the complement is proved there); the series (refuted at 1e6) and the continued fraction for a > 1900."
  },
  {
   "property": "C73",
   "status": "partial",
   "theorems": [
    "C73_digamma",
    "C73_nan",
    "C73_reflection",
    "C73_recurrence"
   ],
   "note": "Real arguments, exact arithmetic, M_PI the exact constant; pi/tan(pi x) is read as pi cos/sin, 0 where the tangent is infinite. Missing: complex arguments."
  },
  {
   "property": "C74",
   "status": "partial",
   "theorems": [
    "C74_inverse",
    "C74_exponential",
    "C74_edges",
    "C74_mirror",
    "C74_inverse_upper",
    "C74_exponential_upper",
    "C74_newton",
    "C74_unique"
   ],
   "note": "Exact arithmetic; tgamma and lgamma are assumed to be the gamma function and its logarithm, erfc to satisfy erfc(t)+erfc(-t)=2. Missing: the accuracy for the other starting values (eqs. 22 to 36, so most of a > 1), p outside the stated ranges; infinite a is not modelled."
  },
  {
   "property": "C75",
   "status": "proved",
   "theorems": [
    "C75_groups",
    "C75_total",
    "C75_mismatch",
    "C75_single_refuted"
   ],
   "note": ""
  },
  {
   "property": "C76",
   "status": "proved",
   "theorems": [
    "C76_cell",
    "C76_nodes",
    "C76_reproduces",
    "C76_between",
    "C76_edge_refuted",
    "C76_outside",
    "C76_broadcast_index",
    "C76_broadcast_shapes",
    "C76_shape",
    "C76_batch_refuted",
    "C76_larger_refuted",
    "C76_scalar_refuted"
   ],
   "note": ""
  },
  {
   "property": "C77",
   "status": "proved",
   "theorems": [
    "C77_history",
    "C77_contains",
    "C77_get",
    "C77_get_default_refuted",
    "C77_sources",
    "C77_one_line_refuted"
   ],
   "note": ""
  },
  {
   "property": "C78",
   "status": "proved",
   "theorems": [
    "C78_own_module",
    "C78_first",
    "C78_stable",
    "C78_shadows_top_level",
    "C78_others_untouched",
    "C78_stub_not_importable",
    "C78_same_module_refuted"
   ],
   "note": ""
  },
  {
   "property": "C79",
   "status": "proved",
   "theorems": [
    "C79_result",
    "C79_type",
    "C79_error",
    "C79_idempotent",
    "C79_arguments",
    "C79_accepted",
    "C79_number_precision_refuted"
   ],
   "note": ""
  }
 ]
}