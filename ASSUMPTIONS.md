# Print Assumptions of every theorem of MANIFEST.json

Generated by `tools/assumptions.py`. All axioms are of Coq's standard library.

## Closed under the global context (87 theorems)

C01_constructor, C01_lookup, C07_not_a_dimension, C08_identity, C08_bounded, C08_closest, C08_error, C08_negation, C08_recovers, C09_prefix_table_is_SI, C09_no_duplicate_prefix, C10_names_of_string, C11_registered_value, C11_no_name_lost, C11_warnings, C11_return_value, C12_export_registered, C12_helpers_dropped, C12_exit_final, C12_finaliser_exports, C12_block_bindings_survive, C12_rebinding_survives_refuted, C12_all_names, C13_flatten_gives_leaves, C13_unflatten_flatten, C13_flatten_unflatten, C13_specs_of_structures, C14_unflatten_length, C14_no_leaf_lost, C15_tree_map, C15_identity, C15_composition, C15_structure_and_leaves, C16_broadcast_iff_prefix, C16_otherwise_none, C16_values, C16_self, C17_namedtuple_refuted, C17_any_namedtuple_inside_refuted, C17_namedtuple_subclass_refuted, C17_tuple_subclass, C25_sizes, C25_every_shape, C25_unvalidated_refuted, C26_values, C26_error, C26_length, C26_illformed_refuted, C27_compose, C28_terminates, C28_faithful, C28_mixed_refuted, C28_empty_refuted, C28_depth_refuted, C29_vieta, C30_symmetric, C30_recursion, C30_first_and_last, C30_beyond, C30_zero_raises, C31_characteristic, C31_powers, C31_eigenvalues, C53_inherited_slots, C53_forward_arguments, C53_symmetric_slots, C53_explicit_override_refuted, C53_explicit_list_refuted, C54_reorder, C54_package, C67_parameter_shape, C67_parameter_element, C76_broadcast_index, C76_broadcast_shapes, C77_history, C77_contains, C77_get, C77_get_default_refuted, C77_sources, C77_one_line_refuted, C78_own_module, C78_first, C78_stable, C78_shadows_top_level, C78_others_untouched, C78_stub_not_importable, C78_same_module_refuted

## `sig_forall_dec` (12 theorems)

C20_linalg_refuted, C45_zero_curvature, C46_neither, C53_no_incoming_gradient, C67_many_first, C75_mismatch, C79_result, C79_type, C79_error, C79_idempotent, C79_arguments, C79_accepted

## `functional_extensionality_dep`, `sig_forall_dec` (78 theorems)

C02_commutative, C02_neutral, C02_inverse_of_product, C03_associative_representable, C03_associative_refuted, C06_to_value, C06_to_error, C06_to_groupoid, C06_to_product, C07_equivalence, C07_hash, C07_hash_key_injective, C07_insertion_order, C09_apply, C09_prefixes_compose, C09_inverse_prefixes_cancel, C09_kilogram, C10_names_exact, C10_binding_sound, C10_last_wins, C18_value, C18_roundtrip, C18_objects, C18_none, C18_dtype_refuted, C18_integer_refuted, C34_real, C36_sorted, C37_bracket, C37_cases, C37_single_knot_refuted, C38_knots, C38_cell, C38_between, C38_affine, C38_continuous, C38_derivative, C39_grid_points, C39_multilinear, C39_bounds, C39_wrong_dimension, C39_extrapolation_refuted, C40_weights, C40_nd_product, C41_additive, C46_complement, C46_lookback_only_refuted, C49_components_sum, C53_backward, C53_package, C53_alternative_slots, C54_slots, C54_inverse_gradients, C54_classmethod_refuted, C56_merge, C56_unsorted_refuted, C67_unsorted_refuted, C68_icdf, C68_monotone, C68_one_dimension_refuted, C68_spacing_refuted, C68_even_grid, C68_marginal_refuted, C70_shift, C75_groups, C75_total, C75_single_refuted, C76_cell, C76_nodes, C76_reproduces, C76_between, C76_edge_refuted, C76_outside, C76_shape, C76_batch_refuted, C76_larger_refuted, C76_scalar_refuted, C79_number_precision_refuted

## `classic`, `functional_extensionality_dep`, `sig_forall_dec` (1 theorems)

C18_error

## `functional_extensionality_dep`, `sig_forall_dec`, `sig_not_dec` (38 theorems)

C29_exactly, C29_injective, C31_numeric, C31_errors, C32_gradient, C32_formula, C32_inverse, C33_quadratic, C34_cubic, C34_exception_refuted, C35_quartic, C35_biquadratic, C35_real, C36_quartic_order, C40_degree, C40_conditions, C40_cubic, C40_pieces, C40_knots, C40_affine, C40_degree1, C40_nd_grid_points, C41_transverse, C41_flat, C41_relations, C41_curved, C41_two_redshifts, C42_small, C42_scalar_refuted, C65_zero_refuted, C70_value, C70_error, C70_converges, C70_early_refuted, C70_maxterms_refuted, C70_Tgamma_perturbed, C70_Tgamma_moved, C70_discard

## `classic`, `functional_extensionality_dep`, `sig_forall_dec`, `sig_not_dec` (224 theorems)

C01_canonical, C01_extensional, C02_inverse, C03_exact_on_grid, C03_regrouping, C04_repeated_product, C04_negative_power, C04_power_sum, C04_power_power, C04_power_of_product, C04_power_of_product_refuted, C05_power_then_root, C05_root_then_power, C05_power_power_rational, C05_root_then_power_refuted, C10_si_prefixed_names, C10_si_plain_names, C10_si_additional_names, C10_angstrom_symbol_refuted, C19_shared, C19_add, C19_add_refuted, C19_roles, C19_list, C19_histc_defaults, C20_shared, C20_compare, C20_product, C20_quotient, C20_reversed_quotient, C20_degree, C20_roles, C20_role_functions, C20_addcmul, C20_addcdiv, C20_addmm, C20_unit_independent, C20_product_unit_independent, C20_list, C20_multi, C20_no_rule, C20_inplace_refuted, C20_inplace_add_refuted, C20_rounded_division_refuted, C21_error, C21_value, C21_reversed, C21_bare_base, C21_exponent_tensor, C22_sum, C22_rsub, C23_det_any, C23_det, C23_products, C23_chain, C23_unit_argument_refuted, C24_value, C24_error, C41_distmod, C42_volume, C42_flat, C42_redshift, C42_redshift_flat, C42_small_error, C43_w, C43_law, C43_w0wz_refuted, C44_constructor, C44_no_error, C44_closure, C44_expansion, C44_w0wz_refuted, C44_readback, C44_frame, C44_constructor_readback, C45_flat_lambda, C45_expansion, C45_refuted, C45_Ode0_required_refuted, C45_Ode0_ignored_refuted, C46_drivers, C46_flat, C47_listing, C47_values, C47_derived_refuted, C47_rebuild, C48_temperature, C48_density, C48_constructor, C48_order_refuted, C48_module_refuted, C48_redshift, C49_expansion, C49_sum, C49_today, C49_matter, C49_density, C49_components_refuted, C49_components_e2, C50_polynomial, C51_any_codata_set, C51_value_in_any_history, C51_one_object_per_constant, C51_recommended_values, C51_wien_wavelength, C51_wien_frequency, C52_reduction, C52_exchange, C52_cubic, C52_quartic_basic, C52_quartic, C55_elliprf, C55_elliprf_infinite, C55_elliprc, C55_elliprc_pv, C55_elliprc_pv_zero_refuted, C55_elliprd, C55_elliprj, C55_elliprj_equal_refuted, C55_elliprj_infinite, C55_elliprg, C55_elliprg_last_zero, C55_elliprg_zeros, C55_ellipkinc, C55_ellipdinc, C55_ellipeinc, C55_ellippiinc, C55_ellippiinc_zero, C55_ellipk, C55_ellipd, C55_ellipe, C55_ellippi, C55_ellippi_equal_refuted, C55_complete_at_one, C55_incomplete_at_zero, C55_incomplete_even, C55_negative_amplitude_refuted, C55_symmetric, C57_coherent_units, C57_cgs_units, C57_angular_units, C57_names_denote_their_unit, C57_additional_units, C58_to_base, C58_missing_base, C59_comoving, C60_lookback, C61_units_from_constants, C61_rydberg_energy, C62_no_gradient, C62_limits, C62_parameters, C63_elliprc, C63_elliprj_x, C63_elliprj_y, C63_elliprj_z, C63_elliprj_p, C63_elliprd_x, C63_elliprd_y, C63_elliprd_z, C63_elliprf, C63_elliprg, C63_close_refuted, C64_ellipkinc, C64_ellipeinc, C64_ellipdinc, C64_ellippiinc_m, C64_ellippiinc_n, C64_complete, C64_ellippi, C64_amplitude, C65_absorption, C65_bounce_refuted, C65_distance, C66_gammainc_a, C66_gammainc_x, C66_gammaincc_a, C66_gammaincc_x, C66_Tgamma_a, C66_Tgamma_z, C66_Tgamma_one_refuted, C66_gammaincinv, C66_gammainccinv, C67_comoving, C67_lookback, C67_absorption, C67_zero_refuted, C67_luminosity, C67_luminosity_lengths_refuted, C67_luminosity_axes_refuted, C69_comoving, C69_lookback, C69_absorption, C70_exp, C70_Tgamma1, C70_Tgamma1_defined, C70_Tgamma2, C70_Tgamma2_defined, C71_loggamma, C71_loggamma_positive, C71_nan, C71_gamma, C71_gamma_near_pole, C72_lanczos, C72_lower, C72_upper_fraction, C72_upper_complement, C72_upper_small, C72_complement, C72_edges, C72_underflow_refuted, C72_truncation_refuted, C73_digamma, C73_nan, C73_reflection, C73_recurrence, C74_inverse, C74_exponential, C74_edges, C74_mirror, C74_inverse_upper, C74_exponential_upper, C74_newton, C74_unique
