# Axioms per theorem (generated by tools/axioms.py from Print Assumptions)

All are axioms of Coq's standard library; none is declared in this development.

## none (closed under the global context)

32 theorems: C01_simplex_numbering_bijection, C02_simplex_numbering_colex, C02_simplex_numbering_stable, C03_specialised_numbering, C04_table_fits_int64, C04_table_is_binomial, C04_triangle_number_fits_int32, C05_parity_is_sign, C06_order_simplex, C07_sparse_to_dense, C08_integer_lift, C09_reindex_inverts_labelling, C09_reindex_other_indices, C10_delta0, C11_delta1, C12_delta1_compact, C12_kernel_is_cocycles, C13_delta2_compact, C13_kernel_is_cocycles, C14_delta1_delta0, C14_delta2_delta1, C15_agrees_with_matrix, C15_first_failure, C15_is_one_cocycle, C16_agrees_with_matrix, C16_is_two_cocycle, C17_inner_product, C18_feasible_iff_integral_lift, C19_row_weights, C25_selecting_a_class, C46_values, C48_unknown_mode

## `ClassicalDedekindReals.sig_forall_dec`

1 theorems: C61_columns

## `ClassicalDedekindReals.sig_forall_dec`, `ClassicalDedekindReals.sig_not_dec`, `Classical_Prop.classic`, `FunctionalExtensionality.functional_extensionality_dep`

95 theorems: C29_bump_functions, C44_negative_value, C44_projective, C44_short_class, C45_lens, C46_complex_projective, C46_lift_fails, C46_short_class, C47_documented_map, C47_small_data_ignores_class, C48_one_by_one_fails, C48_shape, C49_direct_formula, C49_on_sphere, C49_reductions, C50_equivariant, C51_complex_refuted, C51_direct_and_exponential_zero, C51_one_by_one, C51_one_by_one_real, C63_ball, C63_core_circle_refuted, C63_errors, C63_identified, C65_projective_metric, C65_range, C66_cross_similarities, C68_klein_onto, C68_torus_onto, C70_values, C75_full_dimension_isometry, C76_direct_best_subspace, C77_half_turn, C77_line_patches, C78_rp2, C82_reproducible, C82_seeds, C87_center, C87_coordinate, C87_half_open_refuted, C87_offset, C87_reduced_angle, C88_exp, C88_exp_refuted, C88_linear, C88_quadratic, C88_weights, C89_last_scale_refuted, C89_margin, C91_below_death_refuted, C91_default, C91_margin, C91_threshold, C92_circular, C92_classes_up_to_rounding, C92_default, C92_one_class_returns, C92_several_classes_return, C93_balls_that_meet, C93_diagonal_refuted, C93_distances, C93_landmarks, C93_symmetric, C93_translation_refuted, C94_arcs, C94_diagonal_refuted, C95_default, C95_projective, C95_short_class, C95_sphere, C95_sphere_complex, C95_unrounded, C96_default, C96_lens, C96_projective, C96_short_class, C96_sphere, C97_complex_projective, C97_default, C97_short_class, C97_small_data_ignores_class, C97_sphere, C98_attributes, C98_calls_are_independent, C98_common_threshold, C98_complex_projective_calls, C98_disjoint_supports, C98_invalid_selection, C98_projective_calls, C98_stored_cocycles, C98_stored_matrices, C99_attributes, C99_complex_projective_calls, C99_lens_calls, C99_projective_calls

## `ClassicalDedekindReals.sig_forall_dec`, `ClassicalDedekindReals.sig_not_dec`, `FunctionalExtensionality.functional_extensionality_dep`

78 theorems: C18_call, C30_upper_triangle_suffices, C31_any_covering_landmark, C32_circular_coordinates_represent_the_class, C32_coordinates_represent_the_classes, C33_one_class_returned, C33_range_and_nan, C33_several_classes_returned, C34_calls_are_independent, C35_field_values_refuted, C35_stored_cocycles, C36_common_threshold, C36_disjoint_supports, C36_invalid_selection, C36_stored_matrices, C38_recombination, C39_documented_gram_refuted, C39_stored_matrices, C43_circular_is_toroidal_with_one_class, C52_cohomologous_cochains, C52_coordinates_depend_on_the_class, C53_offset, C54_center, C54_center_degenerate, C55_functorial, C55_identity, C55_linear_combination, C55_one_row_and_errors, C55_representatives, C56_sinebow, C57_levelset_rejects, C57_levelset_sharp, C57_levelset_smooth, C58_near_the_line, C58_opposite_refuted, C58_other_inputs, C58_rotation, C59_default_pole, C59_other_poles, C59_projective, C60_nearest, C60_north_pole, C60_other_lengths, C61_onto, C62_other_inputs, C62_two_disks, C64_distances, C64_metric, C68_klein, C68_ring_torus, C68_torus, C69_noisy_circle, C69_sphere, C69_sphere_onto, C70_dim_ignored, C70_patch_size_refuted, C71_errors, C71_moore, C71_symmetric_refuted, C72_grid, C72_refused, C79_genus_two, C80_trefoil, C81_bullseye, C81_three_circles, C83_columns, C83_other, C83_scale, C84_counts_refuted, C84_hemispheres, C84_mesh, C84_projective_boundary, C84_projective_plane, C85_hemispheres, C85_projective, C86_five_classes_refuted, C86_up_to_three_classes, C89_represented

## `ClassicalDedekindReals.sig_forall_dec`, `FunctionalExtensionality.functional_extensionality_dep`

52 theorems: C18_failure_means_no_lift, C18_repair, C19_rounding_is_exact, C20_documented_repair_refuted, C20_one_class_is_repaired, C20_second_repair_raises, C21_documented_repair_refuted, C21_repair_raises_NameError, C21_repair_with_import, C22_sorted_and_matched, C23_landmark_distances, C23_maxdim_rejected, C24_coverage_is_zero, C24_coverage_refuted, C26_cover_radius, C26_monotone_in_perc, C27_boundary_accepted_refuted, C28_formula, C28_partition_of_unity, C33_constructor, C37_every_step, C37_result, C40_gram_schmidt_triangular, C40_orthogonal_for_three_refuted, C40_orthogonal_for_two, C41_two_classes, C42_exit_condition, C42_four_size_reduced_refuted, C42_termination_refuted, C42_three_classes, C42_three_lovasz_refuted, C44_constructor, C46_constructor, C52_harmonic_representative, C61_hopf, C66_distance_matrix, C66_no_landmarks, C66_point_cloud, C66_radii, C66_two_approximation, C67_errors, C67_geodesic_landmarks, C67_permutation_refuted, C72_imscatter, C73_equal, C73_fixed, C73_idempotent, C73_inverted_refuted, C74_documented_alpha_refuted, C74_radius_used, C90_unimodular, C95_signs
