# What Print Assumptions lists

Generated by tools/gen_assumptions.py from the compiled development. All axioms are the standard library's.

## Closed under the global context

C01_product_is_composition, C01_product_associative, C01_identity_neutral, C01_equality_decides, C02_inverse_laws, C02_inverse_of_product, C03_check_valid_decides, C04_mul_assign_refuted, C04_mul_assign_is_opposite, C04_mul_assign_partial, C05_transposition, C05_contiguous_cycle, C05_reversed_cycle_is_inverse, C05_cycle_is_product_of_transpositions, C06_constructor_validation_refuted, C06_inverse_defined_iff_valid, C06_initializer_warns, C07_size_is_factorial, C07_element_index_bijection, C07_element_out_of_range, C08_first_element_is_identity, C08_enumeration_is_nested, C08_first_block_is_smaller_group, C09_int32_suffices_up_to_12, C09_order_overflows_from_13, C10_quotient_round_trip, C10_quotient_refines_group_order, C11_index_separates_right_cosets, C11_left_cosets_refuted, C12_partitions_complete_and_ordered, C13_less_is_strict_total_order, C13_less_is_lexicographic, C13_mixed_sizes_abort, C14_equality_compares_rows, C14_equal_partitions_hash_equal, C14_equal_arrays_hash_refuted, C15_extendable_iff_partition, C15_shortenable_iff_partition, C16_parents_exact, C16_parents_order, C17_content_of_added_box, C17_throws_on_wrong_sizes, C17_not_nested_is_accepted, C18_hooklength_counts_tableaux, C18_hooklength_is_the_dimension, C18_int_up_to_12, C18_int_from_13_refuted, C19_tableaux_complete, C20_apply_transp_swaps, C20_apply_transp_on_standard, C21_default_tableau_standard, C21_at_inside, C21_at_throws_outside, C21_index_inverts_at, C21_index_absent_is_origin, C21_shape, C22_remove_undoes_add, C22_remove_is_undone_by_add_partial, C22_remove_interior_row_refuted, C23_restriction_order, C24_history_independent, C24_repeated_query_is_served_from_store, C24_answers_are_the_lists, C25_same_group_object, C25_right_group_object, C25_group_zero_undefined, C25_group_negative_throws, C26_numbering_depends_on_history_refuted, C26_numbering_on_first_use, C26_numbering_is_an_enumeration, C27_one_irrep_object_per_partition, C27_foreign_partition_refuted, C28_class_numbering, C28_foreign_size_aborts, C28_unsorted_array_refuted, C29_class_size, C29_class_can_be_listed, C30_same_values, C30_sorted_integers, C30_sorted_partitions, C30_sorts_refuted, C31_every_shape_has_an_irrep, C38_the_group_is_a_list, C40_small_shapes_overlap, C44_levels_and_parts, C44_blocks, C48_histories, C48_order_irrelevant, C48_cat, C48_mixed_aborts, C48_read_is_pure_refuted, C49_restriction, C49_restriction_of_irrep, C49_induction, C49_induced_unique, C49_frobenius, C50_one_group, C50_induced_objects, C50_answered, C50_any_mixture_refuted, C51_cyclic_group, C51_cyclic_table, C51_mixed_aborts, C52_dihedral_group, C52_acts_on_corners, C52_acts_faithfully, C52_generators, C52_r_of_n_refuted, C52_s_at_1_refuted, C52_mixed_aborts, C53_product_group, C53_pairs, C53_cyclic_by_dihedral, C61_value_semantics, C61_independent, C61_ownership, C61_no_leak, C61_destroyable, C61_self_assignment_refuted, C62_destructor, C62_any_state_refuted, C63_get_type, C64_one_quotient_object, C66_levels_and_parts, C66_blocks, C69_bank, C69_trivial_quotient, C70_sizes_add_up, C70_one_class, C70_conjugacy, C72_left_translate, C72_right_translate, C72_inverse, C73_times_assign, C73_times_assign_self_refuted

## `ClassicalDedekindReals.sig_forall_dec`

C42_left_translate, C42_right_translate, C42_inv, C42_left_action, C42_right_action, C42_identity, C42_left_right_commute, C42_inv_involution, C43_convolution_value, C74_add, C74_add_wrong_length

## `ClassicalDedekindReals.sig_forall_dec`, `FunctionalExtensionality.functional_extensionality_dep`

C43_convolution, C43_associative, C43_bilinear, C43_delta_neutral, C49_restriction_dimension, C49_induction_dimension, C56_product_irreps_refuted, C57_forward, C57_inversion, C63_down, C63_up, C63_cat, C63_up_of_down, C63_down_of_up, C63_accumulate_up, C72_left_of_transform, C72_right_of_transform, C72_inverse_of_transform

## `ClassicalDedekindReals.sig_forall_dec`, `ClassicalDedekindReals.sig_not_dec`, `FunctionalExtensionality.functional_extensionality_dep`

C31_generator_formula, C31_coxeter_relations, C32_identity, C32_homomorphism, C32_apply_is_left_multiplication, C32_wrong_size_aborts, C33_orthogonal, C34_cycle, C34_inverse_cycle, C34_transposition, C34_inverse_of_reversed_cycle_refuted, C35_transp_ordered_partial, C35_transp_reversed_is_a_cycle, C35_transp_refuted, C36_jucys_murphy, C36_sum_of_transpositions, C36_any_history_of_queries, C36_too_large_aborts, C37_character_is_the_trace, C37_trace_is_a_class_function, C37_value_at_the_identity, C38_matrix_elements_orthogonal, C38_characters_orthogonal, C39_restriction_is_block_diagonal, C40_middle_index, C40_middle_index_cycle, C40_middle_index_transposition, C40_first_index_partial, C40_first_index_cycle_partial, C40_first_index_transposition_partial, C40_first_index_refuted, C41_block_generator, C41_block_permutation, C41_block_cycle, C41_block_reversed_cycle_refuted, C41_strided_cycle, C41_strided_permutation, C45_forward, C46_inverse_of_forward, C46_forward_of_inverse, C47_convolution, C47_left_translation, C47_right_translation, C47_inversion, C54_cyclic_irreps, C54_orthogonal, C54_complete, C55_dihedral_irreps, C55_orthogonal, C55_squared_dimensions, C55_complete_for_odd_n, C55_third_irrep_refuted, C56_cyclic_refuted, C57_cyclic, C57_dihedral_odd, C57_dihedral_even_refuted, C57_product_refuted, C58_coeff, C58_multiplicity_unique, C58_mixed_aborts, C59_product_is_complete, C59_product_of_types, C59_product_trace, C59_types_trace, C59_product_dimension, C59_types_dimension, C60_always_the_trivial_character, C60_never_the_ith_refuted, C63_down_commutes, C63_up_commutes, C65_forward_partial, C65_round_trip_partial, C65_quotient_partial, C65_forward_S5_refuted, C66_forward, C66_round_trip, C67_whole_group_refuted, C68_inv_on_quotient_refuted, C71_every_history, C71_numbering_is_stable, C71_fresh_numbering, C71_numbering_refuted, C71_characters_differ, C72_hypotheses_hold, C72_inverse_of_transform_refuted, C74_apply, C74_identity, C74_product, C74_cycle, C74_cycle_inverse, C74_apply_additive, C74_wrong_size
