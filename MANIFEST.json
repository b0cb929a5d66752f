{
 "claims": [
  {
   "property": "C01",
   "status": "proved",
   "theorems": [
    "C01_product_is_composition",
    "C01_product_associative",
    "C01_identity_neutral",
    "C01_equality_decides"
   ],
   "note": "Full property over the model of Permutation."
  },
  {
   "property": "C02",
   "status": "proved",
   "theorems": [
    "C02_inverse_laws",
    "C02_inverse_of_product"
   ],
   "note": "Full property."
  },
  {
   "property": "C03",
   "status": "proved",
   "theorems": [
    "C03_check_valid_decides"
   ],
   "note": "Full property."
  },
  {
   "property": "C04",
   "status": "proved",
   "theorems": [
    "C04_mul_assign_refuted",
    "C04_mul_assign_is_opposite",
    "C04_mul_assign_partial"
   ],
   "note": "The property as a user expects it is false of the code: C04_mul_assign_refuted proves the negation with a witness, C04_mul_assign_is_opposite says what the operator computes instead, C04_mul_assign_partial gives the commuting case."
  },
  {
   "property": "C05",
   "status": "proved",
   "theorems": [
    "C05_transposition",
    "C05_contiguous_cycle",
    "C05_reversed_cycle_is_inverse",
    "C05_cycle_is_product_of_transpositions"
   ],
   "note": "Full property."
  },
  {
   "property": "C06",
   "status": "proved",
   "theorems": [
    "C06_constructor_validation_refuted",
    "C06_inverse_defined_iff_valid",
    "C06_initializer_warns"
   ],
   "note": "The expected validation is absent: C06_constructor_validation_refuted proves that; the other two theorems say exactly when inverse is defined and what the initializer list constructor does."
  },
  {
   "property": "C07",
   "status": "proved",
   "theorems": [
    "C07_size_is_factorial",
    "C07_element_index_bijection",
    "C07_element_out_of_range"
   ],
   "note": "Full bijection for every n>=1, plus the behaviour for out-of-range indices (undefined, not rejected)."
  },
  {
   "property": "C08",
   "status": "proved",
   "theorems": [
    "C08_first_element_is_identity",
    "C08_enumeration_is_nested",
    "C08_first_block_is_smaller_group"
   ],
   "note": "Full property."
  },
  {
   "property": "C09",
   "status": "proved",
   "theorems": [
    "C09_int32_suffices_up_to_12",
    "C09_order_overflows_from_13"
   ],
   "note": "Stated against a copy of the arithmetic with every result checked against 32-bit int (Model_Sn32)."
  },
  {
   "property": "C10",
   "status": "proved",
   "theorems": [
    "C10_quotient_round_trip",
    "C10_quotient_refines_group_order"
   ],
   "note": "Full property."
  },
  {
   "property": "C11",
   "status": "proved",
   "theorems": [
    "C11_index_separates_right_cosets",
    "C11_left_cosets_refuted"
   ],
   "note": "True for right cosets; the documented left-coset reading is refuted with a witness."
  },
  {
   "property": "C12",
   "status": "proved",
   "theorems": [
    "C12_partitions_complete_and_ordered"
   ],
   "note": "Full property, including the order under the library's own operator<."
  },
  {
   "property": "C13",
   "status": "proved",
   "theorems": [
    "C13_less_is_strict_total_order",
    "C13_less_is_lexicographic",
    "C13_mixed_sizes_abort"
   ],
   "note": "Full property."
  },
  {
   "property": "C14",
   "status": "proved",
   "theorems": [
    "C14_equality_compares_rows",
    "C14_equal_partitions_hash_equal",
    "C14_equal_arrays_hash_refuted"
   ],
   "note": "True for positive parts; refuted for arrays with trailing zeros."
  },
  {
   "property": "C15",
   "status": "proved",
   "theorems": [
    "C15_extendable_iff_partition",
    "C15_shortenable_iff_partition"
   ],
   "note": "Full property."
  },
  {
   "property": "C16",
   "status": "proved",
   "theorems": [
    "C16_parents_exact",
    "C16_parents_order"
   ],
   "note": "Full property."
  },
  {
   "property": "C17",
   "status": "proved",
   "theorems": [
    "C17_content_of_added_box",
    "C17_throws_on_wrong_sizes",
    "C17_not_nested_is_accepted"
   ],
   "note": "Full property; also shows that non-nested pairs of the right sizes are accepted."
  },
  {
   "property": "C18",
   "status": "proved",
   "theorems": [
    "C18_hooklength_counts_tableaux",
    "C18_hooklength_is_the_dimension",
    "C18_int_up_to_12",
    "C18_int_from_13_refuted"
   ],
   "note": "The hook length formula is proved (no axioms), and the successive truncating divisions are exact in total. With 32-bit int the factorial overflows for every partition of n >= 13 (refuted)."
  },
  {
   "property": "C19",
   "status": "proved",
   "theorems": [
    "C19_tableaux_complete"
   ],
   "note": "Full property, plus the order of the list."
  },
  {
   "property": "C20",
   "status": "proved",
   "theorems": [
    "C20_apply_transp_swaps",
    "C20_apply_transp_on_standard"
   ],
   "note": "Full property."
  },
  {
   "property": "C21",
   "status": "proved",
   "theorems": [
    "C21_default_tableau_standard",
    "C21_at_inside",
    "C21_at_throws_outside",
    "C21_index_inverts_at",
    "C21_index_absent_is_origin",
    "C21_shape"
   ],
   "note": "Full property, including the silent (0,0) answer for absent values."
  },
  {
   "property": "C22",
   "status": "proved",
   "theorems": [
    "C22_remove_undoes_add",
    "C22_remove_is_undone_by_add_partial",
    "C22_remove_interior_row_refuted"
   ],
   "note": "First half proved for every tableau with non-empty rows; the second half holds exactly for rows of length >=2 or the last row (_partial), and is refuted for interior rows of length one."
  },
  {
   "property": "C23",
   "status": "proved",
   "theorems": [
    "C23_restriction_order"
   ],
   "note": "Full property: the restriction-ordered list is a permutation of all partitions and respects the restriction condition; termination is part of the Ret."
  },
  {
   "property": "C24",
   "status": "proved",
   "theorems": [
    "C24_history_independent",
    "C24_repeated_query_is_served_from_store",
    "C24_answers_are_the_lists"
   ],
   "note": "Full property over all finite histories of legal queries, with object identities and caches in the model."
  },
  {
   "property": "C25",
   "status": "proved",
   "theorems": [
    "C25_same_group_object",
    "C25_right_group_object",
    "C25_group_zero_undefined",
    "C25_group_negative_throws"
   ],
   "note": "Full property over all finite histories of legal calls, with the objects on an explicit heap. get_Sn(0) is shown undefined, negative n throws."
  },
  {
   "property": "C26",
   "status": "proved",
   "theorems": [
    "C26_numbering_depends_on_history_refuted",
    "C26_numbering_on_first_use",
    "C26_numbering_is_an_enumeration"
   ],
   "note": "The property as stated is false of the code: C26_numbering_depends_on_history_refuted. Proved instead: the numbering is the listing order when no irrep of S_n was requested before, and always an enumeration that then stays fixed."
  },
  {
   "property": "C27",
   "status": "proved",
   "theorems": [
    "C27_one_irrep_object_per_partition",
    "C27_as_many_irreps_as_classes",
    "C27_foreign_partition_refuted"
   ],
   "note": "Full property over histories of legal calls; Sn(n).irrep with a partition of another size poisons the cache (refuted)."
  },
  {
   "property": "C28",
   "status": "proved",
   "theorems": [
    "C28_class_numbering",
    "C28_foreign_size_aborts",
    "C28_unsorted_array_refuted"
   ],
   "note": "Full property; lookups of compositions that are no partitions insert 0 silently (refuted), foreign sizes abort."
  },
  {
   "property": "C29",
   "status": "proved",
   "theorems": [
    "C29_class_size",
    "C29_class_can_be_listed",
    "C29_int_up_to_12",
    "C29_int_from_13_refuted",
    "C29_partition_of_another_number_refuted",
    "C29_no_points_refuted"
   ],
   "note": "class_size in exact integers; C29_class_can_be_listed shows the class list exists; C29_int_up_to_12: the same count with 32-bit int up to n = 12; C29_int_from_13_refuted: from n = 13 on n! does not fit an int and every call is undefined, also for classes of one element; C29_partition_of_another_number_refuted: the partition is not checked against the group and the call then answers n! s / m!; C29_no_points_refuted: 0 is answered for the one permutation of no points"
  },
  {
   "property": "C30",
   "status": "proved",
   "theorems": [
    "C30_same_values",
    "C30_sorted_integers",
    "C30_sorted_partitions",
    "C30_sorts_refuted"
   ],
   "note": "The claim that order sorts is refuted; proved instead that it returns a permutation of its arguments, and exactly when it sorts (integers and partitions of n)"
  },
  {
   "property": "C31",
   "status": "proved",
   "theorems": [
    "C31_every_shape_has_an_irrep",
    "C31_generator_formula",
    "C31_coxeter_relations"
   ],
   "note": "generator formula in terms of tableaux and contents, and the three Coxeter relations for every matrix"
  },
  {
   "property": "C32",
   "status": "proved",
   "theorems": [
    "C32_identity",
    "C32_homomorphism",
    "C32_apply_is_left_multiplication",
    "C32_wrong_size_aborts"
   ],
   "note": "identity, homomorphism, apply = left multiplication; wrong size aborts"
  },
  {
   "property": "C33",
   "status": "proved",
   "theorems": [
    "C33_orthogonal"
   ],
   "note": "both orthogonality relations and rho(inverse)=transpose"
  },
  {
   "property": "C34",
   "status": "proved",
   "theorems": [
    "C34_cycle",
    "C34_inverse_cycle",
    "C34_transposition",
    "C34_inverse_of_reversed_cycle_refuted"
   ],
   "note": "cycle (either order), inverse cycle (a<=b) and transposition overloads; apply_left_inv ignores reversed cycles (recorded)"
  },
  {
   "property": "C35",
   "status": "proved",
   "theorems": [
    "C35_transp_ordered",
    "C35_transp_reversed_is_a_cycle",
    "C35_transp_refuted",
    "C35_transp_exact"
   ],
   "note": "transp(i,j) is the transposition's matrix for i<=j, a cycle's for i>j; it is right in every irrep exactly for i<=j+1."
  },
  {
   "property": "C36",
   "status": "proved",
   "theorems": [
    "C36_jucys_murphy",
    "C36_sum_of_transpositions",
    "C36_any_history_of_queries",
    "C36_too_large_aborts"
   ],
   "note": "diagonal with contents, equals the sum of transpositions, any history of cached queries"
  },
  {
   "property": "C37",
   "status": "proved",
   "theorems": [
    "C37_character_is_the_trace",
    "C37_trace_is_a_class_function",
    "C37_value_at_the_identity"
   ],
   "note": "Trace over every permutation of cycle type mu, constancy on conjugates, and value at the identity. Reals stand for floats."
  },
  {
   "property": "C38",
   "status": "proved",
   "theorems": [
    "C38_matrix_elements_orthogonal",
    "C38_characters_orthogonal",
    "C38_the_group_is_a_list"
   ],
   "note": "Schur orthogonality of matrix elements and of characters, for every list of the elements of S_n; C38_the_group_is_a_list shows the group's own enumeration is one. Floats as exact reals."
  },
  {
   "property": "C39",
   "status": "proved",
   "theorems": [
    "C39_restriction_is_block_diagonal"
   ],
   "note": "For sigma fixing n the matrix is block diagonal with the matrices of the irreps below lambda in the order of foreach_sub; permutations restricted by dropping the last image."
  },
  {
   "property": "C40",
   "status": "proved",
   "theorems": [
    "C40_middle_index",
    "C40_middle_index_cycle",
    "C40_middle_index_transposition",
    "C40_first_index",
    "C40_first_index_cycle",
    "C40_first_index_transposition",
    "C40_small_shapes_overlap",
    "C40_first_index_refuted",
    "C40_first_index_exact",
    "C40_first_index_overflow_refuted"
   ],
   "note": "Middle-index actions (permutation, cycle, transposition) proved for all shapes. First-index (batched) action: right exactly when exchanged pairs overlap (C40_first_index_exact), which holds for all shapes of at most 4 boxes; wrong for [3,2] and undefined for [3,2,1]. cnine's ScaleSomeSlices/GivensSomeSlices are not in the repository and are modelled after the commented-out loop in SnIrrepObj.hpp."
  },
  {
   "property": "C41",
   "status": "proved",
   "theorems": [
    "C41_block_generator",
    "C41_block_permutation",
    "C41_block_cycle",
    "C41_block_reversed_cycle_refuted",
    "C41_strided_cycle",
    "C41_strided_permutation"
   ],
   "note": "generator, permutation, cycle, strided; block version ignores reversed cycles (recorded)"
  },
  {
   "property": "C42",
   "status": "proved",
   "theorems": [
    "C42_left_translate",
    "C42_right_translate",
    "C42_inv",
    "C42_left_action",
    "C42_right_action",
    "C42_identity",
    "C42_left_right_commute",
    "C42_inv_involution"
   ],
   "note": "every cell of the result is written: the model freezes the raw tensor and an unwritten cell would be UB, so sf_left_translate f t = Ret g includes it"
  },
  {
   "property": "C43",
   "status": "proved",
   "theorems": [
    "C43_convolution",
    "C43_convolution_value",
    "C43_associative",
    "C43_bilinear",
    "C43_delta_neutral"
   ],
   "note": "exact reals for float"
  },
  {
   "property": "C44",
   "status": "proved",
   "theorems": [
    "C44_levels_and_parts",
    "C44_blocks"
   ],
   "note": "Levels, parts, blocks of the transform on Sn."
  },
  {
   "property": "C45",
   "status": "proved",
   "theorems": [
    "C45_forward"
   ],
   "note": "Every n and f, with the row-by-row action kept as a comment in the code (rows_cycle). What the shipped code does with its batched action is C65."
  },
  {
   "property": "C46",
   "status": "proved",
   "theorems": [
    "C46_inverse_of_forward",
    "C46_forward_of_inverse"
   ],
   "note": "Every n and f, both directions and the inversion formula, with the row-by-row action. The shipped batched action is C65."
  },
  {
   "property": "C47",
   "status": "proved",
   "theorems": [
    "C47_convolution",
    "C47_left_translation",
    "C47_right_translation",
    "C47_inversion"
   ],
   "note": "Convolution, left and right translation and inversion, every n, f, g, t, with the row-by-row action."
  },
  {
   "property": "C48",
   "status": "proved",
   "theorems": [
    "C48_histories",
    "C48_order_irrelevant",
    "C48_cat",
    "C48_mixed_aborts",
    "C48_read_is_pure_refuted"
   ],
   "note": "Histories of set/add/add-type/read on one n; the const read inserts a zero entry (C48_read_is_pure_refuted) and a partition of another n aborts."
  },
  {
   "property": "C49",
   "status": "proved",
   "theorems": [
    "C49_restriction",
    "C49_restriction_of_irrep",
    "C49_restriction_dimension",
    "C49_induction",
    "C49_induction_dimension",
    "C49_induced_unique",
    "C49_frobenius"
   ],
   "note": "Restriction and induction with multiplicities, dimensions, Frobenius reciprocity and the sub-isotypic lists."
  },
  {
   "property": "C50",
   "status": "proved",
   "theorems": [
    "C50_one_group",
    "C50_induced_objects",
    "C50_answered",
    "C50_any_mixture_refuted"
   ],
   "note": "The English claim is false of the code (C50_any_mixture_refuted): two non-empty types of different degrees abort. For one group the bank memoises correctly for every history."
  },
  {
   "property": "C51",
   "status": "proved",
   "theorems": [
    "C51_cyclic_group",
    "C51_cyclic_table",
    "C51_mixed_aborts"
   ],
   "note": "Group axioms, index round trip, the table modulo n, and the assertion when groups are mixed, for every n >= 1."
  },
  {
   "property": "C52",
   "status": "proved",
   "theorems": [
    "C52_dihedral_group",
    "C52_acts_on_corners",
    "C52_acts_faithfully",
    "C52_generators",
    "C52_r_of_n_refuted",
    "C52_s_at_1_refuted",
    "C52_mixed_aborts"
   ],
   "note": "Group axioms, both index functions, the faithful action on the n-gon and the relations of the generators, for every n >= 1. Refuted as documented API: r(n) is not an element and looks up as a reflection; s() is not an element for n = 1."
  },
  {
   "property": "C53",
   "status": "proved",
   "theorems": [
    "C53_product_group",
    "C53_pairs",
    "C53_cyclic_by_dihedral"
   ],
   "note": "For any two groups that satisfy the group axioms. ProductGroup and ProductGroupElement have no working index()."
  },
  {
   "property": "C54",
   "status": "proved",
   "theorems": [
    "C54_cyclic_irreps",
    "C54_orthogonal",
    "C54_complete"
   ],
   "note": "Unitary, orthogonal and complete for every n."
  },
  {
   "property": "C55",
   "status": "proved",
   "theorems": [
    "C55_dihedral_irreps",
    "C55_orthogonal",
    "C55_squared_dimensions",
    "C55_complete_for_odd_n",
    "C55_third_irrep_refuted"
   ],
   "note": "Unitary and orthogonal for all n and k except k = 3 with n even, where the code has a duplicated test and returns 2 x 2 matrices for a one-dimensional irrep (refuted for every even n). Squared dimensions sum to 2n; complete for odd n."
  },
  {
   "property": "C56",
   "status": "proved",
   "theorems": [
    "C56_product_irreps_refuted",
    "C56_cyclic_refuted"
   ],
   "note": "Refuted: the code returns the zero matrix for every pair of irreps, so it is never a representation."
  },
  {
   "property": "C57",
   "status": "proved",
   "theorems": [
    "C57_forward",
    "C57_inversion",
    "C57_cyclic",
    "C57_dihedral_odd",
    "C57_dihedral_even_refuted",
    "C57_product_refuted"
   ],
   "note": "Proved for every group with complete unitary irreps, and from that for all cyclic groups and dihedral groups with n odd. Refuted for dihedral groups with n even (the transform aborts) and for product groups (every function comes back as zero)."
  },
  {
   "property": "C58",
   "status": "proved",
   "theorems": [
    "C58_coeff",
    "C58_multiplicity_unique",
    "C58_mixed_aborts"
   ],
   "note": "Value, symmetry and history independence; mixed degrees abort. Multiplicity specified as the character average."
  },
  {
   "property": "C59",
   "status": "proved",
   "theorems": [
    "C59_product_is_complete",
    "C59_product_of_types",
    "C59_product_trace",
    "C59_types_trace",
    "C59_product_dimension",
    "C59_types_dimension"
   ],
   "note": "Completeness (the first-row bound loses nothing), bilinearity, traces and dimensions. get_CGfactors is not modelled."
  },
  {
   "property": "C60",
   "status": "proved",
   "theorems": [
    "C60_always_the_trivial_character",
    "C60_never_the_ith_refuted"
   ],
   "note": "character(i) always answers the character of (n): refuted for every i>=1."
  },
  {
   "property": "C61",
   "status": "proved",
   "theorems": [
    "C61_value_semantics",
    "C61_independent",
    "C61_ownership",
    "C61_no_leak",
    "C61_destroyable",
    "C61_self_assignment_refuted"
   ],
   "note": "Value semantics proved for every program without self copy-assignment and v*=v, frame, ownership, no leak and destroyability for every program; the x=x half is refuted in every reachable state for objects with at least one entry (freed before copied)."
  },
  {
   "property": "C62",
   "status": "proved",
   "theorems": [
    "C62_destructor",
    "C62_any_state_refuted"
   ],
   "note": "Characterised for every history of proper calls: the destructor is fine exactly when some call needed the tables of the matrix action; the unconditional claim is refuted (new object, identity, views only)."
  },
  {
   "property": "C63",
   "status": "proved",
   "theorems": [
    "C63_down",
    "C63_up",
    "C63_cat",
    "C63_get_type",
    "C63_up_of_down",
    "C63_down_of_up",
    "C63_down_commutes",
    "C63_up_commutes",
    "C63_accumulate_up"
   ],
   "note": "down, up, cat, get_type, accumulate_up, both round trips, and commutation with S_(n-1), for SnVec. SnVecB/SnPartB rest on cnine views that are not in the repository and are not modelled."
  },
  {
   "property": "C64",
   "status": "proved",
   "theorems": [
    "C64_one_quotient_object"
   ],
   "note": "Full property."
  },
  {
   "property": "C65",
   "status": "proved",
   "theorems": [
    "C65_forward_up_to_4",
    "C65_round_trip_up_to_4",
    "C65_quotient_up_to_4",
    "C65_forward_S5_refuted",
    "C65_forward_from_S6_refuted",
    "C65_inverse_from_S6_refuted",
    "C65_forward_exact"
   ],
   "note": "As run, the transform is the Fourier transform exactly for n<=4 (C65_forward_exact). On S5 a computed witness is wrong; from S6 on every forward transform is undefined and no inverse returns."
  },
  {
   "property": "C66",
   "status": "proved",
   "theorems": [
    "C66_levels_and_parts",
    "C66_blocks",
    "C66_forward",
    "C66_round_trip"
   ],
   "note": "Layout, forward values (m<n) and round trip (m<=n), with the row-by-row action."
  },
  {
   "property": "C67",
   "status": "proved",
   "theorems": [
    "C67_whole_group_refuted"
   ],
   "note": "Refuted for every n>=2: the one part carries the irrep of S1."
  },
  {
   "property": "C68",
   "status": "proved",
   "theorems": [
    "C68_inv_on_quotient_refuted"
   ],
   "note": "Refuted for every 2<=m<n<=4 with the batched action as shipped."
  },
  {
   "property": "C69",
   "status": "proved",
   "theorems": [
    "C69_bank",
    "C69_trivial_quotient"
   ],
   "note": "Every history of legal requests (n alone, or 1<=m<=n)."
  },
  {
   "property": "C70",
   "status": "proved",
   "theorems": [
    "C70_sizes_add_up",
    "C70_one_class",
    "C70_conjugacy"
   ],
   "note": "cycle types are conjugacy classes; sizes add to n!"
  },
  {
   "property": "C71",
   "status": "proved",
   "theorems": [
    "C71_every_history",
    "C71_numbering_is_stable",
    "C71_fresh_numbering",
    "C71_numbering_refuted",
    "C71_characters_differ"
   ],
   "note": "indexed_map (cnine) assumed to number entries in insertion order."
  },
  {
   "property": "C72",
   "status": "proved",
   "theorems": [
    "C72_left_translate",
    "C72_right_translate",
    "C72_inverse",
    "C72_left_of_transform",
    "C72_right_of_transform",
    "C72_hypotheses_hold",
    "C72_inverse_of_transform",
    "C72_inverse_of_transform_refuted"
   ],
   "note": "Translations and inverse for any group; left, right and (for real f) inv of a transform. inv of a transform conjugates, so it is refuted for complex f."
  },
  {
   "property": "C73",
   "status": "proved",
   "theorems": [
    "C73_times_assign",
    "C73_times_assign_self_refuted"
   ],
   "note": "Proved for distinct objects after any program; the p*=p half is refuted."
  },
  {
   "property": "C74",
   "status": "proved",
   "theorems": [
    "C74_apply",
    "C74_identity",
    "C74_product",
    "C74_cycle",
    "C74_cycle_inverse",
    "C74_add",
    "C74_apply_additive",
    "C74_wrong_size",
    "C74_add_wrong_length",
    "C74_transposition"
   ],
   "note": "apply, apply_inplace (permutation and contiguous cycle), apply_inplace_inv and add. SnVec::apply(Transposition) is not modelled; the inverse of a reversed cycle does nothing (C34)."
  },
  {
   "property": "C75",
   "status": "proved",
   "theorems": [
    "C75_apply",
    "C75_cycle",
    "C75_jucys_murphy",
    "C75_symmetric",
    "C75_commutes_with_the_subgroup",
    "C75_commute_with_each_other",
    "C75_trace"
   ],
   "note": "JucysMurphy(k) with k>n is not checked by the code and not covered. Products of products are not modelled."
  },
  {
   "property": "C76",
   "status": "proved",
   "theorems": [
    "C76_restriction_of_a_product_of_types",
    "C76_restriction_of_a_product"
   ],
   "note": "Both for types and for two irreps; equal as lists of entries, after any history of the bank."
  },
  {
   "property": "C77",
   "status": "proved",
   "theorems": [
    "C77_induction_of_a_product"
   ],
   "note": "Projection formula, with the specification of the induced type of C49."
  },
  {
   "property": "C78",
   "status": "proved",
   "theorems": [
    "C78_product_of_vectors",
    "C78_product_of_parts",
    "C78_linear_in_the_first",
    "C78_linear_in_the_second",
    "C78_inner_product",
    "C78_commutes_with_the_smaller_group",
    "C78_commutes_for_S2",
    "C78_several_columns_refuted",
    "C78_several_columns_vectors_refuted",
    "C78_several_columns_on_S1"
   ],
   "note": "Every table of factors F. The factors learn computes come from an eigenvalue routine that is not in the repository; that they are orthogonal and make the products commute with all of Sn is a hypothesis (orthogonal_factors, products_commute), shown satisfiable. Several columns: refuted."
  },
  {
   "property": "C79",
   "status": "proved",
   "theorems": [
    "C79_rows",
    "C79_columns",
    "C79_expansion",
    "C79_identity_column",
    "C79_dimensions"
   ],
   "note": "Both relations, the expansion of any class function, the identity column and the sum of squares, for all n."
  },
  {
   "property": "C80",
   "status": "proved",
   "theorems": [
    "C80_set_then_get",
    "C80_by_number",
    "C80_zero",
    "C80_class_of_another_group",
    "C80_other_group_refused_refuted"
   ],
   "note": "Reads and writes by class and by number. A class of another group is not refused (refuted)."
  },
  {
   "property": "C81",
   "status": "proved",
   "theorems": [
    "C81_left_translate",
    "C81_right_translate",
    "C81_inv",
    "C81_convolve",
    "C81_isometries",
    "C81_python_convolve_gradient_refuted"
   ],
   "note": "Adjoint relations for all n and all functions; the Python ConvolveFn.backward formula is refuted on S3."
  },
  {
   "property": "C82",
   "status": "proved",
   "theorems": [
    "C82_plancherel",
    "C82_as_run"
   ],
   "note": "Row-by-row group action for all n; the batched action as shipped for n<=4 (C65 says why)."
  },
  {
   "property": "C83",
   "status": "proved",
   "theorems": [
    "C83_irreps_separate"
   ],
   "note": "From the inversion kernel: if all matrices agree, the kernel at (p,q) is the one at (q,q)."
  },
  {
   "property": "C84",
   "status": "proved",
   "theorems": [
    "C84_product_of_vectors",
    "C84_product_of_parts",
    "C84_action",
    "C84_action_of_a_transposition",
    "C84_action_of_a_cycle",
    "C84_inplace_leaves_all",
    "C84_inplace_cycle_leaves_all",
    "C84_inplace_refuted",
    "C84_restriction",
    "C84_type",
    "C84_different_sizes",
    "C84_one_size",
    "C84_empty_vectors_refuted"
   ],
   "note": "Products for single columns, as in C78; every table of factors. apply_inplace of SnVecB is refuted: its loop variable is declared by value, so it changes copies and no batch ever changes (C84_inplace_leaves_all, C84_inplace_refuted). SnVecB::up is not modelled: it adds blocks whose sizes it does not state."
  },
  {
   "property": "C85",
   "status": "proved",
   "theorems": [
    "C85_learning_succeeds",
    "C85_inner_product",
    "C85_symmetric_is_enough"
   ],
   "note": "The eigenvalue routine is a parameter and exact; arithmetic is in reals. n is at most 1234567: learn overwrites used eigenvalues with that number, which is itself an eigenvalue for larger n."
  },
  {
   "property": "C86",
   "status": "proved",
   "theorems": [
    "C86_dimension_one",
    "C86_commutes_up_to_S3",
    "C86_S4_fixing_4",
    "C86_S4_refuted",
    "C86_signs_matter"
   ],
   "note": "Commutation with the whole group is proved for n<=3 and refuted for n=4 (C86_S4_refuted); for larger n only the parts of dimension 1 are proved. The refutation is about the code: it leaves signs of blocks to the eigenvalue routine."
  },
  {
   "property": "C87",
   "status": "proved",
   "theorems": [
    "C87_from_types",
    "C87_types_unchanged_refuted",
    "C87_product",
    "C87_commutes",
    "C87_additive",
    "C87_identity",
    "C87_composition",
    "C87_missing_irrep",
    "C87_from_vectors_refuted",
    "C87_destructor",
    "C87_copy_refuted"
   ],
   "note": "The refuted parts (const type changed, weights from vectors, copies) are stated as they are in the code."
  },
  {
   "property": "C88",
   "status": "proved",
   "theorems": [
    "C88_whole_numbers",
    "C88_table_entries",
    "C88_traces",
    "C88_long_cycle"
   ],
   "note": "every value is an integer bounded by the dimension; entries of the character table; traces of all matrices; the value at the long cycle. In exact arithmetic."
  },
  {
   "property": "C89",
   "status": "proved",
   "theorems": [
    "C89_elements",
    "C89_irreps",
    "C89_classes",
    "C89_characters",
    "C89_partitions",
    "C89_tableaux",
    "C89_slice",
    "C89_slice_out_of_range"
   ],
   "note": "Loops over containers. cnine::GenericIterator is not in the repository; the iterator is taken to hold the container and a number."
  },
  {
   "property": "C90",
   "status": "proved",
   "theorems": [
    "C90_python_elements_refuted",
    "C90_python_trivial_group_refuted",
    "C90_python_partitions_refuted",
    "C90_python_tableaux_refuted",
    "C90_python_rows_refuted",
    "C90_python_permutation_refuted"
   ],
   "note": "Refuted: a Python loop reads past the array after the last item, over S1 it does not end, over a permutation the first read is before the array."
  },
  {
   "property": "C91",
   "status": "proved",
   "theorems": [
    "C91_machine",
    "C91_matrix_error",
    "C91_character_error",
    "C91_character_nearest",
    "C91_multiplicity_up_to_S8",
    "C91_multiplicity_small_irreps",
    "C91_product_up_to_S8",
    "C91_exact_up_to_S6",
    "C91_exact_product_up_to_S6",
    "C91_exact_multiplicity_refuted"
   ],
   "note": "Matrix and character error bounds, multiplicities exact or one short up to S8, exact up to S6; exactness refuted on S7 by a run evaluated in Coq ((5,2) times (2,2,2,1)). IEEE arithmetic is Coq.Floats.SpecFloat; Flocq's theorems give the error of one operation."
  },
  {
   "property": "C92",
   "status": "proved",
   "theorems": [
    "C92_trivial",
    "C92_sign",
    "C92_sign_of_composition",
    "C92_sign_of_cycles",
    "C92_characters",
    "C92_product_with_trivial"
   ],
   "note": "Matrices, characters and products of the two irreps of dimension 1."
  },
  {
   "property": "C93",
   "status": "proved",
   "theorems": [
    "C93_transposed",
    "C93_irrep",
    "C93_matrices",
    "C93_product_with_sign",
    "C93_multiplicities"
   ],
   "note": "Matrices up to order and signs, characters, products with the sign."
  },
  {
   "property": "C94",
   "status": "proved",
   "theorems": [
    "C94_lift",
    "C94_as_run",
    "C94_lift_exists"
   ],
   "note": "Proved for the group action row by row and, as the code runs it, for n<=4 (C65)."
  },
  {
   "property": "C95",
   "status": "proved",
   "theorems": [
    "C95_plancherel",
    "C95_forward_of_inverse",
    "C95_vectors_exist"
   ],
   "note": "Proved for the group action row by row (C65 says where the code as run agrees)."
  },
  {
   "property": "C96",
   "status": "proved",
   "theorems": [
    "C96_decimal",
    "C96_form",
    "C96_permutations",
    "C96_partitions",
    "C96_tableaux",
    "C96_tableau_printed",
    "C96_types",
    "C96_representations",
    "C96_named_by_partition",
    "C96_cycles",
    "C96_group_elements",
    "C96_functions",
    "C96_functions_apart",
    "C96_names",
    "C96_class_functions",
    "C96_class_functions_apart",
    "C96_quotient_functions",
    "C96_quotient_functions_apart",
    "C96_quotients_alike_refuted",
    "C96_groups",
    "C96_product_group_refuted",
    "C96_vectors",
    "C96_empty_vector_refuted"
   ],
   "note": "Printed forms of all kinds are injective (permutations, partitions, tableaux, types, representations, cycles, classes, irreps, groups, group elements and products of them; functions and class functions given an injective newline-free number format). Refuted: a product of groups prints without its first factor; printing an empty vector of integers leaves it; functions on different quotients with the same values print alike."
  },
  {
   "property": "C97",
   "status": "proved",
   "theorems": [
    "C97_inv_snsm_refuted",
    "C97_as_run_refuted",
    "C97_trivial_quotient"
   ],
   "note": "Refuted for every 2<=m<n: printing what Python's inv_snsm returns reads outside an array, and asking for the value at any permutation of n ends the process; for m=1 both work."
  },
  {
   "property": "C98",
   "status": "proved",
   "theorems": [
    "C98_sessions",
    "C98_banks",
    "C98_before_refuted",
    "C98_after_classes_refuted",
    "C98_after_sn_refuted",
    "C98_two_classes_refuted",
    "C98_copy_refuted",
    "C98_classes_alone",
    "C98_one_object"
   ],
   "note": "Proved for all histories of Snob2_session objects, and for constructions of CombinatorialClasses and SnClasses objects alone. Refuted: use before the first session, a CombinatorialClasses or SnClasses object before or after a session, two such objects, copies of sessions."
  },
  {
   "property": "C99",
   "status": "proved",
   "theorems": [
    "C99_scalar_forward",
    "C99_scalar_forward_code",
    "C99_scalar_backward",
    "C99_scalar_backward_code",
    "C99_commutes",
    "C99_only_class_functions_commute",
    "C99_character",
    "C99_character_code",
    "C99_characters_convolve",
    "C99_character_functions"
   ],
   "note": "Proved for every n with rows turned one at a time, and for n up to 4 with the batched row turn of the code (C45 says why not beyond)."
  },
  {
   "property": "C100",
   "status": "proved",
   "theorems": [
    "C100_partition_keys",
    "C100_pair_keys",
    "C100_triple_keys",
    "C100_transform_keys",
    "C100_array_keys_refuted"
   ],
   "note": "Proved for every number of buckets and both ways of storing hash codes, for all four kinds of key; refuted for arrays with trailing zeros."
  },
  {
   "property": "C101",
   "status": "proved",
   "theorems": [
    "C101_history",
    "C101_copy_of_multiplicity_one",
    "C101_copy_moves_first_columns",
    "C101_copy_by_cycle",
    "C101_copy_refuted",
    "C101_copy_out_of_range_refuted"
   ],
   "note": "Proved for the actions in place, for every history. The copying version is proved right at multiplicity 1 and refuted otherwise."
  },
  {
   "property": "C102",
   "status": "proved",
   "theorems": [
    "C102_part",
    "C102_vector",
    "C102_zero",
    "C102_identity_moves",
    "C102_python_part_ones_refuted",
    "C102_python_vector_ones_refuted"
   ],
   "note": "Parts and vectors have the sizes and entries asked for, get_type returns the type, and acting on an identity gives the representation matrix. Refuted: in Python SnPart.ones and SnVec.ones are bound to identity, so they are all ones only when every part is 1 x 1."
  },
  {
   "property": "C103",
   "status": "proved",
   "theorems": [
    "C103_permutation",
    "C103_uniform",
    "C103_series",
    "C103_from_13_refuted"
   ],
   "note": "the generator is a parameter; that it draws within range (and, for C103_uniform, each number from equally many states) is a hypothesis, met by C103_hypotheses; refuted from n = 13 on: C103_from_13_refuted"
  }
 ]
}