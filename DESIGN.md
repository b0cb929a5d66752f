# Formal model of Snob2 in Rocq (Coq 8.16.1)

## How to read this development

* `rocq/theories/Model_*.v`  — executable Gallina functions, one per C++ function, each with a comment citing
  the file and lines of `/repo` it models. No proofs.
* `rocq/theories/Spec_*.v`   — the small independent specification vocabulary (what a permutation, a partition, a
  standard tableau, a matrix product, a Fourier transform ... is), written without the model's helper functions.
* `rocq/theories/Proof_*.v`  — lemmas.
* `rocq/theories/Prop_*.v`   — only the property theorems, each closed by `exact`, with `Print Assumptions` below it
  and `Example`s showing that its hypotheses are met by a non-trivial case.
* `properties.jsonl` — the English properties; `MANIFEST.json` — property to theorem map with notes;
  `seeded/LOG.jsonl` — results of editing the model the way a bug would.
* `tools/` — the scripts that write `properties.jsonl`, `MANIFEST.json` and the table of assumptions below.

A theorem whose name ends in `_refuted` states that the English property, as a user would expect it, is false of the
code, with a witness; next to it stands what is true instead. `_partial` marks a theorem that covers only part of its
property; its comment says what is missing.

## Modelling conventions

* C++ `int` is `Z`, unbounded. Overflow is not modelled inside the functions; C09 states for which n the values of the
  index arithmetic fit in 32 bits, against a second copy of that arithmetic with every result checked
  (`Model_Sn32`). Division and remainder truncate as in C++ (`cdiv`, `cmod`).
* Every function that can misbehave returns an `outcome`: `Ret v` (normal), `Throw` (C++ exception:
  `std::vector::at`, `SNOB2_ASSRT`), `Abort` (`assert`, `SNOB2_ASSERT` which exits) and `UB` (out-of-bounds raw array
  access, read of uninitialised memory, dangling pointer, double delete). A theorem that a call returns `Ret` therefore
  also says that it has no undefined behaviour, does not throw, does not abort and terminates.
* `new int[n]` gives a buffer of uninitialised cells (`None`); results are read back only if all cells were written.
* Loops are folds over explicit integer ranges (`zfor lo hi` counts up, `zford hi lo` down, `zforb` can break);
  container loops are `foldM`.
* Mutation through pointers and references becomes a function returning the new value. The global caches ("banks")
  are explicit states threaded through a step function; histories are lists of operations of any length.
  Where object identity matters (C24-C28, C50, C61, C62, C64, C69, C73) objects live on an explicit heap.
* `float` and `double` are exact real numbers (Coq's `R`), complex numbers pairs of reals. Only `Model_Float` (C91) has
  rounded arithmetic, for the matrices, characters and multiplicities.
* The cnine library is not part of the repository. Its tensors are functions on index ranges, with `UB` outside; its
  kernels (`ScaleSomeSlicesFn`, `GivensSomeSlicesFn`, `block2`, `factorial`, ...) follow their names, arguments and the
  commented-out reference loops that the repository keeps next to the calls. Its associative containers are taken to
  number entries in order of insertion.

## Plan per property

| id | what is modelled, how it is proved |
|----|------------------------------------|
| C01-C06 | `Permutation.hpp` as arrays of Z with UB; loop invariants give a pure description; group laws from it; C04 and C06 refuted by witnesses, with the true statement next to it |
| C07-C09 | `SnObj::element`, `index` with array shifting loops; induction on n: shifting is insertion; bounds by factorial arithmetic |
| C10-C11 | `SnOverSmObj` likewise; the index depends only on the positions of values above m; cosets characterised; left-coset reading refuted |
| C12-C17 | `IntegerPartition`, `make_partitions`; induction on n |
| C18 | hook length formula: the count obeys the branching rule, the hook product obeys it too by a partial fractions identity over the rationals; no axioms |
| C19-C22 | `YoungTableau`, `make_tableaux`; induction on n by removing the box of n |
| C23 | `proposeRO` with marks as a depth-first search; invariant over marks |
| C24-C28, C64 | banks as state machines; invariants over operation lists; refutations for the history-dependent interfaces |
| C29, C70 | `class_size`, in exact integers and with 32-bit int; counting permutations of a cycle type by orbit and centraliser; cycle types are conjugacy classes |
| C30 | `order`: permutation proved, sortedness refuted |
| C31-C36 | `SnIrrepObj` over R. Row operations are related to operators on functions of tableaux; Coxeter relations from axial distances; word argument for the homomorphism property; Jucys-Murphy elements by induction |
| C37-C39 | characters as traces; Schur orthogonality through Jucys-Murphy eigenvalues and connectivity of tableaux; restriction to S_(n-1) by blocks |
| C40-C41 | actions on multi-index tensors; the batched kernel is right exactly for shapes whose exchanged pairs overlap; witnesses for a wrong result and for a write outside the tensor |
| C42-C43 | `SnFunction` as vectors indexed by `index`, using C07 |
| C44-C47 | Clausen's transform over R, parametric in the row action; layout of the blocks; inversion from completeness of the matrix elements |
| C48-C49 | `SnType` as association lists with inserting lookup; restriction and induction of types against the Young graph |
| C50 | representation bank as a state machine with an aborting comparison |
| C51-C53 | finite groups with truncated remainder |
| C54-C57, C72 | irreps of cyclic, dihedral and product groups; Fourier transform on any group with a complete set of unitary irreps |
| C58-C59 | Clebsch-Gordan multiplicities: cache keyed by `order`; character average; bilinearity |
| C60, C71 | character bank as a state machine |
| C61, C73 | `Permutation` and `IntegerPartition` as objects owning heap blocks; programs of constructions, copies, moves, assignments |
| C62 | owning pointers of `SnIrrepObj`; destruction after any history of calls |
| C63, C74 | `SnVec`: rows are named by tableaux; block offsets are shown to be the rows of the tableaux with the box of n removed |
| C75 | `SnProductRepresentation`: the two fused views give the two factors of the Kronecker matrix; loop invariant of JucysMurphy as in C36 |
| C76-C77 | restriction and induction of CG products: both sides have the same characters (branching of characters, orthogonality), and the entries agree because the multiplicities are non-negative |
| C78 | `SnCGbank` product of vectors, the recursion n to n-1 with the numbers of the factors as a parameter: a closed form by induction on n, from which bilinearity, the isometry and the action of S(n-1) follow; the mismatch of sizes for several columns by induction on n |
| C79 | character table: from Schur orthogonality of matrix entries, as many orthogonal class functions as classes |
| C80 | `SnClassFunction` access by class and by number; a class of another group refuted |
| C81 | inner products of functions on Sn: reindexing sums over the group by translation and inversion; the Python gradient of convolution refuted on S3 |
| C82 | Plancherel's formula for the transform (row-by-row action for all n, batched action for n<=4): the inversion kernel of C46 |
| C83 | equal matrices in all irreps imply equal permutations: the inversion kernel of C46 |
| C84 | `SnPartB`, `SnVecB` and the batched product of `SnCGbank`, function by function: a relation between a batch and one of its members that every step keeps, by induction on n |
| C85 | `SnCGbank::learn` with the eigenvalue routine as a parameter: the restricted product decomposes into irreps of S(n-1) (C39) and irreps of Sn, Jucys-Murphy eigenvalues are contents, so the eigenvalues learn looks for are there with the right multiplicities; loop invariants for the columns taken; induction on n |
| C86 | the columns of an irrep are compared with an orthonormal equivariant basis of the product; for n<=3 all blocks are aligned. For S4 a second exact routine with negated eigenvectors, which gives the same factors for n<=3, and a contradiction from both being equivariant |
| C87 | `SnWeights`: the map from irreps to matrices, the product and the ownership of the matrices; entrywise description of the product, from which equivariance, additivity and composition follow |
| C88 | values of characters: the product of the Jucys-Murphy elements is the sum of the long cycles, which gives the value at a long cycle; on a product of two groups a character is a combination, with natural multiplicities (traces of projections), of products of characters; induction over the cycle type |
| C89 | range loops as a counted loop over `size()` and `operator[]` with arbitrary legal requests in the body; the invariant of the group bank (C25-C28) and of the character bank (C71) |
| C90 | Python's loop over `__getitem__` until an exception: no exception comes, so the loop leaves the array |
| C91 | `Model_Float`: the loops for matrices, characters and multiplicities over any arithmetic; forward error bounds by loop invariants for every arithmetic whose operations have small relative errors; IEEE binary32 and binary64 (`Coq.Floats.SpecFloat`) are one, by the theorems of Flocq; runs of the code in Coq give exactness up to S6 (the dimensions add up) and the lost multiplicity on S7 |
| C92 | one standard tableau; every generator acts as 1 or -1; the parity of inversions changes with every generator |
| C93 | transposed tableaux have negated contents, so the generators act as before up to the sign of the tableau's reading word; induction over words |
| C94 | the sum over Sn splits by cosets and the level-by-level recursion of the transform; at the bottom the matrices of Sm add up to 0 except for the trivial irrep (orthogonality) |
| C95 | from C94 and Plancherel on Sn; the inversion formula on Sn applied to the vector filled up with zero columns gives a function constant on the cosets |
| C96 | `Model_Str`: the printing functions over strings; decimal forms are those the standard library reads back, and separators are no digits, so a printed form can be split from the left; the comma operator in `ProductGroup::str` and the unsigned loop bound for an empty vector are modelled |
| C97 | Python binds inv_snsm to inv (C68): the label of the result is smaller than n, so printing reads elements outside the group and evaluation fails an assertion |
| C98 | `Model_Session`: global pointers, heap blocks and objects; an invariant of histories with sessions only; witnesses for the others |
| C99 | averages over the group of conjugated matrix elements (Schur) give scalar coefficients; injectivity of the transform gives the converse, the centre and the idempotents |
| C100 | tables of buckets with any hash; invariant on placement and distinct keys, kept by assignment and rehashing; histories by induction |
| C101 | the block actions of C41 on the reshaped tensor; histories by induction with the homomorphism; the copying version, which keeps three dimensions, as an action on first columns |
| C102 | `Model_Fill`: the constructors with a fill pattern and the two Python bindings named `ones`, over the parts and vectors of `Model_Vec`; by induction on the type, with the round trip of `get_type` from C63; the pattern of a tensor that is not square has no identity (cnine is not in the repository) |
| C103 | `Model_Random`: `random` over a generator that is any state machine with draws in range; the bijection of C07 in 32-bit int (C09); uniformity as a count of states, series of calls by induction |
| C65, C68 | the transform with the batched kernel as shipped: equal to the row-by-row one exactly for n<=4, refuted on S5 by a computed entry, undefined from S6 on because the plan for (3,2,1) leaves its tensor |
| C66, C67 | the transform on Sn/Sm: layout, values, round trip; n = m refuted |
| C69 | transform bank as a state machine |

## What is modelled

The comment above each definition gives file and lines. By file:

| model | source |
|-------|--------|
| `Model_Perm`, `Model_Mem` | `combinatorial/Permutation.hpp`, `Transposition.hpp`, `ContiguousCycle.hpp`, memory of `IntegerPartition.hpp` |
| `Model_Part`, `Model_Tab`, `Model_Comb`, `Model_CombBank` | `combinatorial/IntegerPartition.hpp`, `YoungTableau.hpp`, `IntegerPartitionObj.hpp`, `CombinatorialBank.hpp`, `CombinatorialBankLevel.hpp` |
| `Model_Sn`, `Model_Sn32`, `Model_SnBank`, `Model_Class`, `Model_Class32` | `Sn/SnObj.hpp`, `SnOverSmObj.hpp`, `SnBank.hpp`, `Sn.hpp`, `include/Snob2_base.hpp:order` |
| `Model_Random` | `random` of `Sn/SnObj.hpp`, `Sn.hpp`, `Sn_ElementHelper.hpp`; the generator and the distribution are parameters |
| `Model_Irrep`, `Model_Life` | `Sn/SnIrrepObj.hpp`, `SnIrrep.hpp` |
| `Model_Char`, `Model_CG` | `Sn/SnCharBank.hpp`, `SnCharacter.hpp`, `SnClassFunction.hpp`, `Sn_CharacterHelper.hpp`, `SnCGbank.hpp:coeff,CGproduct` |
| `Model_CGvec` | `Sn/SnCGbank.hpp:get_CGfactors` (sizes), `CGproduct` of vectors and of parts, `add_CGprod`, `accumulate_CGprod` |
| `Model_VecB`, `Model_VecBIn` | `Sn/SnPartB.hpp`, `SnVecB.hpp`, batched products of `SnCGbank.hpp` |
| `Model_Learn` | `Sn/SnCGbank.hpp:get_CGfactors,learn` |
| `Model_Weights` | `Sn/SnWeights.hpp`; `SnVec::apply(Transposition)`, `SnPart::apply(Transposition)` |
| `Model_Loop` | iterators of `Sn/Sn_*Helper.hpp`, `combinatorial/IntegerPartitions.hpp`, `StandardYoungTableaux.hpp`; Python loops over `__getitem__` |
| `Model_Float` | `Sn/SnIrrepObj.hpp`, `SnCharacter.hpp`, `SnCGbank.hpp:coeff,CGproduct` with IEEE arithmetic |
| `Model_Fun` | `Sn/SnFunction.hpp` |
| `Model_Type` | `Sn/SnType.hpp`, `SnIsotypicObj.hpp`, `SnRepresentationObj.hpp`, `SnRepresentationBank.hpp` |
| `Model_FFT` | `Sn/ClausenFFT*.hpp`, `SnMultiPart.hpp`, `SnMultiVec.hpp`, `SnOverSmFunction.hpp`, `SnFFTbank.hpp` |
| `Model_Multi` | `Sn/SnMultiPart.hpp:apply`, histories of `apply_inplace` |
| `Model_Fill` | constructors of `Sn/SnPart.hpp` and `SnVec.hpp` with a fill pattern, `ones` of `python/bindings/SnFunctions_py.cpp` |
| `Model_Vec` | `Sn/SnVec.hpp`, `SnPart.hpp` |
| `Model_Prod` | `Sn/SnProductRepresentation.hpp`, for two irreps |
| `Model_Group` | `groups/*.hpp`, `include/FunctionOnGroup.hpp` |
| `Model_Str` | `str` and `operator<<` of permutations, cycles, partitions, tableaux, types, representations, functions on Sn and Sn/Sm, groups and their elements, vectors of integers |
| `Model_Hash` | hashes and equality of `combinatorial/IntegerPartition.hpp`, `Sn/ClausenFFTObj.hpp`; `std::unordered_map` with an arbitrary number of buckets |
| `Model_Session` | `include/Snob2_session.hpp`, `Snob2_base.cpp`, `combinatorial/CombinatorialClasses.hpp`, `Sn/SnClasses.hpp` |

## What is not modelled

* CUDA code, Python bindings other than loops over `__getitem__` (C90) and the gradient of convolution (C81), inv_snsm (C97) and `ones` (C102), printing of tensors and numbers, random and gaussian fills, memory exhaustion. Floating point rounding
  outside `Model_Float` (which takes operations one by one, without fused multiply-add).
* The cnine library itself: what its views, containers and tensors do is written into the model where it is used, and what
  it does outside their bounds is undefined. Its eigenvalue routine is a parameter of `Model_Learn`, of which the theorems
  assume that it makes no rounding errors (`exact`).
* `SnVecB::up`, which adds blocks whose sizes it does not state. `CheckCG` and the prints of `learn`.
* Template drift: `FourierOnGroup` reads `f.G` as a reference while `FunctionOnGroup` stores a pointer; `ProductGroup`
  and `ProductGroupElement` have no working `index()`. The model follows the meaning of the calls.
* Files that nothing includes or that do not compile: `Sn/SnCGproduct.hpp`, `SnPartProduct.hpp`, `SnVecProduct.hpp`, `SnIrrepSet.hpp`, `ArithmeticExpr.hpp`,
  `GroupAlgebra.hpp`. Wrappers that only forward (`SnOverSm.hpp`, `SnRepresentation.hpp`, `ClausenFFT.hpp`) are modelled by what they forward to.
* Abandoned and backup directories, and `*.x.hpp`.

## Trusted base

* Coq's kernel (coqc; coqchk can recheck the compiled files).
* Fidelity of the hand-written model to the C++ source; every definition cites its source.
* The axioms below, all from Coq's standard library, as listed by `Print Assumptions` for each theorem. No axiom is
  added by this development, and no kernel check is switched off.

### What Print Assumptions lists

Generated by tools/gen_assumptions.py from the compiled development.

#### Closed under the global context

C01_product_is_composition, C01_product_associative, C01_identity_neutral, C01_equality_decides, C02_inverse_laws, C02_inverse_of_product, C03_check_valid_decides, C04_mul_assign_refuted, C04_mul_assign_is_opposite, C04_mul_assign_partial, C05_transposition, C05_contiguous_cycle, C05_reversed_cycle_is_inverse, C05_cycle_is_product_of_transpositions, C06_constructor_validation_refuted, C06_inverse_defined_iff_valid, C06_initializer_warns, C07_size_is_factorial, C07_element_index_bijection, C07_element_out_of_range, C08_first_element_is_identity, C08_enumeration_is_nested, C08_first_block_is_smaller_group, C09_int32_suffices_up_to_12, C09_order_overflows_from_13, C10_quotient_round_trip, C10_quotient_refines_group_order, C11_index_separates_right_cosets, C11_left_cosets_refuted, C12_partitions_complete_and_ordered, C13_less_is_strict_total_order, C13_less_is_lexicographic, C13_mixed_sizes_abort, C14_equality_compares_rows, C14_equal_partitions_hash_equal, C14_equal_arrays_hash_refuted, C15_extendable_iff_partition, C15_shortenable_iff_partition, C16_parents_exact, C16_parents_order, C17_content_of_added_box, C17_throws_on_wrong_sizes, C17_not_nested_is_accepted, C18_hooklength_counts_tableaux, C18_hooklength_is_the_dimension, C18_int_up_to_12, C18_int_from_13_refuted, C19_tableaux_complete, C20_apply_transp_swaps, C20_apply_transp_on_standard, C21_default_tableau_standard, C21_at_inside, C21_at_throws_outside, C21_index_inverts_at, C21_index_absent_is_origin, C21_shape, C22_remove_undoes_add, C22_remove_is_undone_by_add_partial, C22_remove_interior_row_refuted, C23_restriction_order, C24_history_independent, C24_repeated_query_is_served_from_store, C24_answers_are_the_lists, C25_same_group_object, C25_right_group_object, C25_group_zero_undefined, C25_group_negative_throws, C26_numbering_depends_on_history_refuted, C26_numbering_on_first_use, C26_numbering_is_an_enumeration, C27_one_irrep_object_per_partition, C27_as_many_irreps_as_classes, C27_foreign_partition_refuted, C28_class_numbering, C28_foreign_size_aborts, C28_unsorted_array_refuted, C29_class_size, C29_class_can_be_listed, C29_int_up_to_12, C29_int_from_13_refuted, C29_partition_of_another_number_refuted, C29_no_points_refuted, C30_same_values, C30_sorted_integers, C30_sorted_partitions, C30_sorts_refuted, C31_every_shape_has_an_irrep, C38_the_group_is_a_list, C40_small_shapes_overlap, C44_levels_and_parts, C44_blocks, C48_histories, C48_order_irrelevant, C48_cat, C48_mixed_aborts, C48_read_is_pure_refuted, C49_restriction, C49_restriction_of_irrep, C49_induction, C49_induced_unique, C49_frobenius, C50_one_group, C50_induced_objects, C50_answered, C50_any_mixture_refuted, C51_cyclic_group, C51_cyclic_table, C51_mixed_aborts, C52_dihedral_group, C52_acts_on_corners, C52_acts_faithfully, C52_generators, C52_r_of_n_refuted, C52_s_at_1_refuted, C52_mixed_aborts, C53_product_group, C53_pairs, C53_cyclic_by_dihedral, C61_value_semantics, C61_independent, C61_ownership, C61_no_leak, C61_destroyable, C61_self_assignment_refuted, C62_destructor, C62_any_state_refuted, C63_get_type, C64_one_quotient_object, C66_levels_and_parts, C66_blocks, C69_bank, C69_trivial_quotient, C70_sizes_add_up, C70_one_class, C70_conjugacy, C72_left_translate, C72_right_translate, C72_inverse, C73_times_assign, C73_times_assign_self_refuted, C80_class_of_another_group, C84_type, C87_from_types, C87_types_unchanged_refuted, C87_destructor, C87_copy_refuted, C89_elements, C89_irreps, C89_classes, C89_partitions, C89_tableaux, C89_slice, C89_slice_out_of_range, C90_python_elements_refuted, C90_python_trivial_group_refuted, C90_python_partitions_refuted, C90_python_tableaux_refuted, C90_python_rows_refuted, C90_python_permutation_refuted, C93_transposed, C95_vectors_exist, C96_decimal, C96_form, C96_permutations, C96_partitions, C96_tableaux, C96_tableau_printed, C96_types, C96_representations, C96_named_by_partition, C96_cycles, C96_group_elements, C96_names, C96_quotient_functions, C96_quotient_functions_apart, C96_quotients_alike_refuted, C96_groups, C96_product_group_refuted, C96_vectors, C96_empty_vector_refuted, C98_sessions, C98_banks, C98_before_refuted, C98_after_classes_refuted, C98_after_sn_refuted, C98_two_classes_refuted, C98_copy_refuted, C98_classes_alone, C98_one_object, C100_partition_keys, C100_pair_keys, C100_triple_keys, C100_transform_keys, C100_array_keys_refuted, C103_permutation, C103_uniform, C103_series, C103_from_13_refuted

#### `ClassicalDedekindReals.sig_forall_dec`

C42_left_translate, C42_right_translate, C42_inv, C42_left_action, C42_right_action, C42_identity, C42_left_right_commute, C42_inv_involution, C43_convolution_value, C74_add, C74_add_wrong_length, C80_set_then_get, C80_by_number, C80_zero, C80_other_group_refused_refuted, C87_missing_irrep, C87_from_vectors_refuted, C94_lift_exists, C96_functions, C96_functions_apart, C96_class_functions, C96_class_functions_apart, C102_part, C102_vector, C102_zero

#### `ClassicalDedekindReals.sig_forall_dec`, `FunctionalExtensionality.functional_extensionality_dep`

C43_convolution, C43_associative, C43_bilinear, C43_delta_neutral, C49_restriction_dimension, C49_induction_dimension, C56_product_irreps_refuted, C57_forward, C57_inversion, C63_down, C63_up, C63_cat, C63_up_of_down, C63_down_of_up, C63_accumulate_up, C72_left_of_transform, C72_right_of_transform, C72_inverse_of_transform, C79_dimensions, C81_left_translate, C81_right_translate, C81_inv, C81_convolve, C81_isometries, C81_python_convolve_gradient_refuted, C84_restriction, C85_symmetric_is_enough, C87_product, C87_additive, C87_identity, C87_composition, C99_only_class_functions_commute, C102_python_part_ones_refuted, C102_python_vector_ones_refuted

#### `ClassicalDedekindReals.sig_forall_dec`, `ClassicalDedekindReals.sig_not_dec`, `FunctionalExtensionality.functional_extensionality_dep`

C31_generator_formula, C31_coxeter_relations, C32_identity, C32_homomorphism, C32_apply_is_left_multiplication, C32_wrong_size_aborts, C33_orthogonal, C34_cycle, C34_inverse_cycle, C34_transposition, C34_inverse_of_reversed_cycle_refuted, C35_transp_ordered, C35_transp_reversed_is_a_cycle, C35_transp_refuted, C35_transp_exact, C36_jucys_murphy, C36_sum_of_transpositions, C36_any_history_of_queries, C36_too_large_aborts, C37_character_is_the_trace, C37_trace_is_a_class_function, C37_value_at_the_identity, C38_matrix_elements_orthogonal, C38_characters_orthogonal, C39_restriction_is_block_diagonal, C40_middle_index, C40_middle_index_cycle, C40_middle_index_transposition, C40_first_index, C40_first_index_cycle, C40_first_index_transposition, C40_first_index_refuted, C40_first_index_exact, C40_first_index_overflow_refuted, C41_block_generator, C41_block_permutation, C41_block_cycle, C41_block_reversed_cycle_refuted, C41_strided_cycle, C41_strided_permutation, C45_forward, C46_inverse_of_forward, C46_forward_of_inverse, C47_convolution, C47_left_translation, C47_right_translation, C47_inversion, C54_cyclic_irreps, C54_orthogonal, C54_complete, C55_dihedral_irreps, C55_orthogonal, C55_squared_dimensions, C55_complete_for_odd_n, C55_third_irrep_refuted, C56_cyclic_refuted, C57_cyclic, C57_dihedral_odd, C57_dihedral_even_refuted, C57_product_refuted, C58_coeff, C58_multiplicity_unique, C58_mixed_aborts, C59_product_is_complete, C59_product_of_types, C59_product_trace, C59_types_trace, C59_product_dimension, C59_types_dimension, C60_always_the_trivial_character, C60_never_the_ith_refuted, C63_down_commutes, C63_up_commutes, C65_forward_up_to_4, C65_round_trip_up_to_4, C65_quotient_up_to_4, C65_forward_S5_refuted, C65_forward_from_S6_refuted, C65_inverse_from_S6_refuted, C65_forward_exact, C66_forward, C66_round_trip, C67_whole_group_refuted, C68_inv_on_quotient_refuted, C71_every_history, C71_numbering_is_stable, C71_fresh_numbering, C71_numbering_refuted, C71_characters_differ, C72_hypotheses_hold, C72_inverse_of_transform_refuted, C74_apply, C74_identity, C74_product, C74_cycle, C74_cycle_inverse, C74_apply_additive, C74_wrong_size, C74_transposition, C75_apply, C75_cycle, C75_jucys_murphy, C75_symmetric, C75_commutes_with_the_subgroup, C75_commute_with_each_other, C75_trace, C76_restriction_of_a_product_of_types, C76_restriction_of_a_product, C77_induction_of_a_product, C78_product_of_vectors, C78_product_of_parts, C78_linear_in_the_first, C78_linear_in_the_second, C78_inner_product, C78_commutes_with_the_smaller_group, C78_commutes_for_S2, C78_several_columns_refuted, C78_several_columns_vectors_refuted, C78_several_columns_on_S1, C79_rows, C79_columns, C79_expansion, C79_identity_column, C82_plancherel, C82_as_run, C83_irreps_separate, C84_product_of_vectors, C84_product_of_parts, C84_action, C84_action_of_a_transposition, C84_action_of_a_cycle, C84_inplace_leaves_all, C84_inplace_cycle_leaves_all, C84_inplace_refuted, C84_different_sizes, C84_one_size, C84_empty_vectors_refuted, C85_learning_succeeds, C85_inner_product, C86_dimension_one, C86_commutes_up_to_S3, C86_S4_fixing_4, C86_signs_matter, C87_commutes, C88_whole_numbers, C88_table_entries, C88_traces, C88_long_cycle, C89_characters, C92_trivial, C92_sign, C92_sign_of_composition, C92_sign_of_cycles, C92_characters, C92_product_with_trivial, C93_irrep, C93_matrices, C93_product_with_sign, C93_multiplicities, C94_lift, C94_as_run, C95_plancherel, C95_forward_of_inverse, C97_inv_snsm_refuted, C97_as_run_refuted, C97_trivial_quotient, C99_scalar_forward, C99_scalar_forward_code, C99_scalar_backward, C99_scalar_backward_code, C99_commutes, C99_character, C99_character_code, C99_characters_convolve, C99_character_functions, C101_history, C101_copy_of_multiplicity_one, C101_copy_moves_first_columns, C101_copy_by_cycle, C101_copy_refuted, C101_copy_out_of_range_refuted, C102_identity_moves

#### `ClassicalDedekindReals.sig_forall_dec`, `ClassicalDedekindReals.sig_not_dec`, `Classical_Prop.classic`, `FunctionalExtensionality.functional_extensionality_dep`

C91_machine, C91_matrix_error, C91_character_error, C91_character_nearest, C91_multiplicity_up_to_S8, C91_multiplicity_small_irreps, C91_product_up_to_S8, C91_exact_up_to_S6, C91_exact_product_up_to_S6, C91_exact_multiplicity_refuted

#### `ClassicalDedekindReals.sig_forall_dec`, `ClassicalDedekindReals.sig_not_dec`, `ClassicalEpsilon.constructive_indefinite_description`, `Classical_Prop.classic`, `FunctionalExtensionality.functional_extensionality_dep`

C86_S4_refuted
