# What `Print Assumptions` lists for each theorem

Generated by tools/gen_assum.py from rocq/theories/Assumptions0-3.v (which print this at every build).

## Closed under the global context (no axioms)

- C01_add_to
- C01_cells_bijection
- C01_new_is_zero
- C01_set_then_get
- C02_cells_bijection
- C02_set_then_get
- C03_copy_keeps_only_first_eighth
- C03_copy_preserves_refuted
- C04_default_source_refuted
- C04_self_assignment_refuted
- C04_value_semantics
- C10_local_translation_safe_iff
- C10_multipole_safe_iff
- C10_safe_iff
- C10_table_construction_safe
- C16_element_set
- C27_quadratures_frozen
- C27_quadratures_stale_refuted
- C29_dirichlet_unchanged
- C30_children_share_out_their_parent
- C30_every_level_holds_every_point_once
- C31_at_most_eight_children
- C31_levels_are_contiguous
- C31_parent_and_child_links
- C32_childless_blocks_partition_the_points
- C32_childless_list_is_the_childless_blocks
- C32_root_split_last_level_not
- C32_split_iff_too_many_nodes
- C33_blocks_do_not_overlap
- C33_blocks_do_not_overlap_rounded
- C33_nodes_lie_in_their_block
- C33_nodes_lie_in_their_block_rounded
- C33_quadrature_points_lie_in_their_block
- C33_quadrature_points_lie_in_their_block_rounded
- C33_root_box_holds_all_nodes
- C33_side_halves_at_each_level
- C34_number_of_blocks_bound
- C34_storage_bound_refuted
- C34_storage_suffices_when
- C35_quadrature_point_to_block
- C36_dof_to_block_counts
- C36_dof_to_block_lists_only_containing_blocks
- C36_last_level_block_missing
- C36_once_per_level_refuted
- C37_each_pair_accounted_for_exactly_once
- C37_meaning_of_the_ways
- C38_singular_cells_are_direct
- C39_evaluation_converges
- C39_m2l_blocks_well_separated
- C39_m2l_blocks_well_separated_rounded
- C39_m2l_converges
- C39_multipole_evaluated_outside_its_block
- C39_multipole_evaluated_outside_its_block_rounded
- C39_non_interaction_lists_do_not_touch
- C39_non_interaction_lists_do_not_touch_rounded
- C43_answer_is_first_projection_with_the_key
- C43_projections_computed_once_per_key
- C43_same_key_iff_same_rounding
- C43_transparency_refuted
- C43_transparent_iff
- C44_minus_one_cycles_never_ends
- C44_one_solve_per_cycle
- C45_aspect_flag
- C45_conformity_loop_exit
- C45_conformity_loop_idempotent
- C45_corner_is_paired_with_the_origin
- C45_early_stop_establishes_goal
- C45_goal_after_one_cycle_refuted
- C45_loop_stops_and_why
- C45_out_of_bounds_iff
- C45_pass_sets_exactly_these_flags
- C46_curves_keep_their_ids
- C46_distinct_ids_refuted
- C46_files_found
- C46_manifold_table
- C46_surfaces_keep_their_ids_iff
- C50_pattern
- C51_children
- C51_constructor_arguments
- C51_copy_constructor
- C51_copy_content
- C51_copy_content_equal_refuted
- C51_list_members
- C51_list_sizes
- C51_ninth_child_undefined
- C51_nodes
- C51_out_of_range
- C51_quadrature_points
- C52_any_history_still_complete
- C52_dof_to_elems_accumulates
- C52_other_mesh_same_lists_refuted
- C52_same_mesh_same_lists
- C55_safe_iff_no_material_zero
- C55_shape_lookup
- C60_regular_rules_agree_iff_gauss
- C60_singular_index_is_the_first
- C60_singular_rules
- C62_normals_of_a_node
- C64_singular_index_is_the_first
- C69_parallel_for_never_stuck
- C69_parallel_for_terminates
- C69_pattern_does_not_race
- C69_torn_table_refuted
- C69_workstream_never_stuck
- C69_workstream_terminates
- C70_pattern
- C70_pattern_has_the_diagonal

## `ClassicalDedekindReals.sig_forall_dec`

- C21_flag
- C27_layout_stale_refuted
- C27_ones_content
- C27_ones_layout
- C28_dirichlet
- C28_neither
- C28_not_owned
- C28_potential_kept
- C41_every_matrix_write_is_in_the_pattern
- C41_every_pattern_entry_is_written
- C41_only_owned_rows_are_written
- C60_writes_inside_the_pattern

## `Classical_Prop.classic`

- C23_inverse
- C23_vector_index_injective

## `ClassicalDedekindReals.sig_forall_dec`, `FunctionalExtensionality.functional_extensionality_dep`

- C05_vectors_break_the_flag
- C05_vectors_order_zero
- C05_vectors_out_of_bounds
- C15_constrained_system
- C16_partition_independent
- C17_constrained_rows
- C17_constrained_rows_refuted
- C18_dirichlet_free
- C18_mixed_group
- C18_neumann_group
- C18_no_chain
- C19_corner_exact
- C19_corner_unique
- C19_imposed
- C19_vertex_last_pair
- C20_coplanar_never_recognised
- C20_parallel_normals_break
- C20_system_unsolvable
- C21_depends_on_partition_refuted
- C21_indicators
- C21_one_process
- C22_double_nodes
- C22_equivalence_classes
- C25_imposed_untouched
- C25_rhs_incoming_vector
- C25_rhs_overwrites_iff
- C26_constants
- C26_row_sums
- C28_last_cell_wins
- C28_neumann
- C29_anchored
- C42_near_matrix_independent_of_schedule
- C50_entries
- C50_writes_inside
- C53_spheroid
- C53_spheroid_refuted
- C54_mixed_dof_refuted
- C60_assembled_matrix_is_the_direct_product
- C60_partition_independent
- C61_finite_element_fields_reproduced
- C61_flat_parts_have_exact_normals
- C61_gradient_field_parts
- C61_gradient_of_a_linear_potential
- C61_nodal_values_are_local
- C61_partition_independent
- C61_projection_is_local
- C61_projection_is_the_best_approximation
- C61_projection_is_the_weak_form
- C61_projection_is_unique
- C63_free_term_accumulates_over_solves
- C63_free_term_is_the_sum_over_the_group
- C63_free_term_partition_independent
- C63_free_term_same_on_double_nodes
- C65_boundary_data_kept
- C65_conflict
- C68_near_matrix
- C69_preconditioner_does_not_race
- C70_executions_exist
- C70_preconditioner
- C70_preconditioner_fits_its_pattern

## `ClassicalDedekindReals.sig_forall_dec`, `ClassicalDedekindReals.sig_not_dec`, `FunctionalExtensionality.functional_extensionality_dep`

- C11_array_beyond_order_20_is_undefined
- C11_outside_is_undefined
- C12_end_points_order_one
- C13_three_output_kernel_has_opposite_sign_in_3d
- C14_hypersingular_2d
- C14_hypersingular_3d
- C14_hypersingular_3d_refuted
- C14_symmetric_and_trace_free
- C17_free_rows
- C24_linear_with_dirichlet
- C24_neumann_characterised
- C24_pure_neumann_refuted
- C25_system_is_bie
- C40_exact_expansions_give_the_direct_product
- C40_expansion_error_bounds_the_product_error
- C40_fmm_product_is_a_complete_sum
- C42_multipole_expansions_independent_of_schedule
- C42_product_independent_of_schedule
- C48_arg_is_integrand_minus_poles
- C49_derivative_u
- C49_derivative_v
- C49_surface_element
- C50_agrees_same_type
- C50_mixed_type
- C54_end_to_end
- C57_error_is_monotone
- C59_the_kernels
- C62_distinct_normals
- C62_two_dimensional_C_refuted
- C64_gradient_is_linear
- C64_gradient_solves_the_node_equation
- C64_undefined_iff_C_singular
- C65_hanging_nodes
- C65_mixed_hanging_refuted
- C65_partition_independent
- C65_potential_is_continuous
- C65_solve_system
- C66_equation_only_for_trivial_flux
- C66_pure_neumann
- C66_returned_potential_refuted
- C66_solvability
- C66_solvable_problem_without_solution_refuted
- C68_every_execution_is_a_sequential_one
- C68_execution_exists
- C68_result_is_unique
- C69_only_the_static_table_races
- C69_race_free_refuted

## `ClassicalDedekindReals.sig_forall_dec`, `ClassicalDedekindReals.sig_not_dec`, `Classical_Prop.classic`, `FunctionalExtensionality.functional_extensionality_dep`

- C05_adding_nothing
- C05_flag_exact
- C05_local_flag
- C05_multipole_flag
- C06_accumulation_local
- C06_accumulation_multipole
- C06_batches
- C06_defined_local
- C06_defined_multipole
- C06_evaluate_local
- C06_evaluate_multipole
- C06_linear_in_charge
- C06_linear_in_dipole
- C06_linear_in_solution
- C06_order_local
- C06_order_multipole
- C06_undefined
- C07_close_centers_are_copied
- C07_close_centers_refuted
- C07_translation_is_exact
- C08_beyond_order_10_is_undefined
- C08_close_centers_are_copied
- C08_moved_expansion_has_the_same_values
- C08_translation_is_exact
- C09_dipole_is_derivative_of_charge
- C09_singular_cases
- C11_array
- C11_table_values
- C12_array
- C12_derivative_of_the_value_accessor
- C12_end_points_other_orders
- C12_table_derivatives
- C13_double_layer_is_the_gradient
- C13_overloads_agree
- C13_single_layer_is_the_fundamental_solution
- C14_H_is_the_jacobian_of_D
- C47_cover
- C47_edge_interval
- C47_no_overlap
- C47_total_angle
- C48_hypersingular_remainder
- C48_hypersingular_unique
- C48_kernels
- C48_polynomial_cells
- C48_strongly_singular_remainder
- C48_strongly_singular_unique
- C56_exclusion_radius
- C56_free_term
- C56_hypersingular_finite_part
- C56_strongly_singular_finite_part
- C57_dipole_is_the_derivative_of_a_charge
- C57_histories_are_defined
- C57_multipole_accuracy
- C57_multipole_accuracy_uniform
- C57_sources_moved_and_evaluated
- C58_beyond_order_10_is_undefined
- C58_far_field_chain
- C58_histories_are_defined
- C58_local_accuracy
- C59_fmm_product_is_a_fixed_matrix
- C59_fmm_product_is_close_to_the_direct_product
- C59_result_is_defined_and_schedule_independent
- C60_difference_of_the_singular_rules
- C60_direct_and_fmm_agree
- C62_C_is_symmetric
- C62_C_of_a_corner
- C62_alpha_of_a_corner
- C62_box_corner
- C62_double_nodes_agree
- C62_edge
- C62_edge_C_positive_definite
- C62_opposite_faces
- C62_order_independent
- C62_ordered_counterclockwise
- C62_ordering_is_a_permutation
- C62_reentrant_refuted
- C62_smooth_node
- C62_trace_of_C
- C64_far_cells_differentiate_the_representation
- C67_fmm_solution_in_the_direct_equation
- C68_every_execution_is_accurate
- C68_executions_agree
