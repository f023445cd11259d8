(** What each property theorem rests on (generated list; see DESIGN.md). *)
From Verif Require Import PropAcc PropAssemble PropBc PropBem PropBit PropBlock PropCache PropCoincide PropColl PropCollOwn PropConform PropCost PropCurv PropDriver PropErr PropExp PropFiles PropFilesEx PropFloat PropFloatDip PropFloatExp PropFloatExp2 PropFloatExp3 PropFloatExp4 PropFloatExp5 PropFloatFmm PropFloatSolve PropFloatSum PropFloatTrans PropFmm PropFmmAcc PropFmmRenum PropGeom PropHistory PropHyp PropHypGrad PropInexact PropKernel PropLegAcc PropLegendre PropMain PropNeumann PropOctree PropOwn PropParams PropProj PropRegen PropRenumMesh PropRndDirect PropRun PropRunFmm PropRunFmmEx PropRunInexact PropSing PropSolve PropStore PropTrueCon PropTwoFe PropUnits PropUnitsFmm PropUnitsProj PropWork.
Print Assumptions C57_error_is_monotone.
Print Assumptions C58_local_accuracy.
Print Assumptions C60_assembled_matrix_is_the_direct_product.
Print Assumptions C60_direct_and_fmm_agree.
Print Assumptions C60_singular_index_is_the_first.
Print Assumptions C27_quadratures_frozen.
Print Assumptions C28_neumann.
Print Assumptions C54_end_to_end.
Print Assumptions C50_writes_inside.
Print Assumptions C50_mixed_type.
Print Assumptions C16_partition_independent.
Print Assumptions C17_constrained_rows_refuted.
Print Assumptions C18_no_chain.
Print Assumptions C19_vertex_last_pair.
Print Assumptions C21_indicators.
Print Assumptions C22_double_nodes.
Print Assumptions C24_linear_with_dirichlet.
Print Assumptions C25_imposed_untouched.
Print Assumptions C26_row_sums.
Print Assumptions C73_partition_does_not_change_bits.
Print Assumptions C73_terms_of_an_entry.
Print Assumptions C51_quadrature_points.
Print Assumptions C51_list_sizes.
Print Assumptions C51_copy_content_equal_refuted.
Print Assumptions C43_transparency_refuted.
Print Assumptions C81_nodes_at_one_point.
Print Assumptions C81_equation_at_every_coincident_node.
Print Assumptions C74_contributions_to_other_processes.
Print Assumptions C74_too_many_processes.
Print Assumptions C45_pass_sets_exactly_these_flags.
Print Assumptions C45_corner_is_paired_with_the_origin.
Print Assumptions C77_neighbours_are_the_touching_blocks.
Print Assumptions C77_work_is_linear_in_the_blocks.
Print Assumptions C78_normal_is_a_unit_vector.
Print Assumptions C78_cells_per_circle_reached.
Print Assumptions C44_one_solve_per_cycle.
Print Assumptions C46_curves_keep_their_ids.
Print Assumptions C55_safe_iff_no_material_zero.
Print Assumptions C45_goal_after_one_cycle_refuted.
Print Assumptions C72_l2_norms.
Print Assumptions C72_phi_max_is_nodal_refuted.
Print Assumptions C05_flag_exact.
Print Assumptions C06_order_multipole.
Print Assumptions C06_defined_multipole.
Print Assumptions C06_linear_in_solution.
Print Assumptions C06_undefined.
Print Assumptions C08_translation_is_exact.
Print Assumptions C09_dipole_is_derivative_of_charge.
Print Assumptions C84_surface_gradient.
Print Assumptions C84_surface_gradient_of_phi_refuted.
Print Assumptions C80_stored_entry.
Print Assumptions C80_normal_derivative_is_relatively_accurate_refuted.
Print Assumptions C94_dipole.
Print Assumptions C91_cosine_stays_in_range.
Print Assumptions C91_evaluation_is_finite.
Print Assumptions C91_charge_near_the_axis_is_moved_onto_it.
Print Assumptions C91_charge_without_rounding.
Print Assumptions C91_translation_is_finite.
Print Assumptions C91_which_histories_stay_finite.
Print Assumptions C91_values_without_rounding.
Print Assumptions C93_rows.
Print Assumptions C89_operator.
Print Assumptions C89_run_in_floating_point.
Print Assumptions C94_local_histories.
Print Assumptions C94_local_translation.
Print Assumptions C94_scaled_sum.
Print Assumptions C94_in_double_precision.
Print Assumptions C40_fmm_product_is_a_complete_sum.
Print Assumptions C41_every_pattern_entry_is_written.
Print Assumptions C42_product_independent_of_schedule.
Print Assumptions C59_the_kernels.
Print Assumptions C85_fast_product_does_not_depend_on_the_numbering.
Print Assumptions C83_q_mapping.
Print Assumptions C88_direct_runs_have_no_memory.
Print Assumptions C62_normals_of_a_node.
Print Assumptions C62_ordering_is_a_permutation.
Print Assumptions C62_C_is_symmetric.
Print Assumptions C62_edge_C_positive_definite.
Print Assumptions C62_two_dimensional_C_refuted.
Print Assumptions C63_free_term_accumulates_over_solves.
Print Assumptions C64_gradient_is_linear.
Print Assumptions C75_accepted_solution.
Print Assumptions C13_single_layer_is_the_fundamental_solution.
Print Assumptions C14_H_is_the_jacobian_of_D.
Print Assumptions C14_hypersingular_3d_refuted.
Print Assumptions C95_without_rounding.
Print Assumptions C11_table_values.
Print Assumptions C12_table_derivatives.
Print Assumptions C12_array.
Print Assumptions C92_a_word_is_zero_threads.
Print Assumptions C92_run_ends.
Print Assumptions C66_solvable_problem_without_solution_refuted.
Print Assumptions C31_levels_are_contiguous.
Print Assumptions C32_childless_list_is_the_childless_blocks.
Print Assumptions C33_nodes_lie_in_their_block_rounded.
Print Assumptions C33_quadrature_points_lie_in_their_block.
Print Assumptions C34_number_of_blocks_bound.
Print Assumptions C36_dof_to_block_lists_only_containing_blocks.
Print Assumptions C39_multipole_evaluated_outside_its_block_rounded.
Print Assumptions C39_non_interaction_lists_do_not_touch.
Print Assumptions C71_owner.
Print Assumptions C71_vector_partition.
Print Assumptions C71_owns_nothing_iff.
Print Assumptions C86_accepted_id_lists.
Print Assumptions C86_accepted_number_used_as_written_refuted.
Print Assumptions C61_nodal_values_are_local.
Print Assumptions C61_gradient_field_parts.
Print Assumptions C52_dof_to_elems_accumulates.
Print Assumptions C82_stored_matrices.
Print Assumptions C79_terms_of_an_entry.
Print Assumptions C79_column_order_changes_bits_refuted.
Print Assumptions C82_at_most_two_dirichlet_nodes.
Print Assumptions C85_number_of_processes.
Print Assumptions C85_leftovers_of_earlier_cycles_refuted.
Print Assumptions C75_two_runs_stopped_early.
Print Assumptions C47_total_angle.
Print Assumptions C48_kernels.
Print Assumptions C48_hypersingular_unique.
Print Assumptions C56_exclusion_radius_exists.
Print Assumptions C65_solve_system.
Print Assumptions C65_conflict.
Print Assumptions C01_set_then_get.
Print Assumptions C02_set_then_get.
Print Assumptions C10_safe_iff.
Print Assumptions C90_product.
Print Assumptions C90_is_a_product_refuted.
Print Assumptions C87_owned_components.
Print Assumptions C87_normal_of_the_node_refuted.
Print Assumptions C76_solution_in_other_units.
Print Assumptions C76_double_nodes_in_other_units.
Print Assumptions C76_small_meshes_have_no_far_field.
Print Assumptions C76_lists_depend_on_the_unit_refuted.
Print Assumptions C76_gradient_field_in_other_units.
Print Assumptions C68_every_execution_is_a_sequential_one.
Print Assumptions C68_near_matrix.
Print Assumptions C69_parallel_for_never_stuck.
Print Assumptions C69_preconditioner_does_not_race.
Print Assumptions C70_pattern_has_the_diagonal.
