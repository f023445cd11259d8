(** What each property theorem rests on (generated list; see DESIGN.md). *)
From Verif Require Import PropAcc PropAssemble PropBc PropBem PropBit PropBlock PropCache PropCoincide PropColl PropCollOwn PropConform PropConform2 PropCost PropCurv PropDriver PropErr PropExp PropFiles PropFloat PropFloatDip PropFloatExp PropFloatExp2 PropFloatExp4 PropFloatExp5 PropFloatFmm PropFloatFmm2 PropFloatSolve PropFloatSum PropFloatTrans PropFmm PropFmmAcc PropFmmRenum PropGeom PropHistory PropHyp PropHypGrad PropInexact PropKernel PropLegAcc PropLegAcc2 PropLegendre PropMain PropNeumann PropOctree PropOwn PropParams PropProj PropRegen PropRenumMesh PropRndDirect PropRun PropRunClose PropRunFmm PropRunInexact PropSing PropSolve PropSolveFmm PropStore PropTrueCon PropTwoFe PropUnits PropUnitsFmm PropUnitsProj PropValue PropWork.
Print Assumptions C57_multipole_accuracy.
Print Assumptions C57_sources_moved_and_evaluated.
Print Assumptions C58_beyond_order_10_is_undefined.
Print Assumptions C60_entries_are_the_element_integrals.
Print Assumptions C60_singular_rules.
Print Assumptions C27_layout_stale_refuted.
Print Assumptions C28_dirichlet.
Print Assumptions C28_potential_kept.
Print Assumptions C29_dirichlet_unchanged.
Print Assumptions C50_agrees_same_type.
Print Assumptions C15_constrained_system.
Print Assumptions C17_constrained_rows.
Print Assumptions C18_dirichlet_free.
Print Assumptions C19_imposed.
Print Assumptions C20_system_unsolvable.
Print Assumptions C21_depends_on_partition_refuted.
Print Assumptions C23_vector_index_injective.
Print Assumptions C25_system_is_bie.
Print Assumptions C26_constants.
Print Assumptions C73_same_child_orders_same_bits.
Print Assumptions C73_near_entry_rounding.
Print Assumptions C51_nodes.
Print Assumptions C51_list_members.
Print Assumptions C51_copy_content.
Print Assumptions C43_transparent_iff.
Print Assumptions C81_same_row.
Print Assumptions C81_coincident_dirichlet_nodes_make_the_system_singular.
Print Assumptions C74_defined_exactly_when_every_process_owns_a_node.
Print Assumptions C74_which_partitions_are_safe.
Print Assumptions C45_faces_distances_and_middles.
Print Assumptions C45_out_of_bounds_iff.
Print Assumptions C45_corner_at_the_origin_is_cut_to_the_tolerance_refuted.
Print Assumptions C77_evaluations_per_source.
Print Assumptions C77_long_cells_pair_all_their_leaves_refuted.
Print Assumptions C78_flag_iff.
Print Assumptions C78_flag_monotone.
Print Assumptions C46_surfaces_keep_their_ids_iff.
Print Assumptions C55_shape_lookup.
Print Assumptions C45_early_stop_establishes_goal.
Print Assumptions C72_flux_max.
Print Assumptions C72_exact_nodes.
Print Assumptions C05_adding_nothing.
Print Assumptions C05_vectors_out_of_bounds.
Print Assumptions C06_accumulation_local.
Print Assumptions C06_linear_in_dipole.
Print Assumptions C06_batches.
Print Assumptions C07_close_centers_refuted.
Print Assumptions C08_beyond_order_10_is_undefined.
Print Assumptions C84_normals_and_gradient.
Print Assumptions C84_runs_carry_over.
Print Assumptions C80_normal_derivative.
Print Assumptions C80_rounding_factor.
Print Assumptions C80_single_layer_in_2D_is_relatively_accurate_refuted.
Print Assumptions C94_difference.
Print Assumptions C91_charge_is_finite.
Print Assumptions C91_dipole_off_the_axis.
Print Assumptions C91_exact_but_not_computed.
Print Assumptions C91_scaled_is_finite.
Print Assumptions C91_local_evaluation_is_finite.
Print Assumptions C91_local_calls_without_rounding.
Print Assumptions C93_which_locals.
Print Assumptions C93_without_rounding.
Print Assumptions C89_rows.
Print Assumptions C94_multipole_histories.
Print Assumptions C94_conversion.
Print Assumptions C94_charge.
Print Assumptions C94_values_of_the_exact_program.
Print Assumptions C38_singular_cells_are_direct.
Print Assumptions C41_every_matrix_write_is_in_the_pattern.
Print Assumptions C42_multipole_expansions_independent_of_schedule.
Print Assumptions C59_result_is_defined_and_schedule_independent.
Print Assumptions C85_octree_does_not_depend_on_the_numbering.
Print Assumptions C83_hanging_nodes_stay.
Print Assumptions C88_every_cycle.
Print Assumptions C88_fast_refuted.
Print Assumptions C62_smooth_node.
Print Assumptions C62_C_of_a_corner.
Print Assumptions C62_edge.
Print Assumptions C62_box_corner.
Print Assumptions C63_free_term_same_on_double_nodes.
Print Assumptions C64_undefined_iff_C_singular.
Print Assumptions C75_exact_is_zero_residual.
Print Assumptions C75_tolerance_bounds_the_residual_refuted.
Print Assumptions C13_three_output_kernel_has_opposite_sign_in_3d.
Print Assumptions C14_hypersingular_3d.
Print Assumptions C95_root_error.
Print Assumptions C95_defined_in_double_precision.
Print Assumptions C11_array_beyond_order_20_is_undefined.
Print Assumptions C12_end_points_other_orders.
Print Assumptions C92_minus_one_is_no_limit.
Print Assumptions C92_message.
Print Assumptions C66_solvability.
Print Assumptions C30_children_share_out_their_parent.
Print Assumptions C32_childless_blocks_partition_the_points.
Print Assumptions C33_root_box_holds_all_nodes.
Print Assumptions C33_nodes_lie_in_their_block.
Print Assumptions C34_storage_bound_refuted.
Print Assumptions C36_dof_to_block_counts.
Print Assumptions C39_m2l_blocks_well_separated_rounded.
Print Assumptions C39_multipole_evaluated_outside_its_block.
Print Assumptions C71_partition.
Print Assumptions C71_vector_sets.
Print Assumptions C71_ghosted_contains_owned.
Print Assumptions C71_every_process_owns_refuted.
Print Assumptions C86_integer_entries.
Print Assumptions C61_projection_is_local.
Print Assumptions C61_partition_independent.
Print Assumptions C52_same_mesh_same_lists.
Print Assumptions C82_matrix_entries.
Print Assumptions C79_stored_entries_are_reproducible.
Print Assumptions C79_partitions_differ_by_rounding_only.
Print Assumptions C82_same_solvability.
Print Assumptions C67_runs_of_the_two_methods.
Print Assumptions C67_whole_runs.
Print Assumptions C75_fmm_run_stopped_early.
Print Assumptions C47_no_overlap.
Print Assumptions C49_derivative_v.
Print Assumptions C48_strongly_singular_remainder.
Print Assumptions C56_exclusion_radius.
Print Assumptions C56_free_term.
Print Assumptions C65_hanging_nodes.
Print Assumptions C67_fmm_solution_in_the_direct_equation.
Print Assumptions C01_new_is_zero.
Print Assumptions C03_copy_preserves_refuted.
Print Assumptions C10_table_construction_safe.
Print Assumptions C90_adds_to_destination.
Print Assumptions C87_initialisation_defined_iff.
Print Assumptions C87_same_element.
Print Assumptions C76_dirichlet_matrix_in_the_plane.
Print Assumptions C76_single_layer_in_the_plane.
Print Assumptions C76_tree_is_scale_free.
Print Assumptions C76_distant_meshes_get_the_direct_product.
Print Assumptions C76_nodal_values_turn_with_the_mesh.
Print Assumptions C04_default_source_refuted.
Print Assumptions C68_executions_agree.
Print Assumptions C69_workstream_terminates.
Print Assumptions C69_pattern_does_not_race.
Print Assumptions C70_pattern.
Print Assumptions C70_executions_exist.
