(** What each property theorem rests on (generated list; see DESIGN.md). *)
From Verif Require Import PropAcc PropAssemble PropBc PropBem PropBit PropBlock PropCache PropCoincide PropColl PropCollOwn PropConform PropConform2 PropCost PropCurv PropDriver PropErr PropExp PropFiles PropFloat PropFloatDip PropFloatExp PropFloatExp2 PropFloatExp3 PropFloatExp4 PropFloatExp5 PropFloatFmm PropFloatSolve PropFloatTrans PropFmm PropFmmAcc PropFmmInexact PropFmmRenum PropGeom PropHistory PropHyp PropHypGrad PropInexact PropKernel PropLegAcc PropLegendre PropMain PropNeumann PropOctree PropOwn PropParams PropProj PropRegen PropRenumMesh PropRndDirect PropRun PropRunFmm PropRunHistory PropSing PropSolve PropStore PropTrueCon PropTwoFe PropUnits PropUnitsFmm PropValue PropWork.
Print Assumptions C57_multipole_accuracy_uniform.
Print Assumptions C58_histories_are_defined.
Print Assumptions C60_writes_inside_the_pattern.
Print Assumptions C60_difference_of_the_singular_rules.
Print Assumptions C27_ones_content.
Print Assumptions C27_quadratures_stale_refuted.
Print Assumptions C28_neither.
Print Assumptions C54_mixed_dof_refuted.
Print Assumptions C50_entries.
Print Assumptions C53_spheroid.
Print Assumptions C16_element_set.
Print Assumptions C18_neumann_group.
Print Assumptions C19_corner_exact.
Print Assumptions C20_coplanar_never_recognised.
Print Assumptions C21_one_process.
Print Assumptions C22_equivalence_classes.
Print Assumptions C24_neumann_characterised.
Print Assumptions C25_rhs_incoming_vector.
Print Assumptions C73_near_matrix_is_reproducible.
Print Assumptions C73_child_order_changes_bits_refuted.
Print Assumptions C73_near_product_rounding.
Print Assumptions C51_children.
Print Assumptions C51_out_of_range.
Print Assumptions C43_same_key_iff_same_rounding.
Print Assumptions C43_projections_computed_once_per_key.
Print Assumptions C81_products_at_one_point.
Print Assumptions C74_same_operations_on_all_processes.
Print Assumptions C74_shared_contributions_all_arrive.
Print Assumptions C74_interior_nodes_are_enough.
Print Assumptions C45_conformity_loop_exit.
Print Assumptions C45_a_halved_face_is_restored.
Print Assumptions C77_interactions_are_the_touching_blocks.
Print Assumptions C77_work_is_linear_in_the_nodes.
Print Assumptions C78_normal_of_a_planar_cell.
Print Assumptions C78_cells_without_surface_never_refined_refuted.
Print Assumptions C44_minus_one_cycles_never_ends.
Print Assumptions C46_distinct_ids_refuted.
Print Assumptions C45_aspect_flag.
Print Assumptions C72_node_errors.
Print Assumptions C72_phi_max_is_cellwise.
Print Assumptions C05_multipole_flag.
Print Assumptions C05_vectors_break_the_flag.
Print Assumptions C06_order_local.
Print Assumptions C06_defined_local.
Print Assumptions C06_evaluate_multipole.
Print Assumptions C07_translation_is_exact.
Print Assumptions C08_moved_expansion_has_the_same_values.
Print Assumptions C09_singular_cases.
Print Assumptions C84_surface_gradient_of_dirichlet_problems.
Print Assumptions C80_single_layer_is_accurate.
Print Assumptions C80_product.
Print Assumptions C80_double_layer_in_2D.
Print Assumptions C94_dipole_of_the_exact_program.
Print Assumptions C91_near_the_axis.
Print Assumptions C91_dipole_is_finite_iff.
Print Assumptions C91_exact_moment.
Print Assumptions C91_dipole_without_rounding.
Print Assumptions C91_local_translation_is_finite.
Print Assumptions C91_which_local_histories_stay_finite.
Print Assumptions C93_spoilt_expansions.
Print Assumptions C93_finite_product.
Print Assumptions C89_alpha.
Print Assumptions C89_constraints_are_kept_refuted.
Print Assumptions C94_constants.
Print Assumptions C94_multipole_translation.
Print Assumptions C94_near_translation.
Print Assumptions C37_each_pair_accounted_for_exactly_once.
Print Assumptions C40_exact_expansions_give_the_direct_product.
Print Assumptions C41_only_owned_rows_are_written.
Print Assumptions C59_fmm_product_is_close_to_the_direct_product.
Print Assumptions C75_fmm_residual_in_the_direct_system.
Print Assumptions C85_nodes_at_one_point_get_the_same_product.
Print Assumptions C83_mapping_is_never_replaced.
Print Assumptions C88_spheroid_refuted.
Print Assumptions C62_double_nodes_agree.
Print Assumptions C62_ordered_counterclockwise.
Print Assumptions C62_trace_of_C.
Print Assumptions C62_opposite_faces.
Print Assumptions C63_free_term_is_the_sum_over_the_group.
Print Assumptions C64_singular_index_is_the_first.
Print Assumptions C64_far_cells_differentiate_the_representation.
Print Assumptions C75_error_of_the_solution.
Print Assumptions C13_overloads_agree.
Print Assumptions C14_symmetric_and_trace_free.
Print Assumptions C95_values.
Print Assumptions C95_in_double_precision.
Print Assumptions C11_array.
Print Assumptions C12_derivative_of_the_value_accessor.
Print Assumptions C92_thread_argument.
Print Assumptions C92_exit_status.
Print Assumptions C66_pure_neumann.
Print Assumptions C66_returned_potential_refuted.
Print Assumptions C31_parent_and_child_links.
Print Assumptions C32_split_iff_too_many_nodes.
Print Assumptions C33_quadrature_points_lie_in_their_block_rounded.
Print Assumptions C33_blocks_do_not_overlap.
Print Assumptions C34_storage_suffices_when.
Print Assumptions C36_once_per_level_refuted.
Print Assumptions C39_non_interaction_lists_do_not_touch_rounded.
Print Assumptions C39_m2l_converges.
Print Assumptions C71_contiguous.
Print Assumptions C71_vector_contiguous.
Print Assumptions C71_touch_first_iff.
Print Assumptions C86_ids_are_the_numbers_written.
Print Assumptions C61_projection_is_the_weak_form.
Print Assumptions C61_finite_element_fields_reproduced.
Print Assumptions C61_gradient_of_a_linear_potential.
Print Assumptions C52_other_mesh_same_lists_refuted.
Print Assumptions C82_products.
Print Assumptions C79_stored_entry_rounding.
Print Assumptions C82_number_of_processes.
Print Assumptions C82_mixed_node_refuted.
Print Assumptions C85_same_answer.
Print Assumptions C88_fast_runs_with_different_histories.
Print Assumptions C47_edge_interval.
Print Assumptions C49_surface_element.
Print Assumptions C48_arg_is_integrand_minus_poles.
Print Assumptions C48_strongly_singular_unique.
Print Assumptions C56_hypersingular_finite_part.
Print Assumptions C65_potential_is_continuous.
Print Assumptions C65_partition_independent.
Print Assumptions C01_add_to.
Print Assumptions C02_cells_bijection.
Print Assumptions C10_local_translation_safe_iff.
Print Assumptions C90_transpose_iff.
Print Assumptions C90_any_order_refuted.
Print Assumptions C87_every_component_has_an_owner_iff.
Print Assumptions C76_neumann_matrix_has_no_units.
Print Assumptions C76_returned_values_in_other_units.
Print Assumptions C76_double_nodes_refuted.
Print Assumptions C76_small_meshes_get_the_direct_product.
Print Assumptions C76_lists_depend_on_the_place_refuted.
Print Assumptions C04_value_semantics.
Print Assumptions C68_result_is_unique.
Print Assumptions C68_execution_exists.
Print Assumptions C69_parallel_for_terminates.
Print Assumptions C69_race_free_refuted.
Print Assumptions C70_preconditioner.
