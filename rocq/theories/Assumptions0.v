(** What each property theorem rests on (generated list; see DESIGN.md). *)
From Verif Require Import PropAcc PropAssemble PropBc PropBem PropBit PropBlock PropCache PropClose PropCoincide PropColl PropCollOwn PropConform PropConform2 PropCost PropCurv PropDriver PropErr PropExp PropFiles PropFloat PropFloatDip PropFloatExp PropFloatExp2 PropFloatExp3 PropFloatExp4 PropFloatExp5 PropFloatFmm PropFloatFmm2 PropFloatSolve PropFloatTrans PropFmm PropFmmAcc PropFmmInexact PropGeom PropHistory PropHyp PropHypGrad PropInexact PropKernel PropLegAcc PropLegAcc2 PropLegendre PropMain PropNeumann PropOctree PropOwn PropParams PropProj PropRegen PropRenumber PropRndDirect PropRun PropRunFmm PropRunInexact PropSing PropSolve PropStore PropTrueCon PropTwoFe PropUnits PropUnitsFmm PropUnitsProj PropValue PropWork.
Print Assumptions C57_dipole_is_the_derivative_of_a_charge.
Print Assumptions C57_histories_are_defined.
Print Assumptions C58_far_field_chain.
Print Assumptions C60_partition_independent.
Print Assumptions C60_regular_rules_agree_iff_gauss.
Print Assumptions C27_ones_layout.
Print Assumptions C28_not_owned.
Print Assumptions C28_last_cell_wins.
Print Assumptions C29_anchored.
Print Assumptions C50_pattern.
Print Assumptions C53_spheroid_refuted.
Print Assumptions C17_free_rows.
Print Assumptions C18_mixed_group.
Print Assumptions C19_corner_unique.
Print Assumptions C20_parallel_normals_break.
Print Assumptions C21_flag.
Print Assumptions C23_inverse.
Print Assumptions C24_pure_neumann_refuted.
Print Assumptions C25_rhs_overwrites_iff.
Print Assumptions C73_only_the_order_of_children_matters.
Print Assumptions C73_double_arithmetic_rounds_within.
Print Assumptions C51_constructor_arguments.
Print Assumptions C51_ninth_child_undefined.
Print Assumptions C51_copy_constructor.
Print Assumptions C43_answer_is_first_projection_with_the_key.
Print Assumptions C67_fmm_solution_near_the_direct_solution.
Print Assumptions C81_one_equation_per_point.
Print Assumptions C74_no_deadlock.
Print Assumptions C74_driver_run_cannot_deadlock.
Print Assumptions C74_having_cells_is_enough_refuted.
Print Assumptions C45_conformity_loop_idempotent.
Print Assumptions C45_a_face_cut_twice_stays_nonconforming_refuted.
Print Assumptions C77_pairs_per_target.
Print Assumptions C77_small_meshes_pair_all_leaves_refuted.
Print Assumptions C78_normal_of_a_convex_cell.
Print Assumptions C78_cells_without_surface.
Print Assumptions C46_manifold_table.
Print Assumptions C46_files_found.
Print Assumptions C45_loop_stops_and_why.
Print Assumptions C72_gradient_max.
Print Assumptions C72_phi_max_below_l2.
Print Assumptions C05_local_flag.
Print Assumptions C05_vectors_order_zero.
Print Assumptions C06_accumulation_multipole.
Print Assumptions C06_linear_in_charge.
Print Assumptions C06_evaluate_local.
Print Assumptions C07_close_centers_are_copied.
Print Assumptions C08_close_centers_are_copied.
Print Assumptions C84_projection_is_determined.
Print Assumptions C84_number_of_processes.
Print Assumptions C80_double_layer_is_accurate.
Print Assumptions C80_double_precision.
Print Assumptions C80_single_layer_in_2D.
Print Assumptions C94_slopes.
Print Assumptions C91_off_the_axis.
Print Assumptions C91_dipole_near_the_axis.
Print Assumptions C91_exact_dipole.
Print Assumptions C91_evaluation_without_rounding.
Print Assumptions C91_conversion_is_finite.
Print Assumptions C91_multipole_calls_without_rounding.
Print Assumptions C93_which_multipoles.
Print Assumptions C93_centres.
Print Assumptions C89_integral_equation.
Print Assumptions C89_constrained_row.
Print Assumptions C94_translation_tables.
Print Assumptions C94_values.
Print Assumptions C94_formulas_of_the_exact_program.
Print Assumptions C37_meaning_of_the_ways.
Print Assumptions C40_expansion_error_bounds_the_product_error.
Print Assumptions C42_near_matrix_independent_of_schedule.
Print Assumptions C59_fmm_product_is_a_fixed_matrix.
Print Assumptions C75_fmm_solve_near_the_direct_solution.
Print Assumptions C83_fe_mapping.
Print Assumptions C83_spheroid_in_every_cycle_refuted.
Print Assumptions C88_layout_refuted.
Print Assumptions C62_distinct_normals.
Print Assumptions C62_alpha_of_a_corner.
Print Assumptions C62_order_independent.
Print Assumptions C62_reentrant_refuted.
Print Assumptions C63_free_term_partition_independent.
Print Assumptions C64_gradient_solves_the_node_equation.
Print Assumptions C64_node_equation_by_cells.
Print Assumptions C75_residual_of_an_accepted_solution.
Print Assumptions C13_double_layer_is_the_gradient.
Print Assumptions C14_hypersingular_2d.
Print Assumptions C95_derivatives.
Print Assumptions C95_values_of_expansions.
Print Assumptions C11_outside_is_undefined.
Print Assumptions C12_end_points_order_one.
Print Assumptions C92_other_arguments.
Print Assumptions C92_status_and_results.
Print Assumptions C66_equation_only_for_trivial_flux.
Print Assumptions C30_every_level_holds_every_point_once.
Print Assumptions C31_at_most_eight_children.
Print Assumptions C32_root_split_last_level_not.
Print Assumptions C33_blocks_do_not_overlap_rounded.
Print Assumptions C33_side_halves_at_each_level.
Print Assumptions C35_quadrature_point_to_block.
Print Assumptions C36_last_level_block_missing.
Print Assumptions C39_m2l_blocks_well_separated.
Print Assumptions C39_evaluation_converges.
Print Assumptions C71_tables.
Print Assumptions C71_components_follow.
Print Assumptions C71_process_zero.
Print Assumptions C86_one_reading.
Print Assumptions C61_projection_is_the_best_approximation.
Print Assumptions C61_projection_is_unique.
Print Assumptions C61_flat_parts_have_exact_normals.
Print Assumptions C52_any_history_still_complete.
Print Assumptions C82_numbering_and_distribution_do_not_matter.
Print Assumptions C79_product_rounding.
Print Assumptions C82_same_answer.
Print Assumptions C82_vertex_refuted.
Print Assumptions C85_same_solvability.
Print Assumptions C75_direct_run_stopped_early.
Print Assumptions C47_cover.
Print Assumptions C49_derivative_u.
Print Assumptions C48_hypersingular_remainder.
Print Assumptions C48_polynomial_cells.
Print Assumptions C56_strongly_singular_finite_part.
Print Assumptions C65_boundary_data_kept.
Print Assumptions C65_mixed_hanging_refuted.
Print Assumptions C01_cells_bijection.
Print Assumptions C03_copy_keeps_only_first_eighth.
Print Assumptions C10_multipole_safe_iff.
Print Assumptions C90_system_iff.
Print Assumptions C90_singular.
Print Assumptions C87_two_index_rules_agree_iff.
Print Assumptions C76_dirichlet_matrix_is_a_length.
Print Assumptions C76_products_in_other_units.
Print Assumptions C76_mixed_hanging_nodes_refuted.
Print Assumptions C76_expansions_only_beyond_the_finest_side.
Print Assumptions C76_projected_fields_turn_with_the_mesh.
Print Assumptions C04_self_assignment_refuted.
Print Assumptions C68_every_execution_is_accurate.
Print Assumptions C69_workstream_never_stuck.
Print Assumptions C69_only_the_static_table_races.
Print Assumptions C69_torn_table_refuted.
Print Assumptions C70_preconditioner_fits_its_pattern.
