{
 "claims": [
  {
   "property": "C01",
   "status": "proved",
   "theorems": [
    "C01_set_then_get",
    "C01_add_to",
    "C01_cells_bijection",
    "C01_new_is_zero"
   ],
   "note": "Order bounded only by the 32-bit size computation."
  },
  {
   "property": "C02",
   "status": "proved",
   "theorems": [
    "C02_set_then_get",
    "C02_cells_bijection"
   ],
   "note": ""
  },
  {
   "property": "C03",
   "status": "proved",
   "theorems": [
    "C03_copy_keeps_only_first_eighth",
    "C03_copy_preserves_refuted"
   ],
   "note": "The copy constructor passes an element count where memcpy wants bytes: exact characterisation, and refutation of 'the copy equals the original'."
  },
  {
   "property": "C04",
   "status": "proved",
   "theorems": [
    "C04_value_semantics",
    "C04_self_assignment_refuted",
    "C04_default_source_refuted"
   ],
   "note": "Value semantics for all programs without self-assignment and without default-constructed sources; both exceptions are proved to fail; leak count exact."
  },
  {
   "property": "C05",
   "status": "proved",
   "theorems": [
    "C05_multipole_flag",
    "C05_local_flag",
    "C05_adding_nothing",
    "C05_flag_exact",
    "C05_vectors_break_the_flag",
    "C05_vectors_order_zero",
    "C05_vectors_out_of_bounds"
   ],
   "note": "Histories as an inductive reachability predicate; operands reachable too. Add(real,imag) is a refutation of the original claim."
  },
  {
   "property": "C06",
   "status": "proved",
   "theorems": [
    "C06_order_multipole",
    "C06_order_local",
    "C06_accumulation_multipole",
    "C06_accumulation_local",
    "C06_defined_multipole",
    "C06_defined_local",
    "C06_linear_in_charge",
    "C06_linear_in_dipole",
    "C06_linear_in_solution",
    "C06_evaluate_multipole",
    "C06_evaluate_local",
    "C06_batches",
    "C06_undefined"
   ],
   "note": "Exact arithmetic; None = undefined behaviour, both orders undefined together."
  },
  {
   "property": "C07",
   "status": "proved",
   "theorems": [
    "C07_translation_is_exact",
    "C07_close_centers_are_copied",
    "C07_close_centers_refuted"
   ],
   "note": "Addition theorem for solid harmonics proved from scratch (T_add). The 1e-7 shortcut is refuted as exact."
  },
  {
   "property": "C08",
   "status": "proved",
   "theorems": [
    "C08_translation_is_exact",
    "C08_moved_expansion_has_the_same_values",
    "C08_close_centers_are_copied",
    "C08_beyond_order_10_is_undefined"
   ],
   "note": "Arbitrary coefficients; the imaginary parts of order-0 coefficients are ignored by both sides."
  },
  {
   "property": "C09",
   "status": "proved",
   "theorems": [
    "C09_dipole_is_derivative_of_charge",
    "C09_singular_cases"
   ],
   "note": "Uses the table derivative theorem C12; branch cut of atan2 avoided by working with (x-iy)/r."
  },
  {
   "property": "C10",
   "status": "proved",
   "theorems": [
    "C10_safe_iff",
    "C10_local_translation_safe_iff",
    "C10_multipole_safe_iff",
    "C10_table_construction_safe"
   ],
   "note": "Iff theorem: safe exactly up to order 10."
  },
  {
   "property": "C11",
   "status": "proved",
   "theorems": [
    "C11_table_values",
    "C11_array",
    "C11_outside_is_undefined",
    "C11_array_beyond_order_20_is_undefined"
   ],
   "note": "All 462 bodies are transcribed by a generator script (tools/leg/gen.py); doubles are reals."
  },
  {
   "property": "C12",
   "status": "proved",
   "theorems": [
    "C12_table_derivatives",
    "C12_derivative_of_the_value_accessor",
    "C12_end_points_order_one",
    "C12_end_points_other_orders",
    "C12_array"
   ],
   "note": "The derivative accessor divides by zero at the poles for m=1 (finding, proved)."
  },
  {
   "property": "C13",
   "status": "proved",
   "theorems": [
    "C13_single_layer_is_the_fundamental_solution",
    "C13_overloads_agree",
    "C13_double_layer_is_the_gradient",
    "C13_three_output_kernel_has_opposite_sign_in_3d"
   ],
   "note": "Agreement of the overloads refuted in 3D (sign); doubles are reals."
  },
  {
   "property": "C14",
   "status": "proved",
   "theorems": [
    "C14_H_is_the_jacobian_of_D",
    "C14_symmetric_and_trace_free",
    "C14_hypersingular_2d",
    "C14_hypersingular_3d",
    "C14_hypersingular_3d_refuted"
   ],
   "note": "Correctness of 3D hypersingular refuted on the diagonal; exact iff proved."
  },
  {
   "property": "C15",
   "status": "proved",
   "theorems": [
    "C15_constrained_system"
   ],
   "note": ""
  },
  {
   "property": "C16",
   "status": "proved",
   "theorems": [
    "C16_partition_independent",
    "C16_element_set"
   ],
   "note": ""
  },
  {
   "property": "C17",
   "status": "proved",
   "theorems": [
    "C17_free_rows",
    "C17_constrained_rows",
    "C17_constrained_rows_refuted"
   ],
   "note": "Unconstrained rows agree with the operator; constrained rows have the wrong sign (iff and counterexample)."
  },
  {
   "property": "C18",
   "status": "proved",
   "theorems": [
    "C18_neumann_group",
    "C18_mixed_group",
    "C18_dirichlet_free",
    "C18_no_chain"
   ],
   "note": ""
  },
  {
   "property": "C19",
   "status": "proved",
   "theorems": [
    "C19_corner_exact",
    "C19_corner_unique",
    "C19_imposed",
    "C19_vertex_last_pair"
   ],
   "note": ""
  },
  {
   "property": "C20",
   "status": "proved",
   "theorems": [
    "C20_coplanar_never_recognised",
    "C20_parallel_normals_break",
    "C20_system_unsolvable"
   ],
   "note": "The claim a user would expect is refuted: branch dead, division by zero, unsolvable system."
  },
  {
   "property": "C21",
   "status": "proved",
   "theorems": [
    "C21_indicators",
    "C21_one_process",
    "C21_flag",
    "C21_depends_on_partition_refuted"
   ],
   "note": "Exact characterisation; partition dependence exhibited."
  },
  {
   "property": "C22",
   "status": "proved",
   "theorems": [
    "C22_double_nodes",
    "C22_equivalence_classes"
   ],
   "note": ""
  },
  {
   "property": "C23",
   "status": "proved",
   "theorems": [
    "C23_inverse",
    "C23_vector_index_injective"
   ],
   "note": ""
  },
  {
   "property": "C24",
   "status": "proved",
   "theorems": [
    "C24_linear_with_dirichlet",
    "C24_neumann_characterised",
    "C24_pure_neumann_refuted"
   ],
   "note": "Linear with Dirichlet data; characterised and refuted for pure Neumann problems."
  },
  {
   "property": "C25",
   "status": "proved",
   "theorems": [
    "C25_system_is_bie",
    "C25_imposed_untouched",
    "C25_rhs_incoming_vector",
    "C25_rhs_overwrites_iff"
   ],
   "note": "also: in FMM mode compute_rhs accumulates onto the incoming vector (finding), harmless because solve_system clears it"
  },
  {
   "property": "C26",
   "status": "proved",
   "theorems": [
    "C26_constants",
    "C26_row_sums"
   ],
   "note": ""
  },
  {
   "property": "C27",
   "status": "proved",
   "theorems": [
    "C27_ones_content",
    "C27_ones_layout",
    "C27_layout_stale_refuted",
    "C27_quadratures_frozen",
    "C27_quadratures_stale_refuted"
   ],
   "note": "Content never stale; layout and quadratures can be (refuted)."
  },
  {
   "property": "C28",
   "status": "proved",
   "theorems": [
    "C28_not_owned",
    "C28_dirichlet",
    "C28_neumann",
    "C28_neither",
    "C28_last_cell_wins",
    "C28_potential_kept"
   ],
   "note": ""
  },
  {
   "property": "C29",
   "status": "proved",
   "theorems": [
    "C29_anchored",
    "C29_dirichlet_unchanged"
   ],
   "note": ""
  },
  {
   "property": "C30",
   "status": "proved",
   "theorems": [
    "C30_every_level_holds_every_point_once",
    "C30_children_share_out_their_parent"
   ],
   "note": "Holds for an arbitrary rounding function of the coordinate arithmetic."
  },
  {
   "property": "C31",
   "status": "proved",
   "theorems": [
    "C31_levels_are_contiguous",
    "C31_parent_and_child_links",
    "C31_at_most_eight_children"
   ],
   "note": "Holds for an arbitrary rounding function of the coordinate arithmetic."
  },
  {
   "property": "C32",
   "status": "proved",
   "theorems": [
    "C32_childless_blocks_partition_the_points",
    "C32_childless_list_is_the_childless_blocks",
    "C32_split_iff_too_many_nodes",
    "C32_root_split_last_level_not"
   ],
   "note": ""
  },
  {
   "property": "C33",
   "status": "proved",
   "theorems": [
    "C33_root_box_holds_all_nodes",
    "C33_nodes_lie_in_their_block_rounded",
    "C33_quadrature_points_lie_in_their_block_rounded",
    "C33_blocks_do_not_overlap_rounded",
    "C33_nodes_lie_in_their_block",
    "C33_quadrature_points_lie_in_their_block",
    "C33_blocks_do_not_overlap",
    "C33_side_halves_at_each_level"
   ],
   "note": "_rounded: any rounding with bounded error (fixed-point example given). The root box is built from nodes only: that it contains the quadrature points is a hypothesis."
  },
  {
   "property": "C34",
   "status": "proved",
   "theorems": [
    "C34_storage_bound_refuted",
    "C34_number_of_blocks_bound",
    "C34_storage_suffices_when"
   ],
   "note": "Refuted in general (1 cell, 4 points, 1 level: 5 blocks, 4 slots); exact bound and sufficient condition proved."
  },
  {
   "property": "C35",
   "status": "proved",
   "theorems": [
    "C35_quadrature_point_to_block"
   ],
   "note": ""
  },
  {
   "property": "C36",
   "status": "proved",
   "theorems": [
    "C36_dof_to_block_counts",
    "C36_dof_to_block_lists_only_containing_blocks",
    "C36_once_per_level_refuted",
    "C36_last_level_block_missing"
   ],
   "note": "Expected claim refuted; exact multiplicities proved."
  },
  {
   "property": "C37",
   "status": "proved",
   "theorems": [
    "C37_each_pair_accounted_for_exactly_once",
    "C37_meaning_of_the_ways"
   ],
   "note": "Holds for an arbitrary rounding function of the coordinate arithmetic."
  },
  {
   "property": "C38",
   "status": "proved",
   "theorems": [
    "C38_singular_cells_are_direct"
   ],
   "note": ""
  },
  {
   "property": "C39",
   "status": "proved",
   "theorems": [
    "C39_m2l_blocks_well_separated_rounded",
    "C39_multipole_evaluated_outside_its_block_rounded",
    "C39_non_interaction_lists_do_not_touch_rounded",
    "C39_m2l_blocks_well_separated",
    "C39_multipole_evaluated_outside_its_block",
    "C39_non_interaction_lists_do_not_touch",
    "C39_m2l_converges",
    "C39_evaluation_converges"
   ],
   "note": "_rounded: any rounding with bounded error."
  },
  {
   "property": "C40",
   "status": "proved",
   "theorems": [
    "C40_fmm_product_is_a_complete_sum",
    "C40_exact_expansions_give_the_direct_product",
    "C40_expansion_error_bounds_the_product_error"
   ],
   "note": "Translations are arbitrary linear maps here; their exactness is C07-C09."
  },
  {
   "property": "C41",
   "status": "proved",
   "theorems": [
    "C41_every_matrix_write_is_in_the_pattern",
    "C41_every_pattern_entry_is_written",
    "C41_only_owned_rows_are_written"
   ],
   "note": ""
  },
  {
   "property": "C42",
   "status": "proved",
   "theorems": [
    "C42_near_matrix_independent_of_schedule",
    "C42_multipole_expansions_independent_of_schedule",
    "C42_product_independent_of_schedule"
   ],
   "note": ""
  },
  {
   "property": "C43",
   "status": "proved",
   "theorems": [
    "C43_same_key_iff_same_rounding",
    "C43_answer_is_first_projection_with_the_key",
    "C43_transparent_iff",
    "C43_transparency_refuted",
    "C43_projections_computed_once_per_key"
   ],
   "note": "Expected transparency refuted; exact characterisation. Negative zero and non-finite coordinates are not modelled."
  },
  {
   "property": "C44",
   "status": "proved",
   "theorems": [
    "C44_one_solve_per_cycle",
    "C44_minus_one_cycles_never_ends"
   ],
   "note": ""
  },
  {
   "property": "C45",
   "status": "proved",
   "theorems": [
    "C45_faces_distances_and_middles",
    "C45_pass_sets_exactly_these_flags",
    "C45_conformity_loop_exit",
    "C45_conformity_loop_idempotent",
    "C45_out_of_bounds_iff",
    "C45_corner_is_paired_with_the_origin",
    "C45_a_halved_face_is_restored",
    "C45_a_face_cut_twice_stays_nonconforming_refuted",
    "C45_corner_at_the_origin_is_cut_to_the_tolerance_refuted",
    "C45_aspect_flag",
    "C45_loop_stops_and_why",
    "C45_early_stop_establishes_goal",
    "C45_goal_after_one_cycle_refuted"
   ],
   "note": "deal.II's refinement is an arbitrary function, except in C45_a_halved_face_is_restored (a vertex appears in the middle of every flagged face); termination of the conformity loop is not claimed."
  },
  {
   "property": "C46",
   "status": "proved",
   "theorems": [
    "C46_manifold_table",
    "C46_surfaces_keep_their_ids_iff",
    "C46_curves_keep_their_ids",
    "C46_distinct_ids_refuted",
    "C46_files_found"
   ],
   "note": "Distinctness refuted above ten surfaces; iff proved."
  },
  {
   "property": "C47",
   "status": "proved",
   "theorems": [
    "C47_edge_interval",
    "C47_cover",
    "C47_no_overlap",
    "C47_total_angle"
   ],
   "note": "All four statements over the closed square; exact arithmetic."
  },
  {
   "property": "C48",
   "status": "proved",
   "theorems": [
    "C48_kernels",
    "C48_arg_is_integrand_minus_poles",
    "C48_hypersingular_remainder",
    "C48_strongly_singular_remainder",
    "C48_hypersingular_unique",
    "C48_strongly_singular_unique",
    "C48_polynomial_cells"
   ],
   "note": "Assumes the deal.II contract normal * JxW = X_u x X_v (SpecSing surf); quadrature error not modelled."
  },
  {
   "property": "C49",
   "status": "proved",
   "theorems": [
    "C49_surface_element",
    "C49_derivative_u",
    "C49_derivative_v"
   ],
   "note": "jacobian and jacobian_grad taken from the deal.II documentation."
  },
  {
   "property": "C50",
   "status": "proved",
   "theorems": [
    "C50_writes_inside",
    "C50_entries",
    "C50_pattern",
    "C50_agrees_same_type",
    "C50_mixed_type"
   ],
   "note": ""
  },
  {
   "property": "C51",
   "status": "proved",
   "theorems": [
    "C51_constructor_arguments",
    "C51_nodes",
    "C51_quadrature_points",
    "C51_children",
    "C51_ninth_child_undefined",
    "C51_list_members",
    "C51_list_sizes",
    "C51_out_of_range",
    "C51_copy_constructor",
    "C51_copy_content",
    "C51_copy_content_equal_refuted"
   ],
   "note": "CopyContent onto a block with nodes concatenates (refutation included)."
  },
  {
   "property": "C52",
   "status": "proved",
   "theorems": [
    "C52_same_mesh_same_lists",
    "C52_dof_to_elems_accumulates",
    "C52_other_mesh_same_lists_refuted",
    "C52_any_history_still_complete"
   ],
   "note": "Same mesh: no effect. Other mesh: refuted, with completeness preserved."
  },
  {
   "property": "C53",
   "status": "proved",
   "theorems": [
    "C53_spheroid",
    "C53_spheroid_refuted"
   ],
   "note": ""
  },
  {
   "property": "C54",
   "status": "proved",
   "theorems": [
    "C54_end_to_end",
    "C54_mixed_dof_refuted"
   ],
   "note": "GMRES convergence is not modelled: the hypothesis is an exact solution."
  },
  {
   "property": "C55",
   "status": "proved",
   "theorems": [
    "C55_shape_lookup",
    "C55_safe_iff_no_material_zero"
   ],
   "note": ""
  },
  {
   "property": "C56",
   "status": "proved",
   "theorems": [
    "C56_exclusion_radius",
    "C56_exclusion_radius_exists",
    "C56_hypersingular_finite_part",
    "C56_strongly_singular_finite_part",
    "C56_free_term"
   ],
   "note": "Integrability of the integrand away from the singular point is a hypothesis (it holds for continuous integrands); quadrature replaced by exact integrals."
  },
  {
   "property": "C57",
   "status": "proved",
   "theorems": [
    "C57_dipole_is_the_derivative_of_a_charge",
    "C57_multipole_accuracy",
    "C57_error_is_monotone",
    "C57_multipole_accuracy_uniform",
    "C57_histories_are_defined",
    "C57_sources_moved_and_evaluated"
   ],
   "note": "Newton expansion with explicit tail by Bonnet recurrence and the ODE of the generating function; norms of solid harmonics by Cauchy-Schwarz; dipoles by differentiating the remainder. Covers every history of the class's operations (multipole_of)."
  },
  {
   "property": "C58",
   "status": "proved",
   "theorems": [
    "C58_local_accuracy",
    "C58_histories_are_defined",
    "C58_far_field_chain",
    "C58_beyond_order_10_is_undefined"
   ],
   "note": "Double series of the M2L conversion; norm of the product of solid harmonics (Vandermonde); square truncation bounded by (p+1) times the tail. Covers every history (local_of). Order > 10 is undefined (finding: tables have 11 orders)."
  },
  {
   "property": "C59",
   "status": "proved",
   "theorems": [
    "C59_fmm_product_is_close_to_the_direct_product",
    "C59_fmm_product_is_a_fixed_matrix",
    "C59_result_is_defined_and_schedule_independent",
    "C59_the_kernels"
   ],
   "note": "Composition of C37-C40 (each pair once, well separated) with C57/C58 (error of the expansions) through a simulation between the expansion objects and formal combinations of unit sources. Exact reals; singular-cell quadrature is an arbitrary function shared by both sides."
  },
  {
   "property": "C60",
   "status": "proved",
   "theorems": [
    "C60_assembled_matrix_is_the_direct_product",
    "C60_writes_inside_the_pattern",
    "C60_partition_independent",
    "C60_entries_are_the_element_integrals",
    "C60_direct_and_fmm_agree",
    "C60_difference_of_the_singular_rules",
    "C60_regular_rules_agree_iff_gauss",
    "C60_singular_rules",
    "C60_singular_index_is_the_first"
   ],
   "note": "Findings: FMM ignores the 'Quadrature type' parameter; in 3D the two modes use different singular rules. Exact reals."
  },
  {
   "property": "C61",
   "status": "proved",
   "theorems": [
    "C61_projection_is_the_weak_form",
    "C61_projection_is_the_best_approximation",
    "C61_projection_is_local",
    "C61_nodal_values_are_local",
    "C61_finite_element_fields_reproduced",
    "C61_projection_is_unique",
    "C61_partition_independent",
    "C61_gradient_field_parts",
    "C61_gradient_of_a_linear_potential",
    "C61_flat_parts_have_exact_normals"
   ],
   "note": "FEValues data are parameters; hanging-node constraints as homogeneous combinations (deal.II distribute_local_to_global contract); the linear solve is taken as exact. Unisolvence and positive JxW are hypotheses where stated."
  },
  {
   "property": "C62",
   "status": "proved",
   "theorems": [
    "C62_normals_of_a_node",
    "C62_double_nodes_agree",
    "C62_distinct_normals",
    "C62_smooth_node",
    "C62_ordering_is_a_permutation",
    "C62_ordered_counterclockwise",
    "C62_alpha_of_a_corner",
    "C62_C_of_a_corner",
    "C62_C_is_symmetric",
    "C62_trace_of_C",
    "C62_order_independent",
    "C62_edge",
    "C62_edge_C_positive_definite",
    "C62_opposite_faces",
    "C62_reentrant_refuted",
    "C62_box_corner",
    "C62_two_dimensional_C_refuted"
   ],
   "note": "Exact reals, NaN as None; dim 3 (2D: C only). Findings: re-entrant corners, opposite faces, integer division in 2D."
  },
  {
   "property": "C63",
   "status": "proved",
   "theorems": [
    "C63_free_term_is_the_sum_over_the_group",
    "C63_free_term_partition_independent",
    "C63_free_term_same_on_double_nodes",
    "C63_free_term_accumulates_over_solves"
   ],
   "note": "The per-cell integral (C56) is a parameter. Finding: b_i accumulates over solves without reinit."
  },
  {
   "property": "C64",
   "status": "proved",
   "theorems": [
    "C64_singular_index_is_the_first",
    "C64_gradient_solves_the_node_equation",
    "C64_undefined_iff_C_singular",
    "C64_gradient_is_linear",
    "C64_far_cells_differentiate_the_representation",
    "C64_node_equation_by_cells"
   ],
   "note": "V and W singular integrals (C48, C49) are parameters; matrix inversion by cofactors; the renumbering of vector dofs is not modelled here."
  },
  {
   "property": "C65",
   "status": "proved",
   "theorems": [
    "C65_solve_system",
    "C65_potential_is_continuous",
    "C65_boundary_data_kept",
    "C65_hanging_nodes",
    "C65_conflict",
    "C65_partition_independent",
    "C65_mixed_hanging_refuted"
   ],
   "note": "The linear solver is not modelled (exact solution of the system it is given); AffineConstraints::close by its contract. Finding: hanging nodes between Dirichlet and Neumann parents mix flux and potential (C65_mixed_hanging_refuted)."
  },
  {
   "property": "C66",
   "status": "proved",
   "theorems": [
    "C66_pure_neumann",
    "C66_equation_only_for_trivial_flux",
    "C66_solvability",
    "C66_solvable_problem_without_solution_refuted",
    "C66_returned_potential_refuted"
   ],
   "note": "Finding: the pure Neumann operator adds the norm of the residual to the equation; compatible problems become unsolvable."
  },
  {
   "property": "C67",
   "status": "proved",
   "theorems": [
    "C67_fmm_solution_near_the_direct_solution",
    "C67_runs_of_the_two_methods",
    "C67_whole_runs",
    "C67_fmm_solution_in_the_direct_equation"
   ],
   "note": "Residual bound, and distance of the solutions given a stability constant of the Direct problem (the constant itself is a hypothesis, shown to hold in an example), per system and for whole runs on any numbers of processes (C67_runs_of_the_two_methods); same singular rules in both modes, see C60 for the difference of the rules. Exact reals."
  },
  {
   "property": "C68",
   "status": "proved",
   "theorems": [
    "C68_every_execution_is_a_sequential_one",
    "C68_result_is_unique",
    "C68_every_execution_is_accurate",
    "C68_executions_agree",
    "C68_near_matrix",
    "C68_execution_exists"
   ],
   "note": "Threads as interleaved reads/writes with torn non-word writes; WorkStream with any number of reused copy buffers and serialised copiers; TBB, Trilinos internals and timers not modelled."
  },
  {
   "property": "C69",
   "status": "proved",
   "theorems": [
    "C69_workstream_never_stuck",
    "C69_workstream_terminates",
    "C69_parallel_for_never_stuck",
    "C69_parallel_for_terminates",
    "C69_only_the_static_table_races",
    "C69_pattern_does_not_race",
    "C69_preconditioner_does_not_race",
    "C69_race_free_refuted",
    "C69_torn_table_refuted"
   ],
   "note": "Progress + well-founded steps + race freedom outside the static table; race on the table proved to occur (refutes full race freedom), and shown harmful if its words were torn."
  },
  {
   "property": "C70",
   "status": "proved",
   "theorems": [
    "C70_pattern",
    "C70_pattern_has_the_diagonal",
    "C70_preconditioner",
    "C70_preconditioner_fits_its_pattern",
    "C70_executions_exist"
   ],
   "note": "The values are tied to ModelBem.prec_row (C17); concurrent SparseMatrix::set/add on distinct entries are taken as independent writes."
  },
  {
   "property": "C71",
   "status": "proved",
   "theorems": [
    "C71_partition",
    "C71_owner",
    "C71_contiguous",
    "C71_tables",
    "C71_vector_sets",
    "C71_vector_partition",
    "C71_vector_contiguous",
    "C71_components_follow",
    "C71_ghosted_contains_owned",
    "C71_owns_nothing_iff",
    "C71_touch_first_iff",
    "C71_process_zero",
    "C71_every_process_owns_refuted"
   ],
   "note": "Reworded after refuting 'every process owns an unknown': C71_every_process_owns_refuted, exact characterisation C71_owns_nothing_iff/C71_touch_first_iff."
  },
  {
   "property": "C72",
   "status": "proved",
   "theorems": [
    "C72_node_errors",
    "C72_gradient_max",
    "C72_flux_max",
    "C72_l2_norms",
    "C72_phi_max_is_cellwise",
    "C72_phi_max_below_l2",
    "C72_exact_nodes",
    "C72_phi_max_is_nodal_refuted"
   ],
   "note": "Reworded after refuting that the printed potential maximum is the nodal maximum: C72_phi_max_is_nodal_refuted, what it is instead: C72_phi_max_is_cellwise, C72_phi_max_below_l2."
  },
  {
   "property": "C73",
   "status": "proved",
   "theorems": [
    "C73_near_matrix_is_reproducible",
    "C73_only_the_order_of_children_matters",
    "C73_same_child_orders_same_bits",
    "C73_partition_does_not_change_bits",
    "C73_child_order_changes_bits_refuted",
    "C73_double_arithmetic_rounds_within",
    "C73_near_entry_rounding",
    "C73_terms_of_an_entry",
    "C73_near_product_rounding"
   ],
   "note": "No overflow in the binary64 model (Flocq FLT format); rounding bound for the near field (assembly and product), not for the expansions; C73_child_order_changes_bits_refuted refutes run-to-run reproducibility."
  },
  {
   "property": "C74",
   "status": "proved",
   "theorems": [
    "C74_same_operations_on_all_processes",
    "C74_no_deadlock",
    "C74_defined_exactly_when_every_process_owns_a_node",
    "C74_contributions_to_other_processes",
    "C74_shared_contributions_all_arrive",
    "C74_driver_run_cannot_deadlock",
    "C74_which_partitions_are_safe",
    "C74_too_many_processes",
    "C74_interior_nodes_are_enough",
    "C74_having_cells_is_enough_refuted"
   ],
   "note": "Events of one process = writes of single entries and calls on whole objects, in program order (ModelColl); library bookkeeping (last_action, undelivered entries) modelled from the deal.II/Trilinos documentation: an assumption listed in DESIGN.md. Any history of public calls. Solver iteration counts equal on all processes by assumption (decided from global norms). Finding: a process without nodes has undefined behaviour in solve_system (bem_problem.cc:1820-1822), proved to be the exact condition."
  },
  {
   "property": "C75",
   "status": "proved",
   "theorems": [
    "C75_fmm_residual_in_the_direct_system",
    "C75_fmm_solve_near_the_direct_solution",
    "C75_exact_is_zero_residual",
    "C75_accepted_solution",
    "C75_error_of_the_solution",
    "C75_residual_of_an_accepted_solution",
    "C75_tolerance_bounds_the_residual_refuted",
    "C75_direct_run_stopped_early",
    "C75_fmm_run_stopped_early",
    "C75_two_runs_stopped_early"
   ],
   "note": "Statement is about any vector with a finite residual, so it covers whatever GMRES returns. Library contract used: AffineConstraints::close leaves lines that refer to unconstrained dofs only, and SolverGMRES(AdditionalData(100)) tests the preconditioned residual (left preconditioning, default residual). 'The tolerance bounds the residual' is refuted (C75_tolerance_bounds_the_residual_refuted). The pure Neumann operator is not linear and is not covered here (C66)."
  },
  {
   "property": "C76",
   "status": "proved",
   "theorems": [
    "C76_neumann_matrix_has_no_units",
    "C76_dirichlet_matrix_is_a_length",
    "C76_dirichlet_matrix_in_the_plane",
    "C76_solution_in_other_units",
    "C76_returned_values_in_other_units",
    "C76_products_in_other_units",
    "C76_single_layer_in_the_plane",
    "C76_double_nodes_in_other_units",
    "C76_double_nodes_refuted",
    "C76_mixed_hanging_nodes_refuted",
    "C76_tree_is_scale_free",
    "C76_small_meshes_have_no_far_field",
    "C76_small_meshes_get_the_direct_product",
    "C76_expansions_only_beyond_the_finest_side",
    "C76_distant_meshes_get_the_direct_product",
    "C76_lists_depend_on_the_unit_refuted",
    "C76_lists_depend_on_the_place_refuted",
    "C76_projected_fields_turn_with_the_mesh",
    "C76_nodal_values_turn_with_the_mesh",
    "C76_gradient_field_in_other_units"
   ],
   "note": "Reworded after refuting full invariance: C76_mixed_hanging_nodes_refuted, C76_double_nodes_refuted, C76_lists_depend_on_the_unit_refuted, C76_lists_depend_on_the_place_refuted, 2D logarithm (C76_dirichlet_matrix_in_the_plane, C76_single_layer_in_the_plane). C76_solution_in_other_units takes the operators, normals and surface gradients of the moved system as in C76_products_in_other_units and C76_projected_fields_turn_with_the_mesh. Exact real arithmetic except for the tree, which holds for every rounding that commutes with the factor."
  },
  {
   "property": "C77",
   "status": "proved",
   "theorems": [
    "C77_neighbours_are_the_touching_blocks",
    "C77_interactions_are_the_touching_blocks",
    "C77_pairs_per_target",
    "C77_evaluations_per_source",
    "C77_work_is_linear_in_the_blocks",
    "C77_work_is_linear_in_the_nodes",
    "C77_small_meshes_pair_all_leaves_refuted",
    "C77_long_cells_pair_all_their_leaves_refuted"
   ],
   "note": "Counts pairs of blocks visited by the loops, not floating point operations or time. Reworded after refuting the unconditional bound (C77_small_meshes_pair_all_leaves_refuted, C77_long_cells_pair_all_their_leaves_refuted)."
  },
  {
   "property": "C78",
   "status": "proved",
   "theorems": [
    "C78_normal_is_a_unit_vector",
    "C78_normal_of_a_planar_cell",
    "C78_normal_of_a_convex_cell",
    "C78_flag_iff",
    "C78_cells_per_circle_reached",
    "C78_cells_without_surface_never_refined_refuted",
    "C78_cells_without_surface",
    "C78_flag_monotone"
   ],
   "note": "Inputs: the two principal curvatures at the projected centre (OpenCASCADE is not modelled). Reworded after refuting 'cells without a surface are never refined' (C78_cells_without_surface_never_refined_refuted). The refinement loop itself is that of C45."
  },
  {
   "property": "C79",
   "status": "proved",
   "theorems": [
    "C79_stored_entries_are_reproducible",
    "C79_terms_of_an_entry",
    "C79_stored_entry_rounding",
    "C79_product_rounding",
    "C79_partitions_differ_by_rounding_only",
    "C79_column_order_changes_bits_refuted"
   ],
   "note": "Kernel, shape and JxW values are inputs here (their own rounding: C80). Underflow is covered (e), overflow is not. Bitwise equality of products across distributions is refuted (C79_column_order_changes_bits_refuted)."
  },
  {
   "property": "C80",
   "status": "proved",
   "theorems": [
    "C80_single_layer_is_accurate",
    "C80_double_layer_is_accurate",
    "C80_normal_derivative",
    "C80_stored_entry",
    "C80_product",
    "C80_double_precision",
    "C80_rounding_factor",
    "C80_normal_derivative_is_relatively_accurate_refuted",
    "C80_double_layer_in_2D",
    "C80_single_layer_in_2D",
    "C80_single_layer_in_2D_is_relatively_accurate_refuted"
   ],
   "note": "Relative model of rounding: no underflow, no overflow; C80_double_precision shows binary64 agrees with it for results of size at least 2^-1022. Points, normals, shape values and JxW are given numbers (their computation in deal.II is not modelled). The 2D logarithm is assumed to have relative error u like the other operations (u is then the error of the C library)."
  },
  {
   "property": "C81",
   "status": "proved",
   "theorems": [
    "C81_same_row",
    "C81_nodes_at_one_point",
    "C81_products_at_one_point",
    "C81_one_equation_per_point",
    "C81_coincident_dirichlet_nodes_make_the_system_singular",
    "C81_equation_at_every_coincident_node"
   ],
   "note": "Exact real arithmetic for the statements about the linear system; the rows are compared in any arithmetic. Direct method."
  },
  {
   "property": "C82",
   "status": "proved",
   "theorems": [
    "C82_matrix_entries",
    "C82_stored_matrices",
    "C82_products",
    "C82_numbering_and_distribution_do_not_matter",
    "C82_number_of_processes",
    "C82_same_answer",
    "C82_same_solvability",
    "C82_at_most_two_dirichlet_nodes",
    "C82_mixed_node_refuted",
    "C82_vertex_refuted"
   ],
   "note": "Exact arithmetic, exact solutions of the linear systems (not GMRES iterates, see C75). The nodal normals and the surface gradients of the data are functions of the node (not recomputed from the mesh). Reworded after refuting the unconditional claim (C82_mixed_node_refuted, C82_vertex_refuted). Direct method; FMM solutions are within C67's bound of these."
  },
  {
   "property": "C83",
   "status": "proved",
   "theorems": [
    "C83_fe_mapping",
    "C83_hanging_nodes_stay",
    "C83_q_mapping",
    "C83_mapping_is_never_replaced",
    "C83_spheroid_in_every_cycle_refuted"
   ],
   "note": "Position vectors, numberings and hanging-node relations of the successive meshes are inputs (deal.II's get_position_vector and refinement are not modelled). Reworded after refuting 'the spheroid is used in every cycle' (C83_spheroid_in_every_cycle_refuted)."
  },
  {
   "property": "C84",
   "status": "proved",
   "theorems": [
    "C84_projection_is_determined",
    "C84_normals_and_gradient",
    "C84_surface_gradient",
    "C84_surface_gradient_of_dirichlet_problems",
    "C84_number_of_processes",
    "C84_runs_carry_over",
    "C84_surface_gradient_of_phi_refuted"
   ],
   "note": "Exact arithmetic and exact solutions of the linear systems; FEValues data are inputs. The conversion to graphics files by DataOut is not modelled: the statement is about the vectors handed to it. Reworded after refuting 'phi_surf_gradient is the surface gradient of phi' (C84_surface_gradient_of_phi_refuted). Direct method."
  },
  {
   "property": "C85",
   "status": "proved",
   "theorems": [
    "C85_octree_does_not_depend_on_the_numbering",
    "C85_fast_product_does_not_depend_on_the_numbering",
    "C85_nodes_at_one_point_get_the_same_product",
    "C85_number_of_processes",
    "C85_same_answer",
    "C85_same_solvability",
    "C85_leftovers_of_earlier_cycles_refuted"
   ],
   "note": "Exact arithmetic (the octree part: any rounding that depends on the number only), exact solutions of the linear systems, first solve. General position as in C59. Reworded after refuting independence on later cycles (C85_leftovers_of_earlier_cycles_refuted)."
  },
  {
   "property": "C86",
   "status": "proved",
   "theorems": [
    "C86_accepted_id_lists",
    "C86_ids_are_the_numbers_written",
    "C86_one_reading",
    "C86_integer_entries",
    "C86_accepted_number_used_as_written_refuted"
   ],
   "note": "The library code for splitting, matching and converting text (deal.II Utilities and Patterns, std::istream) is modelled from its documentation; ASCII, C locale. Text of single entries, not the layout of the file. Reworded after refuting that accepted numbers are used as written."
  },
  {
   "property": "C87",
   "status": "proved",
   "theorems": [
    "C87_initialisation_defined_iff",
    "C87_owned_components",
    "C87_every_component_has_an_owner_iff",
    "C87_two_index_rules_agree_iff",
    "C87_same_element",
    "C87_normal_of_the_node_refuted"
   ],
   "note": "deal.II's numbering functions are modelled as in C71 (association of dofs with subdomains, subdomain-wise numbering); what Trilinos does with index sets that leave indices unowned is not modelled. Reworded after refuting that a node gets its own normal (C87_normal_of_the_node_refuted)."
  },
  {
   "property": "C88",
   "status": "proved",
   "theorems": [
    "C88_every_cycle",
    "C88_direct_runs_have_no_memory",
    "C88_spheroid_refuted",
    "C88_layout_refuted",
    "C88_fast_refuted",
    "C88_fast_runs_with_different_histories"
   ],
   "note": "The answer of a cycle is an arbitrary function of its mesh and of the data that survives; that all other members are rebuilt before they are read was checked by reading (cited in ModelHistory), not proved. Reworded after refuting history independence with a spheroid, with redistributed unknowns and in FMM mode (C88_spheroid_refuted, C88_layout_refuted, C88_fast_refuted)."
  },
  {
   "property": "C89",
   "status": "proved",
   "theorems": [
    "C89_operator",
    "C89_alpha",
    "C89_integral_equation",
    "C89_rows",
    "C89_run_in_floating_point",
    "C89_constraints_are_kept_refuted",
    "C89_constrained_row"
   ],
   "note": "Direct mode, relative rounding errors without overflow or underflow (C80_double_precision); the inhomogeneities of the constraints and the imposed data are taken as given numbers; GMRES itself is not modelled: eps is how well the computed system holds for the vector it returns. Reworded after refuting that constraints are kept to the precision of their unknowns."
  },
  {
   "property": "C90",
   "status": "proved",
   "theorems": [
    "C90_product",
    "C90_transpose_iff",
    "C90_system_iff",
    "C90_adds_to_destination",
    "C90_is_a_product_refuted",
    "C90_any_order_refuted",
    "C90_singular"
   ],
   "note": "One process only; exact reals; the class is not included by any file (it has the include guard of constrained_matrix.h). Reworded after refuting that a call is a product (C90_is_a_product_refuted) and that the numbering of dofs does not matter (C90_any_order_refuted)."
  },
  {
   "property": "C91",
   "status": "proved",
   "theorems": [
    "C91_cosine_stays_in_range",
    "C91_near_the_axis",
    "C91_off_the_axis",
    "C91_charge_is_finite",
    "C91_evaluation_is_finite",
    "C91_dipole_is_finite_iff",
    "C91_dipole_near_the_axis",
    "C91_dipole_off_the_axis",
    "C91_charge_near_the_axis_is_moved_onto_it",
    "C91_exact_moment",
    "C91_exact_dipole",
    "C91_exact_but_not_computed",
    "C91_charge_without_rounding",
    "C91_dipole_without_rounding",
    "C91_evaluation_without_rounding",
    "C91_scaled_is_finite",
    "C91_translation_is_finite",
    "C91_local_translation_is_finite",
    "C91_conversion_is_finite",
    "C91_local_evaluation_is_finite",
    "C91_which_histories_stay_finite",
    "C91_which_local_histories_stay_finite",
    "C91_multipole_calls_without_rounding",
    "C91_local_calls_without_rounding",
    "C91_values_without_rounding"
   ],
   "note": "Unlimited exponents: no overflow or underflow. Rounding errors of the coefficients are not bounded (only finiteness, and agreement with the exact model when nothing is rounded). NaN and infinities are represented by None (they never become finite again in these routines). Reworded after refuting that the computed dipole moments are finite whenever the exact ones are (C91_exact_but_not_computed)."
  },
  {
   "property": "C92",
   "status": "proved",
   "theorems": [
    "C92_thread_argument",
    "C92_other_arguments",
    "C92_minus_one_is_no_limit",
    "C92_a_word_is_zero_threads",
    "C92_exit_status",
    "C92_status_and_results",
    "C92_message",
    "C92_run_ends"
   ],
   "note": "The calls are arbitrary functions that return or throw. atoi from the ISO C text (undefined outside int); what MPI_InitFinalize does with the limit, and the destructors that run when the try block is left (MPI_Finalize), are the library's. Each process on its own: that one process fails while others wait is C74's subject."
  },
  {
   "property": "C93",
   "status": "proved",
   "theorems": [
    "C93_spoilt_expansions",
    "C93_which_multipoles",
    "C93_which_locals",
    "C93_rows",
    "C93_finite_product",
    "C93_centres",
    "C93_without_rounding"
   ],
   "note": "Unlimited exponents. None stands for an expansion with a coefficient that is not finite; the value read from it is an arbitrary number, so the theorems say which expansions are not finite, not what the processor prints."
  },
  {
   "property": "C94",
   "status": "proved",
   "theorems": [
    "C94_dipole",
    "C94_dipole_of_the_exact_program",
    "C94_slopes",
    "C94_difference",
    "C94_multipole_histories",
    "C94_local_histories",
    "C94_constants",
    "C94_translation_tables",
    "C94_conversion",
    "C94_local_translation",
    "C94_multipole_translation",
    "C94_values",
    "C94_charge",
    "C94_scaled_sum",
    "C94_near_translation",
    "C94_formulas_of_the_exact_program",
    "C94_values_of_the_exact_program",
    "C94_in_double_precision"
   ],
   "note": "The Legendre values (bounded in C95), powers, sines and cosines, and the sine of the polar angle sqrt(1-c^2), are taken as the program computes them. The bound is relative to the sum of the absolute values of the terms, as usual for sums with cancellation."
  },
  {
   "property": "C95",
   "status": "proved",
   "theorems": [
    "C95_values",
    "C95_derivatives",
    "C95_root_error",
    "C95_without_rounding",
    "C95_in_double_precision",
    "C95_values_of_expansions",
    "C95_defined_in_double_precision"
   ],
   "note": "The bounds are upper bounds: what they leave out is how much smaller the true error is. The derivatives of order 1 divide by sqrt(1-x^2) and have no bound."
  }
 ]
}