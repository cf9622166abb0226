{
 "claims": [
  {
   "property": "C01",
   "status": "proved",
   "theorems": [
    "C01_remove_particles_keeps_exactly_survivors",
    "C01_negative_cell_id_refuted",
    "C01_negative_cell_id_overrun_refuted"
   ],
   "note": "C01_negative_cell_id_refuted shows that entries with a negative cell id or layer are not ignored."
  },
  {
   "property": "C02",
   "status": "proved",
   "theorems": [
    "C02_compaction_copies_do_not_conflict",
    "C02_removal_independent_of_schedule"
   ],
   "note": ""
  },
  {
   "property": "C03",
   "status": "proved",
   "theorems": [
    "C03_cell_move_puts_every_particle_in_its_cell",
    "C03_bad_cell_id_is_reported"
   ],
   "note": ""
  },
  {
   "property": "C04",
   "status": "proved",
   "theorems": [
    "C04_new_layers_are_fresh_and_dense"
   ],
   "note": ""
  },
  {
   "property": "C05",
   "status": "proved",
   "theorems": [
    "C05_add_particle_set_appends_exactly_the_set",
    "C05_bad_cell_is_reported",
    "C05_wrong_number_of_components_is_reported"
   ],
   "note": ""
  },
  {
   "property": "C06",
   "status": "proved",
   "theorems": [
    "C06_add_group_appends_every_particle",
    "C06_add_own_sub_group_duplicates_members",
    "C06_add_sub_group_appends_members",
    "C06_incompatible_groups_are_reported",
    "C06_same_properties_are_copied_unchanged"
   ],
   "note": ""
  },
  {
   "property": "C07",
   "status": "partial",
   "theorems": [
    "C07_products_are_added_to_their_cells_partial",
    "C07_descendants_inherit_from_their_parent_partial",
    "C07_cell_id_column_refuted",
    "C07_product_without_parent_refuted"
   ],
   "note": "Refuted in general: C07_cell_id_column_refuted (an INT property with several components before the cell id in the matrix shifts the column read as cell id) and C07_product_without_parent_refuted. Proved for matrices whose INT properties before the cell id have one component."
  },
  {
   "property": "C08",
   "status": "proved",
   "theorems": [
    "C08_pack_then_unpack_is_the_identity",
    "C08_messages_do_not_overlap",
    "C08_local_messages_do_not_overlap"
   ],
   "note": ""
  },
  {
   "property": "C09",
   "status": "proved",
   "theorems": [
    "C09_global_move_delivers_to_the_named_rank",
    "C09_global_move_conserves_particles"
   ],
   "note": ""
  },
  {
   "property": "C10",
   "status": "proved",
   "theorems": [
    "C10_departing_particles_are_identified_once",
    "C10_packing_layers_are_dense"
   ],
   "note": ""
  },
  {
   "property": "C11",
   "status": "proved",
   "theorems": [
    "C11_local_move_delivers_to_the_named_neighbour",
    "C11_local_move_conserves_particles",
    "C11_unreachable_rank_is_reported",
    "C11_invalid_neighbour_is_reported"
   ],
   "note": ""
  },
  {
   "property": "C12",
   "status": "proved",
   "theorems": [
    "C12_counters_agree",
    "C12_rows_agree",
    "C12_rows_hint_too_few_refuted",
    "C12_rows_hint_empty_refuted",
    "C12_move_without_cells_refuted"
   ],
   "note": "C12_counters_agree holds for every allocation hint; C12_rows_agree without one. Findings: C12_rows_hint_too_few_refuted, C12_rows_hint_empty_refuted (with NESO_PARTICLES_NPART_CELL_HINT the number of rows is not the number of particles), C12_move_without_cells_refuted (a move on a rank without cells accesses entry 0 of empty tables)."
  },
  {
   "property": "C13",
   "status": "proved",
   "theorems": [
    "C13_joint_exclusive_scan_one_group",
    "C13_joint_exclusive_scan_blocked",
    "C13_joint_exclusive_scan_n",
    "C13_joint_exclusive_scan_n_sum"
   ],
   "note": ""
  },
  {
   "property": "C14",
   "status": "proved",
   "theorems": [
    "C14_decomp_is_balanced_partition",
    "C14_decomp_inverse_correct"
   ],
   "note": ""
  },
  {
   "property": "C15",
   "status": "proved",
   "theorems": [
    "C15_loop_is_launched",
    "C15_loop_visits_each_particle_once",
    "C15_strided_loops_visit_each_particle_once",
    "C15_bad_cell_range_is_reported"
   ],
   "note": ""
  },
  {
   "property": "C16",
   "status": "proved",
   "theorems": [
    "C16_loop_linear_index_is_dense",
    "C16_local_linear_index_is_dense",
    "C16_local_linear_index_is_unique"
   ],
   "note": ""
  },
  {
   "property": "C17",
   "status": "proved",
   "theorems": [
    "C17_constructor_accepts",
    "C17_tuple_to_linear",
    "C17_linear_to_tuple",
    "C17_number_of_cells",
    "C17_cartesian_view"
   ],
   "note": ""
  },
  {
   "property": "C18",
   "status": "proved",
   "theorems": [
    "C18_owners",
    "C18_invalid_weight_is_reported"
   ],
   "note": ""
  },
  {
   "property": "C19",
   "status": "proved",
   "theorems": [
    "C19_neighbours_of_a_cell",
    "C19_neighbours_of_cells",
    "C19_neighbourhood_is_symmetric",
    "C19_large_offset_refuted"
   ],
   "note": ""
  },
  {
   "property": "C20",
   "status": "proved",
   "theorems": [
    "C20_position_in_the_domain",
    "C20_the_cell_is_unique",
    "C20_position_above_the_domain",
    "C20_cartesian_position",
    "C20_position_below_the_domain_refuted",
    "C20_position_below_gives_unrelated_cell_refuted",
    "C20_cartesian_boundary_refuted"
   ],
   "note": ""
  },
  {
   "property": "C21",
   "status": "proved",
   "theorems": [
    "C21_tree_is_a_finite_map",
    "C21_device_get"
   ],
   "note": ""
  },
  {
   "property": "C22",
   "status": "proved",
   "theorems": [
    "C22_table_is_a_bounded_map",
    "C22_invalid_key_is_reported"
   ],
   "note": ""
  },
  {
   "property": "C23",
   "status": "proved",
   "theorems": [
    "C23_linear_index",
    "C23_bijection",
    "C23_array_elements_are_independent",
    "C23_array_add"
   ],
   "note": ""
  },
  {
   "property": "C24",
   "status": "proved",
   "theorems": [
    "C24_kernel_sub_group",
    "C24_whole_group",
    "C24_ordered_kernel_sub_group",
    "C24_uses_see_the_selection",
    "C24_ordered_rebuilt_parent_refuted",
    "C24_ordered_no_cells_refuted"
   ],
   "note": "Findings: C24_ordered_rebuilt_parent_refuted (order-preserving selector with a parent rebuilt between its two loops lists rejected particles), C24_ordered_no_cells_refuted (npart_local is uninitialised on a rank without cells)."
  },
  {
   "property": "C25",
   "status": "proved",
   "theorems": [
    "C25_never_stale",
    "C25_use_succeeds",
    "C25_released_parent_refuted",
    "C25_set_value_refuted",
    "C25_pointer_refuted",
    "C25_readded_refuted"
   ],
   "note": "Holds for histories in Version_Spec.allowed. Findings outside it: C25_released_parent_refuted (child not rebuilt when its static parent is released), C25_set_value_refuted, C25_pointer_refuted (mark of device_ptr cleared by a later tracked write), C25_readded_refuted (property removed and added again restarts at version 1)."
  },
  {
   "property": "C26",
   "status": "proved",
   "theorems": [
    "C26_freeze",
    "C26_frozen",
    "C26_partition_refuted"
   ],
   "note": "Finding: C26_partition_refuted (a static sub-group of a partition changes when another one is used)."
  },
  {
   "property": "C27",
   "status": "proved",
   "theorems": [
    "C27_truncate_and_discard_split_the_parent",
    "C27_negative_is_rejected",
    "C27_no_cells_refuted"
   ],
   "note": "Finding: C27_no_cells_refuted (reads out of bounds on a rank without cells)."
  },
  {
   "property": "C28",
   "status": "proved",
   "theorems": [
    "C28_cell_range",
    "C28_cell_range_listed",
    "C28_other_ranges_are_rejected",
    "C28_copy",
    "C28_union",
    "C28_union_rejects_the_group"
   ],
   "note": "The union reads out of bounds on a rank without cells (as truncate, C27_no_cells_refuted); proved for at least one cell."
  },
  {
   "property": "C29",
   "status": "proved",
   "theorems": [
    "C29_partition",
    "C29_rebuilt_parent_refuted"
   ],
   "note": "Finding: C29_rebuilt_parent_refuted (parent rebuilt between the two loops)."
  },
  {
   "property": "C30",
   "status": "proved",
   "theorems": [
    "C30_get_particles",
    "C30_get_particles_of_a_sub_group",
    "C30_get_then_add_duplicates"
   ],
   "note": ""
  },
  {
   "property": "C31",
   "status": "proved",
   "theorems": [
    "C31_addresses_are_distinct_and_in_bounds",
    "C31_device_container_history",
    "C31_errors",
    "C31_particle_set_create",
    "C31_particle_set_write",
    "C31_particle_set_errors",
    "C31_at_beyond_the_particles_is_an_error_refuted",
    "C31_descendants_reset",
    "C31_descendants_rows_and_parents"
   ],
   "note": "C31_at_beyond_the_particles_is_an_error_refuted: ParticleSet::at does not report every index that does not exist."
  },
  {
   "property": "C32",
   "status": "proved",
   "theorems": [
    "C32_history",
    "C32_get_cell",
    "C32_resize_keeps_rows",
    "C32_writes_do_not_alias",
    "C32_nrow_max",
    "C32_nrow_min_refuted",
    "C32_two_resizes_refuted",
    "C32_fixed_size"
   ],
   "note": ""
  },
  {
   "property": "C33",
   "status": "proved",
   "theorems": [
    "C33_linearisable",
    "C33_stores_are_real",
    "C33_terminates",
    "C33_maximum",
    "C33_minimum"
   ],
   "note": ""
  },
  {
   "property": "C34",
   "status": "proved",
   "theorems": [
    "C34_sorts"
   ],
   "note": ""
  },
  {
   "property": "C35",
   "status": "proved",
   "theorems": [
    "C35_inverse_3",
    "C35_inverse_4",
    "C35_singular_3",
    "C35_singular_4"
   ],
   "note": ""
  },
  {
   "property": "C36",
   "status": "proved",
   "theorems": [
    "C36_segments",
    "C36_segments_tolerance",
    "C36_parallel",
    "C36_x_axis_aligned",
    "C36_y_axis_aligned",
    "C36_xy_plane_aligned"
   ],
   "note": ""
  },
  {
   "property": "C37",
   "status": "proved",
   "theorems": [
    "C37_get_is_exclusive",
    "C37_objects_are_accounted_for",
    "C37_restore",
    "C37_restore_gives_back",
    "C37_free"
   ],
   "note": ""
  },
  {
   "property": "C38",
   "status": "partial",
   "theorems": [
    "C38_transpose_partial",
    "C38_single_row_refuted"
   ],
   "note": "C38_single_row_refuted: nothing is written for a single row or column. Proved for at least two rows and columns."
  },
  {
   "property": "C39",
   "status": "proved",
   "theorems": [
    "C39_every_move_receives_its_messages",
    "C39_no_deadlock",
    "C39_executions_are_bounded",
    "C39_all_moves_complete",
    "C39_every_execution_can_complete",
    "C39_local_move_setup_finds_the_senders",
    "C39_messages_are_those_of_the_inbox"
   ],
   "note": ""
  },
  {
   "property": "C40",
   "status": "proved",
   "theorems": [
    "C40_orientation_is_canonical"
   ],
   "note": ""
  },
  {
   "property": "C41",
   "status": "proved",
   "theorems": [
    "C41_every_pair_once",
    "C41_all_pairs_meaning",
    "C41_uniform_synchronisation",
    "C41_concurrent_calls",
    "C41_first_particle_shared_refuted",
    "C41_not_power_of_two_refuted"
   ],
   "note": "Findings: C41_first_particle_shared_refuted (concurrent calls share their first particle), C41_not_power_of_two_refuted (pairs missed and repeated for other work group sizes)."
  },
  {
   "property": "C42",
   "status": "proved",
   "theorems": [
    "C42_schedule",
    "C42_no_particle_twice",
    "C42_nothing_lost",
    "C42_checked",
    "C42_order_of_particles_refuted",
    "C42_self_pair_refuted"
   ],
   "note": "Findings: C42_order_of_particles_refuted (the order in which the particles of a pair are given is not kept), C42_self_pair_refuted (a pair of a particle with itself is accepted)."
  },
  {
   "property": "C43",
   "status": "proved",
   "theorems": [
    "C43_contents",
    "C43_pair_numbers",
    "C43_progress",
    "C43_push_checked",
    "C43_push_after_set_refuted",
    "C43_push_after_clear_refuted"
   ],
   "note": "Findings: C43_push_after_set_refuted (pushing to a list that was set loses pairs of later waves), C43_push_after_clear_refuted (after certain set calls, clear and push_back fails)."
  },
  {
   "property": "C44",
   "status": "proved",
   "theorems": [
    "C44_every_pair_once",
    "C44_order",
    "C44_pair_numbers",
    "C44_no_sharing",
    "C44_empty_list_refuted",
    "C44_two_lists_refuted"
   ],
   "note": "Findings: C44_empty_list_refuted (an empty list counts -1 pairs, so pair numbers repeat or are negative), C44_two_lists_refuted (waves do not order pairs of different lists)."
  },
  {
   "property": "C45",
   "status": "proved",
   "theorems": [
    "C45_serial",
    "C45_push_back_refuted"
   ],
   "note": "Finding: C45_push_back_refuted (pairs given to push_back all go to one wave: with a shared particle the result depends on the schedule)."
  },
  {
   "property": "C46",
   "status": "proved",
   "theorems": [
    "C46_members",
    "C46_occupancy",
    "C46_max_num_pairs",
    "C46_most_pairs_is_largest",
    "C46_collision_cell_unchecked_refuted"
   ],
   "note": "Finding: C46_collision_cell_unchecked_refuted (a collision cell beyond those of the mesh cell is not reported)."
  },
  {
   "property": "C47",
   "status": "proved",
   "theorems": [
    "C47_pairs",
    "C47_every_choice",
    "C47_loop",
    "C47_too_many_refuted"
   ],
   "note": "Finding: C47_too_many_refuted (more pairs than available are not refused; memory outside the local array is read)."
  },
  {
   "property": "C48",
   "status": "proved",
   "theorems": [
    "C48_pairs",
    "C48_cpu_order",
    "C48_equal_shares",
    "C48_too_few",
    "C48_overlap_refuted",
    "C48_negative_refuted"
   ],
   "note": "Findings: C48_overlap_refuted (overlapping sub-groups that are different objects may give a pair of a particle with itself), C48_negative_refuted (a negative random number is an index out of range)."
  },
  {
   "property": "C49",
   "status": "proved",
   "theorems": [
    "C49_every_pair_once",
    "C49_pair_numbers",
    "C49_no_sharing",
    "C49_serial",
    "C49_list_order",
    "C49_sampled",
    "C49_sample_and_run",
    "C49_refused",
    "C49_mixed_block_sizes_refuted"
   ],
   "note": "Block pair loop: each pair once with its own number (C49_every_pair_once, C49_pair_numbers), no sharing between concurrent calls of a group (C49_no_sharing), serialisable (C49_serial), in list order for CPU-made waves (C49_list_order, C49_sample_and_run); sampler lists are well-formed (C49_sampled); C49_mixed_block_sizes_refuted is a finding."
  },
  {
   "property": "C50",
   "status": "proved",
   "theorems": [
    "C50_validate",
    "C50_sampled",
    "C50_accepted_runs",
    "C50_host",
    "C50_occupancy",
    "C50_mean",
    "C50_global",
    "C50_global_refused"
   ],
   "note": "validate_pair_list returns true iff the list satisfies the contract under which C49 proves the loop correct, plus no self pairs and no superfluous waves; host copy, occupancy counts, mean (rational arithmetic) and global sums (MPI_Reduce as a sum) characterised exactly."
  },
  {
   "property": "C51",
   "status": "proved",
   "theorems": [
    "C51_owned_cells",
    "C51_one_owner",
    "C51_owner_query",
    "C51_owner_map",
    "C51_local_ids",
    "C51_neighbours",
    "C51_neighbours_symmetric",
    "C51_decomposition",
    "C51_constructed",
    "C51_decomposition_found",
    "C51_one_dimension_refuted"
   ],
   "note": "MPI topology calls enter as a record with the guarantees of the standard (cart_ok), MPI_Dims_create as any factorisation (chooser_ok). C51_one_dimension_refuted records that meshes of one dimension are rejected by the constructor."
  },
  {
   "property": "C52",
   "status": "proved",
   "theorems": [
    "C52_periodic_positions_wrapped",
    "C52_cell_of_the_particle",
    "C52_ranks_reset",
    "C52_local_mapper_constructed",
    "C52_local_rank_of_the_particle",
    "C52_local_rank_in_a_cell",
    "C52_global_rank_of_the_particle",
    "C52_above_the_domain_reported",
    "C52_point_in_the_subdomain",
    "C52_below_the_origin_refuted"
   ],
   "note": "Positions are rationals; conversions to int fail outside the range of a C++ int and the theorems state the range. Above-domain error proved, below-origin refuted (C52_below_the_origin_refuted)."
  },
  {
   "property": "C53",
   "status": "proved",
   "theorems": [
    "C53_face_cells_are_the_facets",
    "C53_conversions_inverse",
    "C53_owner_of_a_face_cell",
    "C53_own_face_cells",
    "C53_one_owner_each",
    "C53_face_cells_of_sides",
    "C53_corners_on_the_side"
   ],
   "note": "Ids, tuples, sides, owners and corner points; std::pow and the memo table of owners are simplified (see the model)."
  },
  {
   "property": "C54",
   "status": "proved",
   "theorems": [
    "C54_hybrid_move_brings_particles_to_their_rank",
    "C54_cell_move_puts_particles_in_their_cell",
    "C54_time_step"
   ],
   "note": "hybrid_move, cell_move and a whole time step (periodic boundary, hybrid_move, cell_move) on all ranks of a Cartesian mesh, composed from the models of the maps (C52), GlobalMove (C09), LocalMove (C11) and CellMove (C03)."
  },
  {
   "property": "C55",
   "status": "proved",
   "theorems": [
    "C55_values",
    "C55_cells",
    "C55_fetch",
    "C55_set_cell_larger_matrix_refuted"
   ],
   "note": "Host and device memory as one array; copies are memcpy of a number of elements. Finding C55_set_cell_larger_matrix_refuted."
  },
  {
   "property": "C56",
   "status": "proved",
   "theorems": [
    "C56_plus_reducible",
    "C56_minimum_reducible",
    "C56_maximum_reducible",
    "C56_component",
    "C56_component_refused",
    "C56_components",
    "C56_surplus_components_refuted"
   ],
   "note": "The operation is any associative and commutative operation with a neutral element on the values in use (floating-point rounding is not modelled); instances for plus, minimum and maximum on INT. Finding C56_surplus_components_refuted."
  },
  {
   "property": "C57",
   "status": "proved",
   "theorems": [
    "C57_reduction_loop",
    "C57_power_of_two",
    "C57_local_size"
   ],
   "note": "As C56; per work group: local memory, barriers as the order of phases, the tree, then atomic updates in any order over all launches. The self test of the local memory layout (cell_dat_const.hpp L454-532) is left out."
  },
  {
   "property": "C58",
   "status": "proved",
   "theorems": [
    "C58_each_sample_has_its_own_draw",
    "C58_no_draw_is_used_twice",
    "C58_overlapping_use_is_refused",
    "C58_index_overflow_refuted"
   ],
   "note": "The generation function is a stream of values. Copies may complete at submission or at the next wait, element by element."
  },
  {
   "property": "C59",
   "status": "proved",
   "theorems": [
    "C59_no_draw_is_used_twice",
    "C59_announced_samples_are_valid",
    "C59_zero_components_refuted"
   ],
   "note": "Counters wrap at 32 bits; fewer than 2^32 calls per loop, at least one component and a block size of at least 1 are assumed."
  },
  {
   "property": "C60",
   "status": "proved",
   "theorems": [
    "C60_departing_particles",
    "C60_first_boundary_point",
    "C60_pre_integration",
    "C60_along_the_boundary_refuted",
    "C60_side_in_two_groups_refuted"
   ],
   "note": "Over Q, rounding not modelled. The exchange pattern of the face cells is not modelled."
  },
  {
   "property": "C61",
   "status": "proved",
   "theorems": [
    "C61_position",
    "C61_back_inside",
    "C61_time",
    "C61_reflection",
    "C61_execute"
   ],
   "note": "Over the real numbers of the standard library (its three axioms), rounding not modelled."
  },
  {
   "property": "C62",
   "status": "proved",
   "theorems": [
    "C62_every_history_of_extensions_succeeds",
    "C62_numbers_are_kept",
    "C62_exchange_adds_all_contributions",
    "C62_reverse_exchange_copies_owned_values",
    "C62_reverse_exchange_reads_host_memory_refuted"
   ],
   "note": "Every history of pattern extensions succeeds and numbers the facets; both exchanges give the specified values for all schedules; the read of host memory by the reverse unpack kernel is refuted."
  },
  {
   "property": "C63",
   "status": "proved",
   "theorems": [
    "C63_boundary_function_is_one_value_per_facet",
    "C63_projection_sums_particles",
    "C63_new_facets_read_unset_memory_refuted",
    "C63_no_contribution_after_new_facets_refuted"
   ],
   "note": "Refinement of a machine with one value per facet, over all allowed histories. Two theorems show the conditions on new facets during a projection are needed: they are findings about the code. DG0 only, as in the code. In three dimensions the code scales with one inverse width per facet area; the scale is a parameter here, so this is a remark in DESIGN.md and not part of the property."
  },
  {
   "property": "C64",
   "status": "proved",
   "theorems": [
    "C64_initialisation_brings_particles_to_their_rank",
    "C64_no_steps_refuted",
    "C64_distance_from_zero_unnoticed_refuted",
    "C64_four_position_components_refuted"
   ],
   "note": "Composes the loops of parallel_initialisation.cpp with the hybrid_move of C54; exact arithmetic instead of doubles: the check for particles far from their target is exact here. Findings: zero steps throw; a fourth position component is read out of bounds; the check ignores coordinates whose target is zero."
  },
  {
   "property": "C65",
   "status": "proved",
   "theorems": [
    "C65_arrays_hold_what_was_added",
    "C65_loops_keep_ranks_in_agreement",
    "C65_fetch_add_numbers",
    "C65_array_added_twice_refuted",
    "C65_submit_by_cells_refuted"
   ],
   "note": "Floating point addition is modelled as a commutative monoid, i.e. without rounding."
  },
  {
   "property": "C66",
   "status": "proved",
   "theorems": [
    "C66_remover_removes_exactly_the_key",
    "C66_no_particle_with_the_key_left",
    "C66_sub_group_is_removed",
    "C66_whole_group_is_removed",
    "C66_listed_particles_are_removed",
    "C66_short_lists_are_reported"
   ],
   "note": "remover, sub-group and host-list removal, on top of the compression theorem of C01"
  },
  {
   "property": "C67",
   "status": "proved",
   "theorems": [
    "C67_reduce_union",
    "C67_all_reduce_union",
    "C67_finishes",
    "C67_wide_elements_refuted"
   ],
   "note": "asynchronous message passing semantics with sends that may or may not be buffered; all interleavings"
  },
  {
   "property": "C68",
   "status": "proved",
   "theorems": [
    "C68_get_remote_ranks",
    "C68_results_at_all_times",
    "C68_found_pairs",
    "C68_finishes"
   ],
   "note": "Small-step model of the calls on all ranks: window counters, non-blocking barriers, receives from any source with per-sender order; invariant over any number of successive calls, progress and a decreasing measure. C68_found_pairs restates the result as sets of pairs."
  },
  {
   "property": "C69",
   "status": "proved",
   "theorems": [
    "C69_serial_container",
    "C69_container",
    "C69_wide_cells_refuted"
   ],
   "note": "Byte-level model of the containers, functional model of construction, gather and get on all ranks; get_remote_ranks is any function with the property proved in C68; the exchanges match messages by source and order."
  },
  {
   "property": "C70",
   "status": "proved",
   "theorems": [
    "C70_round_trip",
    "C70_contract",
    "C70_message",
    "C70_halo",
    "C70_reuse_refuted"
   ],
   "note": "PETSc itself (DMPlexSymmetrize, Stratify, point numbering) is not modelled; coordinates are their 64 bits; C70_reuse_refuted is a finding."
  },
  {
   "property": "C71",
   "status": "proved",
   "theorems": [
    "C71_cells",
    "C71_points",
    "C71_signed_refuted"
   ],
   "note": "C71_signed_refuted: the signed number of a point of another rank passes the check and returns point 0."
  },
  {
   "property": "C72",
   "status": "proved",
   "theorems": [
    "C72_overlap",
    "C72_tiling",
    "C72_claims",
    "C72_position",
    "C72_upper_face_refuted",
    "C72_sliver_refuted"
   ],
   "note": "Exact arithmetic for REAL; int without overflow. C72_upper_face_refuted: a position on an upper face that is an edge between cells. C72_sliver_refuted: an overlap below a millionth of a cell is not claimed."
  },
  {
   "property": "C73",
   "status": "proved",
   "theorems": [
    "C73_create_overlay",
    "C73_position",
    "C73_intersecting",
    "C73_three_dimensions_refuted",
    "C73_cell_test",
    "C73_corner_test",
    "C73_top_refuted",
    "C73_map"
   ],
   "note": "The overlay mesh of any box and cell count, the cells listed for a box, the crossing test against the convex cell, and the map of any position with any convex cells. Positions at the height of the highest vertex of the only cell containing them can be missed (C73_top_refuted); get_intersecting_cells writes out of bounds in three dimensions (C73_three_dimensions_refuted)."
  },
  {
   "property": "C74",
   "status": "proved",
   "theorems": [
    "C74_set_up",
    "C74_position"
   ],
   "note": "Composition of C18, C19, C69, C70 and C72 over the set up on all ranks. Elements on a mesh hierarchy cell that nobody owns (every overlap below a millionth of the cell) are not sent. The claim count is limited so that all bytes fit an int."
  },
  {
   "property": "C75",
   "status": "proved",
   "theorems": [
    "C75_points",
    "C75_get_refuted",
    "C75_set_get",
    "C75_set_refuted"
   ],
   "note": "Adding, writing, set and get on all ranks for any distribution of the points. get with two or more components fails as soon as a point is held by another rank (C75_get_refuted): the receive buffer has one entry per point. set does not reach points held by other ranks (C75_set_refuted)."
  },
  {
   "property": "C76",
   "status": "proved",
   "theorems": [
    "C76_index",
    "C76_to_external",
    "C76_from_external_refuted",
    "C76_stale_refuted"
   ],
   "note": "All histories of set, get, copy_to_external and copy_from_external. copy_from_external copies the device buffer over the array of the caller (arguments of memcpy swapped) and stores stale values (C76_from_external_refuted, C76_stale_refuted)."
  },
  {
   "property": "C77",
   "status": "proved",
   "theorems": [
    "C77_counts",
    "C77_element_wise",
    "C77_misfit",
    "C77_broadcast",
    "C77_to_particle_dat",
    "C77_to_ephemeral_dat"
   ],
   "note": "One value type for all arguments of an expression; the loop over a sub group is a loop over its selection."
  },
  {
   "property": "C78",
   "status": "proved",
   "theorems": [
    "C78_unseen_values"
   ],
   "note": "Histories of calls of UnseenValueExtractor; the tree of seen values is the blocked binary tree of C21."
  },
  {
   "property": "C79",
   "status": "proved",
   "theorems": [
    "C79_current_dats",
    "C79_removed_dat_refuted",
    "C79_shadowed_dat_refuted",
    "C79_removed_ephemeral_refuted"
   ],
   "note": "Proved for histories that do not change the meaning of a Sym after its use; refuted for removing or hiding data of used Syms."
  },
  {
   "property": "C80",
   "status": "proved",
   "theorems": [
    "C80_boundary_crossings",
    "C80_upper_boundary_refuted",
    "C80_extra_component_refuted"
   ],
   "note": "Proved for trajectories that start below the upper boundary of the mesh hierarchy and positions with two components; refuted without these conditions."
  },
  {
   "property": "C81",
   "status": "proved",
   "theorems": [
    "C81_history",
    "C81_conservation",
    "C81_grow_refuted"
   ],
   "note": "Proved for all histories in which the components used are defined; the claim of the documentation that evaluate uses the existing coefficients is refuted for more components than before."
  },
  {
   "property": "C82",
   "status": "proved",
   "theorems": [
    "C82_forward",
    "C82_backward",
    "C82_ghost_cells_refuted"
   ],
   "note": "Proved for all maps whose cells have a number below the number of owned cells; refuted without this condition (cells of other ranks first in the local numbering)."
  },
  {
   "property": "C83",
   "status": "proved",
   "theorems": [
    "C83_coupler",
    "C83_owners",
    "C83_gaps"
   ],
   "note": "The numbering PETSc gives to points is an assumption. The helper is that of C71."
  },
  {
   "property": "C84",
   "status": "proved",
   "theorems": [
    "C84_map",
    "C84_ghost_cells_refuted"
   ],
   "note": "DMLocatePoints of PETSc is a function of the position. The cell written is the number of a point of the DMPlex; that it is the local cell is refuted for meshes with cells of other ranks first."
  },
  {
   "property": "C85",
   "status": "proved",
   "theorems": [
    "C85_get",
    "C85_replaced_positions_refuted"
   ],
   "note": "Proved for histories in which properties added later are not flagged as positions; refuted when the positions dat is replaced."
  }
 ]
}