{
 "claims": [
  {
   "property": "C01",
   "status": "proved",
   "theorems": [
    "C01_tasklet_runs_exactly_n_times",
    "C01_only_dispatched_tasklets_run",
    "C01_tasklets_start_in_dispatch_order"
   ],
   "note": ""
  },
  {
   "property": "C02",
   "status": "proved",
   "theorems": [
    "C02_barrier_waits_for_earlier_tasklets"
   ],
   "note": ""
  },
  {
   "property": "C03",
   "status": "proved",
   "theorems": [
    "C03_no_deadlock",
    "C03_every_schedule_terminates",
    "C03_no_worker_crashes"
   ],
   "note": ""
  },
  {
   "property": "C04",
   "status": "proved",
   "theorems": [
    "C04_failure_flag"
   ],
   "note": ""
  },
  {
   "property": "C05",
   "status": "partial",
   "theorems": [
    "C05_zero_count_refuted",
    "C05_modes_agree_partial"
   ],
   "note": "Refuted for a count of 0: the worker threads run such a tasklet again and again while the synchronous mode does not run it. Proved for positive counts."
  },
  {
   "property": "C06",
   "status": "partial",
   "theorems": [
    "C06_mutex_unlocked_twice_refuted",
    "C06_mutex_discipline_partial"
   ],
   "note": "Refuted: when the end marker is found the worker unlocks the mutex explicitly and the lock object's destructor unlocks it again (std::unique_lock would track it; here release is called on the mutex itself). Proved: no other violation."
  },
  {
   "property": "C07",
   "status": "proved",
   "theorems": [
    "C07_each_entity_handed_out_once",
    "C07_every_entity_processed",
    "C07_stop_is_final",
    "C07_loop_terminates"
   ],
   "note": ""
  },
  {
   "property": "C08",
   "status": "proved",
   "theorems": [
    "C08_accepted_iff_well_formed",
    "C08_exactly_the_given_parameters_are_set",
    "C08_positional_arguments_in_order",
    "C08_positional_means"
   ],
   "note": ""
  },
  {
   "property": "C09",
   "status": "proved",
   "theorems": [
    "C09_printed_option_sets_the_parameter",
    "C09_printed_options_differ",
    "C09_only_camel_names_can_be_set"
   ],
   "note": ""
  },
  {
   "property": "C10",
   "status": "partial",
   "theorems": [
    "C10_well_formed_files_partial",
    "C10_accepted_lines_partial",
    "C10_malformed_lines_refuted"
   ],
   "note": "Refuted: three syntax errors construct an exception object without throwing it, so malformed lines are accepted. Proved: well formed files are read exactly; form of all accepted lines."
  },
  {
   "property": "C11",
   "status": "partial",
   "theorems": [
    "C11_precedence_partial",
    "C11_registered_can_be_read_partial",
    "C11_unregistered_is_error_partial",
    "C11_no_registration_after_end",
    "C11_end_checks_syntax",
    "C11_unchecked_read_refuted"
   ],
   "note": "Refuted for unchecked look-ups of unregistered parameters: Get(false) inserts an empty registry entry. Proved for all histories whose look-ups are checked and whose files do not override."
  },
  {
   "property": "C12",
   "status": "partial",
   "theorems": [
    "C12_line_breaking_terminates",
    "C12_single_paragraph_partial",
    "C12_short_lines_unchanged_partial",
    "C12_character_lost_refuted"
   ],
   "note": "Refuted for texts with line breaks: after a line break a visible character can be dropped. Proved: termination for all texts; nothing lost and all lines short enough for texts without line breaks; texts that fit are unchanged."
  },
  {
   "property": "C13",
   "status": "partial",
   "theorems": [
    "C13_time_and_step_index",
    "C13_call_order",
    "C13_every_episode_ended_refuted"
   ],
   "note": "Proved: accounting of time and index for every problem and every prefix of the run; order of the calls as a grammar, also with exceptions. Refuted: a run that ends inside an episode returns without endEpisode."
  },
  {
   "property": "C14",
   "status": "proved",
   "theorems": [
    "C14_limited_step_ends_in_time",
    "C14_limit_is_positive"
   ],
   "note": "Exact arithmetic (no rounding)."
  },
  {
   "property": "C15",
   "status": "proved",
   "theorems": [
    "C15_run_terminates",
    "C15_one_step_per_iteration"
   ],
   "note": "Exact arithmetic. Bound: (max(0,E) - t0)/delta + 1 iterations."
  },
  {
   "property": "C16",
   "status": "partial",
   "theorems": [
    "C16_numbers_read_exactly_partial",
    "C16_trailing_newline_refuted",
    "C16_junk_does_not_terminate_refuted"
   ],
   "note": "Refuted: white space at the end of the file adds an uninitialised value; junk or a missing file makes the loop run for ever. Proved: files ending directly after the last number are read exactly."
  },
  {
   "property": "C17",
   "status": "proved",
   "theorems": [
    "C17_retries",
    "C17_never_below_minimum"
   ],
   "note": ""
  },
  {
   "property": "C18",
   "status": "partial",
   "theorems": [
    "C18_maximum_exceeded_refuted",
    "C18_maximum_respected_partial",
    "C18_split_leaves_one_step"
   ],
   "note": "Refuted: exceeded by up to 1 per cent when the rest of the episode is split in two. Proved: never by more, and not at all otherwise."
  },
  {
   "property": "C19",
   "status": "proved",
   "theorems": [
    "C19_success_means_converged",
    "C19_converged_means_small_residual",
    "C19_failure_has_a_cause",
    "C19_solution_is_last_iterate"
   ],
   "note": "If only one iteration is done, the error tested belongs to the initial solution and not to the one left behind; the theorem says so."
  },
  {
   "property": "C20",
   "status": "proved",
   "theorems": [
    "C20_iterations_bounded",
    "C20_newton_terminates"
   ],
   "note": "Bound stated for a positive tolerance and a finite largest admissible error; the count in excess of max(2, limit) is bounded by log4(maxError/tolerance)."
  },
  {
   "property": "C21",
   "status": "partial",
   "theorems": [
    "C21_nan_is_never_accepted_refuted",
    "C21_accepted_exactly_partial",
    "C21_nonfinite_update_never_applied"
   ],
   "note": "Refuted as stated: std::max(|r|, error) forgets a NaN as soon as a number follows. The partial theorem says exactly which residuals are accepted; non-finite updates are always refused."
  },
  {
   "property": "C22",
   "status": "proved",
   "theorems": [
    "C22_step_size_suggestion",
    "C22_suggestion_monotone",
    "C22_halved_after_failure"
   ],
   "note": ""
  },
  {
   "property": "C23",
   "status": "proved",
   "theorems": [
    "C23_failed_update_restores",
    "C23_begin_of_step"
   ],
   "note": ""
  },
  {
   "property": "C24",
   "status": "partial",
   "theorems": [
    "C24_cache_matches_solution_partial",
    "C24_cache_matches_solution_refuted"
   ],
   "note": "Refuted as stated by three histories (residual of another solution, old level read with the storage cache on, PVS switching after an iteration without update); the partial theorem covers all other histories for two time levels."
  },
  {
   "property": "C25",
   "status": "partial",
   "theorems": [
    "C25_time_level_shift_partial",
    "C25_time_level_shift_refuted"
   ],
   "note": "True for two time levels (the only number used by the project); refuted for more: solutions of level two and above are not shifted, cached quantities collapse to level 0."
  },
  {
   "property": "C26",
   "status": "proved",
   "theorems": [
    "C26_partition",
    "C26_solution_size"
   ],
   "note": ""
  },
  {
   "property": "C27",
   "status": "partial",
   "theorems": [
    "C27_restart_round_trip_partial",
    "C27_restart_round_trip_refuted",
    "C27_other_grid_rejected",
    "C27_truncation_rejected_partial",
    "C27_truncation_rejected_refuted"
   ],
   "note": "Round trip of simulator, writer and solution data through the text file (numbers printed with 20 digits and read back), for every model except black oil with two or more extension variables, where it is refuted (values are written without separators). Truncation before the last line is rejected; truncation inside the last line is refuted. Files of another grid, rank or number of processes are rejected."
  },
  {
   "property": "C28",
   "status": "partial",
   "theorems": [
    "C28_file_names_differ_partial",
    "C28_file_names_differ_refuted"
   ],
   "note": "File names of different ranks or of times differing by more than 1e-5 relative are different; refuted in general because the time has six digits."
  },
  {
   "property": "C29",
   "status": "partial",
   "theorems": [
    "C29_clock_and_episode_restored",
    "C29_restart_continues_partial",
    "C29_step_size_continues_refuted",
    "C29_episode_announced_refuted"
   ],
   "note": "The six saved quantities are restored; continuation equals the original run if step size and episode flag agree. Refuted: the step size is not saved; beginEpisode is not called again after a restart at an episode boundary."
  },
  {
   "property": "C30",
   "status": "partial",
   "theorems": [
    "C30_collection_complete_sync",
    "C30_collection_complete_after_restart",
    "C30_data_files_distinct",
    "C30_only_rank_zero",
    "C30_collection_complete_async_partial",
    "C30_collection_complete_async_refuted",
    "C30_loadable_between_writes_async_refuted"
   ],
   "note": "Synchronous output: complete after every write, after the end and across restarts. Asynchronous output: complete at the end if no write task overlaps the writing of the closing tags; refuted otherwise (entry lost), and refuted between writes (closing tags overwritten)."
  },
  {
   "property": "C31",
   "status": "proved",
   "theorems": [
    "C31_gathers_nonempty_strings_in_rank_order",
    "C31_serial_agrees"
   ],
   "note": "Theorem about every schedule and any number of processes, in the MPI model of MpiModel.v (channels may or may not buffer): the gathered text is the concatenation, in rank order, of the lines of the ranks whose text is not empty. The exact lengths and displacements are part of the model (4-byte integers through the size exchange)."
  },
  {
   "property": "C32",
   "status": "partial",
   "theorems": [
    "C32_all_processes_throw_the_first_error",
    "C32_no_process_throws_otherwise",
    "C32_every_exception_is_agreed_on_refuted",
    "C32_exception_without_text_refuted",
    "C32_fatal_exceptions_abort_everywhere",
    "C32_preconditioner_agrees_partial",
    "C32_preconditioner_agrees_refuted"
   ],
   "note": "The agreement theorem holds for errors reported through std::exception with non-empty text when every process reaches the same check; refuted (with witnesses) for exceptions outside that class (non-std exceptions leave the other ranks hanging), for empty what() with a single process, and for the preconditioner's agreement when a process has no peers."
  },
  {
   "property": "C33",
   "status": "proved",
   "theorems": [
    "C33_sum_over_all_copies",
    "C33_sum_sent_to_all_copies",
    "C33_maximum_over_all_copies",
    "C33_minimum_over_all_copies",
    "C33_ghosts_hold_the_value_of_the_owner"
   ],
   "note": "For every grid, every order of entities and messages, exact arithmetic for the sum (with floating point numbers the order of the additions matters). DUNE's communication itself is modelled after its contract: the common entities of the interface, the same order on both sides, gather before scatter."
  },
  {
   "property": "C34",
   "status": "partial",
   "theorems": [
    "C34_global_indices_are_a_bijection",
    "C34_processes_identify_equal_degrees_of_freedom",
    "C34_other_masters_can_deadlock_refuted"
   ],
   "note": "Proved for every number of processes and every schedule, whatever MPI buffers, for the master assignment the code makes (lowest rank). C34_other_masters_can_deadlock_refuted shows that the protocol would deadlock without buffering for other consistent master assignments; the code never produces them."
  },
  {
   "property": "C35",
   "status": "partial",
   "theorems": [
    "C35_overlap_is_exactly_the_reachable_rows",
    "C35_overlap_with_a_peer",
    "C35_peers",
    "C35_peers_are_mutual",
    "C35_overlap_with_mixed_black_list_refuted",
    "C35_overlap_of_size_zero_refuted"
   ],
   "note": "proved for every matrix graph, border list and schedule, given that black-listed rows come last (for common rows) and that the requested size is at least the distance of the border list; without these premises the claim is false (refutation theorems)"
  },
  {
   "property": "C36",
   "status": "partial",
   "theorems": [
    "C36_sync_gives_every_copy_the_value_of_its_master",
    "C36_sync_add_adds_the_values_of_the_other_processes",
    "C36_a_new_vector_has_matching_buffers",
    "C36_assembled_vector_holds_the_sum_over_all_processes",
    "C36_assigned_vector_holds_the_values_of_the_masters",
    "C36_sync_add_equal_copies_refuted"
   ],
   "note": "sync: every copy gets the master's value, for every system and schedule, also end to end from matrix graphs, border lists and black lists. syncAdd after assignAddBorder: every copy is the sum over all processes which have the row. The general claim for syncAdd (copies become equal) is refuted: values of copies outside interior and border are not sent; with floating point numbers the order of the additions differs between the processes."
  },
  {
   "property": "C37",
   "status": "proved",
   "theorems": [
    "C37_scalar_product_over_a_distributed_grid",
    "C37_scalar_product_counts_every_index_once",
    "C37_scalar_product_of_assembled_vectors"
   ],
   "note": "For exact arithmetic, end to end from the matrix to the number which every process gets."
  },
  {
   "property": "C38",
   "status": "partial",
   "theorems": [
    "C38_what_the_criterion_sees",
    "C38_iterations_reported",
    "C38_success_is_genuine",
    "C38_combined_bound",
    "C38_residual_seen_is_true_refuted",
    "C38_exact_solution_is_success_refuted",
    "C38_exact_solution_no_breakdown_refuted"
   ],
   "note": "Proved for every linear operator, scalar product, preconditioner, right hand side and criterion that judges the residual only; instantiated for the combined criterion. Refuted: the residual handed to the criterion after a full step is the true one; an exactly solved system counts as success (it ends with failure or with a breakdown exception). Exact arithmetic."
  },
  {
   "property": "C39",
   "status": "partial",
   "theorems": [
    "C39_combined_accepts_exactly",
    "C39_combined_rejects_infinity",
    "C39_combined_rejects_nan_refuted",
    "C39_combined_ignores_nan",
    "C39_combined_distribution",
    "C39_combined_never_both",
    "C39_combined_fails_exactly",
    "C39_weighted_accepts_exactly",
    "C39_weighted_never_both_partial",
    "C39_weighted_never_both_refuted",
    "C39_weighted_rejects_nan_refuted",
    "C39_reduction_rejects_nan",
    "C39_fixpoint_accepts_exactly",
    "C39_fixpoint_rejects_nan_refuted",
    "C39_reduction_accepts_exactly",
    "C39_reduction_at_the_start",
    "C39_weighted_fixpoint_accepts_exactly"
   ],
   "note": "Exact acceptance conditions for the combined, weighted and fix point criteria on data free of NaN, all processes. Refuted: NaN is rejected (combined, weighted, fix point), converged and failed exclude each other (weighted). The criterion based on norms rejects NaN."
  },
  {
   "property": "C40",
   "status": "partial",
   "theorems": [
    "C40_inverse_of_4x4",
    "C40_rejected_exactly",
    "C40_singular_reported",
    "C40_every_regular_block_inverted_refuted"
   ],
   "note": "4x4 blocks, whose inversion is in the repository: true two-sided inverse, value returned is the determinant, rejection exactly below 1e-40. Refuted: every regular block is inverted. Blocks of other sizes are inverted by dune-common, outside the repository. Exact arithmetic."
  },
  {
   "property": "C41",
   "status": "partial",
   "theorems": [
    "C41_interior_fluxes_cancel",
    "C41_vertex_centred_balance",
    "C41_volumetric_balance",
    "C41_cell_centred_balance",
    "C41_transmissibility_scheme_conserves",
    "C41_check_exact",
    "C41_converged_step_passes_check",
    "C41_check_with_changing_extrusion_refuted"
   ],
   "note": "The vertex-centred and the cell-centred balance are proved for every grid and flux function, the second one under the condition that both sides of a face see opposite fluxes, which C42 proves for the transmissibility scheme (C41_transmissibility_scheme_conserves). checkConservativeness is characterised exactly; with extrusion factors that change in time it rejects converged steps (refuted)."
  },
  {
   "property": "C42",
   "status": "partial",
   "theorems": [
    "C42_volume_flux_antisymmetric",
    "C42_same_upstream_cell_partial",
    "C42_flux_follows_potential",
    "C42_component_flux_antisymmetric",
    "C42_enthalpy_flux_antisymmetric",
    "C42_component_flux_composition",
    "C42_tpfa_flux_antisymmetric",
    "C42_transmissibility_symmetric",
    "C42_transmissibility_harmonic",
    "C42_same_upstream_cell_refuted",
    "C42_transmissibility_defined_refuted"
   ],
   "note": "Antisymmetry holds always; the same upstream cell is named only if the phase is mobile somewhere (refuted otherwise, harmless because the flux vanishes). The transmissibility is 0/0 between two impermeable cells (refuted). calculatePhasePressureDiff_ of the TPFA residual lives in opm-simulators and is a parameter."
  },
  {
   "property": "C43",
   "status": "partial",
   "theorems": [
    "C43_convective_mixing_antisymmetric",
    "C43_heat_flux_antisymmetric",
    "C43_heat_flows_from_hot_to_cold",
    "C43_diffusion_antisymmetric_partial",
    "C43_dispersion_antisymmetric_partial",
    "C43_diffusion_across_regions_refuted",
    "C43_dispersion_across_regions_refuted"
   ],
   "note": "Convective mixing and heat conduction are antisymmetric always. Diffusion and dispersion use the conversion factor of the interior cell's region: antisymmetric iff these agree, refuted across regions."
  },
  {
   "property": "C44",
   "status": "proved",
   "theorems": [
    "C44_assembly_independent_of_schedule",
    "C44_thread_count_does_not_matter",
    "C44_cells_can_be_linearized_in_any_interleaving"
   ],
   "note": ""
  },
  {
   "property": "C45",
   "status": "partial",
   "theorems": [
    "C45_equations_of_the_elements",
    "C45_same_equations_as_the_whole_system",
    "C45_equations_of_other_elements_exactly",
    "C45_blocks_of_other_elements_refuted",
    "C45_rows_of_other_elements_are_reset_refuted",
    "C45_system_of_the_cells",
    "C45_same_as_the_whole_system",
    "C45_amounts_of_the_time_step",
    "C45_other_rows_exactly",
    "C45_linearization_succeeds",
    "C45_auxiliary_degrees_of_freedom_refuted",
    "C45_other_rows_unchanged_refuted"
   ],
   "note": "Proved for both linearizers. Two-point flux: after any history, the rows of the cells hold their balance equations and the blocks of rows and columns of the cells the matching derivatives, the same as those of a linearization of everything if the recycled storage terms agree. Element-wise: after any history, including failed linearizations, the rows of the degrees of freedom of the elements are the sums over the elements, equal to those of the whole system for degrees of freedom all of whose elements are in the domain. False as stated for the other rows: well and boundary terms and off-diagonal blocks are added to rows outside the domain which are never cleared (exact characterisations and counterexamples), and for vertex centered grids a domain with as many elements as there are degrees of freedom resets all rows. With auxiliary degrees of freedom the first two-point flux linearization reads behind the neighbour table."
  },
  {
   "property": "C46",
   "status": "partial",
   "theorems": [
    "C46_every_linearization_works",
    "C46_erasing_gives_the_same_system",
    "C46_blocks_of_the_matrix",
    "C46_auxiliary_rows_refuted",
    "C46_matrix_is_created_again_refuted",
    "C46_erasing_first_partial"
   ],
   "note": "Proved for the element-wise linearizer: every linearization after erasing works, recreates exactly the blocks needed at that moment, and gives the same equations for all degrees of freedom of the elements after any history; rows of auxiliary equations are not reset without erasing (counterexample). False for the two-point flux linearizer: once used, eraseMatrix makes every later linearization dereference a null pointer because createMatrix_ returns early (proved for every grid and history)."
  },
  {
   "property": "C47",
   "status": "partial",
   "theorems": [
    "C47_residual_is_the_one_of_the_solution",
    "C47_affine_residuals_are_differentiated_exactly",
    "C47_central_differences_are_exact_for_parabolas",
    "C47_entries_are_difference_quotients",
    "C47_intensive_quantities_are_restored",
    "C47_primary_variables_afterwards",
    "C47_context_is_the_same_afterwards_refuted",
    "C47_residuals_reading_primary_variables_refuted"
   ],
   "note": "Affine residuals: every matrix entry equals the slope for every difference method and positive step; parabolas: central exact, one-sided off by curvature times step; any residual: the difference quotient. Intensive quantities restored exactly. Refuted: with several primary degrees of freedom (vertex centred) restoreIntensiveQuantities leaves pointers to the stash storage, so the context then returns another degree of freedom's primary variables, and the extensive quantities stay those of the last deflection; a residual that reads primary variables directly gets a wrong matrix. Rounding not modelled."
  },
  {
   "property": "C48",
   "status": "partial",
   "theorems": [
    "C48_saturations_limited_partial",
    "C48_saturations_limited_solvent_refuted",
    "C48_saturations_limited_threshold_refuted",
    "C48_pressure_limited_partial",
    "C48_pressure_bounds_refuted",
    "C48_dissolution_factors_nonnegative",
    "C48_solvent_in_range",
    "C48_salt_in_range",
    "C48_extension_variables_in_range",
    "C48_switched_cells_counted"
   ],
   "note": "Saturation limit proved without solvent and salt precipitation, also through variable switching, water-filled cells and projection (default thresholds). Refuted with solvent (clipping after scaling) and for a lower water-only threshold. Pressure limit proved for the scaled variable while it stands for the same phase; refuted for the physical pressure with a scale. Dissolution factors, solvent, salt and all extension variables proved in range. Exact rational arithmetic."
  },
  {
   "property": "C49",
   "status": "partial",
   "theorems": [
    "C49_saturations_physical",
    "C49_saturations_scaled",
    "C49_repeating_changes_nothing",
    "C49_report_refuted",
    "C49_evaluated_saturations_partial",
    "C49_evaluated_saturations_refuted"
   ],
   "note": "The operation itself is proved for all vectors with separate entries. Its return value is wrong in some cases (report_refuted), and with solvent and without oil the saturations evaluated from the normalised variables are still unphysical (evaluated_saturations_refuted)."
  },
  {
   "property": "C50",
   "status": "partial",
   "theorems": [
    "C50_changes_reported_partial",
    "C50_changes_reported_refuted",
    "C50_pressure_interpretation_partial",
    "C50_pressure_interpretation_refuted",
    "C50_second_call_changes_nothing_partial",
    "C50_phase_appears_without_jump_partial"
   ],
   "note": "Reported switches and the fit of the pressure interpretation hold under the stated restrictions and fail without them (refuted theorems: unreported salt precipitation, perpetual report in water-oil models, gas pressure with gas saturation after the water-filled treatment). Repeated calls are proved to change nothing and phases to appear without a jump. The z fraction variant (extended black-oil) is not modelled."
  },
  {
   "property": "C51",
   "status": "partial",
   "theorems": [
    "C51_variables_distinct_refuted",
    "C51_variables_distinct_partial",
    "C51_equations_distinct_partial",
    "C51_two_phases_distinct_partial",
    "C51_one_phase_distinct_partial",
    "C51_named_entries_consecutive",
    "C51_biofilm_variables_in_range_refuted",
    "C51_component_numbering"
   ],
   "note": "Distinctness is false for some combinations of extensions; the partial theorems give the exact combinations for which it holds (if and only if)."
  },
  {
   "property": "C52",
   "status": "partial",
   "theorems": [
    "C52_presence_in_equilibrium",
    "C52_saturations_round_trip",
    "C52_saturations_round_trip_any_state_partial",
    "C52_saturations_round_trip_refuted",
    "C52_pressures_round_trip",
    "C52_mole_fractions_round_trip",
    "C52_rejected_without_phase",
    "C52_presence_flags"
   ],
   "note": "Presence, saturations, pressures and prescribed mole fractions read back exactly for equilibrium states of any number of phases; refuted for states that are not in equilibrium (a phase whose mole fractions sum to too little loses its saturation)."
  },
  {
   "property": "C53",
   "status": "partial",
   "theorems": [
    "C53_richards_saturation_limited_partial",
    "C53_richards_saturation_later_refuted",
    "C53_ptflash_limited_partial",
    "C53_ptflash_last_fraction_refuted",
    "C53_ptflash_negative_pressure_refuted",
    "C53_pvs_saturations_limited_partial",
    "C53_pvs_saturations_limited_two_phases",
    "C53_pvs_saturations_limited_gap_refuted",
    "C53_pvs_saturations_limited_four_phases_refuted",
    "C53_pvs_pressure_limited",
    "C53_pvs_small_updates_unchanged",
    "C53_ncp_saturations_limited_partial",
    "C53_ncp_explicit_saturations_limited",
    "C53_ncp_saturations_limited_four_phases_refuted",
    "C53_ncp_pressure_limited",
    "C53_ncp_fugacities_limited",
    "C53_ncp_early_saturations_physical"
   ],
   "note": "NCP limits hold except for four or more phases in the first iterations (refuted there). PVS limits proved for present phases with consecutive indices including the last phase or at most two of them; refuted for phases {0,2} of three (presence tested at the wrong index) and for four phases. Richards limits hold in the first iterations only (refuted later); PT-flash limits hold for all stored fractions and, with up to three components, for the last one (refuted for four); a negative pressure is undefined behaviour."
  },
  {
   "property": "C54",
   "status": "partial",
   "theorems": [
    "C54_elapsed_time_partial",
    "C54_elapsed_time_refuted",
    "C54_elapsed_time_not_negative",
    "C54_guard_stops_timer"
   ],
   "note": "Exact for every history in which the timer is not started while running; refuted otherwise (time since the first start is lost)."
  },
  {
   "property": "C55",
   "status": "partial",
   "theorems": [
    "C55_action_runs_exactly_once",
    "C55_action_runs_at_most_once",
    "C55_destructor_runs_if_enabled",
    "C55_action_runs_at_most_once_refuted"
   ],
   "note": "Exactly once whenever no guard is enabled again after being moved from; refuted otherwise."
  },
  {
   "property": "C56",
   "status": "partial",
   "theorems": [
    "C56_allocation_large_enough_partial",
    "C56_throws_only_without_memory",
    "C56_allocation_large_enough_refuted",
    "C56_alignment_check"
   ],
   "note": "For up to max_size() objects; refuted beyond, where the byte count overflows."
  },
  {
   "property": "C57",
   "status": "proved",
   "theorems": [
    "C57_fracture_edges",
    "C57_fracture_edges_symmetric",
    "C57_fracture_vertices"
   ],
   "note": ""
  },
  {
   "property": "C58",
   "status": "partial",
   "theorems": [
    "C58_triangles_once_and_counter_clockwise",
    "C58_faulty_edges_are_reported",
    "C58_without_a_mark_everything_is_a_vertex",
    "C58_marks_with_a_trailing_blank_refuted",
    "C58_fracture_edges_are_written_refuted",
    "C58_last_triangle_once_refuted"
   ],
   "note": "Proved for every file with the three sections: vertices in order, each triangle once with counter-clockwise corners, exactly the fracture vertices marked. Refuted: an end mark followed by a blank is not recognised, fracture edges are not written as edges, and the last triangle of a file without final mark and line end is written twice. Reading decimal numbers is a parameter; failing assertions are one outcome."
  },
  {
   "property": "C59",
   "status": "partial",
   "theorems": [
    "C59_acceptable_parameters_are_used",
    "C59_unacceptable_parameters_end_the_program",
    "C59_runs_exactly_with_acceptable_parameters",
    "C59_help_runs_the_simulation_refuted",
    "C59_before_mpi_is_initialised_refuted",
    "C59_equal_processes_agree",
    "C59_error_on_every_process_refuted"
   ],
   "note": "Without help and without MPI the simulation runs exactly if the command line is well formed, the parameter file can be read and parsed, all parameters are known and the needed values can be used; otherwise the status is 1. Equal processes agree. False: --help prints the usage and then runs the simulation with the default parameters (for every program whose defaults are usable); before MPI is initialised help and malformed command lines call MPI_Allreduce and abort; processes with different files or command lines do not agree or wait for ever."
  },
  {
   "property": "C60",
   "status": "partial",
   "theorems": [
    "C60_freed_exactly_once_partial",
    "C60_buffers_do_not_share_partial",
    "C60_freed_exactly_once_refuted"
   ],
   "note": "For histories without copies; refuted for copies (shared block freed twice). Assignment is not modelled."
  },
  {
   "property": "C61",
   "status": "partial",
   "theorems": [
    "C61_degrees_of_freedom",
    "C61_interior_faces",
    "C61_faces_are_the_intersections",
    "C61_no_degree_of_freedom_twice",
    "C61_neighbours_are_mutual",
    "C61_primary_update_partial",
    "C61_faces_after_primary_update_refuted",
    "C61_many_neighbours_refuted"
   ],
   "note": "Every history of calls ending in update(): degrees of freedom, faces, distinctness and mutual neighbourship. Refuted: after updatePrimaryTopology the faces are those of an earlier cell and refer to degrees of freedom that do not exist; with 65536 neighbours the unsigned short index wraps to the cell itself. Geometry data are copied and not interpreted."
  },
  {
   "property": "C62",
   "status": "partial",
   "theorems": [
    "C62_vertex_border_lists",
    "C62_element_border_lists_partial",
    "C62_element_lists_are_a_decomposition",
    "C62_vertex_lists_are_a_decomposition",
    "C62_lone_elements_refuted"
   ],
   "note": "Vertices: proved in full. Elements: proved if every interior element with copies elsewhere has an interior neighbor; refuted otherwise: the early return of scatter does not read its two items, so the following entries are attributed to the wrong elements, and a process with a single element finds no peers."
  },
  {
   "property": "C63",
   "status": "partial",
   "theorems": [
    "C63_steps_end_in_time_partial",
    "C63_steps_end_in_time_refuted"
   ],
   "note": "Refuted: the initial step and the first step after an episode are not limited. Proved for problems which set a fitting step size when an episode begins."
  },
  {
   "property": "C64",
   "status": "partial",
   "theorems": [
    "C64_predetermined_sizes_used_partial",
    "C64_predetermined_sizes_used_refuted"
   ],
   "note": "Refuted: the first entry of the list is never used, and the entry following the end of an episode is skipped. Proved for all other steps."
  },
  {
   "property": "C65",
   "status": "partial",
   "theorems": [
    "C65_finished_means_end_reached_partial",
    "C65_finished_means_end_reached_refuted",
    "C65_no_step_after_the_end"
   ],
   "note": "Refuted: the tolerance of finished() grows with the square of the time, a simulation of 32 years ends two days early. Proved: the exact tolerance; no step after the end."
  },
  {
   "property": "C66",
   "status": "partial",
   "theorems": [
    "C66_stored_state_recovered",
    "C66_gas_in_water_with_oil_refuted"
   ],
   "note": "Proved for models without solvent and salt precipitation, in exact arithmetic; gas dissolved in water requires a model without oil."
  },
  {
   "property": "C67",
   "status": "partial",
   "theorems": [
    "C67_free_flow_of_the_other_models_partial",
    "C67_free_flow_of_the_other_models_refuted",
    "C67_in_and_outflow_of_the_other_models",
    "C67_free_flow_upstream_partial",
    "C67_in_and_outflow",
    "C67_free_flow_mass_refuted",
    "C67_free_flow_gravity_refuted"
   ],
   "note": "Black-oil: holds when surface volumes are conserved and gravity does not act between cell centre and face. Refuted otherwise: with mass conservation the reference density is applied twice, and the side is chosen by the bare pressures. Other models: holds without gravity, refuted with it for the same reason."
  },
  {
   "property": "C68",
   "status": "proved",
   "theorems": [
    "C68_black_list_translation"
   ],
   "note": "Exact iff for decompositions and mutual black lists; if a process lists a peer which does not list it, the exchange does not end."
  },
  {
   "property": "C69",
   "status": "proved",
   "theorems": [
    "C69_matrix_is_the_derivative_of_the_residual"
   ],
   "note": "Proved for the two-point flux linearizer; the local residual's own derivatives, locality and equal and opposite fluxes are hypotheses."
  },
  {
   "property": "C70",
   "status": "proved",
   "theorems": [
    "C70_constrained_degrees_of_freedom",
    "C70_constraints_of_the_first_iteration"
   ],
   "note": "Constraints in the element-wise linearizer, one thread (the constraint map is filled by several threads without a lock in the code)."
  },
  {
   "property": "C71",
   "status": "partial",
   "theorems": [
    "C71_darcy_law",
    "C71_no_flux_at_rest",
    "C71_flux_from_both_sides_partial",
    "C71_flux_from_both_sides_refuted",
    "C71_upstream_side_partial",
    "C71_upstream_side_refuted",
    "C71_darcy_law_at_the_boundary"
   ],
   "note": "Holds for permeabilities without preferred direction. Refuted for full tensors: the upstream side is decided by the potential gradient without the tensor, so the mobility can be taken from the downstream side and the flux can differ seen from both sides. Square root and harmonic mean (opm-common) are parameters; derivatives are not modelled."
  },
  {
   "property": "C72",
   "status": "partial",
   "theorems": [
    "C72_two_point_gradient",
    "C72_value_half_way_partial",
    "C72_value_at_the_face_refuted",
    "C72_finite_element_values_and_gradients"
   ],
   "note": "Two-point gradients and finite element approximations are exact. Refuted for interpolated values of the two-point scheme: the weights are square roots of the distances and belong to the wrong sides; exact only half way between the points."
  },
  {
   "property": "C73",
   "status": "partial",
   "theorems": [
    "C73_rates_by_mass",
    "C73_rates_by_moles",
    "C73_energy_entry_partial",
    "C73_energy_entry_refuted",
    "C73_rates_by_volume_partial",
    "C73_rates_by_volume_refuted",
    "C73_black_oil_rates_by_mass",
    "C73_black_oil_rates_by_moles_partial",
    "C73_black_oil_rates_by_moles_rejected",
    "C73_black_oil_rates_by_moles_refuted",
    "C73_two_phase_rates_by_moles_refuted",
    "C73_black_oil_rates_by_volume_refuted"
   ],
   "note": "Mass and molar rates are right for all models but black-oil. _partial/_refuted: the energy entry is not set by two setters; volumetric rates of flash and PVS have the wrong unit; black-oil molar rates write out of range without the solvent extension, use the wrong molar mass with oil and gas only, and volumetric rates are not converted to surface volumes."
  },
  {
   "property": "C74",
   "status": "partial",
   "theorems": [
    "C74_immiscible_state_recovered",
    "C74_immiscible_variables_recovered",
    "C74_immiscible_moles_kept",
    "C74_ncp_state_recovered",
    "C74_ncp_conservative_assignment",
    "C74_flash_moles_kept",
    "C74_ptflash_fractions_read",
    "C74_ptflash_fractions_partial",
    "C74_ptflash_fractions_refuted",
    "C74_ptflash_saturations",
    "C74_richards_state_recovered_partial",
    "C74_richards_from_gas_pressure_refuted"
   ],
   "note": "Exact conditions for immiscible and NCP; moles kept for immiscible and flash under the stated condition on the flash calculation. PT-flash fractions only if every phase holds at least 1e-8 moles of every component (refuted otherwise). Richards from the wetting pressure if the gas is at the reference pressure; from the non-wetting pressure refuted (undefined)."
  },
  {
   "property": "C75",
   "status": "partial",
   "theorems": [
    "C75_phase_equation",
    "C75_equations_in_the_source_term",
    "C75_error_is_the_largest_balance_residual",
    "C75_converged_state_refuted"
   ],
   "note": "The equations are equivalent to complementarity and are added to the source term without touching the balances; that a converged state satisfies them is refuted: the error ignores them."
  },
  {
   "property": "C76",
   "status": "partial",
   "theorems": [
    "C76_storage",
    "C76_fracture_storage",
    "C76_fracture_flux",
    "C76_flux",
    "C76_flux_does_not_depend_on_the_focus",
    "C76_face",
    "C76_volume_flux",
    "C76_flux_from_both_sides_partial",
    "C76_richards",
    "C76_units_partial",
    "C76_units_refuted"
   ],
   "note": "All storage and flux terms. Units agree except in the PT flash model (refuted: rates, boundary conditions and diffusion in moles, balances in mass). The flux seen from the other side is the negative if no phase is at rest or the permeability is isotropic; otherwise the sides of a phase at rest are chosen by the anisotropic part."
  },
  {
   "property": "C77",
   "status": "partial",
   "theorems": [
    "C77_storage",
    "C77_advection_partial",
    "C77_richards_partial",
    "C77_energy_error",
    "C77_energy_partial",
    "C77_diffusion_error",
    "C77_diffusion_partial",
    "C77_energy_refuted",
    "C77_diffusion_refuted"
   ],
   "note": "Storage terms, advective and Richards fluxes carry their derivatives for every focus (phases at rest excluded: the upstream side changes there). False for energy and diffusive fluxes: exact error, cases without error and witnesses."
  },
  {
   "property": "C78",
   "status": "partial",
   "theorems": [
    "C78_supported_elements",
    "C78_plane_volumes",
    "C78_line_volumes",
    "C78_tetrahedron_volumes",
    "C78_hexahedron_enclosed",
    "C78_hexahedron_volumes_partial",
    "C78_hexahedron_pillars_partial",
    "C78_hexahedron_volumes_refuted",
    "C78_plane_closed",
    "C78_space_closed",
    "C78_one_face_per_edge",
    "C78_plane_normals",
    "C78_space_normals",
    "C78_space_normals_refuted"
   ],
   "note": "Hexahedra: each sub-control volume for extruded convex quadrilaterals, the sum for all hexahedra with parallel pillars; refuted in general. Closedness holds for all supported shapes."
  },
  {
   "property": "C79",
   "status": "partial",
   "theorems": [
    "C79_interior_points",
    "C79_boundary_segments",
    "C79_boundary_geometry",
    "C79_closed_with_boundary",
    "C79_local_corners",
    "C79_cube_geometries",
    "C79_tetrahedron_geometries",
    "C79_triangle_geometries_partial",
    "C79_triangle_geometries_refuted",
    "C79_center_gradients_partial",
    "C79_center_gradients_of_shape_functions_partial",
    "C79_center_gradients_refuted"
   ],
   "note": "Twisted geometry of the first vertex of triangles and the centre gradients outside of parallelograms are refuted; everything else is proved for all supported shapes."
  },
  {
   "property": "C80",
   "status": "partial",
   "theorems": [
    "C80_assembled_matrix_has_the_entries_of_all_processes",
    "C80_assembled_matrix_holds_the_sums_over_all_processes",
    "C80_copied_matrix_takes_the_entry_of_the_highest_other_process",
    "C80_copied_matrix_equal_copies_refuted",
    "C80_copied_matrix_of_distinct_rows"
   ],
   "note": "Exact structure and value for any addition (order of summation given); sums for exact arithmetic if all columns are usable (rows of the process or announced ghosts in the overlap). assignCopy: exact value proved, equality of copies refuted, proved for elements."
  },
  {
   "property": "C81",
   "status": "partial",
   "theorems": [
    "C81_operator_multiplies_what_the_master_of_the_row_knows",
    "C81_operator_is_the_product_with_the_global_matrix",
    "C81_scaled_product_is_added",
    "C81_operator_without_overlap_refuted"
   ],
   "note": "Proved for exact arithmetic and an overlap of at least one entry; exact result for every overlap; refuted without overlap for common rows. The write back to the native vector is part of the theorem."
  },
  {
   "property": "C82",
   "status": "partial",
   "theorems": [
    "C82_storage_exact",
    "C82_storage_amount_partial",
    "C82_other_equations",
    "C82_storage_throws",
    "C82_storage_derivatives",
    "C82_extbo_storage_refuted",
    "C82_solvent_mass_refuted",
    "C82_dry_storage_refuted"
   ],
   "note": "the unrestricted statement fails at vanishing phases and for the z-fraction (refuted theorems); exact value with the regularization proved for all cells"
  },
  {
   "property": "C83",
   "status": "partial",
   "theorems": [
    "C83_flux_exact",
    "C83_other_equations",
    "C83_flux_throws",
    "C83_flux_both_sides",
    "C83_flux_derivatives_partial",
    "C83_dissolved_solvent_refuted",
    "C83_salt_with_water_refuted",
    "C83_flux_derivatives_refuted"
   ],
   "note": "exact for all substances; dissolved solvent only if water and solvent have the same upstream cell; derivatives of shear factors only if the water comes from the interior cell (refuted otherwise)"
  },
  {
   "property": "C84",
   "status": "partial",
   "theorems": [
    "C84_solvent_volume_flux",
    "C84_solvent_flux_both_sides",
    "C84_solvent_flux_derivative",
    "C84_solvent_perm_flux_partial",
    "C84_solvent_perm_direction_refuted",
    "C84_solvent_perm_impermeable_refuted"
   ],
   "note": "proved for transmissibilities; the variant with permeabilities has the wrong sign and ignores the permeability (refuted)"
  },
  {
   "property": "C85",
   "status": "partial",
   "theorems": [
    "C85_sources_exact",
    "C85_biomass_balance",
    "C85_stoichiometry",
    "C85_source_derivatives_partial",
    "C85_source_derivatives_refuted"
   ],
   "note": "derivatives only if those of the mobilities are right, which fails for upstream cells out of focus (refuted)"
  },
  {
   "property": "C86",
   "status": "partial",
   "theorems": [
    "C86_ends_iff",
    "C86_found_iff",
    "C86_own_hierarchy_first",
    "C86_own_definition_wins",
    "C86_nearest_in_chain",
    "C86_local",
    "C86_splice_property",
    "C86_diamond_refuted",
    "C86_empty_inheritance_refuted",
    "C86_empty_inheritance_exact"
   ],
   "note": "Termination, success, precedence and locality proved for all environments. The claims that the most derived specialization wins in a diamond and that a tag with an empty inheritance list can be used are refuted with witnesses; the exact conditions are proved instead."
  },
  {
   "property": "C87",
   "status": "partial",
   "theorems": [
    "C87_processes_together_do_the_sequential_iteration_partial",
    "C87_reported_success_bounds_the_global_residual_partial",
    "C87_every_decomposition_is_solved_refuted"
   ],
   "note": "Proved for scalar blocks and exact arithmetic, if every process has a border (or there is only one process) and the preconditioner respects equality of numbers. If the preconditioner throws for some arguments the theorem says that all processes fail together or all go on, not which. The full statement is refuted: with a process without neighbours the others hang."
  },
  {
   "property": "C88",
   "status": "partial",
   "theorems": [
    "C88_unmixed_fluids_unchanged",
    "C88_mixed_viscosities_in_range",
    "C88_mixed_densities_in_range",
    "C88_full_mixing",
    "C88_mixed_oil_density_refuted",
    "C88_residual_fluids_refuted"
   ],
   "note": "Effective viscosities and densities of the solvent module. Derivatives and the CO2/H2 variants are not modelled; the range of the densities needs mobile fluids above the cut-off (refuted otherwise), oil only has the range of all fluids (refuted for oil and solvent)."
  },
  {
   "property": "C89",
   "status": "partial",
   "theorems": [
    "C89_polymer_thickens_water",
    "C89_more_polymer_less_mobile",
    "C89_mixing_extremes",
    "C89_beyond_maximum_refuted",
    "C89_molar_weight_thickens",
    "C89_shear_factor_partial",
    "C89_shear_power_law",
    "C89_shear_factor_found_refuted",
    "C89_shear_velocity_partial",
    "C89_shear_velocity_refuted"
   ],
   "note": "Without rounding. The shear factor is right if the iteration ends (partial, refuted in general); the velocity is right only if the cell with the number of the face has the critical saturation of the upstream cell; SHRATE is not modelled."
  },
  {
   "property": "C90",
   "status": "partial",
   "theorems": [
    "C90_solvent_relperms_in_range",
    "C90_gas_and_solvent_share",
    "C90_residual_oil_refuted",
    "C90_biogrout_permeability",
    "C90_salt_concentration",
    "C90_returned_salt_refuted"
   ],
   "note": "Relative permeabilities for oil saturations above the residual ones (refuted below); salt concentration of the fluid state (the one returned by the intensive quantities is refuted)."
  },
  {
   "property": "C91",
   "status": "proved",
   "theorems": [
    "C91_field_values",
    "C91_no_stale_data",
    "C91_only_selected_fields",
    "C91_total_fractions"
   ],
   "note": "The conversion to single precision and the file format are not modelled; intensive quantities are given values."
  },
  {
   "property": "C92",
   "status": "partial",
   "theorems": [
    "C92_filter_velocity",
    "C92_potential_gradient",
    "C92_order_independent",
    "C92_gradient_everywhere_refuted",
    "C92_gradient_quadrilateral",
    "C92_disjoint_threads",
    "C92_shared_threads_refuted"
   ],
   "note": "Refuted in general for vertex-centred gradients and for threads which share a degree of freedom; proved otherwise."
  },
  {
   "property": "C93",
   "status": "partial",
   "theorems": [
    "C93_volume_fraction",
    "C93_volume_fraction_refuted",
    "C93_volume_fraction_off_fractures",
    "C93_fracture_velocity",
    "C93_fracture_velocity_refuted"
   ],
   "note": "Refuted: volume fraction too large by the number of phases, velocities need another parameter; the strongest true statements are proved."
  },
  {
   "property": "C94",
   "status": "partial",
   "theorems": [
    "C94_names_distinct",
    "C94_diffusion_names_refuted",
    "C94_parameter_ignored_refuted",
    "C94_parameters_select"
   ],
   "note": "Refuted for the diffusion module and one polymer parameter; proved for all other fields. Velocity and gradient names are not part of the table."
  },
  {
   "property": "C95",
   "status": "proved",
   "theorems": [
    "C95_documented_equation",
    "C95_unique_velocity",
    "C95_slower_than_darcy",
    "C95_error",
    "C95_darcy"
   ],
   "note": "Returned velocity: C95_error for any dimension and anisotropy. Derivatives of the velocity are not modelled."
  },
  {
   "property": "C96",
   "status": "partial",
   "theorems": [
    "C96_converges_partial",
    "C96_line_error",
    "C96_velocity_found_refuted",
    "C96_direction_refuted"
   ],
   "note": "Partial: one dimension and the stated speeds; the general statement is false (C96_velocity_found_refuted, C96_direction_refuted)."
  },
  {
   "property": "C97",
   "status": "proved",
   "theorems": [
    "C97_volume_fluxes",
    "C97_upstream",
    "C97_upstream_refuted",
    "C97_both_sides_agree",
    "C97_boundary_inflow_refuted",
    "C97_boundary_outflow"
   ],
   "note": "C97_upstream_refuted and C97_boundary_inflow_refuted show where the general statement fails: anisotropic rock and inflow over the boundary."
  },
  {
   "property": "C98",
   "status": "partial",
   "theorems": [
    "C98_mark_exact",
    "C98_refined_partial",
    "C98_every_phase_refuted",
    "C98_number_partial",
    "C98_number_refuted"
   ],
   "note": "Missing: the wishes of the phases before the last one are lost in general (C98_every_phase_refuted), and the number is not that of the marked elements (C98_number_refuted); proved are the exact mark, the case of a scarcer last phase and the bounds of the number."
  },
  {
   "property": "C99",
   "status": "partial",
   "theorems": [
    "C99_values",
    "C99_only_old_values",
    "C99_leaves",
    "C99_integrals_partial",
    "C99_coarsening_refuted",
    "C99_refine_then_coarsen"
   ],
   "note": "Integrals are kept by refinement and, if removed siblings agree, by coarsening; C99_coarsening_refuted shows that the condition is needed. The rest holds without conditions."
  },
  {
   "property": "C100",
   "status": "proved",
   "theorems": [
    "C100_levels",
    "C100_domain",
    "C100_unmarked",
    "C100_adapts"
   ],
   "note": "All runs on one process; grids without closure."
  },
  {
   "property": "C101",
   "status": "partial",
   "theorems": [
    "C101_defined",
    "C101_values",
    "C101_first_values",
    "C101_others",
    "C101_copy_partial",
    "C101_copy_updated",
    "C101_copy_refuted",
    "C101_range_refuted"
   ],
   "note": "Values, definedness and independence for every heap and history of one vector; copies refuted with witness, with the exact remainder in C101_copy_partial and C101_copy_updated."
  },
  {
   "property": "C102",
   "status": "partial",
   "theorems": [
    "C102_subvolume",
    "C102_vertex",
    "C102_total",
    "C102_interior_partial",
    "C102_boundary_refuted"
   ],
   "note": "Exact shares per sub-control volume, vertex and grid; the full volume only for fractures with elements on both sides (C102_interior_partial), boundary refuted."
  },
  {
   "property": "C103",
   "status": "partial",
   "theorems": [
    "C103_saturations",
    "C103_fresh",
    "C103_fresh_where_used",
    "C103_elsewhere",
    "C103_range_refuted",
    "C103_matrix_mobility_refuted"
   ],
   "note": "Missing limits and the mobility of the matrix are refuted with witnesses."
  },
  {
   "property": "C104",
   "status": "partial",
   "theorems": [
    "C104_written",
    "C104_off",
    "C104_labels_partial",
    "C104_labels_refuted",
    "C104_calls_counted"
   ],
   "note": "Labels unique up to 100 iterations per call (C104_labels_partial), refuted beyond."
  },
  {
   "property": "C105",
   "status": "partial",
   "theorems": [
    "C105_mass_of_volumes",
    "C105_mass_of_masses",
    "C105_mass_extended_partial",
    "C105_vaporized_water_refuted"
   ],
   "note": "Proved for all configurations without the extended module; with it the theorem is partial (no vaporized water, z without regularisation) and the case of vaporized water is refuted."
  },
  {
   "property": "C106",
   "status": "partial",
   "theorems": [
    "C106_mobilities",
    "C106_other_phases",
    "C106_direction_errors",
    "C106_limits_partial",
    "C106_saturated",
    "C106_saturated_extended",
    "C106_limits_refuted"
   ],
   "note": "Mobilities, errors of the access and saturated values proved exactly; the limits hold only for ratios which are not primary variables (refuted otherwise)."
  },
  {
   "property": "C107",
   "status": "partial",
   "theorems": [
    "C107_oil_continuous_partial",
    "C107_gas_continuous_partial",
    "C107_formation_volumes",
    "C107_above_limit_refuted",
    "C107_capillary_pressure_refuted",
    "C107_oil_continuous_for_decks_partial"
   ],
   "note": "Partial: needs z up to its limit, a limit of Rs or Rv above saturation, a cell not full of water (oil), equal phase pressures (gas); two of these restrictions are shown necessary by refutations. For oil the remaining hypothesis, that the bubble points invert dissolved gas, is proved for the tables read from a deck (C110) at the values of z in it."
  },
  {
   "property": "C108",
   "status": "partial",
   "theorems": [
    "C108_positive",
    "C108_monotone_partial",
    "C108_monotone_refuted",
    "C108_micp_refuted"
   ],
   "note": "Positivity proved for all pressures without MICP (refuted with MICP); monotonicity from the vertex of the parabola on (refuted below)."
  },
  {
   "property": "C109",
   "status": "partial",
   "theorems": [
    "C109_undirected",
    "C109_faces_partial",
    "C109_flow_partial",
    "C109_directions_ignore_modules",
    "C109_faces_refuted",
    "C109_errors",
    "C109_foam_members",
    "C109_reductions"
   ],
   "note": "Factors, errors and members proved exactly; the flow over faces is right only without directional mobilities (partial), with them no module has an effect (refuted)."
  },
  {
   "property": "C110",
   "status": "partial",
   "theorems": [
    "C110_samples",
    "C110_limit",
    "C110_bubble_point",
    "C110_oil_compressibility",
    "C110_gas_compressibility_partial",
    "C110_gas_compressibility_refuted"
   ],
   "note": "The slope of gas is proved where vaporized oil differs between the two rows; with equal values the code divides by zero (refuted). Positive formation volumes are assumed throughout."
  },
  {
   "property": "C111",
   "status": "partial",
   "theorems": [
    "C111_polymer_accepted",
    "C111_polymer_off",
    "C111_polymer_regions",
    "C111_polymer_errors",
    "C111_polymer_defined_partial",
    "C111_polymer_mixpar_refuted",
    "C111_foam_accepted",
    "C111_foam_regions",
    "C111_foam_defined"
   ],
   "note": "For polymer, freedom from accesses behind the end is proved for decks whose record counts agree with the regions (partial); PLMIXPAR shorter than PLYMAX is refuted. Foam is proved in full."
  },
  {
   "property": "C112",
   "status": "partial",
   "theorems": [
    "C112_accepted",
    "C112_regions",
    "C112_defined_partial",
    "C112_density_without_salt_refuted",
    "C112_permfact_refuted"
   ],
   "note": "Freedom from accesses behind the end is proved for decks whose counts fit (partial); BDENSITY without PVTWSALT and more PERMFACT tables than PVT regions are refuted."
  },
  {
   "property": "C113",
   "status": "partial",
   "theorems": [
    "C113_accepted",
    "C113_regions",
    "C113_errors",
    "C113_tlpmixpa_refuted"
   ],
   "note": "Proved except for the default of TLPMIXPA, which is refuted: the code never uses PMISC for it."
  },
  {
   "property": "C114",
   "status": "partial",
   "theorems": [
    "C114_accepted",
    "C114_parameters",
    "C114_limits",
    "C114_clogging_check",
    "C114_never_clogs_partial",
    "C114_never_clogs_refuted"
   ],
   "note": "That biofilm and calcite leave the pore space is proved for cells with one of them (partial) and refuted for cells with both, since each is limited on its own. Limits which are negative or a porosity below the tolerance are excluded; there std::clamp is undefined."
  }
 ]
}