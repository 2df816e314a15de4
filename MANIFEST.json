{"claims": [
 {"property": "C01", "status": "proved", "theorems": ["C01_hash_table_is_finite_map"], "note": "chains of entries as lists, stored values non-NULL"},
 {"property": "C02", "status": "proved", "theorems": ["C02_delete_frees_live_values_once"], "note": ""},
 {"property": "C03", "status": "proved", "theorems": ["C03_generator_reversible_and_never_stuck", "C03_sixteen_outputs_determine_state"], "note": "the full period 2^1024-1 announced in the comment is not claimed"},
 {"property": "C04", "status": "proved", "theorems": ["C04_every_nonzero_seed_is_usable"], "note": ""},
 {"property": "C05", "status": "proved", "theorems": ["C05_bounded_in_range", "C05_bounded_exactly_uniform", "C05_bounded_only_waits_for_acceptance"], "note": "termination of the rejection loop is not claimed: it is proved that the only way not to return is that every draw is rejected"},
 {"property": "C06", "status": "proved", "theorems": ["C06_shuffle_is_permutation", "C06_choices_biject_with_permutations"], "note": "for every call that returns (see C05 on termination)"},
 {"property": "C07", "status": "proved", "theorems": ["C07_uniform_in_unit_interval", "C07_uniform_of_every_word", "C07_normal_is_defined"], "note": "Random_GetUniform in binary64 with rounding; Random_GetNormal's log/sqrt in exact arithmetic"},
 {"property": "C08", "status": "partial", "theorems": ["C08_random_stream_partial", "C08_random_stream_iff_symmetric", "C08_random_stream_refuted"], "note": "holds exactly when the state is symmetric about the position (always for positions 0 and 8); refuted in general: SaveCheckpoint rotates the words in the wrong direction"},
 {"property": "C09", "status": "proved", "theorems": ["C09_roundtrip", "C09_search_and_rejection"], "note": "loading into a simulation with the same L*N"},
 {"property": "C10", "status": "partial", "theorems": ["C10_crash_during_save_partial", "C10_crash_during_first_save", "C10_crash_during_save_refuted", "C10_found_but_not_loadable"], "note": "four possible outcomes, two of them mixed; mixed outcome shown reachable"},
 {"property": "C11", "status": "proved", "theorems": ["C11_stop_and_resume"], "note": "runs end with complete files; a crash while saving is C10"},
 {"property": "C12", "status": "partial", "theorems": ["C12_extend_finished_partial", "C12_extend_finished_refuted"], "note": "refuted: normalised data are loaded and added to; exact result and exact condition proved"},
 {"property": "C13", "status": "partial", "theorems": ["C13_phonon_data_partial", "C13_phonon_state_refuted"], "note": "refuted: neither the phonon field nor the phonon data are resumed; what is stored is proved"},
 {"property": "C14", "status": "proved", "theorems": ["C14_totals_are_sums_of_durations", "C14_threads_are_separate", "C14_nested_blocks_refuted"], "note": "blocks of distinct names; that nested blocks of the same name are harmless, as the comment in the code says, is refuted"},
 {"property": "C15", "status": "partial", "theorems": ["C15_phase_follows_simulation", "C15_printed_counts_partial", "C15_printed_counts_refuted", "C15_phase_without_sampling_refuted"], "note": "phase proved; printed counts proved while sampling, refuted otherwise"},
 {"property": "C16", "status": "proved", "theorems": ["C16_parameter_lookup", "C16_integers", "C16_unknown_names_ignored"], "note": "files without lines over 1023 characters and at most 1024 values per name (see C17, C18); atof an arbitrary function"},
 {"property": "C17", "status": "partial", "theorems": ["C17_comments_partial", "C17_comments_refuted"], "note": "lines up to 1023 characters; refuted for longer ones"},
 {"property": "C18", "status": "partial", "theorems": ["C18_tables_partial", "C18_tables_refuted"], "note": "exact condition proved; refuted: more than 1024 values for one name overrun the table"},
 {"property": "C19", "status": "proved", "theorems": ["C19_hoppings"], "note": ""},
 {"property": "C20", "status": "partial", "theorems": ["C20_indices_in_range_refuted", "C20_validation_is_exact"], "note": "C20_validation_is_exact: validation accepts exactly the parameter sets satisfying the listed conditions. The consequence 'every lattice index is in range' is false: a negative pbc_shift is accepted (C20_indices_in_range_refuted); for pbc_shift >= 0 it follows from C21 and C23."},
 {"property": "C21", "status": "proved", "theorems": ["C21_sum_map_is_translation_group"], "note": "For all Nx, Ny >= 1, pbc_shift >= 0."},
 {"property": "C22", "status": "partial", "theorems": ["C22_nearest_neighbour_maps_partial", "C22_nearest_neighbour_maps_refuted"], "note": "Maps are mutually inverse permutations; x maps agree with the lattice for every shift, y maps exactly if Nx divides the shift. The unrestricted claim is refuted."},
 {"property": "C23", "status": "proved", "theorems": ["C23_kinetic_matrix"], "note": "All sizes, orbitals, hoppings, pbc_shift >= 0."},
 {"property": "C24", "status": "proved", "theorems": ["C24_kinetic_translation_invariant"], "note": "All sizes, orbitals, hoppings, pbc_shift >= 0, all displacements."},
 {"property": "C25", "status": "proved", "theorems": ["C25_matrix_exp", "C25_kinetic_exponentials", "C25_exponential_unique", "C25_usable", "C25_failure_ignored_refuted"], "note": "For every symmetric matrix (C25_matrix_exp) and for all well-formed parameters (C25_kinetic_exponentials), assuming LAPACK contracts and that dsyev reports success; both assumptions are jointly satisfiable (spectral theorem proved in Spectral.v). C25_failure_ignored_refuted: an eigensolver failure is ignored by the caller, which then uses uninitialised memory."},
 {"property": "C26", "status": "proved", "theorems": ["C26_decoupling_identity"], "note": "Exact real arithmetic; all U >= 0, dt >= 0, all orbitals."},
 {"property": "C27", "status": "partial", "theorems": ["C27_flip_factors_partial", "C27_flip_factors_refuted"], "note": "Proved whenever dt*U >= 0 (exactly the case where the tables are defined); refuted for U < 0, which validation accepts."},
 {"property": "C28", "status": "proved", "theorems": ["C28_matrix_product_sequence"], "note": "For every number of factors, matrix size, contents of the temporary buffer: the result buffer holds the ordered product. BLAS dgemm modelled by its reference semantics over the reals."},
 {"property": "C29", "status": "proved", "theorems": ["C29_init_time_step_matrices", "C29_init_phonon_time_step_matrices", "C29_update_time_step_matrices", "C29_update_phonon_time_step_matrices", "C29_allocate_and_copy"], "note": "Init, Init with phonons, Update, Update with phonons, Allocate and Copy: stored matrices, inverses and block products, for all field configurations, sizes and slices, over the reals."},
 {"property": "C30", "status": "proved", "theorems": ["C30_time_flow_map"], "note": "TimeFlowMap modelled call by call over LAPACK contracts (exact arithmetic); the contract is shown to be satisfiable."},
 {"property": "C31", "status": "proved", "theorems": ["C31_always_a_permutation", "C31_sorted_by_norm"], "note": "comparison is an arbitrary boolean function for the permutation claim (covers NaN); order proved for real norms"},
 {"property": "C32", "status": "proved", "theorems": ["C32_green_construct", "C32_copy"], "note": "GreenConstruct modelled call by call over LAPACK contracts (exact arithmetic); logdet/sgndet included; singular case shown to leave the reals."},
 {"property": "C33", "status": "proved", "theorems": ["C33_sherman_morrison_update"], "note": "BLAS reference semantics over the reals; exact identity, for the matrix with one scaled row and its determinant ratio"},
 {"property": "C34", "status": "proved", "theorems": ["C34_time_slice_wrap"], "note": "wrapping with any invertible slice matrix and its inverse; slices compose to the shifted cyclic product"},
 {"property": "C35", "status": "proved", "theorems": ["C35_sweeps_keep_consistency", "C35_setup_is_consistent", "C35_generator_and_tables"], "note": "Any number of sweeps from the state set up by the program keeps the whole state consistent with the current field and is never undefined, for every random stream; exact real arithmetic, LAPACK by contract, generator and tables shown to satisfy the hypotheses."},
 {"property": "C36", "status": "proved", "theorems": ["C36_sweep_is_metropolis_chain", "C36_detailed_balance"], "note": "Sweeps refine the Metropolis chain whose acceptance ratio is the ratio of the determinant weights; detailed balance."},
 {"property": "C37", "status": "proved", "theorems": ["C37_no_flip_to_zero_weight"], "note": "A proposal is always defined, keeps the weight non-zero, and a flip to a configuration of weight zero is never accepted; signs stay 1 or -1."},
 {"property": "C38", "status": "partial", "theorems": ["C38_block_cyclic_inverse_partial", "C38_one_block_refuted"], "note": "Proved for every block size, every number of blocks p >= 2, every nonsingular block p-cyclic matrix and every LAPACK meeting its contracts. For p = 1 (L = prodBlen), which the validation accepts, the inversion accesses memory in front of the array (C38_one_block_refuted)."},
 {"property": "C39", "status": "partial", "theorems": ["C39_unequal_time_greens_partial", "C39_one_block_refuted", "C39_measurements_partial"], "note": "Proved for all dimensions, matrices, LAPACK implementations meeting their contracts, and L >= 2 prodBlen, including complete sequences of measurements. For L = prodBlen (accepted by the validation) the computation accesses memory out of bounds: C39_one_block_refuted."},
 {"property": "C40", "status": "partial", "theorems": ["C40_local_energy_partial", "C40_local_energy_refuted", "C40_sweep_is_metropolis_chain_partial"], "note": "Exact for two or more time slices, for all real fields, sites and displacements, and the whole sweep refines the Metropolis chain of the weight. Refuted for L = 1, which validation accepts."},
 {"property": "C41", "status": "proved", "theorems": ["C41_block_energy", "C41_flip_energy", "C41_rejected_update_restores"], "note": "Energy differences of block and flip updates, new exponentials, and exact rollback of rejected updates. Real arithmetic."},
 {"property": "C42", "status": "proved", "theorems": ["C42_initial_field", "C42_setup_is_consistent", "C42_sweeps_keep_exponentials", "C42_local_update_keeps_sync"], "note": "Initial field, every local, block and flip update, and any number of sweeps; no bound on L. Real arithmetic."},
 {"property": "C43", "status": "proved", "theorems": ["C43_accumulate_is_signed_average", "C43_each_pair_counted_once"], "note": "accumulate_all from allocate_meas: every entry's increment is sign * average over cells of the Wick contraction; each ordered pair of cells has exactly one displacement"},
 {"property": "C44", "status": "proved", "theorems": ["C44_equal_time_sum_rules", "C44_unequal_time_at_zero"], "note": "Equal time sum rules after any sequence of samples; agreement of unequal time nn, zz, xx and pair arrays at time difference zero with the equal time arrays for the same samples."},
 {"property": "C45", "status": "partial", "theorems": ["C45_normalised_is_mean", "C45_no_samples_refuted", "C45_phonon_normalised_is_mean", "C45_unequal_time_normalised_is_mean", "C45_unequal_time_no_samples_refuted"], "note": "Equal time, unequal time and phonon measurements: proved for one or more samples. With zero samples (possible e.g. for nuneqlt > nsampl) the result is a division by zero (refuted)."},
 {"property": "C46", "status": "partial", "theorems": ["C46_kinetic_energy_partial", "C46_kinetic_energy_refuted"], "note": "False for two or more orbitals: the constant of every orbital is added to entry 0 (refuted). Proved: one orbital, and the sum over orbitals for any number."},
 {"property": "C47", "status": "partial", "theorems": ["C47_histories_suffice_partial", "C47_disabled_measurements_refuted"], "note": "Proved for 0 < neqlt; refuted for neqlt = 0 (documented as disabling measurements), where the array size is a division by zero."},
 {"property": "C48", "status": "partial", "theorems": ["C48_exit_status_partial", "C48_status_one_though_complete_refuted"], "note": "everything except 'status 0 iff complete', which is refuted for a signal in the last iteration"},
 {"property": "C49", "status": "proved", "theorems": ["C49_schedule_independent", "C49_deterministic", "C49_race_free", "C49_terminates", "C49_sections", "C49_time_slice_wrap", "C49_sherman_morrison", "C49_shared_array_refuted"], "note": "All 17 parallel constructs fall into 7 kinds. For each kind the two sections are modelled as threads whose steps are single loads and stores, interleaved arbitrarily: never a conflicting pair of next accesses, every complete schedule gives the memory of running one section after the other (both orders), every schedule is free of undefined behaviour and completes if the sections alone are. The functions called in the sections are modelled down to the routine calls with their array arguments; BLAS, LAPACK, memcpy and inner element loops are arbitrary programs confined to their arguments (contract). The Green's function updates are additionally modelled element by element and proved to give the values of C33 and C34. Trusted: distinct allocations are disjoint; profiler calls in the sections are covered by C14."},
 {"property": "C50", "status": "partial", "theorems": ["C50_sizes_partial", "C50_exact", "C50_indices_partial", "C50_unequal_time_refuted", "C50_equal_time_refuted"], "note": "The claim is false: C50_unequal_time_refuted and C50_equal_time_refuted give validated parameters whose size expressions overflow int (with wrap-around, malloc(0)). Proved instead: the exact condition on the parameters under which every size is computed without overflow (C50_sizes_partial, both directions), and that under it every index expression listed evaluates without overflow and inside the array (C50_indices_partial). The size and index expressions are transcribed by hand from the source; index expressions of the phonon sweeps' local buffers are covered by their own models."},
 {"property": "C51", "status": "partial", "theorems": ["C51_pair_correlations_partial", "C51_pair_correlations_refuted"], "note": "holds for shifts which are multiples of Nx (in particular 0); refuted for other shifts: the neighbour maps ignore the shift"},
 {"property": "C52", "status": "proved", "theorems": ["C52_unequal_time_correlations"], "note": "Green's functions of the configuration are inputs with the stated dimensions which agree at time difference zero; their computation is the subject of C39."},
 {"property": "C53", "status": "partial", "theorems": ["C53_bond_correlations_partial", "C53_shifted_refuted", "C53_chain_refuted"], "note": "Proved for shifts which are multiples of Nx, and for ram_b1g if the lattice is not a chain; C53_shifted_refuted and C53_chain_refuted show that the full statement is false."},
 {"property": "C54", "status": "partial", "theorems": ["C54_phonon_observables_partial", "C54_square_of_average_refuted"], "note": "All arrays except the squared average, which is weighted by the square of the sign (refuted for negative sign); kinetic energy: see C46."},
 {"property": "C55", "status": "proved", "theorems": ["C55_sweeps_return", "C55_sweeps_keep_distribution", "C55_means"], "note": "Independent uniform numbers are an idealisation of the generator; without phonons; ergodicity is not claimed."},
 {"property": "C56", "status": "proved", "theorems": ["C56_results_are_means_over_chain"], "note": "for runs from a fresh start without phonons; pair and bond fields for pbc_shift a multiple of Nx, ram_b1g for lattices which are not chains (see C38, C53)"},
 {"property": "C57", "status": "proved", "theorems": ["C57_weight_not_negative", "C57_no_sign_problem", "C57_square_lattice"], "note": "runs without phonons from a fresh start whose initial field has non-zero weight"},
 {"property": "C58", "status": "partial", "theorems": ["C58_results_on_disk", "C58_resume_with_all_data", "C58_phonon_velocity_refuted"], "note": "All equal and unequal time quantities, and all phonon quantities but one, are stored under their names and come back on resuming, for all contents of disk and memory (byte level). False for the average phonon velocity V_avg (C58_phonon_velocity_refuted); phonon data are never read back, see C13."},
 {"property": "C59", "status": "partial", "theorems": ["C59_damaged_data_partial", "C59_damaged_data_refuted"], "note": "False of the code (C59_damaged_data_refuted): the status of ReadData is ignored, quantities with missing or damaged file silently restart from zero while the number of samples is kept. Proved: exact contents of every quantity after a start from any disk, and absence of out-of-bounds accesses."},
 {"property": "C60", "status": "partial", "theorems": ["C60_crash_while_saving_partial", "C60_crash_while_saving_refuted"], "note": "False of the code (C60_crash_while_saving_refuted). Proved: after a crash at any point each quantity has its old, new or initial value."},
 {"property": "C61", "status": "proved", "theorems": ["C61_partition_function", "C61_exponentials_exist"], "note": "Existence of both exponentials proved as well; real arithmetic."},
 {"property": "C62", "status": "proved", "theorems": ["C62_expectations_are_traces", "C62_anticommutation"], "note": "Together with C56 this identifies every stored mean (except the field-wise connected ff_corr, which is not the expectation value of an operator) with operators on the Fock space; anticommutation relations of the operators proved."},
 {"property": "C63", "status": "proved", "theorems": ["C63_results_unbiased"], "note": "Ideal random numbers and a start field drawn with probability proportional to |weight|; no field of weight zero. ff_corr (a difference of products of expectation values) is not the expectation value of one operator and is left out; pair and bond fields for pbc_shift a multiple of Nx and ram_b1g for lattices which are not chains, because of C38 and C53."},
 {"property": "C64", "status": "proved", "theorems": ["C64_total_weight_positive"], "note": "For all well-formed parameters; real arithmetic."},
 {"property": "C65", "status": "proved", "theorems": ["C65_summary"], "note": "Over idealised real arithmetic, for runs without phonons (as C56)."},
 {"property": "C66", "status": "partial", "theorems": ["C66_counters", "C66_accepted_updates_move", "C66_phonon_summary_partial", "C66_summary_undefined", "C66_no_block_updates_refuted", "C66_counter_range"], "note": "Counters: proved. Summary: proved if the signs do not cancel and updates of every kind were proposed (kinetic energy: one orbital, see C46). False without block updates: refutation included. The counters are ints; the exact condition for staying in range is proved."},
 {"property": "C67", "status": "partial", "theorems": ["C67_paths_partial", "C67_default_directory", "C67_no_collision", "C67_files_distinct", "C67_default_directory_tells", "C67_long_argument_refuted"], "note": "False for long second arguments: refuted, with the exact length from which a buffer overflows. Everything else of the claim is proved."},
 {"property": "C68", "status": "proved", "theorems": ["C68_time_step_error"], "note": "for ideal random numbers and a start field drawn from the weights, as in C63; same hypotheses as C63"},
 {"property": "C69", "status": "partial", "theorems": ["C69_start_forgotten_partial", "C69_start_remembered_refuted"], "note": "Proved for inputs where no weight is zero and every flip of a single field value changes the absolute value of the weight; refuted without the second condition (one site, one slice, half filling)."},
 {"property": "C70", "status": "partial", "theorems": ["C70_heap_partial", "C70_released", "C70_left_over", "C70_bounded_refuted", "C70_late_signal_refuted", "C70_files_closed_refuted", "C70_no_measurements_refuted"], "note": "Proved for the whole program: no double release or access after release unless a signal arrives after the log file has been closed; without phonons everything is released and the peak is bounded independently of the number of sweeps; with phonons exactly one block per measurement is left over. Refuted: unbounded growth with phonons, late signal uses the closed log file, files of the wrong size stay open, phonons with neqlt = 0 divide by zero."},
 {"property": "C71", "status": "partial", "theorems": ["C71_chain_keeps_distribution", "C71_sweeps_return", "C71_sweeps_keep_distribution_partial", "C71_means"], "note": "Chain theorem unconditional; for the program at least two slices (C40) and no configuration of weight zero are required."},
 {"property": "C72", "status": "proved", "theorems": ["C72_site_measurements_are_means", "C72_unequal_time_site_measurements"], "note": "All arrays of two-site quantities of measurement_full.c, equal and unequal time, for all sequences of samples."},
 {"property": "C73", "status": "partial", "theorems": ["C73_site_pair_correlations_partial", "C73_site_bond_correlations_partial", "C73_shifted_refuted", "C73_chain_refuted"], "note": "Holds if the shift is a multiple of Nx and, for B1g, the lattice is not a chain; both conditions are needed (refutations)."},
 {"property": "C74", "status": "proved", "theorems": ["C74_averages_of_site_measurements", "C74_unequal_time_averages"], "note": "All equal time arrays and all unequal time arrays except the currents, which measurement_full.c does not record."},
 {"property": "C75", "status": "partial", "theorems": ["C75_site_summary_partial", "C75_site_summary_refuted"], "note": "The density is not divided by the mean sign (refuted); right if the mean sign is 1."},
 {"property": "C76", "status": "proved", "theorems": ["C76_spin_symmetric_results", "C76_spin_symmetric_results_phonons", "C76_weight_not_negative"], "note": "Runs without and with phonons, no contracts used; weights with phonons are squares of determinants and independent of the auxiliary field."},
 {"property": "C77", "status": "proved", "theorems": ["C77_free_system_exact"], "note": "All results of all runs; runs in which a rejection loop of the generator never returns are the other outcome. Idealised reals."},
 {"property": "C78", "status": "proved", "theorems": ["C78_phonon_results_are_means_over_chain"], "note": "Complete simulations with phonons: defined, or a configuration of weight zero exists; results are the means over the Metropolis chain (equal time, unequal time and phonon data). KE for one orbital (see C45); X_avg_sq is the mean of squares without sign. Reals instead of doubles."},
 {"property": "C79", "status": "proved", "theorems": ["C79_full_build_phonon_data", "C79_counters_refuted"], "note": "Every sample sequence that fits into the histories; the files of this build and main.c linked with it are not modelled. The acceptance counters start with arbitrary contents (C79_counters_refuted)."},
 {"property": "C80", "status": "proved", "theorems": ["C80_full_results_on_disk", "C80_full_resume_with_all_data"], "note": "All contents and dimensions; lengths of file names are not limited here."},
 {"property": "C81", "status": "partial", "theorems": ["C81_other_build_partial", "C81_other_build_refuted"], "note": "False: the sign, the number of samples and the equal time Green's functions are taken over, all other arrays start from zero. The partial theorem says exactly what is read for more than one cell; missing is the refusal to continue."},
 {"property": "C82", "status": "proved", "theorems": ["C82_site_results_are_means_over_chain", "C82_default_results_are_averages"], "note": "Complete runs without phonons. As in C56 the meaning of the pair and bond correlations is stated for shifts that are multiples of the width (and, for B1g, lattices that are not chains); that the default results are the averages of the per-site results is proved without these restrictions."},
 {"property": "C83", "status": "proved", "theorems": ["C83_site_phonon_results_are_means_over_chain", "C83_default_phonon_results_are_averages"], "note": "whole runs of the per-site build with phonons; unless some configuration has weight zero; the counters of updates are not initialised by this build (C79)"}
]}
