# Formal model of hubbard-dqmc: design

The C sources under `/repo/src` are modelled by hand as total Gallina functions
(Rocq/Coq 8.16.1) in `rocq/theories`, function by function.  Every definition
cites the file and the lines it models.  Nothing in `/repo` is built or run.

Files: `X.v` holds a model, `XSpec.v` the vocabulary of its specification,
`X…Facts.v` proofs, and `P_X.v` nothing but the property theorems (named after
the property), `Print Assumptions` beneath each, and concrete cases.

## 1. Conventions of the model

* **Undefined behaviour is a distinct outcome.**  Functions that index arrays,
  divide, take logarithms or square roots return `option`; `None` means that
  the C code would access memory out of bounds, divide by zero, or leave the
  domain of the idealised reals (NaN/Inf).  "Returns `Some`" therefore includes
  memory safety and definedness.
* **Integers.**  C `int` values are `Z`; `/` and `%` are `Z.quot` and `Z.rem`
  (truncation, as in C).  Overflow of `int` is the subject of C50 only: it is
  proved there under which exact condition on the parameters no size and no index
  overflows, and the other theorems apply to runs within that condition.
  `uint64_t` and `uint32_t` arithmetic (generator, hash) is modelled exactly:
  `N` with explicit reduction modulo `2^64` / `2^32`.
* **Doubles.**  The numerical code is modelled in exact arithmetic over Coq's
  real numbers `R`.  Rounding, overflow to infinity and NaN are not modelled,
  except in `Random_GetUniform`, which is modelled bit-exactly with Flocq's
  round-to-nearest-even binary64 format.
* **Arrays** are lists in the column-major layout of the code, accessed by
  checked reads and writes; freshly allocated memory has arbitrary contents.
  The proofs relate the lists to mathcomp matrices over `R` (RField).
* **BLAS** calls are modelled by their documented reference semantics.
  **LAPACK** calls are oracles: theorems quantify over every implementation that
  satisfies the recorded contract (LapackSpec; e.g. `dgeqrf` returns a
  factorisation with `Q` a product of reflectors and `R` upper triangular).
  LapackExists and LapackSyev prove that the contracts can be satisfied, so
  the theorems are not vacuous.
* **Random numbers.**  The sweeps run over any source of random numbers with
  values in (0,1] and shuffles that are permutations (RandSource); the generator
  of random.c is proved to be one.
* **Clock and signals** are universally quantified.
* **Threads** (C49): a section is a program of single loads and stores over named
  arrays; library routines may do anything to the arrays passed to them and
  nothing to others (`confined`); different allocations are disjoint.

## 2. Per property

| id | what is modelled | how it is proved |
|----|------------------|------------------|
| C01, C02 | hash_table.c, all functions; buckets as chains of entries, FNV-1a on bytes (HashTable) | simulation of an abstract finite map, induction on the sequence of calls |
| C03-C06 | random.c integer functions on 64-bit words (Random) | xorshift is invertible on bit vectors; counting of residues; Fisher-Yates invariant and injectivity |
| C07 | Random_GetUniform in binary64 with Flocq, Random_GetNormal in the reals (Uniform) | monotonicity of rounding |
| C08-C10 | util.c file functions and checkpoint.c on a file system of byte strings (FileSys, Checkpoint); a crash leaves any prefix of the elementary file operations | round trip of little-endian encodings; refuted by concrete states, exact conditions proved |
| C11-C13, C48 | main and DQMCSimulation as a control skeleton with arbitrary moves, samples, clock and signals (Driver) | invariants over all histories of runs |
| C14 | profiler.c over the hash table model (Profiler) | invariant over call sequences |
| C15 | progress.c (Progress) | invariant over iterations |
| C16-C19 | param_parser.c on byte strings: fgets splitting, strtok, atoi/atof, value lists (ParamParser, ParamFile, ParamLines, ParamNumbers) | structural induction on the text |
| C20 | ValidateSimulationParameters (ParamParser) | case analysis, both directions |
| C21, C22 | lattice maps of measurement.c (Lattice) | modular arithmetic |
| C23, C24 | bond loops of kinetic.c (Kinetic) | loop invariants; group property of C21 |
| C25 | MatrixExp, RectangularKineticExponential with dsyev by contract (KineticExp, LapackSyev) | power series; the contract is satisfiable by the spectral theorem (RClosed, Spectral) |
| C26, C27 | stratonovich.c (Strat) | real analysis |
| C28, C29 | MatrixProductSequence, time_flow.c:15-301 (MatProd, TimeStep) | mathcomp matrices, loop invariants |
| C30, C31 | TimeFlowMap call by call, the insertion sort (TimeFlow, Prepivot) | LAPACK contracts (Lapack, LapackSpec), shown satisfiable in LapackExists |
| C32-C34 | greens_func.c:14-215 (GreenConstruct, GreenUpdate) | matrix algebra, determinant identities |
| C35-C37 | DQMCIteration (Sweep) over any source of random numbers (RandSource) | invariant over sites, slices, sweeps; refinement of the Metropolis chain |
| C38, C39 | BlockCyclicInverse and its parts, ComputeUnequalTimeGreensFunction (BlockCyclic, UnequalTime) | block matrix algebra |
| C40-C42 | DQMCPhononIteration, PhononBlockUpdates, PhononFlipUpdates (PhononSweep) | field arithmetic, invariants, refinement of the Metropolis chain |
| C43-C45, C51 | equal time measurement (Accum, Measure), Wick contractions (WickSpec) | loop invariants, ring identities |
| C44, C45, C52, C53 | unequal time measurement (UMeasure) | same |
| C45-C47, C54 | phonon measurement (PMeasure) | same |
| C49 | the parallel sections as threads of single loads and stores (Threads, ThreadSections) | confluence of interleavings of threads with disjoint footprints |
| C50 | size and index expressions as C int expressions with overflow (Overflow) | exact condition on the parameters; refuted for validated parameters |
| C55 | `IdealSpec.v`, `Sweep.v`: the sweeps of the program run on a tape of random numbers; means are iterated integrals over [0,1] (Coquelicot `RInt`) and finite averages over shuffle choices | `P_Ideal.v`: the program's run equals the Metropolis chain (C36); each proposal leaves Σ |weight|·g invariant (step integral, involution of the fields), induction over sites, choices, slices, sweeps.  Not covered: block updates and phonon fields, ergodicity, correlations of the real generator |
| C56 | `Simulation.v`: main.c:110-247 (fresh start) and DQMCSimulation as the composition of the models of all called functions; `SimulationSpec.v`: the chain with its record of measured configurations and the list of results | `P_Simulation.v`: simulation relation between run and recorded chain (`SimulationFacts.v`, `SimulationRun.v`), then C37/C39 for the sums and `ConfigFacts.v` (expectation values depend only on entries in range).  Excluded as in C37/C38: pair and bond fields when pbc_shift is no multiple of Nx, Raman B1g |
| C57 | `Simulation.v` (C56) with `HalfFillSpec.v`: two-colourings of the Hamiltonian | `P_HalfFill.v`: particle-hole symmetry (`HalfFillFacts.v`): P exp(-dt H) P exp(-dt H) = 1, products of time steps, det(1+A_dn) det A_up = det(1+A_up), determinant of exponentials positive (spectral theorem); then C56.  Average sign, densities, Green's functions; square lattices as instance |
| C58 | `DataFiles.v`: memory of the measurement structures byte by byte, the tables of (name, member, size, count) of the five Load/Save functions transcribed separately, main.c:146-182 and 249-272; files as in `FileSys.v` | `P_DataFiles.v`: distinct names, table lookup lemmas (`DataFilesFacts.v`).  Not modelled: the length of the path buffers, errors of fopen/fwrite, phonon field (C13) |
| C59 | as C58, arbitrary disk | `P_DataFiles.v`: exact contents after a start from any disk; refutation with a removed and a truncated file |
| C60 | as C58, saving stopped after any number of elementary operations | `P_DataFiles.v`: every file is old, new or truncated; refutation by a mixed state |
| C61 | `KineticExp.v`, `Strat.v`, weights as in C36; `FockSpec.v`: creation and annihilation operators on sets of occupied modes, `HubbardSpec.v`: the Hubbard Hamiltonian | `P_Fock.v`: second quantisation as a multiplicative map with Tr = det(1+A) (`FockFacts.v`), exponentials (`FockExp.v`), Hubbard-Stratonovich sum site by site (`HubbardFacts.v`) |
| C62 | the expectation values of `WickSpec.v` (which C37-C39, C56 prove to be what the code computes) against traces over the Fock space | `P_Fock.v`: Wick's theorem for traces of second-quantised maps, at equal and different times (`FockWick.v`, `HubbardWick.v`, `HubbardLink.v`) |
| C63 | complete simulations as in C56 with the ideal source of C57; `ThermalSpec.v`: thermal expectation values with the Trotter product, the mean over start fields and random numbers | `P_Thermal.v`: means over the Metropolis chain (`IdealChain.v`), sums over fields with operators inserted (`HubbardFacts.v`, `ThermalFacts.v`), all array entries (`ThermalRun.v`, `ThermalResults.v`) |
| C64 | weights as in C61 | `P_Thermal.v`: the trace of (exp(-dt V) exp(-dt K))^L is positive because both factors are squares of symmetric positive operators (`TrotterPos.v`) |
| C65 | `Summary.v`: measurement.c:352-378, the lines as (heading, quantity, number), on top of complete simulations as in C56 | `P_Summary.v`: from the results of C56 (`SummaryFacts.v`), local moment against the zz correlation at zero distance |
| C66 | `Summary.v`: measurement.c:1091-1118; counters in `PhononSweep.v` | `P_PSummary.v`: every update counts once (`PhononCountFacts.v`), invariant of the sweeps from C42 (`PhononCountRun.v`); ratios and averages; refutation for n_block_updates = 0; range of the int counters |
| C67 | Paths.v: the directory, base name and all file names of a run with their buffers of 1024 characters; %g is a parameter, %i and %PRIu64 are exact | exact condition on the length of the second argument (`C67_paths_partial`), default directory always fits, decimal numerals are injective and the endings contain no slash, so names are distinct; a too long argument refutes the full claim |
| C68 | as C63 (complete simulations with ideal random numbers), exact thermal expectation values in `TrotterSpec.v` | `TrotterNorm.v`-`TrotterFacts.v`: row-sum bounds of the exponential series, one step differs from exp(-dt H) by O(dt^2), the symmetrised step by O(dt^3), lower bound of the partition function for all numbers of slices; `TrotterSym.v`: the operators concerned are symmetric; then the exact identity C63 |
| C69 | Whole simulations with ideal random numbers from a fixed start field (`mean_from`): the same model of `main.c`, `monte_carlo.c` and the measurements as C63. `with_counts` changes only the two sweep counts of the input. | The Metropolis updates contract the variance under the weight: a Dirichlet form argument bounds the loss of a sweep from below (`MixFacts`, `MixChain`), so what a sweep contributes depends on the start field by a factor rate^ne, and summing over the sweeps gives rate^ne / ns (`MixMean`); combined with C63 for every entry (`MixResults`). Partial: needs that no weight is zero and that every flip of one field value changes the absolute value of the weight. Refuted without the second condition for one site and one slice, where every flip is accepted forever. |
| C70 | `Heap.v`: of every function the requests, releases and accesses of blocks (and open files as blocks of 0 bytes), for the whole program from the parser to the end of `main`. Branches that depend on contents are decided by an oracle. Two OpenMP sections run one after the other; their peak is the sum of both. Requests succeed except where the code checks the result; profiling and assertions are off; sizes do not overflow (C50). Not modelled: memory inside BLAS, LAPACK and the C library, error exits inside `algn_malloc`. | Ownership triples (`HeapRules.v`): each function is specified by the blocks it owns before and after, the blocks abandoned, and the peak (`HeapFacts`, `HeapRun`, `HeapMain`). Partial: a signal after the log file is closed, wrong file sizes, phonon measurements and neqlt = 0 with phonons refute the full claim. |
| C71 | The phonon sweeps of C40-C42 with a random source that reads numbers written down in advance (`phonon_source`); the mean over the numbers is a sum over all orders and sites and an iterated Riemann integral over the uniform numbers (`draws_mean`); integrals over the phonon field are iterated Riemann integrals over boxes (`box_int`). | Each elementary update is a Metropolis kernel built from an involution of the discrete field and a measure preserving map of the phonon field; detailed balance and Fubini for iterated integrals give invariance (`BoxFacts`, `PMoves`); the phases of a sweep are averages and compositions of such kernels (`PKernels`); continuity of the weight from sums and products (`PWeightFacts`); Heine's theorem (`BoxHeine`); the program follows the chain by C40 (`PIdealRun`). The chain theorem has no condition on the weights. Partial for the program: needs that no configuration has weight zero (a block or flip update proposing one leaves the idealised reals) and at least two slices. |
| C72 | FMeasure.v: equal and unequal time part of measurement_full.c, function by function, arrays and indices checked | Every accumulation is an addition to one entry (AccumFacts.v); induction over the samples; collapse of the sums over positions, which are injective (FMeasureFacts.v, FUMeasureFacts.v) |
| C73 | as C72, with the neighbour maps | the expressions are those of C51/C53 with other positions; partial: shift multiple of Nx, B1g not on chains; two refutations |
| C74 | Measure.v, UMeasure.v and FMeasure.v side by side | relation of the contents preserved by allocation, every sample and the normalisation (FRecoverFacts.v) |
| C75 | f_summary in FMeasure.v | direct; partial: mean sign 1; refuted otherwise |
| C76 | Simulation.v and PSimulation.v (complete runs without and with phonons) | Both spin species are in the same state after every function (SpinSymFacts.v, SpinSymMeas.v, SpinSymRun.v): no contract of the generator or of LAPACK is used. The determinants of both species are equal, so the weight is a square (FreeFacts.v) |
| C77 | Simulation.v | C56 gives means over the visited configurations; for U = 0 all configurations have the same positive weight and the same Green's functions, so the sum over all fields of C63 has equal terms and each of them is the thermal value; exp(-dt V) = 1, so the Trotter product is exp(-beta H) (FreeFacts.v) |
| C78 | PSimulation.v (main.c and DQMCSimulation with phonons) with PhononSweep.v and PMeasure.v | Every iteration runs in lockstep with the chain of PSimulationSpec.v, which keeps a record of the fields at the measurements; the record determines the accumulated data (PSimulationFacts.v, PSimulationRun.v). A zero weight met on the way is one of the outcomes of the theorem, since the program then divides by zero |
| C79 | FPMeasure.v (the phonon data of measurement_full.c) with PMeasure.v | Both accumulations are shown to add the same amount per sample (FPMeasureFacts.v), so the arrays agree as lists; the acceptance counters, which this build does not initialise, are arbitrary in the model and a separate theorem shows that they need not start at zero |
| C80 | FDataFiles.v: the tables of files and sizes of measurement_full.c, function by function, with main.c as in DataFiles.v | As C58: the tables are shown to agree with the names and sizes of FDataFilesSpec.v; reading after writing (FDataFilesFacts.v) |
| C81 | FDataFiles.v and DataFiles.v on the same disk | False (refuted by a concrete run). Partial: exactly the members whose size is the same in both builds are read, for every lattice of more than one cell |
| C82 | FSimulation.v: Simulation.v with the functions of FMeasure.v; the parts of main.c and monte_carlo.c that do not measure are shared | As C56 with the chain of SimulationSpec.v and the meaning of the arrays in FSimulationSpec.v (FSimulationRun.v); the averages follow because means over the chain and averages over the cells commute (FSimulationAvg.v, FSimulationBoth.v). Pairs and bonds: their meaning is stated for a shift that is a multiple of the width and, for B1g, lattices that are not chains, as in C56; the comparison of the two builds needs neither |
| C83 | FPSimulation.v: PSimulation.v with the functions of FMeasure.v and FPMeasure.v; the parts of main.c and monte_carlo.c that do not measure are shared; the counters of updates start with the contents of uninitialised memory | As C78 with the chain of PSimulationSpec.v and the meaning of the arrays in FSimulationSpec.v and FPSimulationSpec.v (FPSimulationFacts.v, FPSimulationRun.v); the comparison of the two builds as in C82 (FPSimulationBoth.v). If some configuration has weight zero either run may divide by zero. Nothing is claimed about the counters, which this build does not initialise (C79) |

Claims that are false of the code as shipped are stated as `..._refuted`
theorems with a concrete witness, together with the part which does hold
(`..._partial`, usually with the exact condition).  MANIFEST.json lists the
theorems and what is missing for each claim.

## 3. Not modelled

* rounding errors of the numerical linear algebra, and hence numerical stability;
* the code under `USE_MKL` (aligned allocation, `mkl_domatcopy`, and all of
  `lattice_fourier.c`, which is empty without it), and under `_WIN32`;
* the text of the output (wording, rounding and column widths of `duprintf`; the numbers that the
  summaries print are modelled, C65 and C66);
* memory exhaustion (`malloc` returning NULL);
* the compiler and the C library, beyond the functions named above.

## 4. Trusted base

The Coq 8.16.1 kernel; the axioms listed below; the reading of the C code
recorded in the definitions; the reference semantics of BLAS and the LAPACK
contracts.  No axiom is added, no kernel check is switched off, and all
axioms come from the standard library (real numbers, functional extensionality,
classical logic and choice).  `Print Assumptions` lists, by theorem:

* closed under the global context (no axioms):
  C01_hash_table_is_finite_map, C02_delete_frees_live_values_once, C03_generator_reversible_and_never_stuck, C03_sixteen_outputs_determine_state, C04_every_nonzero_seed_is_usable, C05_bounded_exactly_uniform, C05_bounded_in_range, C05_bounded_only_waits_for_acceptance, C06_choices_biject_with_permutations, C06_shuffle_is_permutation, C08_random_stream_iff_symmetric, C08_random_stream_partial, C08_random_stream_refuted, C09_roundtrip, C09_search_and_rejection, C10_crash_during_first_save, C10_crash_during_save_partial, C10_crash_during_save_refuted, C10_found_but_not_loadable, C14_nested_blocks_refuted, C14_threads_are_separate, C14_totals_are_sums_of_durations, C15_phase_follows_simulation, C15_phase_without_sampling_refuted, C15_printed_counts_partial, C15_printed_counts_refuted, C16_integers, C18_tables_partial, C18_tables_refuted, C21_sum_map_is_translation_group, C22_nearest_neighbour_maps_partial, C22_nearest_neighbour_maps_refuted, C31_always_a_permutation, C49_deterministic, C49_race_free, C49_schedule_independent, C49_sections, C49_shared_array_refuted, C49_terminates, C50_exact, C58_phonon_velocity_refuted, C58_results_on_disk, C58_resume_with_all_data, C59_damaged_data_partial, C59_damaged_data_refuted, C60_crash_while_saving_partial, C60_crash_while_saving_refuted, C66_counter_range, C67_files_distinct, C67_no_collision, C80_full_results_on_disk, C80_full_resume_with_all_data, C81_other_build_partial, C81_other_build_refuted
* `ClassicalDedekindReals.sig_forall_dec`:
  C16_parameter_lookup, C16_unknown_names_ignored, C17_comments_partial, C17_comments_refuted, C19_hoppings, C29_allocate_and_copy, C32_copy, C67_default_directory, C67_default_directory_tells, C67_long_argument_refuted, C67_paths_partial, C70_heap_partial, C70_left_over, C70_released, C79_counters_refuted
* `ClassicalDedekindReals.sig_forall_dec`, `FunctionalExtensionality.functional_extensionality_dep`:
  C11_stop_and_resume, C12_extend_finished_partial, C12_extend_finished_refuted, C13_phonon_data_partial, C13_phonon_state_refuted, C20_indices_in_range_refuted, C20_validation_is_exact, C23_kinetic_matrix, C24_kinetic_translation_invariant, C31_sorted_by_norm, C38_one_block_refuted, C39_one_block_refuted, C43_accumulate_is_signed_average, C43_each_pair_counted_once, C44_equal_time_sum_rules, C44_unequal_time_at_zero, C45_no_samples_refuted, C45_normalised_is_mean, C45_phonon_normalised_is_mean, C45_unequal_time_no_samples_refuted, C45_unequal_time_normalised_is_mean, C46_kinetic_energy_partial, C46_kinetic_energy_refuted, C47_disabled_measurements_refuted, C47_histories_suffice_partial, C48_exit_status_partial, C48_status_one_though_complete_refuted, C49_sherman_morrison, C49_time_slice_wrap, C50_equal_time_refuted, C50_indices_partial, C50_sizes_partial, C50_unequal_time_refuted, C51_pair_correlations_partial, C51_pair_correlations_refuted, C52_unequal_time_correlations, C53_bond_correlations_partial, C53_chain_refuted, C53_shifted_refuted, C54_phonon_observables_partial, C54_square_of_average_refuted, C57_square_lattice, C66_no_block_updates_refuted, C66_phonon_summary_partial, C66_summary_undefined, C70_bounded_refuted, C70_files_closed_refuted, C70_late_signal_refuted, C70_no_measurements_refuted, C72_site_measurements_are_means, C72_unequal_time_site_measurements, C73_chain_refuted, C73_shifted_refuted, C73_site_bond_correlations_partial, C73_site_pair_correlations_partial, C74_averages_of_site_measurements, C74_unequal_time_averages, C75_site_summary_partial, C75_site_summary_refuted, C79_full_build_phonon_data
* `ClassicalDedekindReals.sig_forall_dec`, `ClassicalDedekindReals.sig_not_dec`, `FunctionalExtensionality.functional_extensionality_dep`:
  C55_means
* `ClassicalDedekindReals.sig_forall_dec`, `ClassicalEpsilon.constructive_indefinite_description`, `Classical_Prop.classic`, `FunctionalExtensionality.functional_extensionality_dep`:
  C25_exponential_unique, C28_matrix_product_sequence, C29_init_phonon_time_step_matrices, C29_init_time_step_matrices, C29_update_phonon_time_step_matrices, C29_update_time_step_matrices, C33_sherman_morrison_update, C34_time_slice_wrap, C36_detailed_balance, C38_block_cyclic_inverse_partial, C39_measurements_partial, C39_unequal_time_greens_partial, C40_local_energy_partial, C40_local_energy_refuted, C62_anticommutation
* `ClassicalDedekindReals.sig_forall_dec`, `ClassicalDedekindReals.sig_not_dec`, `Classical_Prop.classic`, `FunctionalExtensionality.functional_extensionality_dep`:
  C07_normal_is_defined, C07_uniform_in_unit_interval, C07_uniform_of_every_word, C26_decoupling_identity, C27_flip_factors_partial, C27_flip_factors_refuted, C76_spin_symmetric_results, C76_spin_symmetric_results_phonons
* `ClassicalDedekindReals.sig_forall_dec`, `ClassicalDedekindReals.sig_not_dec`, `ClassicalEpsilon.constructive_indefinite_description`, `Classical_Prop.classic`, `FunctionalExtensionality.functional_extensionality_dep`:
  C25_failure_ignored_refuted, C25_kinetic_exponentials, C25_matrix_exp, C25_usable, C30_time_flow_map, C32_green_construct, C35_generator_and_tables, C35_setup_is_consistent, C35_sweeps_keep_consistency, C36_sweep_is_metropolis_chain, C37_no_flip_to_zero_weight, C40_sweep_is_metropolis_chain_partial, C41_block_energy, C41_flip_energy, C41_rejected_update_restores, C42_initial_field, C42_local_update_keeps_sync, C42_setup_is_consistent, C42_sweeps_keep_exponentials, C55_sweeps_keep_distribution, C55_sweeps_return, C56_results_are_means_over_chain, C57_no_sign_problem, C57_weight_not_negative, C61_exponentials_exist, C61_partition_function, C62_expectations_are_traces, C63_results_unbiased, C64_total_weight_positive, C65_summary, C66_accepted_updates_move, C66_counters, C68_time_step_error, C69_start_forgotten_partial, C69_start_remembered_refuted, C71_chain_keeps_distribution, C71_means, C71_sweeps_keep_distribution_partial, C71_sweeps_return, C76_weight_not_negative, C77_free_system_exact, C78_phonon_results_are_means_over_chain, C82_default_results_are_averages, C82_site_results_are_means_over_chain, C83_default_phonon_results_are_averages, C83_site_phonon_results_are_means_over_chain

