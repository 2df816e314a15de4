{"id": "C01", "title": "Hash table behaves as a finite map", "statement": "After any sequence of insert/get/remove calls, HashTableGet returns the value last inserted under that key and not removed since (NULL otherwise), HashTableInsert returns the previous value or NULL, HashTableRemove returns the removed value or NULL, and n_entries is the number of live keys, no matter how keys collide.", "quantifier": "for every n_buckets > 0, every finite sequence of operations, all keys and values", "why_tests_cant": "the number of histories and collision patterns is unbounded; a test only touches a few keys", "anchors": ["src/hash_table.c: AllocateHashTable, FNV1a, HashTableInsert, HashTableGet, HashTableRemove"]}
{"id": "C02", "title": "Deleting a hash table frees every live value exactly once", "statement": "DeleteHashTable calls the user's free function exactly once on every value still stored in the table, and on nothing else (values returned by a replacing insert or by remove are not freed).", "quantifier": "for every n_buckets > 0 and every history of operations before the delete", "why_tests_cant": "double free / leak depends on the history", "anchors": ["src/hash_table.c: DeleteHashTable", "src/profiler.c: Profile_Stop", "src/param_parser.c: DeleteValueList"]}
{"id": "C03", "title": "Random generator never gets stuck: the step is reversible and keeps the state valid", "statement": "Drawing a 64-bit number is a reversible transformation of the generator state (two different states never lead to the same state), keeps p in 0..15 and every word below 2^64, and a state that is not all zero never becomes all zero, after any number of draws.", "quantifier": "for every generator state and every number of draws", "why_tests_cant": "state space of 2^1024 elements", "anchors": ["src/random.c: Random_GetUint"]}
{"id": "C04", "title": "Every non-zero seed gives a usable generator", "statement": "Random_SeedInit applied to any non-zero 64-bit number yields 16 words that are all non-zero with p = 0, and the seed main() derives from a validated non-zero itime is non-zero, so the assertion n > 0 of Random_SeedInit cannot fail in the program; distinct seeds give distinct states.", "quantifier": "for every n in 1..2^64-1 and every non-zero itime", "why_tests_cant": "2^64 seeds", "anchors": ["src/random.c: Random_SeedInit", "src/main.c: seed = 1865811235122147685 * itime"]}
{"id": "C05", "title": "Bounded random integers are in range and exactly unbiased", "statement": "Random_GetBoundedUint(bound) returns a number smaller than bound; among the 2^64 words the generator can deliver, the words which are accepted are distributed over the results 0..bound-1 in exactly equal numbers.", "quantifier": "for every bound in 1..2^64-1 and every generator state from which the call returns", "why_tests_cant": "unbiasedness is a counting statement about all 2^64 words and all bounds", "anchors": ["src/random.c: Random_GetBoundedUint"]}
{"id": "C06", "title": "Random_Shuffle returns a uniformly chosen permutation", "statement": "Random_Shuffle(n) fills seq with each of 0..n-1 exactly once, never writing outside the n entries; and each permutation of 0..n-1 is produced by exactly one sequence of the bounded draws, so uniform draws give uniform permutations.", "quantifier": "for every n >= 0 and every generator state from which the call returns", "why_tests_cant": "n! permutations, unbounded n", "anchors": ["src/random.c: Random_Shuffle"]}
{"id": "C07", "title": "Uniform deviates lie in (0,1] in double precision", "statement": "The double returned by Random_GetUniform is > 0 and <= 1 including all rounding of the uint64->double conversion, the addition and the multiplication, so log() in Random_GetNormal has a finite non-positive value and the argument of sqrt is >= 0.", "quantifier": "for every 64-bit word drawn from the generator", "why_tests_cant": "2^64 words; the extreme words are never hit by tests", "anchors": ["src/random.c: Random_GetUniform, Random_GetNormal"]}
{"id": "C08", "title": "Random stream survives a checkpoint", "statement": "After SaveCheckpoint and LoadCheckpoint the generator delivers exactly the numbers it would have delivered without the checkpoint.", "quantifier": "for every generator state (words and position p)", "why_tests_cant": "the shipped behaviour depends on the position p at the moment of the save; a test starting at p = 0 passes", "anchors": ["src/checkpoint.c: SaveCheckpoint, LoadCheckpoint", "src/random.c: Random_GetUint"]}
{"id": "C09", "title": "Checkpoint round trip of iteration number and field; bad files are rejected", "statement": "LoadCheckpoint after SaveCheckpoint with the same L*N returns 0 and restores the iteration number and the Hubbard-Stratonovich field exactly; SearchCheckpoint succeeds exactly if all three files exist; LoadCheckpoint returns a negative status if any of the three files is missing or has an unexpected size, and ReadData never modifies the destination on a negative status due to a missing file or size mismatch.", "quantifier": "for every iteration number, every field, every generator state, every prior file system content", "why_tests_cant": "all file contents and sizes", "anchors": ["src/checkpoint.c: SearchCheckpoint, LoadCheckpoint, SaveCheckpoint", "src/util.c: ReadData, WriteData"]}
{"id": "C10", "title": "A crash while saving a checkpoint never leads to a corrupt resume", "statement": "If the process dies at any point during SaveCheckpoint (which overwrites an older checkpoint), a later LoadCheckpoint either fails or restores the old or the new checkpoint as a whole.", "quantifier": "for every crash point, every old and new checkpoint", "why_tests_cant": "crash points are not exercised by tests", "anchors": ["src/checkpoint.c: SaveCheckpoint, LoadCheckpoint", "src/util.c: WriteData, ReadData"]}
{"id": "C11", "title": "Stopping and resuming does not change how much is sampled", "statement": "For any history of stop requests (signal or time limit) and restarts of the program with the same parameters, the total number of Monte Carlo iterations performed until completion is nequil+nsampl, each iteration number is executed exactly once, the number of equal time samples stored is nsampl*floor(L/neqlt), and the number of unequal time samples is the number of sampling iterations divisible by nuneqlt.", "quantifier": "for every parameter set and every history of stops", "why_tests_cant": "unbounded number of stop/restart histories", "anchors": ["src/monte_carlo.c: DQMCSimulation, DQMCIteration", "src/main.c: main", "src/checkpoint.c"]}
{"id": "C12", "title": "Extending a finished simulation gives the average over all samples", "statement": "If a simulation finished with nsampl samples is restarted with a larger nsampl, the final averages are the means over all samples of both runs (the code comment announces this use).", "quantifier": "for every old and new nsampl and every sequence of sampled values", "why_tests_cant": "requires reasoning over the values of two runs; single-run tests never resume from normalized files", "anchors": ["src/main.c: lines 223-247 (load measurement data, normalize, save)", "src/measurement.c: NormalizeMeasurementData, LoadMeasurementData, SaveMeasurementData"]}
{"id": "C13", "title": "Phonon state survives a stop/resume", "statement": "A stopped simulation with phonons resumes with the phonon field and phonon averages it had.", "quantifier": "for every phonon field and stop point", "why_tests_cant": "depends on state at the stop", "anchors": ["src/main.c: lines 184-262", "src/checkpoint.c: SaveCheckpoint"]}
{"id": "C14", "title": "Profiler totals are the sum of the block durations", "statement": "For any sequence of Profile_Begin/Profile_End calls in which blocks of the same name are not nested, the reported total of each name is the sum of the durations of its blocks and the call count the number of blocks; other names do not interfere; the report lists every name exactly once. (Nested blocks of the same name are announced as harmless.)", "quantifier": "for every sequence of calls and every monotone clock", "why_tests_cant": "all interleavings of blocks and clock values", "anchors": ["src/profiler.c: Profile_Begin, Profile_End, Profile_Stop"]}
{"id": "C15", "title": "Progress state follows the simulation phase", "statement": "In every run, after UpdateProgress for iteration k the reported phase is equilibration iff k+1 < nequil, measurement iff nequil <= k+1 < nequil+nsampl, output iff k+1 = nequil+nsampl (nsampl > 0); the number of completed iterations printed on a signal is never negative.", "quantifier": "for all nequil, nsampl, start iteration (resume) and signal times", "why_tests_cant": "all parameter and resume combinations", "anchors": ["src/progress.c: InitProgressTracking, UpdateProgress, PrintProgress"]}
{"id": "C16", "title": "Parameter file lookup semantics", "statement": "Scalar parameters take the first value given for their name in the file, list parameters take the concatenation of all values, every parameter not mentioned keeps its default except neqlt which defaults to L, and unknown names have no effect.", "quantifier": "for every parameter file", "why_tests_cant": "all texts", "anchors": ["src/param_parser.c: ParseParameterFile, AppendValues, ReadList"]}
{"id": "C17", "title": "Comments in the parameter file have no effect", "statement": "Whatever follows a '#' on a line does not influence the parameters.", "quantifier": "for every parameter file", "why_tests_cant": "all texts, in particular lines longer than the internal buffer", "anchors": ["src/param_parser.c: ParseParameterFile"]}
{"id": "C18", "title": "Parsing never writes outside its buffers", "statement": "The fixed-size token tables of the parser are never overrun.", "quantifier": "for every parameter file", "why_tests_cant": "all texts; the shipped binary is compiled with assertions disabled", "anchors": ["src/param_parser.c: ParseParameterFile, AppendValues", "Makefile: -DNDEBUG"]}
{"id": "C19", "title": "Hopping parameters: stored where requested or rejected", "statement": "A hopping line with orbital indices in 0..Norb-1 changes exactly the named entry (the last one wins on repetition) and any out-of-range index or incomplete triple makes the parser fail without an out-of-bounds write.", "quantifier": "for every list of hopping values and every Norb", "why_tests_cant": "all index values", "anchors": ["src/param_parser.c: ReadHoppings"]}
{"id": "C20", "title": "Validated parameters satisfy the preconditions of the simulation", "statement": "If ValidateSimulationParameters accepts, then sizes are positive, L is a multiple of prodBlen, nwraps a multiple of prodBlen, itime is non-zero and the intra-cell hoppings are not redundant, so every later modulo/division by these is defined and every lattice index computed from them is in range.", "quantifier": "for every parameter set", "why_tests_cant": "all parameter values including negative ones", "anchors": ["src/param_parser.c: ValidateSimulationParameters", "src/kinetic.c", "src/measurement.c", "src/main.c"]}
{"id": "C21", "title": "Lattice sum map is the translation group of the (shifted) periodic lattice", "statement": "The coordinate sum map used by all correlation measurements is an Abelian group operation on the cells with neutral element 0 (so every displacement maps cells bijectively and displacement 0 is the only one fixing a cell), also for shifted boundary conditions.", "quantifier": "for all Nx, Ny >= 1 and pbc_shift >= 0", "why_tests_cant": "all lattice sizes", "anchors": ["src/measurement.c: ConstructLatticeCoordinateSumMap"]}
{"id": "C22", "title": "Nearest neighbour maps agree with the lattice", "statement": "The x+1/x-1 and y+1/y-1 maps are mutually inverse bijections of the cells and coincide with translation by one lattice vector of the sum map.", "quantifier": "for all Nx, Ny >= 1 and all pbc_shift", "why_tests_cant": "all lattice sizes and shifts", "anchors": ["src/measurement.c: ConstructLatticeNearestNeighborMap, ConstructLatticeCoordinateSumMap"]}
{"id": "C23", "title": "Kinetic matrix is symmetric with the requested diagonal", "statement": "The matrix exponentiated by RectangularKineticExponential is symmetric, has diagonal -dt*(eps_o - mu), and each off-diagonal entry is dt times the sum of the hopping amplitudes of all bonds connecting the two sites.", "quantifier": "for all lattice sizes, orbitals, hoppings, shifts (pbc_shift >= 0)", "why_tests_cant": "all parameters, in particular wrap-around bonds on small lattices", "anchors": ["src/kinetic.c: RectangularKineticExponential"]}
{"id": "C24", "title": "Kinetic matrix is translation invariant", "statement": "The kinetic matrix is invariant under simultaneous translation of both sites by any lattice displacement of the sum map, as assumed by the translation averages of the measurements.", "quantifier": "for all lattice sizes, orbitals, hoppings and shifts >= 0, all displacements", "why_tests_cant": "all parameters", "anchors": ["src/kinetic.c: RectangularKineticExponential", "src/measurement.c: ConstructLatticeCoordinateSumMap"]}
{"id": "C25", "title": "expK is the matrix exponential and inv_expK its inverse", "statement": "The two matrices returned by RectangularKineticExponential are the power-series exponentials of -dt*K and dt*K, hence expK*inv_expK = I.", "quantifier": "for every symmetric input (exact arithmetic, correct eigensolver)", "why_tests_cant": "all matrices and sizes", "anchors": ["src/linalg.c: MatrixExp", "src/kinetic.c: RectangularKineticExponential"]}
{"id": "C26", "title": "Discrete Hubbard-Stratonovich decoupling identity", "statement": "The tables of FillStratonovichParameters satisfy, for each orbital and occupation n_u,n_d in {0,1}: (1/2)exp(-dt*U/4) * sum_s expVu[s]^n_u * expVd[s]^n_d = exp(-dt*U*(n_u-1/2)(n_d-1/2)).", "quantifier": "for all U >= 0, dt >= 0 and all orbitals", "why_tests_cant": "real-valued identity over all U, dt", "anchors": ["src/stratonovich.c: FillStratonovichParameters"]}
{"id": "C27", "title": "Flip factors match the exponential tables", "statement": "For both field values s: expVu[1-s] = (1+delta[s])*expVu[s], expVd[1-s] = (1+delta[1-s])*expVd[s], expVu[s]*expVu[1-s] = 1; and all table entries are well defined.", "quantifier": "for all U, dt accepted by validation", "why_tests_cant": "all real U, dt (including U < 0)", "anchors": ["src/stratonovich.c: FillStratonovichParameters", "src/monte_carlo.c: du, dd"]}
{"id": "C28", "title": "Matrix product sequence", "statement": "MatrixProductSequence(num, A, ret) stores A[num-1]*...*A[0] in ret, whichever internal buffer the last product landed in.", "quantifier": "for every num >= 1, every n and all matrices", "why_tests_cant": "all num parities and sizes", "anchors": ["src/linalg.c: MatrixProductSequence"]}
{"id": "C29", "title": "Time step matrices and their inverses", "statement": "InitTimeStepMatrices/UpdateTimeStepMatrices store B_l = diag(expV[s_i])*expK, invB_l its inverse, and after each Init the products of prodBlen consecutive B's; the same with phonon factors expX.", "quantifier": "for all field configurations, sizes, l", "why_tests_cant": "all configurations", "anchors": ["src/time_flow.c: ComputeTimeStepMatrix, ComputeInverseTimeStepMatrix, ComputePhononTimeStepMatrix, ComputeInversePhononTimeStepMatrix, InitTimeStepMatrices, UpdateTimeStepMatrices"]}
{"id": "C30", "title": "Time flow map factorises the ordered product", "statement": "TimeFlowMap(tsm, slice_shift) returns Q orthogonal, D invertible, T with Q*D*T equal to the product of all L time step matrices in the cyclic order starting at slice_shift.", "quantifier": "for all matrices (singular products included), all numBprod >= 1 and slice shifts", "why_tests_cant": "all matrices, pivot orders and shifts", "anchors": ["src/time_flow.c: TimeFlowMap"]}
{"id": "C31", "title": "Prepivoting is always a permutation sorted by column norm", "statement": "The insertion sort used for pre-pivoting yields a permutation of 0..N-1 whose norms are non-increasing; it is a permutation whatever the comparison results are (NaN).", "quantifier": "for every N and all norms", "why_tests_cant": "all N! orders and NaN patterns", "anchors": ["src/time_flow.c: TimeFlowMap lines 429-436"]}
{"id": "C32", "title": "Green's function construction is exact", "statement": "GreenConstruct returns (I + B_{s-1}...B_0 B_{L-1}...B_s)^{-1}, and exp(logdet)*sgndet is the determinant of the returned matrix.", "quantifier": "for all time step matrices with non-singular I+product and all slice shifts, given correct LAPACK calls", "why_tests_cant": "all matrices, pivots, signs", "anchors": ["src/greens_func.c: GreenConstruct"]}
{"id": "C33", "title": "Sherman-Morrison update is exact", "statement": "After GreenShermanMorrisonUpdate(delta, N, i, G), G is the Green's function of the configuration whose row i of the product matrix is scaled by 1+delta; the determinant ratio is 1+delta*(1-G_ii) as used by the acceptance test.", "quantifier": "for all N, i, G, delta with non-zero ratio", "why_tests_cant": "all matrices", "anchors": ["src/greens_func.c: GreenShermanMorrisonUpdate", "src/monte_carlo.c: du, dd"]}
{"id": "C34", "title": "Wrapping advances the Green's function by one slice", "statement": "GreenTimeSliceWrap(B_l, invB_l, G) maps the Green's function of slice l to that of slice l+1 and keeps its determinant.", "quantifier": "for all matrices", "why_tests_cant": "all matrices", "anchors": ["src/greens_func.c: GreenTimeSliceWrap"]}
{"id": "C35", "title": "Sweep invariant: Green's functions always belong to the current field", "statement": "Through any number of Monte Carlo sweeps, with any random numbers and any accept/reject history, after each sweep the stored time step matrices are those of the current field s, the spin up and down Green's functions are the exact inverses for the current field, and all s are 0 or 1.", "quantifier": "for every random stream, number of sweeps, parameters L, prodBlen, nwraps accepted by validation (exact arithmetic)", "why_tests_cant": "exponentially many accept/reject histories", "anchors": ["src/monte_carlo.c: DQMCIteration", "src/time_flow.c: UpdateTimeStepMatrices", "src/greens_func.c"]}
{"id": "C36", "title": "Metropolis ratio equals the ratio of the configuration weights", "statement": "A proposed flip is accepted exactly if the drawn number is below |det M_u' det M_d'| / |det M_u det M_d| of the new and old configurations; the ratio of the reverse flip is the reciprocal (detailed balance).", "quantifier": "for every configuration, slice and site", "why_tests_cant": "exponentially many configurations", "anchors": ["src/monte_carlo.c: DQMCIteration lines 85-125"]}
{"id": "C37", "title": "No division by zero in accepted updates", "statement": "A proposal leading to a configuration of weight zero is never accepted, hence the division 1/(1-delta*c_i) in the rank-1 update never divides by zero and the stored signs stay +1 or -1.", "quantifier": "for every configuration and random number in (0,1]", "why_tests_cant": "measure-zero configurations never appear in tests", "anchors": ["src/monte_carlo.c", "src/greens_func.c: GreenShermanMorrisonUpdate", "src/random.c: Random_GetUniform"]}
{"id": "C38", "title": "Block p-cyclic inverse is exact", "statement": "BlockCyclicInverse overwrites a block p-cyclic matrix by its inverse.", "quantifier": "for all block sizes n >= 1, block numbers p accepted by the program, and all non-singular inputs", "why_tests_cant": "all sizes", "anchors": ["src/linalg.c: BlockCyclicQR, BlockCyclicTriangularInverse, BlockCyclicInverseRotation, BlockCyclicInverse"]}
{"id": "C39", "title": "Unequal time Green's functions", "statement": "ComputeUnequalTimeGreensFunction returns G(tau,0), G(0,tau) and G(tau,tau) for every time slice, as defined by the products of the time step matrices.", "quantifier": "for all L, prodBlen, matrices and slices", "why_tests_cant": "all sizes and slices", "anchors": ["src/greens_func.c: ComputeUnequalTimeGreensFunction"]}
{"id": "C40", "title": "Local phonon update uses the exact action difference", "statement": "The energy difference used by the local phonon update equals the difference of the lattice phonon action between new and old field.", "quantifier": "for all L accepted by validation, omega, dt > 0, fields and displacements", "why_tests_cant": "all real fields; edge cases of L", "anchors": ["src/monte_carlo.c: DQMCPhononIteration"]}
{"id": "C41", "title": "Block and flip phonon updates: exact energy difference and exact rollback", "statement": "The energy differences of block and flip updates equal the change of the phonon action, and a rejected update leaves phonon field, exponentials, time step matrices and Green's functions exactly as before.", "quantifier": "for all fields, sites, displacements", "why_tests_cant": "all fields and accept/reject outcomes", "anchors": ["src/monte_carlo.c: PhononBlockUpdates, PhononFlipUpdates"]}
{"id": "C42", "title": "Phonon exponentials stay in sync with the phonon field", "statement": "At every acceptance test and after every update expX = exp(-dt*g*X) for every orbital with non-zero coupling.", "quantifier": "for every history of accepted and rejected phonon updates", "why_tests_cant": "unbounded histories", "anchors": ["src/monte_carlo.c: DQMCPhononIteration, PhononBlockUpdates, PhononFlipUpdates", "src/main.c: lines 190-214"]}
{"id": "C43", "title": "Equal time correlations average every pair of sites once", "statement": "AccumulateMeasurement adds to each correlation entry (displacement, orbital, orbital) the signed average over all cells of the Wick-contracted density/spin products of the two Green's functions, each ordered pair of sites contributing to exactly one entry.", "quantifier": "for all lattice sizes, orbitals, shifts and Green's functions", "why_tests_cant": "all sizes", "anchors": ["src/measurement.c: AccumulateMeasurement"]}
{"id": "C44", "title": "Sum rules between measured quantities", "statement": "density_u[o] increments equal uu_corr increments at zero displacement; double occupancy is half of ud_corr there; the zz correlation equals its expression by uu, dd, ud; the unequal time correlators at tau = 0 agree with the equal time ones.", "quantifier": "for all Green's functions and signs", "why_tests_cant": "real-valued identities over all inputs", "anchors": ["src/measurement.c: AccumulateMeasurement, AccumulateUnequalTimeMeasurement"]}
{"id": "C45", "title": "Normalised data are averages", "statement": "After any sequence of samples and one normalisation every stored array entry is the sum of its contributions divided by the number of samples.", "quantifier": "for every number of samples and all values", "why_tests_cant": "unbounded sample sequences", "anchors": ["src/measurement.c: NormalizeMeasurementData, NormalizeUnequalTimeMeasurementData, NormalizePhononData"]}
{"id": "C46", "title": "Phonon kinetic energy is recorded for every orbital", "statement": "The phonon kinetic energy of orbital o accumulates sign*(1/(2dt) - avg((X_{l+1}-X_l)^2)/(2dt^2)) of orbital o.", "quantifier": "for all Norb, fields and signs", "why_tests_cant": "all numbers of orbitals; the test uses weak coverage", "anchors": ["src/measurement.c: AccumulatePhononData"]}
{"id": "C47", "title": "Phonon history buffers never overflow and are defined for all documented parameters", "statement": "The per-sample phonon arrays allocated by main() are large enough for all samples taken, for every documented parameter value (including neqlt = 0, which disables measurements).", "quantifier": "for all nsampl, L, neqlt accepted by validation", "why_tests_cant": "all parameter combinations", "anchors": ["src/main.c: AllocatePhononData call", "src/measurement.c: AllocatePhononData, AccumulatePhononData"]}
{"id": "C48", "title": "Driver: no measurement while equilibrating, exit status tells completion", "statement": "DQMCSimulation takes measurements only in iterations >= nequil, increments the iteration number by one per sweep, stops at the next iteration boundary after a stop request, and main's return value is 0 exactly if all nequil+nsampl iterations are done.", "quantifier": "for every schedule of stop signals and clock values", "why_tests_cant": "signals may arrive at any point", "anchors": ["src/monte_carlo.c: DQMCSimulation", "src/main.c: main", "src/checkpoint.c: StopSimulation"]}
{"id": "C49", "title": "Results do not depend on the thread schedule", "statement": "Every interleaving of the two parallel sections (spin up / spin down) produces the same state.", "quantifier": "for every interleaving of the steps of the two sections", "why_tests_cant": "thread schedules are not controlled by tests", "anchors": ["src/monte_carlo.c: #pragma omp parallel sections"]}
{"id": "C50", "title": "Allocation sizes do not overflow", "statement": "For every validated parameter set all size expressions (N*N*numBprod*numBprod, N*L*N, ...) are representable in int.", "quantifier": "for all validated parameters", "why_tests_cant": "large lattices are not run in tests", "anchors": ["src/measurement.c: AllocateUnequalTimeMeasurementData", "src/param_parser.c: ValidateSimulationParameters"]}
{"id": "C51", "title": "Pairing correlations use the neighbours of the periodic lattice", "statement": "AccumulateMeasurement adds to each superconducting correlation entry (displacement, orbital) the signed average over all cells of the Wick contraction of pair operators (on-site, d-wave, extended s-wave) built from the four nearest neighbours on the periodic lattice with its shift.", "quantifier": "for all lattice sizes, shifts, orbitals, Green's functions and earlier samples", "why_tests_cant": "reference data exist for a few unshifted lattices only; the sixteen-term sums are compared with numbers produced by the same formulas", "anchors": ["src/measurement.c: AccumulateMeasurement", "src/measurement.c: ConstructLatticeNearestNeighborMap"]}
{"id": "C52", "title": "Unequal time correlations are the Wick contractions at every time difference", "statement": "One call of AccumulateUnequalTimeMeasurement adds to every entry (orbitals o and p, displacement k, time difference l) of the Green's function, nn_corr, zz_corr and xx_corr arrays the sign of the configuration times the average over all cells i of <A_i(l) A_j(0)> with j = i + k, evaluated with the Green's functions G(l,l), G(0,0), G(l,0) and G(0,l) of the configuration, including the contact terms at l = 0; no other entry changes and no access leaves the arrays.", "quantifier": "all numbers of orbitals, lattice dimensions, shifts, numbers of time steps, Green's functions which agree at l = 0, signs, and all numbers of earlier samples", "why_tests_cant": "The entries mix four Green's functions with different memory layouts and contact terms which appear only for special index combinations; a reference run compares a few lattice sizes against numbers produced by the same formulas.", "anchors": ["src/measurement.c:545-811"]}
{"id": "C53", "title": "Unequal time pair, current and Raman correlations are the correlations of the stated operators", "statement": "The sc_c_*, Jcorr_x, Jcorr_y, ram_b1g and ram_b2g entries collect the sign times the average over all cells of the correlation at time difference l of the pair, current, B1g and B2g operators built from the neighbours of the two cells on the periodic lattice which the parameters describe.", "quantifier": "all lattice dimensions, shifts, orbitals, time differences, Green's functions which agree at l = 0", "why_tests_cant": "The sums have up to 64 terms per entry and boundary conditions enter through neighbour maps; wrong contact terms or neighbours show up only on shifted or one-dimensional lattices which the tests do not contain.", "anchors": ["src/measurement.c:637-795"]}
{"id": "C54", "title": "Phonon observables are signed lattice averages per orbital", "statement": "Every phonon array entry of orbital o (average field, squared average, average square, velocity, squared velocity, potential energy, density times field) accumulates the sign times the lattice average of the observable for orbital o, and the histories hold exactly one signed entry per sample and orbital.", "quantifier": "for all lattice sizes, orbitals, time slices, frequencies, fields, Green's functions and sample sequences", "why_tests_cant": "unbounded lattices and sample sequences; the reference test has one sample and positive sign", "anchors": ["src/measurement.c: AccumulatePhononData", "include/measurement.h: measurement_data_phonon_t"]}
{"id": "C55", "title": "With ideal random numbers the sweeps sample the absolute determinant weight", "statement": "If the start field is distributed with probability proportional to the absolute value of the product of the two fermion determinants, and the random choices (shuffles) and acceptance numbers are independent and uniformly distributed, then the field after any number of sweeps has the same distribution: every function of the field has the same mean before and after. The sweeps always return for ideal numbers.", "quantifier": "all lattices, hoppings, interactions, numbers of time slices, block lengths, recomputation intervals, numbers of sweeps, observables", "why_tests_cant": "The distribution is over 2^(L N) fields and a continuum of random numbers; a test run looks at one sequence of random numbers and cannot distinguish a small bias from noise.", "anchors": ["src/monte_carlo.c: DQMCIteration, DQMCSimulation", "src/random.c: Random_Shuffle"]}
{"id": "C56", "title": "The results of a run are means over the Metropolis chain", "statement": "A run without phonons from a fresh start returns, for every measured quantity, exactly the arithmetic mean of sign times expectation value over the configurations which the Metropolis chain for the weight det(up)*det(down) visits after the equilibration: at every neqlt-th time slice of every sweep for the equal time data, and after each sweep whose number is a multiple of nuneqlt for the unequal time data. The initial field, the Hamiltonian and the interaction strengths are those of the parameter file. No out-of-bounds access and no division by zero happens along the way.", "quantifier": "all valid parameter sets (without phonons), all seeds, all numbers of sweeps, all lattices and interactions, all contents of uninitialised memory", "why_tests_cant": "The claim composes all parts of the program over arbitrarily many sweeps; a test compares single functions for one input, and a full run with reference values can only be checked for one parameter file within statistical error.", "anchors": ["src/main.c: main", "src/monte_carlo.c: DQMCSimulation, DQMCIteration", "src/measurement.c: AccumulateMeasurement, AccumulateUnequalTimeMeasurement, NormalizeMeasurementData"]}
{"id": "C57", "title": "No sign problem at half filling on bipartite lattices", "statement": "If the one particle Hamiltonian connects only sites of different colours of a two-colouring (in particular the chemical potential equals the site energies), then the product of the two fermion determinants is non-negative for every field. A run without phonons reports an average sign of exactly 1 (equal and unequal time), a density of exactly one electron per site for each orbital, and Green's functions of the two spins related by G_dn(i,j) = delta_ij - (+-1) G_up(j,i). The square lattice with even Nx, even Ny + pbc_shift and nearest neighbour hopping is such a case.", "quantifier": "all bipartite lattices and hoppings, interactions, time discretisations, fields, seeds, numbers of sweeps", "why_tests_cant": "A single negative configuration among 2^(L N) fields would refute the claim; tests sample a few. The exact density holds for every run, not on average over many.", "anchors": ["src/monte_carlo.c: DQMCSimulation", "src/stratonovich.c: FillStratonovichParameters", "src/kinetic.c: RectangularKineticExponential", "src/measurement.c: AccumulateMeasurement"]}
{"id": "C58", "title": "All results survive saving and resuming, byte by byte", "statement": "At the end of a run every accumulated quantity (equal time, unequal time, phonons) is stored in the file of its name, and no file that does not belong to the run is touched. Starting the program again continues with exactly the iteration number, the field and the values of all equal and unequal time quantities, or reports that the simulation is complete. (False for the average phonon velocity, which is stored nowhere.)", "quantifier": "all dimensions, contents of memory, previous contents of the disk, file name bases, with and without unequal time measurements and phonons", "why_tests_cant": "49 files are written and 34 read by separate tables of names, pointers, sizes and counts; a wrong entry shows only for particular dimensions, and the contents are arbitrary.", "anchors": ["src/measurement.c: SaveMeasurementData, LoadMeasurementData, SaveUnequalTimeMeasurementData, LoadUnequalTimeMeasurementData, SavePhononData", "src/main.c: main", "src/util.c: ReadData, WriteData"]}
{"id": "C59", "title": "A simulation with missing or damaged data files is not continued", "statement": "If one of the measurement files of the simulation to be continued is missing or has the wrong size (for instance after a change of the lattice), the program does not continue with part of the data.", "quantifier": "all contents of the disk, dimensions, file name bases", "why_tests_cant": "Arbitrary contents of the disk.", "anchors": ["src/measurement.c: LoadMeasurementData, LoadUnequalTimeMeasurementData", "src/main.c: main", "src/util.c: ReadData"]}
{"id": "C60", "title": "A crash while saving leaves a consistent simulation", "statement": "If the process dies while it overwrites the results of an earlier run, the next start either does not continue or continues with the old state as a whole or the new state as a whole.", "quantifier": "all points of the crash, old and new states, dimensions", "why_tests_cant": "A crash can happen after every single byte written.", "anchors": ["src/main.c: main", "src/checkpoint.c: SaveCheckpoint", "src/measurement.c: SaveMeasurementData"]}
{"id": "C61", "title": "The weights of all fields add up to the partition function of the Hubbard model", "statement": "For all lattices, hoppings, site energies, chemical potentials and repulsive interactions, the sum of the weights det det over all auxiliary fields equals the trace of (exp(-dt V) exp(-dt K))^L over the Fock space, where K + V is the Hubbard Hamiltonian of the parameters written with creation and annihilation operators, times a constant that depends only on dt and U.", "quantifier": "all parameters, numbers of slices, linear algebra libraries that meet their contract", "why_tests_cant": "The sum has 2^(L N) terms and the trace runs over 4^N states.", "anchors": ["src/stratonovich.c: FillStratonovichParameters", "src/kinetic.c: RectangularKineticExponential, MatrixExp", "src/time_flow.c: TimeFlowMap", "src/monte_carlo.c: DQMCIteration"]}
{"id": "C62", "title": "Measured quantities are expectation values of the named operators", "statement": "For every field of non-zero weight, the weight times the expectation value that the measurements assign to densities, spin, charge, pair and current correlations at equal or different times is the trace over the Fock space of the time evolution operator of the field with the named products of creation and annihilation operators inserted at these times.", "quantifier": "all parameters, fields of non-zero weight, time slices, bilinear and pair operators", "why_tests_cant": "Infinitely many parameters and fields; the reference (Fock space) is exponentially large.", "anchors": ["src/measurement.c: AccumulateMeasurement, AccumulateUnequalTimeMeasurement", "src/greens_func.c: GreenConstruct, ComputeUnequalTimeGreensFunction"]}
{"id": "C63", "title": "The results are unbiased estimates of thermal expectation values", "statement": "If a simulation starts from a field drawn with probability proportional to |weight| and the random numbers are ideal, it always returns, and for every number of equilibration and sampling sweeps and all measurement intervals the mean of each entry of the equal time and unequal time arrays divided by the mean of the sign is the expectation value of the named product of electron operators in the Hubbard model of the parameters, with the Trotter product (exp(-dt V) exp(-dt K))^L for exp(-beta H). No field may have weight zero.", "quantifier": "all parameters, orbitals, displacements, time slices, measurement intervals and sweep counts; mean over all start fields and random numbers", "why_tests_cant": "A statement about exact means over continuous random numbers and exponentially many fields; a run of the program gives one sample.", "anchors": ["src/main.c: main", "src/monte_carlo.c: DQMCSimulation, DQMCIteration", "src/measurement.c: AccumulateMeasurement, NormalizeMeasurementData, AccumulateUnequalTimeMeasurement, NormalizeUnequalTimeMeasurementData"]}
{"id": "C64", "title": "The mean sign is positive", "statement": "For all lattices, hoppings, site energies, chemical potentials and repulsive interactions, the sum of the weights over all auxiliary fields is positive, so the mean of the sign over fields drawn with probability proportional to |weight| is positive and the division of the results by the mean sign is meaningful; some field has positive weight.", "quantifier": "all parameters and numbers of slices", "why_tests_cant": "The sum has 2^(L N) terms of both signs.", "anchors": ["src/stratonovich.c: FillStratonovichParameters", "src/kinetic.c: RectangularKineticExponential", "src/monte_carlo.c: DQMCIteration"]}
{"id": "C65", "title": "The printed summary states what it says", "statement": "The summary printed at the end of a run shows the mean sign and, for every orbital, the sign-weighted averages over all measured configurations of exactly the quantities its lines name: total, spin-up and spin-down density, double occupancy and local moment (the square of the spin), averaged over unit cells; the first density is that of a whole unit cell. The printed local moment times the sign is the stored zz correlation of a site with itself. If the signs cancel, the summary divides by zero.", "quantifier": "all valid parameters, generators and linear algebra libraries meeting their contracts, all random numbers", "why_tests_cant": "The numbers are averages over random configurations for which no reference values exist; a missing division by the sign is invisible when the sign is 1.", "anchors": ["src/measurement.c: PrintMeasurementDataSummary, NormalizeMeasurementData", "src/main.c: main"]}
{"id": "C66", "title": "Phonon acceptance ratios and summary", "statement": "In a run with phonons every sweep counts L n_local_updates local and n_block_updates block and flip proposals if all orbitals have a coupling (never more otherwise), acceptances never exceed proposals, so the printed acceptance ratios are between 0 and 1, and the remaining lines are the sign-weighted averages of the phonon observables. The ratios are those of all orbitals together. False without block updates, when the summary divides 0 by 0; the counters leave the range of int in long runs.", "quantifier": "all states, parameters, random numbers and numbers of sweeps", "why_tests_cant": "Acceptance depends on random numbers; the overflow needs more than 2^31 proposals.", "anchors": ["src/monte_carlo.c: DQMCPhononIteration, PhononBlockUpdates, PhononFlipUpdates", "src/measurement.c: PrintPhononData", "include/measurement.h: measurement_data_phonon_t"]}
{"id": "C67", "title": "Output file names", "statement": "The names of the files a run forms (log, checkpoint, measurement data) are directory, '/sim_', seed and a fixed ending. Without a second argument they always fit their buffers of 1024 characters. A name determines directory, seed and ending, so no two files of a run have the same name and runs with other seeds or in other directories do not overwrite each other. A second argument of more than about 977 characters is written past the end of a buffer.", "quantifier": "all parameters, seeds below 2^64 and second arguments", "why_tests_cant": "Collisions and overflows depend on unusual seeds, directories and argument lengths.", "anchors": ["src/main.c: main", "src/checkpoint.c: SaveCheckpoint", "src/measurement.c: SaveMeasurementData, SaveUnequalTimeMeasurementData, SavePhononData"]}
{"id": "C68", "title": "Error of the time discretisation", "statement": "For a fixed lattice, Hamiltonian and inverse temperature there are constants C and C2 such that, whatever the number of time steps and the other settings, the expected value of every equal-time and unequal-time result divided by the expected sign differs from the exact thermal expectation value of its operator (with exp(-beta H), not the Trotter product) by at most C dt, and the densities, double occupancies and equal-time density and spin correlations by at most C2 dt^2. So the results converge to those of the Hubbard model as dt goes to zero.", "quantifier": "all lattices, hoppings, site energies, interactions and inverse temperatures; all numbers of time steps and settings of the simulation; all entries of the result arrays", "why_tests_cant": "The order of the error concerns the limit of infinitely many time steps and exact many-body expectation values, for every model.", "anchors": ["src/kinetic.c: RectangularKineticExponential", "src/stratonovich.c: FillStratonovichParameters", "src/monte_carlo.c: DQMCSimulation", "src/measurement.c: AccumulateMeasurement, AccumulateUnequalTimeMeasurement"]}
{"id": "C69", "title": "The choice of the start field does not bias the results of long runs", "statement": "Start the program from any auxiliary field, with ideal random numbers. With ne equilibration sweeps and ns measurement sweeps, the mean of every entry of the equal time and unequal time result arrays divided by the mean of the sign differs from the thermal expectation value (with the Trotter product in place of exp(-beta H)) by at most D rate^ne / ns, where rate < 1 does not depend on the entry, the start field or the numbers of sweeps, and the mean of the sign is positive once rate^ne / ns is small enough. Holds if no field has weight zero and no flip of a single field value leaves the absolute value of the weight unchanged; fails in general, since at half filling one site with one time slice flips for ever.", "quantifier": "for all lattices, hoppings, interactions, chemical potentials, time steps, all start fields, all numbers of equilibration and measurement sweeps, all array entries", "why_tests_cant": "The bias is the mean over all random numbers of complete runs, for infinitely many run lengths; a test sees single runs with statistical noise larger than the bias, and cannot show the rate or its independence of the start field.", "anchors": ["src/monte_carlo.c: DQMCIteration, DQMCSimulation", "src/measurement.c: AccumulateMeasurement, AccumulateUnequalTimeMeasurement, NormalizeMeasurementData"]}
{"id": "C70", "title": "A run releases its memory, closes its files and needs bounded memory", "statement": "For every parameter file with admissible parameters, every checkpoint and whatever happens outside (acceptance of updates, stop signals, missing or damaged files, exhausted memory, failing factorisations), the program never releases or accesses a block of memory that is not in use and never uses a closed file. If files can be opened and read and the linear algebra converges, a run without phonons that returns 0 or 1 has released every block and closed every file, and its memory never exceeds a bound given by the lattice size, the number of slices and the parameter file, independent of the number of sweeps. A run with phonons keeps exactly one block of 8 Norb bytes per phonon measurement, so its memory grows without bound. False in general: a signal that arrives after the log file has been closed is reported to the closed file; data files of the wrong size stay open; phonons with neqlt = 0 divide by zero.", "quantifier": "for all admissible parameters, all lines of the parameter file, all checkpoints, all outcomes of every decision made outside of the program (unboundedly many sweeps)", "why_tests_cant": "The claim is about every path through the whole program for every run length and every combination of failures; a leak detector only sees the paths of the runs it watches, and a growth of a few bytes per measurement or a signal in a window of microseconds goes unnoticed.", "anchors": ["src/main.c: main", "src/monte_carlo.c: DQMCSimulation, DQMCIteration, DQMCPhononIteration, PhononBlockUpdates, PhononFlipUpdates", "src/measurement.c: Allocate*, Delete*, Accumulate*", "src/time_flow.c: AllocateTimeStepMatrices, DeleteTimeStepMatrices", "src/greens_func.c: GreenConstruct, ComputeUnequalTimeGreensFunction", "src/linalg.c: MatrixExp, BlockCyclicInverse", "src/param_parser.c: ParseParameterFile", "src/hash_table.c: DeleteHashTable", "src/util.c: ReadData, WriteData"]}
{"id": "C71", "title": "Sweeps with phonons keep the distribution given by the weight", "statement": "Let the discrete field and the phonon field be distributed with density proportional to the absolute value of the weight (both determinants times the Boltzmann factor of the phonon energy), and let the random numbers be ideal: orders of the sites and chosen sites equally likely, numbers uniform, all independent. Then both fields have the same distribution after any number of sweeps of local, block and flip updates: the integral of every continuous observable of bounded support is unchanged. Needs at least two time slices and that no configuration has weight zero.", "quantifier": "for all lattices, couplings, frequencies, box widths, numbers of local and block updates, numbers of slices and sweeps, start orders, all continuous observables of bounded support", "why_tests_cant": "The claim is an equality of integrals over a continuous field of arbitrary dimension and over all random numbers; a test samples finitely many runs with statistical error and cannot detect a small violation of detailed balance in one of the four kinds of updates.", "anchors": ["src/monte_carlo.c: DQMCPhononIteration, PhononBlockUpdates, PhononFlipUpdates", "src/random.c: Random_Shuffle, Random_GetBoundedUint, Random_GetUniform"]}
{"id": "C72", "title": "Measurements recorded for every site are means of expectation values", "statement": "With the measurement variant that records every site, after any non-empty sequence of measured configurations and one normalisation, every stored density, double occupancy, Green's function entry and density or spin correlation is the mean over the configurations of the sign times the expectation value for exactly this site or pair of sites (and time difference), at the documented position of the array; the stored sign is the mean sign.", "quantifier": "for all lattices, shifts, numbers of orbitals and time steps, all sequences of samples with arbitrary Green's functions and signs, all sites and time differences", "why_tests_cant": "The claim concerns every entry of arrays of size N^2 L for arbitrary Green's functions; a wrong index or term cancels in the symmetric test lattices, and the repository has no test of this variant at all.", "anchors": ["src/measurement_full.c: AllocateMeasurementData, AccumulateMeasurement, NormalizeMeasurementData, AllocateUnequalTimeMeasurementData, AccumulateUnequalTimeMeasurement, NormalizeUnequalTimeMeasurementData"]}
{"id": "C73", "title": "Pair and Raman correlations recorded for every pair of cells", "statement": "With the measurement variant that records every site, the stored pairing and Raman correlations of the cells i and j are the means over the configurations of the sign times the correlation of the pair or bond operators built from the nearest (or diagonal) neighbours of i and j on the periodic lattice. True if the boundary shift is a multiple of Nx and, for the B1g array, the lattice is not a chain; false for shifted lattices and for chains.", "quantifier": "for all lattices with these restrictions, all sequences of samples, all pairs of cells, orbitals and time differences", "why_tests_cant": "The expressions have hundreds of terms; a test on a small or unshifted lattice cannot distinguish neighbours which coincide there.", "anchors": ["src/measurement_full.c: ConstructLatticeNearestNeighborMap, AccumulateMeasurement, AccumulateUnequalTimeMeasurement"]}
{"id": "C74", "title": "Default results are the averages of the results recorded for every site", "statement": "Fed with the same sequence of configurations, the default measurements and the variant that records every site agree: every default array entry for a displacement is the average over all cells of the entries recorded for the pairs of cells with this displacement (all equal time arrays and all unequal time arrays except the current correlations), both before and after normalisation; signs and numbers of samples are equal.", "quantifier": "for all lattices, shifts, orbitals, time steps, all sequences of samples including the empty one (before normalisation)", "why_tests_cant": "It relates two programs of hundreds of lines over all inputs; only one of them can be linked into a given executable.", "anchors": ["src/measurement.c: AccumulateMeasurement, NormalizeMeasurementData, AccumulateUnequalTimeMeasurement, NormalizeUnequalTimeMeasurementData", "src/measurement_full.c: the same functions"]}
{"id": "C75", "title": "Printed summary of the variant recording every site", "statement": "The summary printed by the measurement variant that records every site shows the mean sign and the sign-weighted average of the total density per unit cell. True if the mean sign is 1; false otherwise, since the density is not divided by the mean sign: half filling measured with sign -1 prints -1.", "quantifier": "for all lattices and all sequences of samples whose signs do not cancel", "why_tests_cant": "A missing division by the sign is invisible in all tests with sign 1.", "anchors": ["src/measurement_full.c: PrintMeasurementDataSummary"]}
{"id": "C76", "title": "No sign problem and no preferred spin direction without repulsion", "statement": "If U = 0 for all orbitals, with or without phonons, every simulation that returns reports mean sign exactly 1, equal densities, Green's functions and correlations for both spin species, and equal correlations of the z and x components of the spin, at equal and unequal times. The weight of a configuration is never negative and does not depend on the auxiliary field, so skipping its updates changes nothing.", "quantifier": "for all parameters with U = 0, all lattices, couplings, phonon settings, generators, linear algebra libraries and contents of uninitialised memory", "why_tests_cant": "Equality of whole result arrays must hold for every sequence of random numbers; a test sees one run, and rounding hides or fakes small asymmetries.", "anchors": ["src/monte_carlo.c: DQMCIteration, DQMCPhononIteration", "src/measurement.c: AccumulateMeasurement, AccumulateUnequalTimeMeasurement", "src/stratonovich.c: FillStratonovichParameters"]}
{"id": "C77", "title": "Systems without interaction are computed exactly", "statement": "For U = 0 and no phonons, every simulation with valid parameters is defined for every start field, the mean sign is 1, and each result is exactly the thermal expectation value with exp(-beta H) of the operator it is named after, at equal and unequal times: no statistical error for any length of the run, and no error of the time discretisation.", "quantifier": "for all valid parameters with U = 0, all lattices, hoppings, chemical potentials, generators and seeds", "why_tests_cant": "Tests compare a few small lattices with tabulated numbers within a tolerance; the statement is about all lattices, all seeds and all operators.", "anchors": ["src/main.c: main", "src/monte_carlo.c: DQMCSimulation", "src/measurement.c: AccumulateMeasurement, AccumulateUnequalTimeMeasurement"]}
{"id": "C78", "title": "Results of simulations with phonons are means over the Metropolis chain", "statement": "A complete simulation with phonons accesses no memory outside of its arrays (in particular its histories suffice) and, unless it meets a configuration of weight zero, its equal time, unequal time and phonon results are exactly the means, with the sign of the weight, over the configurations which the Metropolis chain for the weight det det exp(-dt E) visits after the equilibration at the documented intervals; the electron-phonon average uses the density and the displacement of the same time slice. The auxiliary field is left alone exactly if U = 0 for all orbitals.", "quantifier": "for all valid parameters with phonons, generators, seeds and linear algebra libraries meeting their contracts, and all contents of uninitialised memory", "why_tests_cant": "Tests run a few sweeps with fixed random numbers; the statement is about every length of the run, every parameter set and every seed, including the bookkeeping of slices, wraps and measurement intervals.", "anchors": ["src/main.c: main", "src/monte_carlo.c: DQMCSimulation, DQMCPhononIteration", "src/measurement.c: AccumulatePhononData, NormalizePhononData"]}
{"id": "C79", "title": "The per-site build records the same phonon data", "statement": "In the build that records correlations for every pair of sites, the average phonon field, its average square, the two sample histories, the average sign and the number of samples are, after any sequence of samples and the normalisation, exactly those of the default build; its summary prints the sign-weighted averages for every orbital, and needs neither the time step, the frequencies nor the acceptance counters. The acceptance counters themselves start at zero only in the default build.", "quantifier": "for all lattice sizes, orbitals, time slices, fields, signs and sample sequences that fit into the histories", "why_tests_cant": "unbounded sample sequences and lattices; compares two builds that are never linked together", "anchors": ["src/measurement_full.c: AllocatePhononData, AccumulatePhononData, NormalizePhononData, PrintPhononData", "src/measurement.c: AccumulatePhononData"]}
{"id": "C80", "title": "Results of the per-site build are stored and read back completely", "statement": "In the build that records correlations for every pair of sites, saving at the end of a run puts every quantity it measures byte by byte into the file of its name and touches no other file; started again, the program reports completion or continues with the iteration number, the field and all the accumulated electron data.", "quantifier": "for all lattice sizes, orbitals, time slices, contents of the structures, prior disk contents and base names", "why_tests_cant": "unbounded data and disk contents; the sizes written and read are given in separate tables of dozens of entries", "anchors": ["src/measurement_full.c: LoadMeasurementData, SaveMeasurementData, LoadUnequalTimeMeasurementData, SaveUnequalTimeMeasurementData, SavePhononData", "src/main.c: main"]}
{"id": "C81", "title": "A simulation is not continued by the other build with half of its data", "statement": "If the program built with per-site measurements is started on the files of the default build, or the other way round, it either refuses to continue or continues with all the stored data.", "quantifier": "for all lattices, contents of the structures, prior disk contents and base names, in both directions", "why_tests_cant": "involves two builds and arbitrary stored data", "anchors": ["src/measurement_full.c: LoadMeasurementData, SaveMeasurementData", "src/measurement.c: LoadMeasurementData, SaveMeasurementData", "src/util.c: ReadData", "src/main.c: main"]}
{"id": "C82", "title": "A simulation recording every site visits the same configurations and refines the default results", "statement": "For parameters without phonons, a complete run of the program built with per-site measurements is defined whenever the initial field has non-zero weight, visits exactly the configurations of the Metropolis chain that the default build visits, and every entry of its result arrays is the mean over the visited configurations of the sign of the weight times the expectation value of its site, pair of sites or pair of cells. The results of the default build with the same parameters and seed are the averages over all cells of these results, and both builds end with the same field and the same state of the generator.", "quantifier": "for all valid parameters without phonons for which something is measured, all seeds and generators, all contents of uninitialised memory, all linear algebra libraries meeting their contract", "why_tests_cant": "compares complete runs of two builds for all parameters and seeds with exact expectation values", "anchors": ["src/measurement_full.c: AccumulateMeasurement, AccumulateUnequalTimeMeasurement, NormalizeMeasurementData, NormalizeUnequalTimeMeasurementData", "src/monte_carlo.c: DQMCSimulation, DQMCIteration", "src/main.c: main"]}
{"id": "C83", "title": "A simulation with phonons recording every site visits the same configurations and refines the default results", "statement": "For parameters with phonons, a complete run of the program built with per-site measurements visits exactly the configurations of the Metropolis chain for the weight of electrons and phonons that the default build visits, unless some configuration has weight zero. No array is accessed outside of its bounds. Every entry of its equal and unequal time arrays is the mean over the visited configurations of the sign of the weight times the expectation value of its site, pair of sites or pair of cells. Its phonon data are the means of the average of the field and of its square, with one entry of the histories per measurement. The equal and unequal time results of the default build with the same parameters and seed are the averages over all cells of these results, the phonon data which both builds record are equal, and both end with the same fields and the same state of the generator.", "quantifier": "for all valid parameters with phonons for which something is measured, all seeds and generators, all contents of uninitialised memory, all linear algebra libraries meeting their contract", "why_tests_cant": "compares complete runs of two builds for all parameters and seeds with exact expectation values, including the bounds of all arrays", "anchors": ["src/measurement_full.c: AccumulateMeasurement, AccumulateUnequalTimeMeasurement, AllocatePhononData, AccumulatePhononData, NormalizePhononData", "src/monte_carlo.c: DQMCSimulation, DQMCPhononIteration", "src/main.c: main"]}
