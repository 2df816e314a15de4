(** Model of a complete simulation with phonons for the program built with measurement_full.c in the place of
    measurement.c: PSimulation.v with the functions of FMeasure.v and FPMeasure.v.

    Left out: as in PSimulation.v.  The parts of main.c and monte_carlo.c that do not measure are those of PSimulation.v. *)
From Coq Require Import ZArith List Reals Bool.
From Verif Require Import Base RealOps SimParams ParamParser Blas MatProd TimeStep Strat Lapack GreenConstruct KineticExp
  RandSource Sweep Measure UMeasure UnequalTime Simulation PMeasure PhononSweep PSimulation FMeasure FPMeasure FSimulation.
Import ListNotations.
Local Open Scope Z_scope.

(** main.c:127-131: the allocation, with the number of samples to be expected *)
Definition fallocate_for_run (mem : counts) (Norb Nx Ny L nsampl neqlt : Z) : option fpmeas :=
  let* max_nsampl := cdiv (nsampl * L) neqlt in
  fallocate_pmeas mem Norb Nx Ny L max_nsampl.

Section FPSimulation.
Context {RS : Type}.
Variable rng : rand_source RS.
Variable la : lapack.
Variable junk : Z -> R.
Variable ijunk : Z -> Z.
(** the memory of the counters of updates, see [fallocate_pmeas] *)
Variable mem : counts.

(** what changes in DQMCSimulation: the state of the sweeps with the equal time and phonon data, the
    unequal time data and their temporary matrices *)
Record fpsimstate := mk_fpsim { fps_ph : phstate RS meas fpmeas; fps_Hu : list R; fps_Hd : list R; fps_un : umeas }.

(** monte_carlo.c:528-529: DQMCPhononIteration allocates the array for the order of the sites *)
Definition new_fph_order (N : Z) (x : phstate RS meas fpmeas) : phstate RS meas fpmeas :=
  mk_ph (new_order ijunk N (p_mc x)) (p_X x) (p_expX x) (p_cnt x) (p_meas x).

(** monte_carlo.c:844-850: unequal time measurement after iteration [it] *)
Definition fpmeasure_unequal (p : sim_params) (it : Z) (x : fpsimstate) : option fpsimstate :=
  let* y := f_measure_unequal la junk p it (mk_sim (p_mc (fps_ph x)) (fps_Hu x) (fps_Hd x) (fps_un x)) in
  Some (mk_fpsim (fps_ph x) (sm_Hu y) (sm_Hd y) (sm_un y)).

(** monte_carlo.c:701: the phonon measurement made in a sweep *)
Definition f_measure_phonons (Gu Gd : greens_func) (l : Z) (X : list R) (d : fpmeas) : option fpmeas :=
  fpaccumulate Gu Gd X d.

(** monte_carlo.c:832-850: body of the main loop *)
Definition fpsim_iteration (p : sim_params) (k : kinetic) (noHS : bool) (st : strat) (it : Z) (x : fpsimstate)
  : option (option fpsimstate) :=
  let neqlt := if sp_nequil p <=? it then sp_neqlt p else 0 in
  let* o := phonon_iteration rng f_accumulate f_measure_phonons la junk k noHS st (sp_phonon p) (sp_dt p) (sp_mu p) (sp_nwraps p) neqlt
              (new_fph_order (ts_N (mc_tu (p_mc (fps_ph x)))) (fps_ph x)) in
  match o with
  | None => Some None
  | Some y =>
    let* x := fpmeasure_unequal p it (mk_fpsim y (fps_Hu x) (fps_Hd x) (fps_un x)) in
    Some (Some x)
  end.

(** main.c:110-223 with DQMCSimulation: everything before the normalisation *)
Definition fpsim_run (p : sim_params) (seed : RS) : option (option fpsimstate) :=
  let Ncell := sp_Nx p * sp_Ny p in
  let N := sp_Norb p * Ncell in
  let* m0 := f_allocate ijunk (sp_Norb p) (sp_Nx p) (sp_Ny p) (sp_pbc_shift p) in
  let* u0 := fu_allocate ijunk (sp_Norb p) (sp_Nx p) (sp_Ny p) (sp_pbc_shift p) (sp_L p) in
  let* Hu := temp_matrix junk p N in
  let* Hd := temp_matrix junk p N in
  let* e0 := fallocate_for_run mem (sp_Norb p) (sp_Nx p) (sp_Ny p) (sp_L p) (sp_nsampl p) (sp_neqlt p) in
  let* (s, seed) := initial_field rng ijunk (sp_L p * N) seed in
  let* (seed, XX) := init_phonon_field rng junk (sp_phonon p) (sp_dt p) Ncell N (sp_L p) seed in
  let* k := kinetic_exponential la junk p in
  let* noHS := no_hs (sp_Norb p) (sp_U p) in
  let* st := fill_stratonovich (sp_Norb p) (sp_U p) (sp_dt p) (fresh junk (sp_Norb p)) in
  let* x := phonon_setup la junk k st N (sp_L p) (sp_prodBlen p) seed (raw_ints ijunk N) s (fst XX) (snd XX) (fp_counts e0) m0 e0 in
  for_range 0 (sp_nequil p + sp_nsampl p) (fun it => may_hang (fpsim_iteration p k noHS st it)) (Some (mk_fpsim x Hu Hd u0)).

(** main.c:231-244: normalisation after the last iteration; results: equal time, unequal time and phonon
    data, and the counters *)
Definition fpsimulation (p : sim_params) (seed : RS) : option (option (meas * option umeas * fpmeas * counts)) :=
  let* o := fpsim_run p seed in
  match o with
  | None => Some None
  | Some x =>
    let* m := f_normalize (mc_meas (p_mc (fps_ph x))) in
    let* u := (if 0 <? sp_nuneqlt p then let* u := fu_normalize (fps_un x) in Some (Some u) else Some None) in
    let* e := fpnormalize (p_meas (fps_ph x)) in
    Some (Some (m, u, e, p_cnt (fps_ph x)))
  end.
End FPSimulation.
