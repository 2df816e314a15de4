(** Model of a complete simulation with phonons: main.c:110-247 for an output directory without
    previous data and use_phonons, and DQMCSimulation (monte_carlo.c:741-862), composed of the models of
    the functions they call.

    The same parts are left out as in Simulation.v: the clock, signals, messages, profiling and progress,
    files; sections of parallel regions are executed one after the other.  [junk] and [ijunk] are the
    contents of freshly allocated memory. *)
From Coq Require Import ZArith List Reals Bool.
From Verif Require Import Base RealOps SimParams ParamParser Blas MatProd TimeStep Strat Lapack GreenConstruct KineticExp
  RandSource Sweep Measure UMeasure UnequalTime Simulation PMeasure PhononSweep.
Import ListNotations.
Local Open Scope Z_scope.

(** monte_carlo.c:756-766: flag to disable Hubbard-Stratonovich updates if all U == 0; the loop ends at the
    first U different from zero *)
Definition no_hs (Norb : Z) (U : list R) : option bool :=
  for_range 0 Norb (fun o (flag : bool) =>
    if flag then let* u := aget U o in Some (if Req_EM_T u 0 then true else false) else Some false) true.

Section PSimulation.
Context {RS : Type}.
Variable rng : rand_source RS.
Variable la : lapack.
Variable junk : Z -> R.
Variable ijunk : Z -> Z.

(** what changes in DQMCSimulation: the state of the sweeps with the equal time and phonon data, the
    unequal time data and their temporary matrices *)
Record psimstate := mk_psim { ps_ph : phstate RS meas pmeas; ps_Hu : list R; ps_Hd : list R; ps_un : umeas }.

(** monte_carlo.c:528-529: DQMCPhononIteration allocates the array for the order of the sites *)
Definition new_ph_order (N : Z) (x : phstate RS meas pmeas) : phstate RS meas pmeas :=
  mk_ph (new_order ijunk N (p_mc x)) (p_X x) (p_expX x) (p_cnt x) (p_meas x).

(** monte_carlo.c:844-850: unequal time measurement after iteration [it] *)
Definition pmeasure_unequal (p : sim_params) (it : Z) (x : psimstate) : option psimstate :=
  let* y := measure_unequal la junk p it (mk_sim (p_mc (ps_ph x)) (ps_Hu x) (ps_Hd x) (ps_un x)) in
  Some (mk_psim (ps_ph x) (sm_Hu y) (sm_Hd y) (sm_un y)).

(** monte_carlo.c:701: the phonon measurement made in a sweep *)
Definition measure_phonons (p : sim_params) (Gu Gd : greens_func) (l : Z) (X : list R) (d : pmeas) : option pmeas :=
  paccumulate Gu Gd l X (sp_dt p) (ph_omega (sp_phonon p)) d.

(** monte_carlo.c:832-850: body of the main loop *)
Definition psim_iteration (p : sim_params) (k : kinetic) (noHS : bool) (st : strat) (it : Z) (x : psimstate)
  : option (option psimstate) :=
  let neqlt := if sp_nequil p <=? it then sp_neqlt p else 0 in
  let* o := phonon_iteration rng accumulate (measure_phonons p) la junk k noHS st (sp_phonon p) (sp_dt p) (sp_mu p) (sp_nwraps p) neqlt
              (new_ph_order (ts_N (mc_tu (p_mc (ps_ph x)))) (ps_ph x)) in
  match o with
  | None => Some None
  | Some y =>
    let* x := pmeasure_unequal p it (mk_psim y (ps_Hu x) (ps_Hd x) (ps_un x)) in
    Some (Some x)
  end.

(** measurement.c:960-965: counters of the updates *)
Definition no_updates : counts := mk_counts 0 0 0 0 0 0.

(** main.c:110-223 with DQMCSimulation: everything before the normalisation *)
Definition psim_run (p : sim_params) (seed : RS) : option (option psimstate) :=
  let Ncell := sp_Nx p * sp_Ny p in
  let N := sp_Norb p * Ncell in
  let* m0 := allocate_meas ijunk (sp_Norb p) (sp_Nx p) (sp_Ny p) (sp_pbc_shift p) in
  let* u0 := allocate_umeas ijunk (sp_Norb p) (sp_Nx p) (sp_Ny p) (sp_pbc_shift p) (sp_L p) in
  let* Hu := temp_matrix junk p N in
  let* Hd := temp_matrix junk p N in
  let* e0 := allocate_for_run (sp_Norb p) (sp_Nx p) (sp_Ny p) (sp_L p) (sp_nsampl p) (sp_neqlt p) in
  let* (s, seed) := initial_field rng ijunk (sp_L p * N) seed in
  let* (seed, XX) := init_phonon_field rng junk (sp_phonon p) (sp_dt p) Ncell N (sp_L p) seed in
  let* k := kinetic_exponential la junk p in
  let* noHS := no_hs (sp_Norb p) (sp_U p) in
  let* st := fill_stratonovich (sp_Norb p) (sp_U p) (sp_dt p) (fresh junk (sp_Norb p)) in
  let* x := phonon_setup la junk k st N (sp_L p) (sp_prodBlen p) seed (raw_ints ijunk N) s (fst XX) (snd XX) no_updates m0 e0 in
  for_range 0 (sp_nequil p + sp_nsampl p) (fun it => may_hang (psim_iteration p k noHS st it)) (Some (mk_psim x Hu Hd u0)).

(** main.c:231-244: normalisation after the last iteration; results: equal time, unequal time and phonon
    data, and the counters *)
Definition psimulation (p : sim_params) (seed : RS) : option (option (meas * option umeas * pmeas * counts)) :=
  let* o := psim_run p seed in
  match o with
  | None => Some None
  | Some x =>
    let* m := normalize (mc_meas (p_mc (ps_ph x))) in
    let* u := (if 0 <? sp_nuneqlt p then let* u := unormalize (ps_un x) in Some (Some u) else Some None) in
    let* e := pnormalize (p_meas (ps_ph x)) in
    Some (Some (m, u, e, p_cnt (ps_ph x)))
  end.
End PSimulation.
