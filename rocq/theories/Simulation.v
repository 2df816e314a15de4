(** Model of a complete simulation without phonons: main.c:110-247 for an output directory without
    previous data, and DQMCSimulation (monte_carlo.c:741-862), composed of the models of the
    functions they call.

    Left out: the clock, signals (see Driver.v), messages, profiling and progress, files (Checkpoint.v,
    Driver.v); the Green's functions and time step matrices are freed at the end, which has no effect here.
    The sections of each parallel region are executed one after the other (see Threads.v).
    [junk] and [ijunk] are the contents of freshly allocated memory. *)
From Coq Require Import ZArith List Reals Bool.
From Verif Require Import Base RealOps SimParams ParamParser Blas MatProd TimeStep Strat Lapack GreenConstruct KineticExp
  RandSource Sweep Measure UMeasure UnequalTime.
Import ListNotations.
Local Open Scope Z_scope.

Section Simulation.
Context {RS : Type}.
Variable rng : rand_source RS.
Variable la : lapack.
Variable junk : Z -> R.
Variable ijunk : Z -> Z.

(** memory for [n] integers *)
Definition raw_ints (n : Z) : list Z := map ijunk (map Z.of_nat (seq 0 (Z.to_nat n))).

(** main.c:150-155: random initial field *)
Definition initial_field (len : Z) (seed : RS) : option (list Z * RS) :=
  for_range 0 len (fun i '(s, seed) =>
    let* (u, seed) := r_uniform rng seed in
    let* s := aset s i (if Rlt_dec u 0.5 then 0 else 1) in
    Some (s, seed)) (raw_ints len, seed).

(** what changes in DQMCSimulation: the state of the sweeps with the equal time data, the unequal time
    data and their temporary matrices *)
Record simstate := mk_sim { sm_mc : mcstate RS meas; sm_Hu : list R; sm_Hd : list R; sm_un : umeas }.

(** monte_carlo.c:58-59: DQMCIteration allocates the array for the order of the sites *)
Definition new_order (N : Z) (m : mcstate RS meas) : mcstate RS meas :=
  mk_mc (mc_seed m) (raw_ints N) (mc_s m) (mc_tu m) (mc_td m) (mc_Gu m) (mc_Gd m) (mc_meas m).

(** monte_carlo.c:844-850: unequal time measurement after iteration [it] *)
Definition measure_unequal (p : sim_params) (it : Z) (x : simstate) : option simstate :=
  if (sp_nequil p <=? it) && (0 <? sp_nuneqlt p) then
    let* r := cmod it (sp_nuneqlt p) in
    if r =? 0 then
      let m := sm_mc x in
      let* (HH, u) := accumulate_unequal_time la junk (IZR (gf_sgndet (mc_Gu m) * gf_sgndet (mc_Gd m)))
        (mc_tu m) (mc_td m) (sm_Hu x) (sm_Hd x) (sm_un x) in
      Some (mk_sim m (fst HH) (snd HH) u)
    else Some x
  else Some x.

(** monte_carlo.c:832-850: body of the main loop *)
Definition sim_iteration (p : sim_params) (k : kinetic) (st : strat) (it : Z) (x : simstate) : option (option simstate) :=
  let neqlt := if sp_nequil p <=? it then sp_neqlt p else 0 in
  let* o := dqmc_iteration rng accumulate la junk k st (sp_nwraps p) neqlt (new_order (ts_N (mc_tu (sm_mc x))) (sm_mc x)) in
  match o with
  | None => Some None
  | Some m =>
    let* x := measure_unequal p it (mk_sim m (sm_Hu x) (sm_Hd x) (sm_un x)) in
    Some (Some x)
  end.

(** measurement.c:458-459: the temporary matrices of the unequal time measurements *)
Definition temp_matrix (p : sim_params) (N : Z) : option (list R) :=
  let* nb := cdiv (sp_L p) (sp_prodBlen p) in
  Some (fresh junk (N * nb * (N * nb))).

(** main.c:110-223 with DQMCSimulation: everything before the normalisation; [seed] is the generator
    initialised with the seed number (main.c:148).  Without unequal time measurements their data are not
    allocated; here they are allocated but not used. *)
Definition sim_run (p : sim_params) (seed : RS) : option (option simstate) :=
  let Ncell := sp_Nx p * sp_Ny p in
  let N := sp_Norb p * Ncell in
  let* m0 := allocate_meas ijunk (sp_Norb p) (sp_Nx p) (sp_Ny p) (sp_pbc_shift p) in
  let* u0 := allocate_umeas ijunk (sp_Norb p) (sp_Nx p) (sp_Ny p) (sp_pbc_shift p) (sp_L p) in
  let* Hu := temp_matrix p N in
  let* Hd := temp_matrix p N in
  let* (s, seed) := initial_field (sp_L p * N) seed in
  let* k := kinetic_exponential la junk p in
  let* st := fill_stratonovich (sp_Norb p) (sp_U p) (sp_dt p) (fresh junk (sp_Norb p)) in
  let* m := dqmc_setup la junk k st N (sp_L p) (sp_prodBlen p) seed (raw_ints N) s m0 in
  for_range 0 (sp_nequil p + sp_nsampl p) (fun it => may_hang (sim_iteration p k st it)) (Some (mk_sim m Hu Hd u0)).

(** main.c:231-238: normalisation after the last iteration; results: equal time and unequal time data *)
Definition simulation (p : sim_params) (seed : RS) : option (option (meas * option umeas)) :=
  let* o := sim_run p seed in
  match o with
  | None => Some None
  | Some x =>
    let* m := normalize (mc_meas (sm_mc x)) in
    if 0 <? sp_nuneqlt p then
      let* u := unormalize (sm_un x) in Some (Some (m, Some u))
    else Some (Some (m, None))
  end.
End Simulation.
