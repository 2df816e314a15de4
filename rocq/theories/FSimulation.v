(** Model of a complete simulation without phonons for the program built with measurement_full.c in the place of
    measurement.c: Simulation.v with the functions of FMeasure.v.

    Left out: as in Simulation.v.  The parts of main.c and monte_carlo.c that do not measure are those of Simulation.v. *)
From Coq Require Import ZArith List Reals Bool.
From Verif Require Import Base RealOps SimParams ParamParser Blas MatProd TimeStep Strat Lapack GreenConstruct KineticExp
  RandSource Sweep Measure UMeasure UnequalTime Simulation FMeasure.
Import ListNotations.
Local Open Scope Z_scope.

(** measurement_full.c:471-691 [AccumulateUnequalTimeMeasurement]; result: Hu, Hd and the measurement data.
    The allocation and computation of the Green's functions (lines 481-508) are the statements of measurement.c:561-584 *)
Definition f_accumulate_unequal_time (la : lapack) (junk : Z -> R) (sign : R) (tu td : tsm) (Hu Hd : list R) (m : umeas)
  : option (list R * list R * umeas) :=
  let N := u_Ncell m * u_Norb m in
  let* (HH, c) := current_greens la junk N (u_L m) tu td Hu Hd in
  let* m := fu_accumulate sign c m in
  Some (HH, m).

Section FSimulation.
Context {RS : Type}.
Variable rng : rand_source RS.
Variable la : lapack.
Variable junk : Z -> R.
Variable ijunk : Z -> Z.

(** monte_carlo.c:844-850: unequal time measurement after iteration [it] *)
Definition f_measure_unequal (p : sim_params) (it : Z) (x : simstate (RS := RS)) : option (simstate (RS := RS)) :=
  if (sp_nequil p <=? it) && (0 <? sp_nuneqlt p) then
    let* r := cmod it (sp_nuneqlt p) in
    if r =? 0 then
      let m := sm_mc x in
      let* (HH, u) := f_accumulate_unequal_time la junk (IZR (gf_sgndet (mc_Gu m) * gf_sgndet (mc_Gd m)))
        (mc_tu m) (mc_td m) (sm_Hu x) (sm_Hd x) (sm_un x) in
      Some (mk_sim m (fst HH) (snd HH) u)
    else Some x
  else Some x.

(** monte_carlo.c:832-850: body of the main loop *)
Definition fsim_iteration (p : sim_params) (k : kinetic) (st : strat) (it : Z) (x : simstate (RS := RS)) : option (option (simstate (RS := RS))) :=
  let neqlt := if sp_nequil p <=? it then sp_neqlt p else 0 in
  let* o := dqmc_iteration rng f_accumulate la junk k st (sp_nwraps p) neqlt (new_order ijunk (ts_N (mc_tu (sm_mc x))) (sm_mc x)) in
  match o with
  | None => Some None
  | Some m =>
    let* x := f_measure_unequal p it (mk_sim m (sm_Hu x) (sm_Hd x) (sm_un x)) in
    Some (Some x)
  end.

(** main.c:110-223 with DQMCSimulation: everything before the normalisation; [seed] is the generator
    initialised with the seed number (main.c:148).  Without unequal time measurements their data are not
    allocated; here they are allocated but not used. *)
Definition fsim_run (p : sim_params) (seed : RS) : option (option (simstate (RS := RS))) :=
  let Ncell := sp_Nx p * sp_Ny p in
  let N := sp_Norb p * Ncell in
  let* m0 := f_allocate ijunk (sp_Norb p) (sp_Nx p) (sp_Ny p) (sp_pbc_shift p) in
  let* u0 := fu_allocate ijunk (sp_Norb p) (sp_Nx p) (sp_Ny p) (sp_pbc_shift p) (sp_L p) in
  let* Hu := temp_matrix junk p N in
  let* Hd := temp_matrix junk p N in
  let* (s, seed) := initial_field rng ijunk (sp_L p * N) seed in
  let* k := kinetic_exponential la junk p in
  let* st := fill_stratonovich (sp_Norb p) (sp_U p) (sp_dt p) (fresh junk (sp_Norb p)) in
  let* m := dqmc_setup la junk k st N (sp_L p) (sp_prodBlen p) seed (raw_ints ijunk N) s m0 in
  for_range 0 (sp_nequil p + sp_nsampl p) (fun it => may_hang (fsim_iteration p k st it)) (Some (mk_sim m Hu Hd u0)).

(** main.c:231-238: normalisation after the last iteration; results: equal time and unequal time data *)
Definition fsimulation (p : sim_params) (seed : RS) : option (option (meas * option umeas)) :=
  let* o := fsim_run p seed in
  match o with
  | None => Some None
  | Some x =>
    let* m := f_normalize (mc_meas (sm_mc x)) in
    if 0 <? sp_nuneqlt p then
      let* u := fu_normalize (sm_un x) in Some (Some (m, Some u))
    else Some (Some (m, None))
  end.
End FSimulation.
