(** How results of simulations depend on the field they start from.  Independent of the code. *)
From Coq Require Import ZArith List Reals.
From Verif Require Import Base SimParams Measure UMeasure Lapack KineticExpSpec RandSource Simulation IdealSpec ThermalSpec.

(** the same input with other numbers of equilibration and measurement sweeps *)
Definition with_counts (p : sim_params) (ne ns : Z) : sim_params := mk_sim_params (sp_Norb p) (sp_Nx p) (sp_Ny p) (sp_pbc_shift p) (sp_t p) (sp_U p)
  (sp_eps p) (sp_mu p) (sp_use_phonons p) (sp_phonon p) (sp_dt p) (sp_L p) (sp_prodBlen p) (sp_nwraps p) ne ns (sp_neqlt p) (sp_nuneqlt p) (sp_itime p) (sp_max_time p).

(** mean of a function [G] of the results of the program started from the field [s], over ideal random numbers *)
Definition mean_from (p : sim_params) (la : lapack) (junk : Z -> R) (ijunk : Z -> Z) (s : list Z) (G : meas * option umeas -> R) : R :=
  tape_mean (sites p) (Z.to_nat (sp_nequil p + sp_nsampl p) * Z.to_nat (sp_L p)) (fun t =>
    match simulation ideal_source la junk ijunk p (start_numbers s, t) with Some (Some x) => G x | _ => 0%R end).

(** runs of the input [p] with [ne] equilibration and [ns] measurement sweeps from the field [s], in which measurements take place *)
Definition run_of (p : sim_params) (ne ns : Z) (s : list Z) : Prop :=
  (0 <= ne)%Z /\ (0 < ns)%Z /\ In s (fields (Z.to_nat (sp_L p) * sites p)) /\
  ((0 < sp_nuneqlt p)%Z -> exists t, (ne <= t < ne + ns)%Z /\ (sp_nuneqlt p | t)%Z).

(** what is left of the start field after [ne] equilibration and [ns] measurement sweeps *)
Definition memory (rate : R) (ne ns : Z) : R := (rate ^ Z.to_nat ne / IZR ns)%R.
Definition long_run (p : sim_params) (rate q : R) (ne ns : Z) (s : list Z) : Prop := run_of p ne ns s /\ (memory rate ne ns <= q)%R.

(** a number depending on the run is [x], up to an error of the order of the memory *)
Definition tends_to (p : sim_params) (rate q : R) (v : Z -> Z -> list Z -> R) (x : R) : Prop :=
  exists D, (0 <= D)%R /\ forall ne ns s, long_run p rate q ne ns s -> (Rabs (v ne ns s - x) <= D * memory rate ne ns)%R.
