(** The phonon data of a complete simulation of the program that records every site. *)
From Coq Require Import ZArith List Reals.
From mathcomp Require Import all_ssreflect ssralg matrix.
From Verif Require Import RField TimeStep Strat SimParams SimulationSpec WickSpec MeasureSpec PMeasure PMeasureSpec PSimulationSpec FPMeasure.
Set Implicit Arguments.
Unset Strict Implicit.
Unset Printing Implicit Defensive.

Section Observables.
Variables (n L : nat) (k : kinetic) (st : strat) (p : sim_params).
Let Norb := sp_Norb p.
Let Ncell := Z.mul (sp_Nx p) (sp_Ny p).
Let Lz := sp_L p.
Let fld := field Norb Ncell.
Let avg := lattice_average Ncell Lz.

(** means of the averages over all cells and time slices, and histories with one entry per measurement *)
Record site_phonon_results (eq : ph_record) (e : fpmeas) : Prop := {
  spr_sign : fp_sign e = list_mean (fun x => psgn n L k st p (snd x)) eq;
  spr_nsampl : fp_nsampl e = Z.of_nat (List.length eq);
  spr_X : forall o, (0 <= o < Norb)%Z -> val (fp_arr e fX_avg) o = field_mean n L k st p eq (fun X => avg (fld X o));
  spr_X_sq : forall o, (0 <= o < Norb)%Z -> val (fp_arr e fX_sq_avg) o = field_mean n L k st p eq (fun X => avg (fun i l => (fld X o i l) ^ 2)%coqR);
  spr_history : forall o j x, (0 <= o < Norb)%Z -> nth_error eq j = Some x ->
    val (fp_arr e fiteration_X_avg) (o + Z.of_nat j * Norb) = Rmult (psgn n L k st p (snd x)) (avg (fld (snd (snd x)) o)) /\
    val (fp_arr e fiteration_X0) (o + Z.of_nat j * Norb) = Rmult (psgn n L k st p (snd x)) (average Lz (fun l => fld (snd (snd x)) o 0%Z l)) }.
End Observables.
