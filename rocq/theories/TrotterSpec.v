(** The error of the Trotter product: exact thermal expectation values.  Independent of the code. *)
From Coq Require Import ZArith List Reals.
From mathcomp Require Import all_ssreflect ssralg matrix.
From Verif Require Import Base RField SimParams KineticExpSpec LatticeSpec WickSpec Measure MeasureSpec FockSpec HubbardSpec ThermalSpec.
Set Implicit Arguments.
Unset Strict Implicit.
Unset Printing Implicit Defensive.
Local Open Scope ring_scope.

(** sum of the absolute values in a row, and an upper bound of these for all rows *)
Definition row_sum (n : nat) (A : 'M[R]_n) (i : 'I_n) : R := \sum_j Rabs (A i j).
Definition rows_le (n : nat) (A : 'M[R]_n) (a : R) : Prop := forall i, Rle (row_sum A i) a.

(** <O(tau) O'(0)> at inverse temperature [beta], where [expH t] is exp(-t H) *)
Definition exact (n : nat) (expH : R -> fock n) (beta tau : R) (O O' : fock n) : R :=
  Rdiv (\tr (expH (Rminus beta tau) *m O *m expH tau *m O')) (\tr (expH beta)).

(** two numbers differ by at most [eps] *)
Definition within (eps x y : R) : Prop := Rle (Rabs (Rminus x y)) eps.

(** the same lattice and Hamiltonian; the number and width of the time steps and all other settings of the simulation are arbitrary *)
Definition same_model (p q : sim_params) : Prop :=
  sp_Norb p = sp_Norb q /\ sp_Nx p = sp_Nx q /\ sp_Ny p = sp_Ny q /\ sp_pbc_shift p = sp_pbc_shift q /\
  sp_t p = sp_t q /\ sp_U p = sp_U q /\ sp_eps p = sp_eps q /\ sp_mu p = sp_mu q.

(** densities, double occupancies and the correlations of the densities and spins of two sites *)
Record thermal_static (p : sim_params) (close : R -> R -> Prop) (T : fock (sites p) -> R) (value : mfield -> Z -> R) : Prop := {
  ts_two_point : forall f o q d, List.In f [:: uu_corr; dd_corr; ud_corr; zz_corr; xx_corr] ->
    (0 <= o < sp_Norb p)%Z -> (0 <= q < sp_Norb p)%Z -> (0 <= d < sp_Nx p * sp_Ny p)%Z ->
    let Ncell := Z.mul (sp_Nx p) (sp_Ny p) in
    close (value f (entry (sp_Norb p) Ncell o q d)) (average Ncell (fun i =>
      T (two_point_op (sites p) f (site Ncell i o) (site Ncell (cell_plus (sp_Nx p) (sp_Ny p) (sp_pbc_shift p) d i) q))));
  ts_density : forall f s o, List.In (f, s) [:: (density_u, up); (density_d, dn)] -> (0 <= o < sp_Norb p)%Z ->
    let Ncell := Z.mul (sp_Nx p) (sp_Ny p) in
    close (value f o) (average Ncell (fun i => T (bilinear_op (sites p) (number s (site Ncell i o)))));
  ts_doubleocc : forall o, (0 <= o < sp_Norb p)%Z ->
    let Ncell := Z.mul (sp_Nx p) (sp_Ny p) in
    close (value doubleocc o) (average Ncell (fun i =>
      T (bilinear_op (sites p) (number up (site Ncell i o)) *m bilinear_op (sites p) (number dn (site Ncell i o))))) }.
