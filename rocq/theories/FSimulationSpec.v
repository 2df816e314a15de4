(** Results of a complete simulation of the program that records every site. *)
From Coq Require Import ZArith List Reals.
From Verif Require Import SimParams LatticeSpec WickSpec Measure MeasureSpec UMeasure UMeasureSpec FMeasure FMeasureSpec.
Import ListNotations.
Local Open Scope Z_scope.

(** every entry of the arrays is the mean of the expectation value named by its site, pair of sites
    or pair of cells *)
Section Results.
Variable p : sim_params.
Let Norb := sp_Norb p.
Let Nx := sp_Nx p.
Let Ny := sp_Ny p.
Let shift := sp_pbc_shift p.
Let Ncell := Nx * Ny.
Let N := Ncell * Norb.
Let neighbour (o c : Z) (d : Z * Z) : Z := site Ncell (cell_step Nx Ny shift d c) o.

Record site_results (mean : (config -> R) -> R) (m : meas) : Prop := {
  sr_shape : m_Norb m = Norb /\ m_Ncell m = Ncell /\ forall f, Z.of_nat (List.length (m_arr m f)) = fmfield_len Norb Ncell f;
  sr_two_point : forall f i j, In f two_point_fields -> 0 <= i < N -> 0 <= j < N ->
    val (m_arr m f) (pair_pos N i j) = mean (fun w => two_point f w i j);
  sr_density : forall i, 0 <= i < N ->
    val (m_arr m density_u) i = mean (fun w => expect_00 w (number up i)) /\
    val (m_arr m density_d) i = mean (fun w => expect_00 w (number dn i)) /\
    val (m_arr m doubleocc) i = mean (fun w => correlation w (number up i) (number dn i));
  sr_green : forall i j, 0 <= i < N -> 0 <= j < N ->
    val (m_arr m grfun_u) (pair_pos N i j) = mean (fun w => g00 w up i j) /\
    val (m_arr m grfun_d) (pair_pos N i j) = mean (fun w => g00 w dn i j);
  sr_pair : forall f o i j, shift mod Nx = 0 -> In f pair_fields -> 0 <= o < Norb -> 0 <= i < Ncell -> 0 <= j < Ncell ->
    val (m_arr m f) (cells_pos Ncell o i j) = mean (fun w =>
      pair_correlation w (pair_op (site Ncell i o) (pair_shape f (neighbour o i))) (pair_op (site Ncell j o) (pair_shape f (neighbour o j)))) }.

Record site_unequal_results (mean : nat -> (config -> R) -> R) (u : umeas) : Prop := {
  su_two_point : forall f l i j, In f u_two_point_fields -> 0 <= l < sp_L p -> 0 <= i < N -> 0 <= j < N ->
    val (u_arr u f) (upair_pos N (sp_L p) f l i j) = mean (Z.to_nat l) (fun w => u_two_point f w i j);
  su_bond : forall f l o i j, shift mod Nx = 0 -> In f site_bond_fields -> (f = ram_b1g -> (Nx = 1 <-> Ny = 1)) ->
    0 <= l < sp_L p -> 0 <= o < Norb -> 0 <= i < Ncell -> 0 <= j < Ncell ->
    val (u_arr u f) (ucells_pos Norb Ncell l o i j) = mean (Z.to_nat l) (fun w =>
      u_bond f w (site Ncell i o) (site Ncell j o) (neighbour o i) (neighbour o j)) }.
End Results.
