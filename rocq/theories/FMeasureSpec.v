(** What the arrays of the measurements recorded for every site mean, independent of the code. *)
From Coq Require Import ZArith List Reals.
From Verif Require Import Sums LatticeSpec WickSpec GreenConstruct Measure MeasureSpec UMeasure UMeasureSpec.
Import ListNotations.
Local Open Scope Z_scope.

(** position of the sites i and j, and of the cells i and j of orbital o *)
Definition pair_pos (N i j : Z) : Z := i + N * j.
Definition cells_pos (Ncell o i j : Z) : Z := i + Ncell * j + Ncell * Ncell * o.
(** the same at time difference l; the Green's functions have the layout of the arrays returned by
    ComputeUnequalTimeGreensFunction *)
Definition upair_pos (N L : Z) (f : ufield) (l i j : Z) : Z :=
  match f with
  | Gtau0_u | Gtau0_d => i + N * (l + L * j)
  | G0tau_u | G0tau_d | Geqlt_u | Geqlt_d => i + N * (j + N * l)
  | _ => i + N * j + N * N * l
  end.
Definition ucells_pos (Norb Ncell l o i j : Z) : Z := i + Ncell * j + Ncell * Ncell * (o + Norb * l).

(** correlations of bonds recorded for every pair of cells: all but the currents *)
Definition site_bond_fields : list ufield := [u_sc_c_sw; u_sc_c_dw; u_sc_c_sx; ram_b1g; ram_b2g].

(** The translation averaged data [a] are the averages over all cells of the data [s] recorded
    for every site. *)
Definition averages_of (Norb Nx Ny shift : Z) (a s : meas) : Prop :=
  let Ncell := Nx * Ny in let N := Nx * Ny * Norb in
  (forall f o p k, In f two_point_fields -> 0 <= o < Norb -> 0 <= p < Norb -> 0 <= k < Ncell ->
     val (m_arr a f) (entry Norb Ncell o p k) = average Ncell (fun i =>
       val (m_arr s f) (pair_pos N (site Ncell i o) (site Ncell (cell_plus Nx Ny shift k i) p)))) /\
  (forall f o, In f [density_u; density_d; doubleocc] -> 0 <= o < Norb ->
     val (m_arr a f) o = average Ncell (fun i => val (m_arr s f) (site Ncell i o))) /\
  (forall f o k, In f pair_fields -> 0 <= o < Norb -> 0 <= k < Ncell ->
     val (m_arr a f) (k + Ncell * o) = average Ncell (fun i =>
       val (m_arr s f) (cells_pos Ncell o i (cell_plus Nx Ny shift k i)))) /\
  (forall f i j, In f [grfun_u; grfun_d] -> 0 <= i < N -> 0 <= j < N ->
     val (m_arr a f) (i + N * j) = val (m_arr s f) (pair_pos N i j)) /\
  m_sign a = m_sign s /\ m_nsampl a = m_nsampl s.

Definition u_averages_of (Norb Nx Ny shift L : Z) (a s : umeas) : Prop :=
  let Ncell := Nx * Ny in let N := Nx * Ny * Norb in
  (forall f l o p k, In f u_two_point_fields ->
     0 <= l < L -> 0 <= o < Norb -> 0 <= p < Norb -> 0 <= k < Ncell ->
     val (u_arr a f) (uentry Norb Ncell o p l k) = average Ncell (fun i =>
       val (u_arr s f) (upair_pos N L f l (site Ncell i o) (site Ncell (cell_plus Nx Ny shift k i) p)))) /\
  (forall f l o k, In f site_bond_fields -> 0 <= l < L -> 0 <= o < Norb -> 0 <= k < Ncell ->
     val (u_arr a f) (k + (Ncell * o + N * l)) = average Ncell (fun i =>
       val (u_arr s f) (ucells_pos Norb Ncell l o i (cell_plus Nx Ny shift k i)))) /\
  u_sign a = u_sign s /\ u_nsampl a = u_nsampl s.
