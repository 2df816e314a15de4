(** Model of the parameter record of /repo/include/sim_params.h.

    Arrays are lists in memory order; doubles are real numbers. *)
From Coq Require Import ZArith NArith List Reals.
Import ListNotations.

(** sim_params.h:30-38 [bond_hoppings_t]: entry (i, j) of each is at [i + j*Norb] *)
Record bonds := mk_bonds { t_aa : list R; t_ab : list R; t_ac : list R; t_ad : list R; t_bc : list R }.

(** sim_params.h:50-59 [phonon_params_t] *)
Record phonon_params := mk_phonon_params {
  ph_omega : list R; ph_g : list R;
  ph_local_box_width : R; ph_n_local_updates : Z; ph_block_box_width : R; ph_n_block_updates : Z }.

(** sim_params.h:66-97 [sim_params_t] *)
Record sim_params := mk_sim_params {
  sp_Norb : Z; sp_Nx : Z; sp_Ny : Z; sp_pbc_shift : Z;
  sp_t : bonds; sp_U : list R; sp_eps : list R; sp_mu : R;
  sp_use_phonons : bool; sp_phonon : phonon_params;
  sp_dt : R; sp_L : Z; sp_prodBlen : Z; sp_nwraps : Z;
  sp_nequil : Z; sp_nsampl : Z; sp_neqlt : Z; sp_nuneqlt : Z;
  sp_itime : N; sp_max_time : Z }.
