(** When the sizes fit, in terms of the parameters. *)
From Coq Require Import ZArith List.
From Verif Require Import Base SimParams ParamParser.
Local Open Scope Z_scope.

Definition MAX_INT : Z := 2147483647.

(** number of sites *)
Definition num_sites (p : sim_params) : Z := sp_Norb p * (sp_Nx p * sp_Ny p).
Definition num_blocks (p : sim_params) : Z := sp_L p / sp_prodBlen p.

Record sizes_fit (p : sim_params) : Prop := {
  fit_matrix : num_sites p * num_sites p <= MAX_INT;
  fit_field : sp_L p * num_sites p <= MAX_INT;
  fit_unequal : 0 < sp_nuneqlt p ->
    (num_sites p * num_blocks p) * (num_sites p * num_blocks p) <= MAX_INT /\
    4 * (num_sites p * num_sites p) <= MAX_INT /\
    num_sites p * num_sites p * sp_L p <= MAX_INT;
  fit_phonon : sp_use_phonons p = true ->
    sp_neqlt p <> 0 /\ -2147483648 <= sp_nsampl p * sp_L p <= MAX_INT /\
    0 <= sp_Norb p * Z.quot (sp_nsampl p * sp_L p) (sp_neqlt p) <= MAX_INT }.
