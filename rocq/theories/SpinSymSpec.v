(** Systems without repulsion: specification vocabulary. *)
From Coq Require Import ZArith List Reals.
From Verif Require Import SimParams Measure UMeasure PMeasure.
Import ListNotations.
Local Open Scope Z_scope.

(** U = 0 for all orbitals *)
Definition no_repulsion (p : sim_params) : Prop := List.Forall (fun u => u = 0%R) (sp_U p).

(** Results with mean sign 1 and without preferred spin direction: both spin species have the same densities,
    Green's functions and correlations, the z and x components of the spin have the same correlations, and
    these are those of the density fluctuations. *)
Definition spin_symmetric (m : meas) : Prop :=
  m_sign m = 1%R /\ m_arr m density_u = m_arr m density_d /\ m_arr m grfun_u = m_arr m grfun_d /\
  m_arr m uu_corr = m_arr m dd_corr /\ m_arr m zz_corr = m_arr m xx_corr /\ m_arr m ff_corr = m_arr m xx_corr.

Definition u_spin_symmetric (u : umeas) : Prop :=
  u_sign u = 1%R /\ u_arr u Gtau0_u = u_arr u Gtau0_d /\ u_arr u G0tau_u = u_arr u G0tau_d /\
  u_arr u Geqlt_u = u_arr u Geqlt_d /\ u_arr u u_zz_corr = u_arr u u_xx_corr.
