(** Half filling on a bipartite lattice. *)
From Coq Require Import ZArith List Reals.
From mathcomp Require Import all_ssreflect ssralg matrix.
From Verif Require Import RField SimParams KineticSpec KineticExpSpec.
Set Implicit Arguments.
Unset Strict Implicit.
Unset Printing Implicit Defensive.

(** The one particle Hamiltonian connects sites of different colours only.  In particular the site energies
    are equal to the chemical potential. *)
Definition bipartite (p : sim_params) (colour : 'I_(sites p) -> bool) : Prop :=
  forall i j, hamiltonian p i j <> R0 -> colour i <> colour j.

(** 1 for sites of the same colour, -1 otherwise *)
Definition stagger (p : sim_params) (colour : 'I_(sites p) -> bool) (i j : 'I_(sites p)) : R :=
  if colour i == colour j then R1 else Ropp R1.
