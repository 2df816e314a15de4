(** The hopping matrix of the lattice, independent of the code.

    Site (c, o) = orbital o of cell c has number c + o * Ncell.  A bond starts at orbital o of
    a cell and ends at orbital q of the cell displaced by a fixed vector. *)
From Coq Require Import ZArith List Reals Bool.
From Verif Require Import SimParams ParamSpec LatticeSpec.
Import ListNotations.
Local Open Scope Z_scope.

(** the kinds of bonds: table of amplitudes and displacement of the end *)
Definition bond_kinds (t : bonds) : list (list R * (Z * Z)) :=
  [ (t_aa t, (0, 0)); (t_ab t, (1, 0)); (t_ac t, (0, 1)); (t_ad t, (1, 1)); (t_bc t, (-1, 1)) ].

Section Spec.
Variable p : sim_params.
Let Nx := sp_Nx p.
Let Ny := sp_Ny p.
Let Ncell := Nx * Ny.

(** the cell reached from cell c by displacement v *)
Definition moved (c : Z) (v : Z * Z) : Z := wrap Nx Ny (sp_pbc_shift p) (vplus (coords Nx c) v).

(** amplitude of the bonds of one kind that start at (a, o) and end at (b, q) *)
Definition amplitude (kind : list R * (Z * Z)) (a o b q : Z) : R :=
  if moved a (snd kind) =? b then hop (fst kind) (sp_Norb p) o q else 0%R.

(** sum of the amplitudes of all bonds that connect (a, o) and (b, q) *)
Definition total_amplitude (a o b q : Z) : R :=
  fold_right Rplus 0%R
    (map (fun kind => (amplitude kind a o b q + amplitude kind b q a o)%R) (bond_kinds (sp_t p))).

(** entry (r, s) of a matrix stored by columns *)
Definition entry (N : Z) (m : list R) (r s : Z) : R := nth (Z.to_nat (r + N * s)) m 0%R.

Definition well_formed : Prop :=
  0 < sp_Norb p /\ 0 < Nx /\ 0 < Ny /\ 0 <= sp_pbc_shift p /\
  Forall (fun t => Z.of_nat (length t) = sp_Norb p * sp_Norb p)
    [t_aa (sp_t p); t_ab (sp_t p); t_ac (sp_t p); t_ad (sp_t p); t_bc (sp_t p)] /\
  Z.of_nat (length (sp_eps p)) = sp_Norb p.
End Spec.
