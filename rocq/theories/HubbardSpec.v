(** The Hubbard model in second quantisation, independent of the code. *)
From Coq Require Import ZArith List Reals.
From mathcomp Require Import all_ssreflect ssralg matrix.
From Verif Require Import RField TimeStep TimeStepSpec Strat SimParams KineticExpSpec FockSpec WickSpec.
Set Implicit Arguments.
Unset Strict Implicit.
Unset Printing Implicit Defensive.
Local Open Scope ring_scope.

(** two modes for each of n sites *)
Definition place (n : nat) (s : spin) (i : 'I_n) : 'I_(n + n) :=
  match s with up => lshift n i | dn => rshift n i end.

(** operators on the Fock space of n sites, creation and annihilation of an electron *)
Notation fock n := 'M[R]_(fdim (n + n)).
Definition cdag (n : nat) (s : spin) (i : 'I_n) : fock n := create R_comRingType (place s i).
Definition cann (n : nat) (s : spin) (i : 'I_n) : fock n := annihilate R_comRingType (place s i).

Section Model.
Variable p : sim_params.
Let n := sites p.

(** interaction strength at site [i] *)
Definition site_U (i : 'I_n) : R := List.nth (Z.to_nat (Z.div (Z.of_nat i) (Z.mul (sp_Nx p) (sp_Ny p)))) (sp_U p) R0.

(** sum of h_ij c^dag_i c_j for both spins: hopping, site energies and chemical potential *)
Definition kinetic_energy : fock n :=
  \sum_i \sum_j hamiltonian p i j *: (cdag up i *m cann up j + cdag dn i *m cann dn j).

(** sum of U_i (n_iup - 1/2) (n_idn - 1/2) *)
Definition interaction : fock n :=
  \sum_i site_U i *: ((cdag up i *m cann up i - (Rdiv 1 2)%:M) *m (cdag dn i *m cann dn i - (Rdiv 1 2)%:M)).
End Model.

(** an operator of the mode [a] with a site number from 0 to n-1 *)
Definition cdag_at (n : nat) (a : mode) : fock n :=
  match insub (Z.to_nat (snd a)) with Some i => cdag (fst a) i | None => 0 end.
Definition cann_at (n : nat) (a : mode) : fock n :=
  match insub (Z.to_nat (snd a)) with Some i => cann (fst a) i | None => 0 end.

(** sum of x c^dag_a c_b *)
Definition bilinear_op (n : nat) (A : bilinear) : fock n :=
  \sum_(t <- A) t.1.1 *: (cdag_at n t.1.2 *m cann_at n t.2).
(** sum of x c_a c_b *)
Definition pairing_op (n : nat) (A : pairing) : fock n :=
  \sum_(t <- A) t.1.1 *: (cann_at n t.1.2 *m cann_at n t.2).

(** site numbers in range *)
Definition on_lattice (n : nat) (A : list (R * mode * mode)) : Prop :=
  List.Forall (fun t => (0 <= snd t.1.2 < Z.of_nat n)%Z /\ (0 <= snd t.2 < Z.of_nat n)%Z) A.

(** the operator of slice [l] for the field [s]: exp(V_l) diagonal in the occupation numbers, followed by [EK] *)
Definition field_op (n : nat) (k : kinetic) (st : strat) (EK : fock n) (s : list Z) (l : nat) : fock n :=
  occupied_prod (fun j => match fintype.split j with
    | inl i => field_factor n (k_Ncell k) (expVu st) s l i
    | inr i => field_factor n (k_Ncell k) (expVd st) s l i
    end) *m EK.

(** Tr F(L-1) ... F(l) O F(l-1) ... F(0) O': the operator O' acts at time 0, the operator O at time l *)
Definition trace_at (n : nat) (F : nat -> fock n) (L l : nat) (O O' : fock n) : R :=
  \tr (oprod F l (L - l) *m O *m oprod F 0 l *m O').
