(** The matrix exponential as a power series, independent of the code. *)
From Coq Require Import ZArith List Reals.
From mathcomp Require Import all_ssreflect ssralg matrix.
From Verif Require Import RField MatSpec Lapack LapackSpec SimParams KineticSpec.
Set Implicit Arguments.
Unset Strict Implicit.
Unset Printing Implicit Defensive.
Local Open Scope ring_scope.

(** A^k *)
Definition mpow (n : nat) (A : 'M[R]_n) (k : nat) : 'M[R]_n := iter k (mulmx A) 1%:M.

(** E = sum over k of A^k / k!, entry by entry *)
Definition is_exp (n : nat) (A E : 'M[R]_n) : Prop :=
  forall i j, infinite_sum (fun k => Rmult (Rinv (INR (Factorial.fact k))) (mpow A k i j)) (E i j).

(** the eigensolver succeeds for every symmetric matrix *)
Definition syev_converges (la : lapack) : Prop :=
  forall n A, List.length A = (n * n)%N -> (mat n A)^T = mat n A -> snd (la_syev la (Z.of_nat n) A) = 0%Z.

(** the number of sites *)
Definition sites (p : sim_params) : nat := Z.to_nat (sp_Norb p * (sp_Nx p * sp_Ny p)).

(** the one particle Hamiltonian: site energies minus the chemical potential on the diagonal,
    minus the amplitudes of the connecting bonds elsewhere *)
Definition hamiltonian (p : sim_params) : 'M[R]_(sites p) :=
  let Ncell := Z.mul (sp_Nx p) (sp_Ny p) in
  let cell (i : 'I_(sites p)) := Z.modulo (Z.of_nat i) Ncell in
  let orb (i : 'I_(sites p)) := Z.div (Z.of_nat i) Ncell in
  \matrix_(i, j)
    if i == j then Rminus (List.nth (Z.to_nat (orb i)) (sp_eps p) R0) (sp_mu p)
    else Ropp (total_amplitude p (cell i) (orb i) (cell j) (orb j)).
