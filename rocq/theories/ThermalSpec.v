(** What the results of a simulation stand for: expectation values in thermal equilibrium, with the Trotter product
    (exp(-dt V) exp(-dt K))^L in place of exp(-beta (K + V)).  Independent of the code. *)
From Coq Require Import ZArith List Reals.
From mathcomp Require Import all_ssreflect ssralg matrix.
From Verif Require Import Base RField TimeStep TimeStepSpec Strat Lapack SimParams KineticExpSpec RandSource LatticeSpec WickSpec
  Measure MeasureSpec UMeasure UMeasureSpec Simulation IdealSpec FockSpec HubbardSpec.
Set Implicit Arguments.
Unset Strict Implicit.
Unset Printing Implicit Defensive.
Local Open Scope ring_scope.

(** <O(tau) O'(0)> with tau = l dt, beta = L dt *)
Definition thermal (n : nat) (EV EK : fock n) (L l : nat) (O O' : fock n) : R :=
  Rdiv (\tr (mpow (EV *m EK) (L - l) *m O *m mpow (EV *m EK) l *m O')) (\tr (mpow (EV *m EK) L)).

Section Operators.
Variable n : nat.
Notation op A := (bilinear_op n A).

(** the operators of the two-site correlations at equal times *)
Definition two_point_op (f : mfield) (i j : Z) : fock n :=
  match f with
  | uu_corr => op (number up i) *m op (number up j)
  | dd_corr => op (number dn i) *m op (number dn j)
  | ud_corr => op (number up i) *m op (number dn j) + op (number dn i) *m op (number up j)
  | zz_corr => op (spin_z i) *m op (spin_z j)
  | xx_corr => op (spin_x i) *m op (spin_x j)
  | _ => 0
  end.

(** the two-site expectation values at different times, where [T l O O'] stands for <O(tau) O'(0)> *)
Definition two_time (f : ufield) (T : nat -> fock n -> fock n -> R) (l : nat) (i j : Z) : R :=
  match f with
  | Geqlt_u => T l (cann_at n (up, i) *m cdag_at n (up, j)) 1%:M
  | Geqlt_d => T l (cann_at n (dn, i) *m cdag_at n (dn, j)) 1%:M
  | Gtau0_u => T l (cann_at n (up, i)) (cdag_at n (up, j))
  | Gtau0_d => T l (cann_at n (dn, i)) (cdag_at n (dn, j))
  | G0tau_u => if l == 0%N then T l (cann_at n (up, i) *m cdag_at n (up, j)) 1%:M else Ropp (T l (cdag_at n (up, j)) (cann_at n (up, i)))
  | G0tau_d => if l == 0%N then T l (cann_at n (dn, i) *m cdag_at n (dn, j)) 1%:M else Ropp (T l (cdag_at n (dn, j)) (cann_at n (dn, i)))
  | nn_corr => T l (op (charge i)) (op (charge j))
  | u_zz_corr => T l (op (spin_z i)) (op (spin_z j))
  | u_xx_corr => T l (op (spin_x i)) (op (spin_x j))
  | _ => 0
  end.
Definition bond_time (f : ufield) (T : nat -> fock n -> fock n -> R) (l : nat) (i j : Z) (nbi nbj : Z * Z -> Z) : R :=
  let pair c := T l (pairing_op n (pair_op i (pair_shape c nbi))) (pairing_op n (pair_op j (pair_shape c nbj)))^T in
  match f with
  | u_sc_c_sw => pair sc_c_sw
  | u_sc_c_dw => pair sc_c_dw
  | u_sc_c_sx => pair sc_c_sx
  | Jcorr_x => Ropp (T l (op (current i (nbi (1, 0)%Z))) (op (current j (nbj (1, 0)%Z))))
  | Jcorr_y => Ropp (T l (op (current i (nbi (0, 1)%Z))) (op (current j (nbj (0, 1)%Z))))
  | ram_b1g => T l (op (hop_op i (b1g_shape nbi))) (op (hop_op j (b1g_shape nbj)))
  | ram_b2g => T l (op (hop_op i (b2g_shape nbi))) (op (hop_op j (b2g_shape nbj)))
  | _ => 0
  end.
End Operators.

Section Results.
Variable p : sim_params.
Let n := sites p.
Let Norb := sp_Norb p.
Let Nx := sp_Nx p.
Let Ny := sp_Ny p.
Let shift := sp_pbc_shift p.
Let Ncell := Z.mul Nx Ny.
Let N := Z.mul Norb Ncell.
Let neighbour (o c : Z) (d : Z * Z) : Z := site Ncell (cell_step Nx Ny shift d c) o.
Notation op A := (bilinear_op n A).

(** the entries of the equal time arrays agree with, or are close to, the expectation values; [T O] stands for <O>, and [V] is the
    type of an entry: a number, or a number depending on the length of the run *)
Record thermal_equal_time (V : Type) (close : V -> R -> Prop) (T : fock n -> R) (value : mfield -> Z -> V) : Prop := {
  te_two_point : forall f o q d, List.In f [:: uu_corr; dd_corr; ud_corr; zz_corr; xx_corr] ->
    (0 <= o < Norb)%Z -> (0 <= q < Norb)%Z -> (0 <= d < Ncell)%Z ->
    close (value f (entry Norb Ncell o q d)) (average Ncell (fun i => T (two_point_op n f (site Ncell i o) (site Ncell (cell_plus Nx Ny shift d i) q))));
  te_density_u : forall o, (0 <= o < Norb)%Z -> close (value density_u o) (average Ncell (fun i => T (op (number up (site Ncell i o)))));
  te_density_d : forall o, (0 <= o < Norb)%Z -> close (value density_d o) (average Ncell (fun i => T (op (number dn (site Ncell i o)))));
  te_doubleocc : forall o, (0 <= o < Norb)%Z ->
    close (value doubleocc o) (average Ncell (fun i => T (op (number up (site Ncell i o)) *m op (number dn (site Ncell i o)))));
  te_green_u : forall i j, (0 <= i < N)%Z -> (0 <= j < N)%Z -> close (value grfun_u (i + N * j)%Z) (T (cann_at n (up, i) *m cdag_at n (up, j)));
  te_green_d : forall i j, (0 <= i < N)%Z -> (0 <= j < N)%Z -> close (value grfun_d (i + N * j)%Z) (T (cann_at n (dn, i) *m cdag_at n (dn, j)));
  te_pair : forall f o d, Z.modulo shift Nx = 0%Z -> List.In f pair_fields -> (0 <= o < Norb)%Z -> (0 <= d < Ncell)%Z ->
    close (value f (d + Ncell * o)%Z) (average Ncell (fun i => let j := cell_plus Nx Ny shift d i in
      T (pairing_op n (pair_op (site Ncell i o) (pair_shape f (neighbour o i))) *m
        (pairing_op n (pair_op (site Ncell j o) (pair_shape f (neighbour o j))))^T))) }.

(** the entries of the unequal time arrays *)
Record thermal_unequal_time (V : Type) (close : V -> R -> Prop) (T : nat -> fock n -> fock n -> R) (value : ufield -> Z -> V) : Prop := {
  tu_two_point : forall f l o q d, List.In f u_two_point_fields -> (0 <= l < sp_L p)%Z ->
    (0 <= o < Norb)%Z -> (0 <= q < Norb)%Z -> (0 <= d < Ncell)%Z ->
    close (value f (uentry Norb Ncell o q l d)) (average Ncell (fun i =>
      two_time f T (Z.to_nat l) (site Ncell i o) (site Ncell (cell_plus Nx Ny shift d i) q)));
  tu_bond : forall f l o d, Z.modulo shift Nx = 0%Z -> List.In f u_bond_fields -> (f = ram_b1g -> (Nx = 1 <-> Ny = 1)%Z) ->
    (0 <= l < sp_L p)%Z -> (0 <= o < Norb)%Z -> (0 <= d < Ncell)%Z ->
    close (value f (d + (Ncell * o + N * l))%Z) (average Ncell (fun i => let j := cell_plus Nx Ny shift d i in
      bond_time f T (Z.to_nat l) (site Ncell i o) (site Ncell j o) (neighbour o i) (neighbour o j))) }.

(** random numbers for which the program starts from the field [s] *)
Definition start_numbers (s : list Z) : list R := List.map (fun v => if (v =? 0)%Z then Rdiv 1 4 else R1) s.

(** mean of a function [G] of the results of the program, for a start field with probability proportional to |W|
    and ideal random numbers *)
Definition mean_result (la : lapack) (junk : Z -> R) (ijunk : Z -> Z) (W : list Z -> R) (G : meas * option umeas -> R) : R :=
  let L := Z.to_nat (sp_L p) in
  Rdiv (total (fun s => Rmult (Rabs (W s)) (tape_mean n (Z.to_nat (sp_nequil p + sp_nsampl p) * L) (fun t =>
      match simulation ideal_source la junk ijunk p (start_numbers s, t) with Some (Some x) => G x | _ => R0 end)))
      (fields (L * n)))
    (total (fun s => Rabs (W s)) (fields (L * n))).
End Results.
