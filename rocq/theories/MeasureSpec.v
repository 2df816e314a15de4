(** What the measured quantities mean, independent of the code: each array entry in terms of
    expectation values (WickSpec.v) on the lattice (LatticeSpec.v). *)
From Coq Require Import ZArith List Reals.
From Verif Require Import Sums LatticeSpec WickSpec GreenConstruct Measure.
Import ListNotations.
Local Open Scope Z_scope.

(** entry k of an array *)
Definition val (a : list R) (k : Z) : R := nth (Z.to_nat k) a 0%R.

(** site number of orbital o in cell i *)
Definition site (Ncell i o : Z) : Z := i + Ncell * o.
(** position of (displacement k, orbitals o and p) in a correlation array *)
Definition entry (Norb Ncell o p k : Z) : Z := k + Ncell * (o + Norb * p).

(** sum of two cells as displacements, and the cell reached from c by the step d *)
Definition cell_plus (Nx Ny shift a b : Z) : Z := wrap Nx Ny shift (vplus (coords Nx a) (coords Nx b)).
Definition cell_step (Nx Ny shift : Z) (d : Z * Z) (c : Z) : Z := wrap Nx Ny shift (vplus (coords Nx c) d).

(** Green's functions of both spins as functions of two sites *)
Definition greens_of (N : Z) (Gu Gd : greens_func) : spin -> Z -> Z -> R :=
  fun s i j => val (gf_mat (match s with up => Gu | dn => Gd end)) (i + N * j).
(** sign of the configuration *)
Definition sign_of (Gu Gd : greens_func) : R := IZR (gf_sgndet Gu * gf_sgndet Gd).

Definition average (n : Z) (f : Z -> R) : R := (sum 0 n f / IZR n)%R.

(** the two-site correlations, for operators at site i (later time) and j *)
Definition two_point (f : mfield) (w : config) (i j : Z) : R :=
  match f with
  | uu_corr => correlation w (number up i) (number up j)
  | dd_corr => correlation w (number dn i) (number dn j)
  | ud_corr => correlation w (number up i) (number dn j) + correlation w (number dn i) (number up j)
  | zz_corr => correlation w (spin_z i) (spin_z j)
  | xx_corr => correlation w (spin_x i) (spin_x j)
  | ff_corr => (correlation w (number up i) (number up j) - expect_tt w (number up i) * expect_00 w (number up j))
             + (correlation w (number dn i) (number dn j) - expect_tt w (number dn i) * expect_00 w (number dn j))
  | _ => 0
  end%R.

Definition two_point_fields : list mfield := [uu_corr; dd_corr; ud_corr; ff_corr; zz_corr; xx_corr].

(** the sites on which the second electron of a pair sits, with weights: on site, d-wave and
    extended s-wave; [nb] gives the cell reached by a step *)
Definition pair_shape (f : mfield) (nb : Z * Z -> Z) : list (R * Z) :=
  match f with
  | sc_c_sw => [(1, nb (0, 0)%Z)]
  | sc_c_dw => [(/2, nb (1, 0)%Z); (/2, nb (-1, 0)%Z); (-/2, nb (0, 1)%Z); (-/2, nb (0, -1)%Z)]
  | sc_c_sx => [(/2, nb (1, 0)%Z); (/2, nb (-1, 0)%Z); (/2, nb (0, 1)%Z); (/2, nb (0, -1)%Z)]
  | _ => []
  end%R.
Definition pair_fields : list mfield := [sc_c_sw; sc_c_dw; sc_c_sx].
