(** What the unequal time quantities mean, independent of the code. *)
From Coq Require Import ZArith List Reals.
From Verif Require Import Sums LatticeSpec WickSpec Measure MeasureSpec UMeasure.
Import ListNotations.
Local Open Scope Z_scope.

(** The Green's functions of the configuration for time difference l, from the arrays
    G(l,0) (blocks of rows), G(0,l) and G(l,l) (blocks of columns) *)
Definition uconfig (N L l : Z) (c : cur_greens) : config :=
  mk_config
    (fun s i j => val (match s with up => cGeqlt_u c | dn => cGeqlt_d c end) (i + N * (j + N * l)))
    (fun s i j => val (match s with up => cGeqlt_u c | dn => cGeqlt_d c end) (i + N * j))
    (fun s i j => val (match s with up => cGtau0_u c | dn => cGtau0_d c end) (i + N * (l + L * j)))
    (fun s i j => val (match s with up => cG0tau_u c | dn => cG0tau_d c end) (i + N * (j + N * l)))
    (l =? 0).

(** array dimensions, and agreement of the three Green's functions at l = 0 *)
Definition cur_ok (N L : Z) (c : cur_greens) : Prop :=
  (forall a, In a [cGtau0_u c; cG0tau_u c; cGeqlt_u c; cGtau0_d c; cG0tau_d c; cGeqlt_d c] ->
     Z.of_nat (length a) = N * N * L) /\
  (forall s i j, 0 <= i < N -> 0 <= j < N ->
     gt0 (uconfig N L 0 c) s i j = gtt (uconfig N L 0 c) s i j /\
     g0t (uconfig N L 0 c) s i j = gtt (uconfig N L 0 c) s i j).

(** position of (displacement k, orbitals o and p, time difference l) in a correlation array *)
Definition uentry (Norb Ncell o p l k : Z) : Z := k + Ncell * (o + Norb * p + Norb * Norb * l).

Definition u_two_point (f : ufield) (w : config) (i j : Z) : R :=
  match f with
  | Geqlt_u => gtt w up i j | Geqlt_d => gtt w dn i j
  | Gtau0_u => gt0 w up i j | Gtau0_d => gt0 w dn i j
  | G0tau_u => g0t w up i j | G0tau_d => g0t w dn i j
  | nn_corr => correlation w (charge i) (charge j)
  | u_zz_corr => correlation w (spin_z i) (spin_z j)
  | u_xx_corr => correlation w (spin_x i) (spin_x j)
  | _ => 0
  end%R.
Definition u_two_point_fields : list ufield :=
  [Geqlt_u; Geqlt_d; Gtau0_u; Gtau0_d; G0tau_u; G0tau_d; nn_corr; u_zz_corr; u_xx_corr].

(** weights of the Raman operators *)
Definition b1g_shape (nb : Z * Z -> Z) : list (R * Z) :=
  [(/4, nb (1, 0)%Z); (/4, nb (-1, 0)%Z); (-/4, nb (0, 1)%Z); (-/4, nb (0, -1)%Z)]%R.
Definition b2g_shape (nb : Z * Z -> Z) : list (R * Z) :=
  [(/4, nb (1, 1)%Z); (-/4, nb (-1, 1)%Z); (-/4, nb (1, -1)%Z); (/4, nb (-1, -1)%Z)]%R.

(** pair, current and Raman correlations of the cells at sites i and j with neighbours nbi, nbj;
    the current operator carries a factor of the imaginary unit *)
Definition u_bond (f : ufield) (w : config) (i j : Z) (nbi nbj : Z * Z -> Z) : R :=
  match f with
  | u_sc_c_sw => pair_correlation w (pair_op i (pair_shape sc_c_sw nbi)) (pair_op j (pair_shape sc_c_sw nbj))
  | u_sc_c_dw => pair_correlation w (pair_op i (pair_shape sc_c_dw nbi)) (pair_op j (pair_shape sc_c_dw nbj))
  | u_sc_c_sx => pair_correlation w (pair_op i (pair_shape sc_c_sx nbi)) (pair_op j (pair_shape sc_c_sx nbj))
  | Jcorr_x => - correlation w (current i (nbi (1, 0)%Z)) (current j (nbj (1, 0)%Z))
  | Jcorr_y => - correlation w (current i (nbi (0, 1)%Z)) (current j (nbj (0, 1)%Z))
  | ram_b1g => correlation w (hop_op i (b1g_shape nbi)) (hop_op j (b1g_shape nbj))
  | ram_b2g => correlation w (hop_op i (b2g_shape nbi)) (hop_op j (b2g_shape nbj))
  | _ => 0
  end%R.
Definition u_bond_fields : list ufield := [u_sc_c_sw; u_sc_c_dw; u_sc_c_sx; Jcorr_x; Jcorr_y; ram_b1g; ram_b2g].
