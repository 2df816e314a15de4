(** Model of the equal time measurements, /repo/src/measurement.c.

    The structure measurement_data_t (measurement.h:11-46) is a record with the fourteen arrays
    of doubles as a function from their names.  Integers do not wrap around (see Overflow.v),
    doubles are real numbers. *)
From Coq Require Import ZArith List Reals Bool.
From Verif Require Import Base RealOps Blas Lattice GreenConstruct MatProd Accum.
Import ListNotations.
Local Open Scope Z_scope.

(** measurement.h:13-30, the arrays of doubles *)
Inductive mfield :=
| density_u | density_d | doubleocc | grfun_u | grfun_d
| uu_corr | dd_corr | ud_corr | ff_corr | zz_corr | xx_corr
| sc_c_sw | sc_c_dw | sc_c_sx.

Definition mfield_eq_dec (f g : mfield) : {f = g} + {f <> g}.
Proof. decide equality. Defined.
Definition mfield_eqb (f g : mfield) : bool := if mfield_eq_dec f g then true else false.

Notation m_add := (add_to mfield mfield_eqb).
Notation m_scale := (scale_field mfield mfield_eqb).
Notation m_axpy := (axpy_field mfield mfield_eqb).

(** measurement.h:11-46 [measurement_data_t] *)
Record meas := mk_meas {
  m_arr : mfield -> list R;
  m_sum : list Z;           (* latt_sum_map *)
  m_nn : nn_maps;           (* latt_xp1_map, ... *)
  m_Norb : Z;
  m_Ncell : Z;
  m_sign : R;
  m_nsampl : Z }.

(** lengths of the arrays allocated in measurement.c:96-118 *)
Definition mfield_len (Norb Ncell : Z) (f : mfield) : Z :=
  let N := Ncell * Norb in
  match f with
  | density_u | density_d | doubleocc => Norb
  | grfun_u | grfun_d => N * N
  | uu_corr | dd_corr | ud_corr | ff_corr | zz_corr | xx_corr => Ncell * Norb * Norb
  | sc_c_sw | sc_c_dw | sc_c_sx => N
  end.

(** measurement.c:83-131 [AllocateMeasurementData]; calloc is an array of zeros, [junk] the
    initial contents of memory returned by malloc *)
Definition allocate_meas (junk : Z -> Z) (Norb Nx Ny pbc_shift : Z) : option meas :=
  let Ncell := Nx * Ny in
  let raw n := map junk (map Z.of_nat (seq 0 (Z.to_nat n))) in
  let* sm := lattice_sum_map Nx Ny pbc_shift (raw (Ncell * Ncell)) in
  let* nn := lattice_nn_map Nx Ny (mk_nn_maps (raw Ncell) (raw Ncell) (raw Ncell) (raw Ncell)) in
  Some (mk_meas (fun f => repeat 0%R (Z.to_nat (mfield_len Norb Ncell f))) sm nn Norb Ncell 0%R 0).

(** measurement.c:189-198, densities and double occupancy summed over the cells *)
Definition density_sums (Gu Gd : list R) (N Ncell o : Z) : option (R * R * R) :=
  for_range 0 Ncell (fun i st =>
    let '(nu, nd, oc) := st in
    let io := i + Ncell * o in
    let* u := aget Gu (io + N * io) in
    let* d := aget Gd (io + N * io) in
    Some (nu + (1 - u), nd + (1 - d), oc + (1 - u) * (1 - d))%R) (0, 0, 0)%R.

(** measurement.c:187-203 *)
Definition acc_density (signfac : R) (Gu Gd : list R) (N Norb Ncell : Z) : store mfield -> option (store mfield) :=
  for_range 0 Norb (fun o s =>
    let* st := density_sums Gu Gd N Ncell o in
    let '(nu, nd, oc) := st in
    let* s := m_add density_u o (signfac * nu)%R s in
    let* s := m_add density_d o (signfac * nd)%R s in
    m_add doubleocc o (signfac * oc)%R s).

(** measurement.c:226-253, body of the innermost loop *)
Definition acc_corr_site (signfac : R) (Gu Gd : list R) (N Norb Ncell : Z) (sm : list Z)
  (o p i : Z) (Gu_ii Gd_ii : R) (k : Z) (s : store mfield) : option (store mfield) :=
  let offset := Ncell * (o + Norb * p) in
  let io := i + Ncell * o in
  let* j := aget sm (k + Ncell * i) in
  let jp := j + p * Ncell in
  let* Gu_jj := aget Gu (jp + N * jp) in
  let* Gd_jj := aget Gd (jp + N * jp) in
  let* Gu_ij := aget Gu (io + N * jp) in
  let* Gd_ij := aget Gd (io + N * jp) in
  let* Gu_ji := aget Gu (jp + N * io) in
  let* Gd_ji := aget Gd (jp + N * io) in
  let* s :=
    if (k =? 0) && (o =? p) then
      let* s := m_add uu_corr (k + offset) (signfac * (1 - Gu_ii))%R s in
      let* s := m_add dd_corr (k + offset) (signfac * (1 - Gd_ii))%R s in
      let* s := m_add ff_corr (k + offset) (signfac * (Gu_ii * (1 - Gu_ii) + Gd_ii * (1 - Gd_ii)))%R s in
      let* s := m_add zz_corr (k + offset) (signfac * (Gu_ii - 2 * Gu_ii * Gd_ii + Gd_ii))%R s in
      m_add xx_corr (k + offset) (signfac * (Gu_ii - 2 * Gu_ii * Gd_ii + Gd_ii))%R s
    else
      let* s := m_add uu_corr (k + offset) (signfac * ((1 - Gu_ii) * (1 - Gu_jj) - Gu_ij * Gu_ji))%R s in
      let* s := m_add dd_corr (k + offset) (signfac * ((1 - Gd_ii) * (1 - Gd_jj) - Gd_ij * Gd_ji))%R s in
      let* s := m_add ff_corr (k + offset) (signfac * (- (Gu_ij * Gu_ji + Gd_ij * Gd_ji)))%R s in
      let* s := m_add zz_corr (k + offset)
        (signfac * ((Gu_ii - Gd_ii) * (Gu_jj - Gd_jj) - (Gu_ij * Gu_ji + Gd_ij * Gd_ji)))%R s in
      m_add xx_corr (k + offset) (signfac * (- (Gu_ij * Gd_ji + Gd_ij * Gu_ji)))%R s in
  m_add ud_corr (k + offset) (signfac * ((1 - Gu_ii) * (1 - Gd_jj) + (1 - Gd_ii) * (1 - Gu_jj)))%R s.

(** measurement.c:220-254, the loop over k for one site i *)
Definition acc_corr_row (signfac : R) (Gu Gd : list R) (N Norb Ncell : Z) (sm : list Z)
  (o p i : Z) (s : store mfield) : option (store mfield) :=
  let io := i + Ncell * o in
  let* Gu_ii := aget Gu (io + N * io) in
  let* Gd_ii := aget Gd (io + N * io) in
  for_range 0 Ncell (acc_corr_site signfac Gu Gd N Norb Ncell sm o p i Gu_ii Gd_ii) s.

(** measurement.c:211-257, density and spin correlations *)
Definition acc_corr (signfac : R) (Gu Gd : list R) (N Norb Ncell : Z) (sm : list Z)
  : store mfield -> option (store mfield) :=
  for_range 0 Norb (fun o => for_range 0 Norb (fun p => for_range 0 Ncell (fun i =>
    acc_corr_row signfac Gu Gd N Norb Ncell sm o p i))).

(** the four nearest neighbours of a cell, measurement.c:270-273, 280-283 *)
Definition neighbours (nn : nn_maps) (i : Z) : option (Z * Z * Z * Z) :=
  let* ipx := aget (xp1 nn) i in
  let* imx := aget (xm1 nn) i in
  let* ipy := aget (yp1 nn) i in
  let* imy := aget (ym1 nn) i in
  Some (ipx, imx, ipy, imy).

(** measurement.c:277-303, body of the innermost loop; the two long expressions are
    transcribed mechanically from the source *)
Definition acc_sc_site (signfac : R) (Gu_orb Gd_orb : list R * Z) (N Ncell : Z) (sm : list Z) (nn : nn_maps)
  (o i ipx imx ipy imy : Z) (k : Z) (s : store mfield) : option (store mfield) :=
  let* j := aget sm (k + Ncell * i) in
  let* nj := neighbours nn j in
  let '(jpx, jmx, jpy, jmy) := nj in
  let* Gu_ij := eval Gu_orb.[i + N*j] in
  let* Gd_ij := eval Gd_orb.[i + N*j] in
  let* s := m_add sc_c_sw (k + Ncell * o) (signfac * (Gu_ij * Gd_ij))%R s in
  let* v := eval (
      Cst signfac * Cst 0.25 * Cst Gu_ij*(Gd_orb.[ipx + N*jpx] + Gd_orb.[ipx + N*jmx] -
      Gd_orb.[ipx + N*jpy] - Gd_orb.[ipx + N*jmy] + Gd_orb.[imx + N*jpx] + Gd_orb.[imx + N*jmx] -
      Gd_orb.[imx + N*jpy] - Gd_orb.[imx + N*jmy] - Gd_orb.[ipy + N*jpx] - Gd_orb.[ipy + N*jmx] +
      Gd_orb.[ipy + N*jpy] + Gd_orb.[ipy + N*jmy] - Gd_orb.[imy + N*jpx] - Gd_orb.[imy + N*jmx] +
      Gd_orb.[imy + N*jpy] + Gd_orb.[imy + N*jmy])) in
  let* s := m_add sc_c_dw (k + Ncell * o) v s in
  let* v := eval (
      Cst signfac * Cst 0.25 * Cst Gu_ij*(Gd_orb.[ipx + N*jpx] + Gd_orb.[ipx + N*jmx] +
      Gd_orb.[ipx + N*jpy] + Gd_orb.[ipx + N*jmy] + Gd_orb.[imx + N*jpx] + Gd_orb.[imx + N*jmx] +
      Gd_orb.[imx + N*jpy] + Gd_orb.[imx + N*jmy] + Gd_orb.[ipy + N*jpx] + Gd_orb.[ipy + N*jmx] +
      Gd_orb.[ipy + N*jpy] + Gd_orb.[ipy + N*jmy] + Gd_orb.[imy + N*jpx] + Gd_orb.[imy + N*jmx] +
      Gd_orb.[imy + N*jpy] + Gd_orb.[imy + N*jmy])) in
  m_add sc_c_sx (k + Ncell * o) v s.

(** measurement.c:269-304, one cell i *)
Definition acc_sc_row (signfac : R) (Gu_orb Gd_orb : list R * Z) (N Ncell : Z) (sm : list Z) (nn : nn_maps)
  (o i : Z) (s : store mfield) : option (store mfield) :=
  let* ni := neighbours nn i in
  let '(ipx, imx, ipy, imy) := ni in
  for_range 0 Ncell (acc_sc_site signfac Gu_orb Gd_orb N Ncell sm nn o i ipx imx ipy imy) s.

(** measurement.c:261-306, superconducting susceptibilities *)
Definition acc_sc (signfac : R) (Gu Gd : list R) (N Norb Ncell : Z) (sm : list Z) (nn : nn_maps)
  : store mfield -> option (store mfield) :=
  for_range 0 Norb (fun o =>
    let Gu_orb := (Gu, (Ncell * o) + N * (Ncell * o)) in
    let Gd_orb := (Gd, (Ncell * o) + N * (Ncell * o)) in
    for_range 0 Ncell (acc_sc_row signfac Gu_orb Gd_orb N Ncell sm nn o)).

(** measurement.c:170-313 [AccumulateMeasurement] *)
Definition accumulate (Gu Gd : greens_func) (m : meas) : option meas :=
  let Norb := m_Norb m in
  let Ncell := m_Ncell m in
  let N := Ncell * Norb in
  let sign := IZR (gf_sgndet Gu * gf_sgndet Gd) in
  let* signfac := rdiv sign (IZR Ncell) in
  let s := m_arr m in
  let* s := acc_density signfac (gf_mat Gu) (gf_mat Gd) N Norb Ncell s in
  let* s := m_axpy (N * N) sign (gf_mat Gu) grfun_u s in
  let* s := m_axpy (N * N) sign (gf_mat Gd) grfun_d s in
  let* s := acc_corr signfac (gf_mat Gu) (gf_mat Gd) N Norb Ncell (m_sum m) s in
  let* s := acc_sc signfac (gf_mat Gu) (gf_mat Gd) N Norb Ncell (m_sum m) (m_nn m) s in
  Some (mk_meas s (m_sum m) (m_nn m) Norb Ncell (m_sign m + sign)%R (m_nsampl m + 1)).

(** measurement.c:320-349 [NormalizeMeasurementData] *)
Definition normalize (m : meas) : option meas :=
  let Norb := m_Norb m in
  let Ncell := m_Ncell m in
  let N := Ncell * Norb in
  let* nfac := rdiv 1 (IZR (m_nsampl m)) in
  let s := m_arr m in
  let* s := m_scale Norb nfac density_u s in
  let* s := m_scale Norb nfac density_d s in
  let* s := m_scale Norb nfac doubleocc s in
  let* s := m_scale (N * N) nfac grfun_u s in
  let* s := m_scale (N * N) nfac grfun_d s in
  let m' := Ncell * Norb * Norb in
  let* s := m_scale m' nfac uu_corr s in
  let* s := m_scale m' nfac dd_corr s in
  let* s := m_scale m' nfac ud_corr s in
  let* s := m_scale m' nfac ff_corr s in
  let* s := m_scale m' nfac zz_corr s in
  let* s := m_scale m' nfac xx_corr s in
  let* s := m_scale N nfac sc_c_sw s in
  let* s := m_scale N nfac sc_c_dw s in
  let* s := m_scale N nfac sc_c_sx s in
  Some (mk_meas s (m_sum m) (m_nn m) Norb Ncell (m_sign m * nfac)%R (m_nsampl m)).

(** a sequence of samples *)
Definition accumulate_all (samples : list (greens_func * greens_func)) (m : meas) : option meas :=
  fold_left (fun o g => let* m := o in accumulate (fst g) (snd g) m) samples (Some m).
