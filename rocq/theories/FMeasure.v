(** Model of /repo/src/measurement_full.c, the variant of the measurements which records every
    site: according to its first lines it is to be put in the place of measurement.c for lattices
    without translation symmetry.

    The structures are those of Measure.v and UMeasure.v (measurement.h:11-46, 71-113); the arrays
    have other lengths, the map latt_sum_map is not constructed, and neither are the current
    correlations (both are empty here).  Integers do not wrap around, doubles are real numbers. *)
From Coq Require Import ZArith List Reals Bool.
From Verif Require Import Base RealOps Blas Lattice GreenConstruct Accum Measure UMeasure.
Import ListNotations.
Local Open Scope Z_scope.

(** lengths of the arrays allocated in measurement_full.c:69-90 *)
Definition fmfield_len (Norb Ncell : Z) (f : mfield) : Z :=
  let N := Ncell * Norb in
  match f with
  | density_u | density_d | doubleocc => N
  | grfun_u | grfun_d => N * N
  | uu_corr | dd_corr | ud_corr | ff_corr | zz_corr | xx_corr => N * N
  | sc_c_sw | sc_c_dw | sc_c_sx => Ncell * Ncell * Norb
  end.

(** measurement_full.c:53-98 [AllocateMeasurementData]; the map of neighbours (lines 23-46) is the
    same function as in measurement.c:53-76 *)
Definition f_allocate (junk : Z -> Z) (Norb Nx Ny pbc_shift : Z) : option meas :=
  let Ncell := Nx * Ny in
  let raw n := map junk (map Z.of_nat (seq 0 (Z.to_nat n))) in
  let* nn := lattice_nn_map Nx Ny (mk_nn_maps (raw Ncell) (raw Ncell) (raw Ncell) (raw Ncell)) in
  Some (mk_meas (fun f => repeat 0%R (Z.to_nat (fmfield_len Norb Ncell f))) [] nn Norb Ncell 0%R 0).

(** measurement_full.c:149-154 *)
Definition facc_density (sign : R) (Gu Gd : list R) (N : Z) : store mfield -> option (store mfield) :=
  for_range 0 N (fun i s =>
    let* u := aget Gu (i + N * i) in
    let* d := aget Gd (i + N * i) in
    let* s := m_add density_u i (sign * (1 - u))%R s in
    let* s := m_add density_d i (sign * (1 - d))%R s in
    m_add doubleocc i (sign * (1 - u) * (1 - d))%R s).

(** measurement_full.c:168-194, body of the inner loop *)
Definition facc_corr_site (sign : R) (Gu Gd : list R) (N i : Z) (Gu_ii Gd_ii : R) (j : Z) (s : store mfield)
  : option (store mfield) :=
  let* Gu_jj := aget Gu (j + N * j) in
  let* Gd_jj := aget Gd (j + N * j) in
  let* Gu_ij := aget Gu (i + N * j) in
  let* Gd_ij := aget Gd (i + N * j) in
  let* Gu_ji := aget Gu (j + N * i) in
  let* Gd_ji := aget Gd (j + N * i) in
  let* s :=
    if i =? j then
      let* s := m_add uu_corr (i + N * j) (sign * (1 - Gu_ii))%R s in
      let* s := m_add dd_corr (i + N * j) (sign * (1 - Gd_ii))%R s in
      let* s := m_add ff_corr (i + N * j) (sign * (Gu_ii * (1 - Gu_ii) + Gd_ii * (1 - Gd_ii)))%R s in
      let* s := m_add zz_corr (i + N * j) (sign * (Gu_ii - 2 * Gu_ii * Gd_ii + Gd_ii))%R s in
      m_add xx_corr (i + N * j) (sign * (Gu_ii - 2 * Gu_ii * Gd_ii + Gd_ii))%R s
    else
      let* s := m_add uu_corr (i + N * j) (sign * ((1 - Gu_ii) * (1 - Gu_jj) - Gu_ij * Gu_ji))%R s in
      let* s := m_add dd_corr (i + N * j) (sign * ((1 - Gd_ii) * (1 - Gd_jj) - Gd_ij * Gd_ji))%R s in
      let* s := m_add ff_corr (i + N * j) (sign * (- (Gu_ij * Gu_ji + Gd_ij * Gd_ji)))%R s in
      let* s := m_add zz_corr (i + N * j)
        (sign * ((Gu_ii - Gd_ii) * (Gu_jj - Gd_jj) - (Gu_ij * Gu_ji + Gd_ij * Gd_ji)))%R s in
      m_add xx_corr (i + N * j) (sign * (- (Gu_ij * Gd_ji + Gd_ij * Gu_ji)))%R s in
  m_add ud_corr (i + N * j) (sign * ((1 - Gu_ii) * (1 - Gd_jj) + (1 - Gd_ii) * (1 - Gu_jj)))%R s.

(** measurement_full.c:162-196 *)
Definition facc_corr (sign : R) (Gu Gd : list R) (N : Z) : store mfield -> option (store mfield) :=
  for_range 0 N (fun i s =>
    let* Gu_ii := aget Gu (i + N * i) in
    let* Gd_ii := aget Gd (i + N * i) in
    for_range 0 N (facc_corr_site sign Gu Gd N i Gu_ii Gd_ii) s).

(** measurement_full.c:216-242, body of the innermost loop *)
Definition facc_sc_site (sign : R) (Gu_orb Gd_orb : list R * Z) (N Ncell : Z) (nn : nn_maps)
  (o i ipx imx ipy imy : Z) (j : Z) (s : store mfield) : option (store mfield) :=
  let* nj := neighbours nn j in
  let '(jpx, jmx, jpy, jmy) := nj in
  let* Gu_ij := eval Gu_orb.[i + N*j] in
  let* Gd_ij := eval Gd_orb.[i + N*j] in
  let* s := m_add sc_c_sw (i + Ncell * j + Ncell * Ncell * o) (sign * (Gu_ij * Gd_ij))%R s in
  let* v := eval (
      Cst sign * Cst 0.25 * Cst Gu_ij*(Gd_orb.[ipx + N*jpx] + Gd_orb.[ipx + N*jmx] -
      Gd_orb.[ipx + N*jpy] - Gd_orb.[ipx + N*jmy] + Gd_orb.[imx + N*jpx] + Gd_orb.[imx + N*jmx] -
      Gd_orb.[imx + N*jpy] - Gd_orb.[imx + N*jmy] - Gd_orb.[ipy + N*jpx] - Gd_orb.[ipy + N*jmx] +
      Gd_orb.[ipy + N*jpy] + Gd_orb.[ipy + N*jmy] - Gd_orb.[imy + N*jpx] - Gd_orb.[imy + N*jmx] +
      Gd_orb.[imy + N*jpy] + Gd_orb.[imy + N*jmy])) in
  let* s := m_add sc_c_dw (i + Ncell * j + Ncell * Ncell * o) v s in
  let* v := eval (
      Cst sign * Cst 0.25 * Cst Gu_ij*(Gd_orb.[ipx + N*jpx] + Gd_orb.[ipx + N*jmx] +
      Gd_orb.[ipx + N*jpy] + Gd_orb.[ipx + N*jmy] + Gd_orb.[imx + N*jpx] + Gd_orb.[imx + N*jmx] +
      Gd_orb.[imx + N*jpy] + Gd_orb.[imx + N*jmy] + Gd_orb.[ipy + N*jpx] + Gd_orb.[ipy + N*jmx] +
      Gd_orb.[ipy + N*jpy] + Gd_orb.[ipy + N*jmy] + Gd_orb.[imy + N*jpx] + Gd_orb.[imy + N*jmx] +
      Gd_orb.[imy + N*jpy] + Gd_orb.[imy + N*jmy])) in
  m_add sc_c_sx (i + Ncell * j + Ncell * Ncell * o) v s.

(** measurement_full.c:208-243, one cell i *)
Definition facc_sc_row (sign : R) (Gu_orb Gd_orb : list R * Z) (N Ncell : Z) (nn : nn_maps)
  (o i : Z) (s : store mfield) : option (store mfield) :=
  let* ni := neighbours nn i in
  let '(ipx, imx, ipy, imy) := ni in
  for_range 0 Ncell (facc_sc_site sign Gu_orb Gd_orb N Ncell nn o i ipx imx ipy imy) s.

(** measurement_full.c:200-244 *)
Definition facc_sc (sign : R) (Gu Gd : list R) (N Norb Ncell : Z) (nn : nn_maps)
  : store mfield -> option (store mfield) :=
  for_range 0 Norb (fun o =>
    let Gu_orb := (Gu, (Ncell * o) + N * (Ncell * o)) in
    let Gd_orb := (Gd, (Ncell * o) + N * (Ncell * o)) in
    for_range 0 Ncell (facc_sc_row sign Gu_orb Gd_orb N Ncell nn o)).

(** measurement_full.c:136-251 [AccumulateMeasurement] *)
Definition f_accumulate (Gu Gd : greens_func) (m : meas) : option meas :=
  let Norb := m_Norb m in
  let Ncell := m_Ncell m in
  let N := Ncell * Norb in
  let sign := IZR (gf_sgndet Gu * gf_sgndet Gd) in
  let s := m_arr m in
  let* s := facc_density sign (gf_mat Gu) (gf_mat Gd) N s in
  let* s := m_axpy (N * N) sign (gf_mat Gu) grfun_u s in
  let* s := m_axpy (N * N) sign (gf_mat Gd) grfun_d s in
  let* s := facc_corr sign (gf_mat Gu) (gf_mat Gd) N s in
  let* s := facc_sc sign (gf_mat Gu) (gf_mat Gd) N Norb Ncell (m_nn m) s in
  Some (mk_meas s (m_sum m) (m_nn m) Norb Ncell (m_sign m + sign)%R (m_nsampl m + 1)).

(** measurement_full.c:258-289 [NormalizeMeasurementData] *)
Definition f_normalize (m : meas) : option meas :=
  let Norb := m_Norb m in
  let Ncell := m_Ncell m in
  let N := Ncell * Norb in
  let* nfac := rdiv 1 (IZR (m_nsampl m)) in
  let s := m_arr m in
  let* s := m_scale N nfac density_u s in
  let* s := m_scale N nfac density_d s in
  let* s := m_scale N nfac doubleocc s in
  let* s := m_scale (N * N) nfac grfun_u s in
  let* s := m_scale (N * N) nfac grfun_d s in
  let* s := m_scale (N * N) nfac uu_corr s in
  let* s := m_scale (N * N) nfac dd_corr s in
  let* s := m_scale (N * N) nfac ud_corr s in
  let* s := m_scale (N * N) nfac ff_corr s in
  let* s := m_scale (N * N) nfac zz_corr s in
  let* s := m_scale (N * N) nfac xx_corr s in
  let m' := Ncell * Ncell * Norb in
  let* s := m_scale m' nfac sc_c_sw s in
  let* s := m_scale m' nfac sc_c_dw s in
  let* s := m_scale m' nfac sc_c_sx s in
  Some (mk_meas s (m_sum m) (m_nn m) Norb Ncell (m_sign m * nfac)%R (m_nsampl m)).

(** a sequence of samples *)
Definition f_accumulate_all (samples : list (greens_func * greens_func)) (m : meas) : option meas :=
  fold_left (fun o g => let* m := o in f_accumulate (fst g) (snd g) m) samples (Some m).

(** measurement_full.c:296-309 [PrintMeasurementDataSummary]: the two numbers printed, average
    sign and average total density per unit cell *)
Definition f_summary (m : meas) : option (R * R) :=
  let* total := for_range 0 (m_Norb m * m_Ncell m) (fun i t =>
    let* u := aget (m_arr m density_u) i in
    let* d := aget (m_arr m density_d) i in
    Some (t + (u + d))%R) 0%R in
  let* total := rdiv total (IZR (m_Ncell m)) in
  Some (m_sign m, total).

Notation u_axpy := (axpy_field ufield ufield_eqb).

(** lengths of the arrays allocated in measurement_full.c:396-415; Jcorr_x and Jcorr_y are not
    allocated *)
Definition fufield_len (Norb Ncell L : Z) (f : ufield) : Z :=
  let N := Ncell * Norb in
  match f with
  | Gtau0_u | Gtau0_d => N * L * N
  | G0tau_u | Geqlt_u | G0tau_d | Geqlt_d | nn_corr | u_zz_corr | u_xx_corr => N * N * L
  | u_sc_c_sw | u_sc_c_dw | u_sc_c_sx | ram_b1g | ram_b2g => Ncell * Ncell * Norb * L
  | Jcorr_x | Jcorr_y => 0
  end.

(** measurement_full.c:376-430 [AllocateUnequalTimeMeasurementData] without Hu and Hd, memory
    being available *)
Definition fu_allocate (junk : Z -> Z) (Norb Nx Ny pbc_shift L : Z) : option umeas :=
  let Ncell := Nx * Ny in
  let raw n := map junk (map Z.of_nat (seq 0 (Z.to_nat n))) in
  let* nn := lattice_nn_map Nx Ny (mk_nn_maps (raw Ncell) (raw Ncell) (raw Ncell) (raw Ncell)) in
  Some (mk_umeas (fun f => repeat 0%R (Z.to_nat (fufield_len Norb Ncell L f))) [] nn Norb Ncell L 0%R 0).

(** measurement_full.c:494-507, what is done with the Green's functions once they are computed
    (line by line for one spin after the other; the two OpenMP sections write to different arrays) *)
Definition fuacc_greens (sign : R) (c : cur_greens) (N L : Z) (s : store ufield) : option (store ufield) :=
  let* s := u_axpy (N * L * N) sign (cGtau0_u c) Gtau0_u s in
  let* s := u_axpy (N * N * L) sign (cG0tau_u c) G0tau_u s in
  let* s := u_axpy (N * N * L) sign (cGeqlt_u c) Geqlt_u s in
  let* s := u_axpy (N * L * N) sign (cGtau0_d c) Gtau0_d s in
  let* s := u_axpy (N * N * L) sign (cG0tau_d c) G0tau_d s in
  u_axpy (N * N * L) sign (cGeqlt_d c) Geqlt_d s.

(** measurement_full.c:520-541, body of the inner loop *)
Definition fuacc_corr_site (sign : R) (c : cur_greens) (N L l i : Z) (Gtt_u_ii Gtt_d_ii : R) (j : Z)
  (s : store ufield) : option (store ufield) :=
  if (i =? j) && (l =? 0) then
    let* s := u_add nn_corr (i + N * j) (sign * (4 - 3 * (Gtt_u_ii + Gtt_d_ii) + 2 * Gtt_u_ii * Gtt_d_ii))%R s in
    let* s := u_add u_zz_corr (i + N * j) (sign * (Gtt_u_ii - 2 * Gtt_u_ii * Gtt_d_ii + Gtt_d_ii))%R s in
    u_add u_xx_corr (i + N * j) (sign * (Gtt_u_ii - 2 * Gtt_u_ii * Gtt_d_ii + Gtt_d_ii))%R s
  else
    let* G00_u_jj := aget (cGeqlt_u c) (j + N * j) in
    let* G00_d_jj := aget (cGeqlt_d c) (j + N * j) in
    let* Gt0_u_ij := aget (cGtau0_u c) (i + N * (l + L * j)) in
    let* Gt0_d_ij := aget (cGtau0_d c) (i + N * (l + L * j)) in
    let* G0t_u_ji := aget (cG0tau_u c) (j + N * (i + N * l)) in
    let* G0t_d_ji := aget (cG0tau_d c) (j + N * (i + N * l)) in
    let* s := u_add nn_corr (i + N * j + N * N * l) (sign * ((2 - Gtt_u_ii - Gtt_d_ii) * (2 - G00_u_jj - G00_d_jj)
                - (Gt0_u_ij * G0t_u_ji + Gt0_d_ij * G0t_d_ji)))%R s in
    let* s := u_add u_zz_corr (i + N * j + N * N * l) (sign * ((Gtt_u_ii - Gtt_d_ii) * (G00_u_jj - G00_d_jj)
                - (Gt0_u_ij * G0t_u_ji + Gt0_d_ij * G0t_d_ji)))%R s in
    u_add u_xx_corr (i + N * j + N * N * l) (sign * (- (Gt0_u_ij * G0t_d_ji + Gt0_d_ij * G0t_u_ji)))%R s.

(** measurement_full.c:514-543 *)
Definition fuacc_corr (sign : R) (c : cur_greens) (N L l : Z) : store ufield -> option (store ufield) :=
  for_range 0 N (fun i s =>
    let* Gtt_u_ii := aget (cGeqlt_u c) (i + N * (i + N * l)) in
    let* Gtt_d_ii := aget (cGeqlt_d c) (i + N * (i + N * l)) in
    for_range 0 N (fuacc_corr_site sign c N L l i Gtt_u_ii Gtt_d_ii) s).

(** measurement_full.c:583-672, body of the innermost loop, with the base pointers and the offset
    of lines 551-566; the expressions are those of measurement.c with sign in the place of
    signfac (compared as text) *)
Definition fuacc_sc_site (sign : R) (c : cur_greens) (N Norb Ncell L : Z) (nn : nn_maps)
  (l o i : Z) (ni : Z * Z * Z * Z * (Z * Z * Z * Z)) (j : Z) (s : store ufield) : option (store ufield) :=
  let Gt0_u_base := (cGtau0_u c, (Ncell * o) + N * (l + L * (Ncell * o))) in
  let Gt0_d_base := (cGtau0_d c, (Ncell * o) + N * (l + L * (Ncell * o))) in
  let G0t_u_base := (cG0tau_u c, (Ncell * o) + N * ((Ncell * o) + N * l)) in
  let G0t_d_base := (cG0tau_d c, (Ncell * o) + N * ((Ncell * o) + N * l)) in
  let G00_u_base := (cGeqlt_u c, (Ncell * o) + N * (Ncell * o)) in
  let G00_d_base := (cGeqlt_d c, (Ncell * o) + N * (Ncell * o)) in
  let Gtt_u_base := (cGeqlt_u c, (Ncell * o) + N * ((Ncell * o) + N * l)) in
  let Gtt_d_base := (cGeqlt_d c, (Ncell * o) + N * ((Ncell * o) + N * l)) in
  let offset := Ncell * Ncell * (o + Norb * l) in
  let '(ipx, imx, ipy, imy, (ipxpy, ipxmy, imxpy, imxmy)) := ni in
  let* nj := neighbours8 nn j in
  let '(jpx, jmx, jpy, jmy, (jpxpy, jpxmy, jmxpy, jmxmy)) := nj in
  let* Gt0_u_ij := eval Gt0_u_base.[i + N*L*j] in
  let* Gt0_d_ij := eval Gt0_d_base.[i + N*L*j] in
  let* s := u_add u_sc_c_sw (i + Ncell * j + offset) (sign * (Gt0_u_ij * Gt0_d_ij))%R s in
  let* v := eval (dw_expr sign Gt0_u_ij Gt0_d_base N L ipx imx ipy imy jpx jmx jpy jmy) in
  let* s := u_add u_sc_c_dw (i + Ncell * j + offset) v s in
  let* v := eval (sx_expr sign Gt0_u_ij Gt0_d_base N L ipx imx ipy imy jpx jmx jpy jmy) in
  let* s := u_add u_sc_c_sx (i + Ncell * j + offset) v s in
  let* v := eval (b1g_expr sign Gt0_u_base Gt0_d_base G0t_u_base G0t_d_base G00_u_base G00_d_base Gtt_u_base
      Gtt_d_base N L l i ipx imx ipy imy j jpx jmx jpy jmy) in
  let* s := u_add ram_b1g (i + Ncell * j + offset) v s in
  let* v := eval (b2g_expr sign Gt0_u_base Gt0_d_base G0t_u_base G0t_d_base G00_u_base G00_d_base Gtt_u_base
      Gtt_d_base N L l i ipxpy ipxmy imxpy imxmy j jpxpy jpxmy jmxpy jmxmy) in
  u_add ram_b2g (i + Ncell * j + offset) v s.

(** measurement_full.c:569-673, one cell i *)
Definition fuacc_sc_row (sign : R) (c : cur_greens) (N Norb Ncell L : Z) (nn : nn_maps)
  (l o i : Z) (s : store ufield) : option (store ufield) :=
  let* ni := neighbours8 nn i in
  for_range 0 Ncell (fuacc_sc_site sign c N Norb Ncell L nn l o i ni) s.

(** measurement_full.c:510-676, time difference l *)
Definition fuacc_slice (sign : R) (c : cur_greens) (N Norb Ncell L : Z) (nn : nn_maps)
  (l : Z) (s : store ufield) : option (store ufield) :=
  let* s := fuacc_corr sign c N L l s in
  for_range 0 Norb (fun o => for_range 0 Ncell (fuacc_sc_row sign c N Norb Ncell L nn l o)) s.

(** measurement_full.c:471-691 [AccumulateUnequalTimeMeasurement] once the Green's functions are known *)
Definition fu_accumulate (sign : R) (c : cur_greens) (m : umeas) : option umeas :=
  let Norb := u_Norb m in
  let Ncell := u_Ncell m in
  let N := Ncell * Norb in
  let L := u_L m in
  let* s := fuacc_greens sign c N L (u_arr m) in
  let* s := for_range 0 L (fuacc_slice sign c N Norb Ncell L (u_nn m)) s in
  Some (mk_umeas s (u_sum m) (u_nn m) Norb Ncell L (u_sign m + sign)%R (u_nsampl m + 1)).

(** measurement_full.c:698-730 [NormalizeUnequalTimeMeasurementData] *)
Definition fu_normalize (m : umeas) : option umeas :=
  let Norb := u_Norb m in
  let Ncell := u_Ncell m in
  let N := Ncell * Norb in
  let L := u_L m in
  let* nfac := rdiv 1 (IZR (u_nsampl m)) in
  let s := u_arr m in
  let* s := u_scale (N * L * N) nfac Gtau0_u s in
  let* s := u_scale (N * N * L) nfac G0tau_u s in
  let* s := u_scale (N * N * L) nfac Geqlt_u s in
  let* s := u_scale (N * L * N) nfac Gtau0_d s in
  let* s := u_scale (N * N * L) nfac G0tau_d s in
  let* s := u_scale (N * N * L) nfac Geqlt_d s in
  let* s := u_scale (N * N * L) nfac nn_corr s in
  let* s := u_scale (N * N * L) nfac u_zz_corr s in
  let* s := u_scale (N * N * L) nfac u_xx_corr s in
  let* s := u_scale (Ncell * Ncell * Norb * L) nfac u_sc_c_sw s in
  let* s := u_scale (Ncell * Ncell * Norb * L) nfac u_sc_c_dw s in
  let* s := u_scale (Ncell * Ncell * Norb * L) nfac u_sc_c_sx s in
  let* s := u_scale (Ncell * Ncell * Norb * L) nfac ram_b1g s in
  let* s := u_scale (Ncell * Ncell * Norb * L) nfac ram_b2g s in
  Some (mk_umeas s (u_sum m) (u_nn m) Norb Ncell L (u_sign m * nfac)%R (u_nsampl m)).

(** a sequence of samples: sign and Green's functions *)
Definition fu_accumulate_all (samples : list (R * cur_greens)) (m : umeas) : option umeas :=
  fold_left (fun o g => let* m := o in fu_accumulate (fst g) (snd g) m) samples (Some m).
