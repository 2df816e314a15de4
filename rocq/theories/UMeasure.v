(** Model of the accumulation of unequal time measurements, /repo/src/measurement.c.

    The Green's functions of the current configuration are an argument here; their computation is
    modelled in UnequalTime.v.  Integers do not wrap around (see Overflow.v), doubles are real
    numbers. *)
From Coq Require Import ZArith List Reals Bool.
From Verif Require Import Base RealOps Blas Lattice Accum Measure.
Import ListNotations.
Local Open Scope Z_scope.

(** measurement.h:74-93, the accumulator arrays *)
Inductive ufield :=
| Gtau0_u | G0tau_u | Geqlt_u | Gtau0_d | G0tau_d | Geqlt_d
| nn_corr | u_zz_corr | u_xx_corr
| u_sc_c_sw | u_sc_c_dw | u_sc_c_sx | Jcorr_x | Jcorr_y | ram_b1g | ram_b2g.

Definition ufield_eq_dec (f g : ufield) : {f = g} + {f <> g}.
Proof. decide equality. Defined.
Definition ufield_eqb (f g : ufield) : bool := if ufield_eq_dec f g then true else false.

Notation u_add := (add_to ufield ufield_eqb).
Notation u_scale := (scale_field ufield ufield_eqb).

(** measurement.h:71-113 [measurement_data_unequal_time_t]; the temporary matrices Hu and Hd are
    not part of this record, see UnequalTime.v *)
Record umeas := mk_umeas {
  u_arr : ufield -> list R;
  u_sum : list Z;
  u_nn : nn_maps;
  u_Norb : Z;
  u_Ncell : Z;
  u_L : Z;
  u_sign : R;
  u_nsampl : Z }.

(** lengths of the arrays allocated in measurement.c:462-485 *)
Definition ufield_len (Norb Ncell L : Z) (f : ufield) : Z :=
  match f with
  | u_sc_c_sw | u_sc_c_dw | u_sc_c_sx | Jcorr_x | Jcorr_y | ram_b1g | ram_b2g => Ncell * Norb * L
  | _ => Ncell * Norb * Norb * L
  end.

(** measurement.c:445-504 [AllocateUnequalTimeMeasurementData] without Hu and Hd, memory being
    available *)
Definition allocate_umeas (junk : Z -> Z) (Norb Nx Ny pbc_shift L : Z) : option umeas :=
  let Ncell := Nx * Ny in
  let raw n := map junk (map Z.of_nat (seq 0 (Z.to_nat n))) in
  let* sm := lattice_sum_map Nx Ny pbc_shift (raw (Ncell * Ncell)) in
  let* nn := lattice_nn_map Nx Ny (mk_nn_maps (raw Ncell) (raw Ncell) (raw Ncell) (raw Ncell)) in
  Some (mk_umeas (fun f => repeat 0%R (Z.to_nat (ufield_len Norb Ncell L f))) sm nn Norb Ncell L 0%R 0).

(** current Green's functions curGtau0_u, ..., curGeqlt_d, measurement.c:563-570 *)
Record cur_greens := mk_cur {
  cGtau0_u : list R; cG0tau_u : list R; cGeqlt_u : list R;
  cGtau0_d : list R; cG0tau_d : list R; cGeqlt_d : list R }.

(** measurement.c:601-634, body of the innermost loop *)
Definition uacc_corr_site (signfac : R) (c : cur_greens) (N Norb Ncell L : Z) (sm : list Z)
  (l o p i : Z) (Gtt_u_ii Gtt_d_ii : R) (k : Z) (s : store ufield) : option (store ufield) :=
  let offset := Ncell * (o + Norb * p + Norb * Norb * l) in
  let io := i + o * Ncell in
  let* j := aget sm (k + Ncell * i) in
  let jp := j + Ncell * p in
  let* x := aget (cGeqlt_u c) (io + N * (jp + N * l)) in
  let* s := u_add Geqlt_u (k + offset) (signfac * x)%R s in
  let* x := aget (cGeqlt_d c) (io + N * (jp + N * l)) in
  let* s := u_add Geqlt_d (k + offset) (signfac * x)%R s in
  let* x := aget (cGtau0_u c) (io + N * (l + L * jp)) in
  let* s := u_add Gtau0_u (k + offset) (signfac * x)%R s in
  let* x := aget (cGtau0_d c) (io + N * (l + L * jp)) in
  let* s := u_add Gtau0_d (k + offset) (signfac * x)%R s in
  let* x := aget (cG0tau_u c) (io + N * (jp + N * l)) in
  let* s := u_add G0tau_u (k + offset) (signfac * x)%R s in
  let* x := aget (cG0tau_d c) (io + N * (jp + N * l)) in
  let* s := u_add G0tau_d (k + offset) (signfac * x)%R s in
  if (k =? 0) && (o =? p) && (l =? 0) then
    let* s := u_add nn_corr (0 + offset) (signfac * (4 - 3 * (Gtt_u_ii + Gtt_d_ii) + 2 * Gtt_u_ii * Gtt_d_ii))%R s in
    let* s := u_add u_zz_corr (0 + offset) (signfac * (Gtt_u_ii - 2 * Gtt_u_ii * Gtt_d_ii + Gtt_d_ii))%R s in
    u_add u_xx_corr (0 + offset) (signfac * (Gtt_u_ii - 2 * Gtt_u_ii * Gtt_d_ii + Gtt_d_ii))%R s
  else
    let* G00_u_jj := aget (cGeqlt_u c) (jp + N * jp) in
    let* G00_d_jj := aget (cGeqlt_d c) (jp + N * jp) in
    let* Gt0_u_ij := aget (cGtau0_u c) (io + N * (l + L * jp)) in
    let* Gt0_d_ij := aget (cGtau0_d c) (io + N * (l + L * jp)) in
    let* G0t_u_ji := aget (cG0tau_u c) (jp + N * (io + N * l)) in
    let* G0t_d_ji := aget (cG0tau_d c) (jp + N * (io + N * l)) in
    let* s := u_add nn_corr (k + offset) (signfac * ((2 - Gtt_u_ii - Gtt_d_ii) * (2 - G00_u_jj - G00_d_jj)
                - (Gt0_u_ij * G0t_u_ji + Gt0_d_ij * G0t_d_ji)))%R s in
    let* s := u_add u_zz_corr (k + offset) (signfac * ((Gtt_u_ii - Gtt_d_ii) * (G00_u_jj - G00_d_jj)
                - (Gt0_u_ij * G0t_u_ji + Gt0_d_ij * G0t_d_ji)))%R s in
    u_add u_xx_corr (k + offset) (signfac * (- (Gt0_u_ij * G0t_d_ji + Gt0_d_ij * G0t_u_ji)))%R s.

(** measurement.c:595-635, one cell i *)
Definition uacc_corr_row (signfac : R) (c : cur_greens) (N Norb Ncell L : Z) (sm : list Z)
  (l o p i : Z) (s : store ufield) : option (store ufield) :=
  let io := i + o * Ncell in
  let* Gtt_u_ii := aget (cGeqlt_u c) (io + N * (io + N * l)) in
  let* Gtt_d_ii := aget (cGeqlt_d c) (io + N * (io + N * l)) in
  for_range 0 Ncell (uacc_corr_site signfac c N Norb Ncell L sm l o p i Gtt_u_ii Gtt_d_ii) s.

(** The long expressions, transcribed mechanically from the source. *)

(** measurement.c:693-697 *)
Definition dw_expr (signfac : R) (Gt0_u_ij : R) (Gt0_d_base : list R * Z) (N L ipx imx ipy imy jpx jmx jpy jmy : Z) : rexpr :=
  (Cst signfac * Cst 0.25 * Cst Gt0_u_ij*(Gt0_d_base.[ipx + N*L*jpx] + Gt0_d_base.[ipx + N*L*jmx] -
   Gt0_d_base.[ipx + N*L*jpy] - Gt0_d_base.[ipx + N*L*jmy] + Gt0_d_base.[imx + N*L*jpx] +
   Gt0_d_base.[imx + N*L*jmx] - Gt0_d_base.[imx + N*L*jpy] - Gt0_d_base.[imx + N*L*jmy] -
   Gt0_d_base.[ipy + N*L*jpx] - Gt0_d_base.[ipy + N*L*jmx] + Gt0_d_base.[ipy + N*L*jpy] +
   Gt0_d_base.[ipy + N*L*jmy] - Gt0_d_base.[imy + N*L*jpx] - Gt0_d_base.[imy + N*L*jmx] +
   Gt0_d_base.[imy + N*L*jpy] + Gt0_d_base.[imy + N*L*jmy]))%rexpr.

(** measurement.c:700-704 *)
Definition sx_expr (signfac : R) (Gt0_u_ij : R) (Gt0_d_base : list R * Z) (N L ipx imx ipy imy jpx jmx jpy jmy : Z) : rexpr :=
  (Cst signfac * Cst 0.25 * Cst Gt0_u_ij*(Gt0_d_base.[ipx + N*L*jpx] + Gt0_d_base.[ipx + N*L*jmx] +
   Gt0_d_base.[ipx + N*L*jpy] + Gt0_d_base.[ipx + N*L*jmy] + Gt0_d_base.[imx + N*L*jpx] +
   Gt0_d_base.[imx + N*L*jmx] + Gt0_d_base.[imx + N*L*jpy] + Gt0_d_base.[imx + N*L*jmy] +
   Gt0_d_base.[ipy + N*L*jpx] + Gt0_d_base.[ipy + N*L*jmx] + Gt0_d_base.[ipy + N*L*jpy] +
   Gt0_d_base.[ipy + N*L*jmy] + Gt0_d_base.[imy + N*L*jpx] + Gt0_d_base.[imy + N*L*jmx] +
   Gt0_d_base.[imy + N*L*jpy] + Gt0_d_base.[imy + N*L*jmy]))%rexpr.

(** measurement.c:715-723 with the deltas defined above it *)
Definition jx_expr (signfac : R) (Gt0_u_base Gt0_d_base G0t_u_base G0t_d_base G00_u_base G00_d_base Gtt_u_base Gtt_d_base : list R * Z) (N L l i ipx j jpx : Z) : rexpr :=
  let delta_tau_i_j : R := if (l =? 0) && (i =? j) then 1%R else 0%R in
  let delta_tau_i_jpx : R := if (l =? 0) && (i =? jpx) then 1%R else 0%R in
  let delta_tau_ipx_j : R := if (l =? 0) && (ipx =? j) then 1%R else 0%R in
  (Cst signfac * ( - (Gtt_u_base.[ipx + N*i] - Gtt_u_base.[i + N*ipx] + Gtt_d_base.[ipx + N*i] -
   Gtt_d_base.[i + N*ipx]) * (G00_u_base.[jpx + N*j] - G00_u_base.[j + N*jpx] + G00_d_base.[jpx + N*j]
   - G00_d_base.[j + N*jpx]) + (Gt0_u_base.[ipx + N*L*jpx]*(Cst delta_tau_i_j - G0t_u_base.[j + N*i]) +
   Gt0_d_base.[ipx + N*L*jpx]*(Cst delta_tau_i_j - G0t_d_base.[j + N*i])) -
   (Gt0_u_base.[ipx + N*L*j]*(Cst delta_tau_i_jpx - G0t_u_base.[jpx + N*i]) +
   Gt0_d_base.[ipx + N*L*j]*(Cst delta_tau_i_jpx - G0t_d_base.[jpx + N*i])) -
   (Gt0_u_base.[i + N*L*jpx]*(Cst delta_tau_ipx_j - G0t_u_base.[j + N*ipx]) +
   Gt0_d_base.[i + N*L*jpx]*(Cst delta_tau_ipx_j - G0t_d_base.[j + N*ipx])) +
   (Gt0_u_base.[i + N*L*j]*(Cst delta_tau_i_j - G0t_u_base.[jpx + N*ipx]) + Gt0_d_base.[i + N*L*j]*(Cst
   delta_tau_i_j - G0t_d_base.[jpx + N*ipx])) ))%rexpr.

(** measurement.c:726-734 with the deltas defined above it *)
Definition jy_expr (signfac : R) (Gt0_u_base Gt0_d_base G0t_u_base G0t_d_base G00_u_base G00_d_base Gtt_u_base Gtt_d_base : list R * Z) (N L l i ipy j jpy : Z) : rexpr :=
  let delta_tau_i_j : R := if (l =? 0) && (i =? j) then 1%R else 0%R in
  let delta_tau_i_jpy : R := if (l =? 0) && (i =? jpy) then 1%R else 0%R in
  let delta_tau_ipy_j : R := if (l =? 0) && (ipy =? j) then 1%R else 0%R in
  (Cst signfac * ( - (Gtt_u_base.[ipy + N*i] - Gtt_u_base.[i + N*ipy] + Gtt_d_base.[ipy + N*i] -
   Gtt_d_base.[i + N*ipy]) * (G00_u_base.[jpy + N*j] - G00_u_base.[j + N*jpy] + G00_d_base.[jpy + N*j]
   - G00_d_base.[j + N*jpy]) + (Gt0_u_base.[ipy + N*L*jpy]*(Cst delta_tau_i_j - G0t_u_base.[j + N*i]) +
   Gt0_d_base.[ipy + N*L*jpy]*(Cst delta_tau_i_j - G0t_d_base.[j + N*i])) -
   (Gt0_u_base.[ipy + N*L*j]*(Cst delta_tau_i_jpy - G0t_u_base.[jpy + N*i]) +
   Gt0_d_base.[ipy + N*L*j]*(Cst delta_tau_i_jpy - G0t_d_base.[jpy + N*i])) -
   (Gt0_u_base.[i + N*L*jpy]*(Cst delta_tau_ipy_j - G0t_u_base.[j + N*ipy]) +
   Gt0_d_base.[i + N*L*jpy]*(Cst delta_tau_ipy_j - G0t_d_base.[j + N*ipy])) +
   (Gt0_u_base.[i + N*L*j]*(Cst delta_tau_i_j - G0t_u_base.[jpy + N*ipy]) + Gt0_d_base.[i + N*L*j]*(Cst
   delta_tau_i_j - G0t_d_base.[jpy + N*ipy])) ))%rexpr.

(** measurement.c:743-763 with the deltas defined above it *)
Definition b1g_expr (signfac : R) (Gt0_u_base Gt0_d_base G0t_u_base G0t_d_base G00_u_base G00_d_base Gtt_u_base Gtt_d_base : list R * Z) (N L l i ipx imx ipy imy j jpx jmx jpy jmy : Z) : rexpr :=
  let delta_tau_j_ipx : R := if (l =? 0) && (j =? ipx) then 1%R else 0%R in
  let delta_tau_j_imx : R := if (l =? 0) && (j =? imx) then 1%R else 0%R in
  let delta_tau_j_ipy : R := if (l =? 0) && (j =? ipy) then 1%R else 0%R in
  let delta_tau_j_imy : R := if (l =? 0) && (j =? imy) then 1%R else 0%R in
  (Cst signfac * Cst 0.0625 * (((Gtt_u_base.[i + N*ipx] +
   Gtt_d_base.[i + N*ipx])*(G00_u_base.[j + N*jpx] + G00_d_base.[j + N*jpx]) -
   Gt0_u_base.[i + N*L*jpx]*(G0t_u_base.[j + N*ipx] - Cst delta_tau_j_ipx) -
   Gt0_d_base.[i + N*L*jpx]*(G0t_d_base.[j + N*ipx] - Cst delta_tau_j_ipx)) + ((Gtt_u_base.[i + N*ipx]
   + Gtt_d_base.[i + N*ipx])*(G00_u_base.[j + N*jmx] + G00_d_base.[j + N*jmx]) -
   Gt0_u_base.[i + N*L*jmx]*(G0t_u_base.[j + N*ipx] - Cst delta_tau_j_ipx) -
   Gt0_d_base.[i + N*L*jmx]*(G0t_d_base.[j + N*ipx] - Cst delta_tau_j_ipx)) - ((Gtt_u_base.[i + N*ipx]
   + Gtt_d_base.[i + N*ipx])*(G00_u_base.[j + N*jpy] + G00_d_base.[j + N*jpy]) -
   Gt0_u_base.[i + N*L*jpy]*(G0t_u_base.[j + N*ipx] - Cst delta_tau_j_ipx) -
   Gt0_d_base.[i + N*L*jpy]*(G0t_d_base.[j + N*ipx] - Cst delta_tau_j_ipx)) - ((Gtt_u_base.[i + N*ipx]
   + Gtt_d_base.[i + N*ipx])*(G00_u_base.[j + N*jmy] + G00_d_base.[j + N*jmy]) -
   Gt0_u_base.[i + N*L*jmy]*(G0t_u_base.[j + N*ipx] - Cst delta_tau_j_ipx) -
   Gt0_d_base.[i + N*L*jmy]*(G0t_d_base.[j + N*ipx] - Cst delta_tau_j_ipx)) + ((Gtt_u_base.[i + N*imx]
   + Gtt_d_base.[i + N*imx])*(G00_u_base.[j + N*jpx] + G00_d_base.[j + N*jpx]) -
   Gt0_u_base.[i + N*L*jpx]*(G0t_u_base.[j + N*imx] - Cst delta_tau_j_imx) -
   Gt0_d_base.[i + N*L*jpx]*(G0t_d_base.[j + N*imx] - Cst delta_tau_j_imx)) + ((Gtt_u_base.[i + N*imx]
   + Gtt_d_base.[i + N*imx])*(G00_u_base.[j + N*jmx] + G00_d_base.[j + N*jmx]) -
   Gt0_u_base.[i + N*L*jmx]*(G0t_u_base.[j + N*imx] - Cst delta_tau_j_imx) -
   Gt0_d_base.[i + N*L*jmx]*(G0t_d_base.[j + N*imx] - Cst delta_tau_j_imx)) - ((Gtt_u_base.[i + N*imx]
   + Gtt_d_base.[i + N*imx])*(G00_u_base.[j + N*jpy] + G00_d_base.[j + N*jpy]) -
   Gt0_u_base.[i + N*L*jpy]*(G0t_u_base.[j + N*imx] - Cst delta_tau_j_imx) -
   Gt0_d_base.[i + N*L*jpy]*(G0t_d_base.[j + N*imx] - Cst delta_tau_j_imx)) - ((Gtt_u_base.[i + N*imx]
   + Gtt_d_base.[i + N*imx])*(G00_u_base.[j + N*jmy] + G00_d_base.[j + N*jmy]) -
   Gt0_u_base.[i + N*L*jmy]*(G0t_u_base.[j + N*imx] - Cst delta_tau_j_imx) -
   Gt0_d_base.[i + N*L*jmy]*(G0t_d_base.[j + N*imx] - Cst delta_tau_j_imx)) - ((Gtt_u_base.[i + N*ipy]
   + Gtt_d_base.[i + N*ipy])*(G00_u_base.[j + N*jpx] + G00_d_base.[j + N*jpx]) -
   Gt0_u_base.[i + N*L*jpx]*(G0t_u_base.[j + N*ipy] - Cst delta_tau_j_ipy) -
   Gt0_d_base.[i + N*L*jpx]*(G0t_d_base.[j + N*ipy] - Cst delta_tau_j_ipy)) - ((Gtt_u_base.[i + N*ipy]
   + Gtt_d_base.[i + N*ipy])*(G00_u_base.[j + N*jmx] + G00_d_base.[j + N*jmx]) -
   Gt0_u_base.[i + N*L*jmx]*(G0t_u_base.[j + N*ipy] - Cst delta_tau_j_ipy) -
   Gt0_d_base.[i + N*L*jmx]*(G0t_d_base.[j + N*ipy] - Cst delta_tau_j_ipy)) + ((Gtt_u_base.[i + N*ipy]
   + Gtt_d_base.[i + N*ipy])*(G00_u_base.[j + N*jpy] + G00_d_base.[j + N*jpy]) -
   Gt0_u_base.[i + N*L*jpy]*(G0t_u_base.[j + N*ipy] - Cst delta_tau_j_ipy) -
   Gt0_d_base.[i + N*L*jpy]*(G0t_d_base.[j + N*ipy] - Cst delta_tau_j_ipy)) + ((Gtt_u_base.[i + N*ipy]
   + Gtt_d_base.[i + N*ipy])*(G00_u_base.[j + N*jmy] + G00_d_base.[j + N*jmy]) -
   Gt0_u_base.[i + N*L*jmy]*(G0t_u_base.[j + N*ipy] - Cst delta_tau_j_ipy) -
   Gt0_d_base.[i + N*L*jmy]*(G0t_d_base.[j + N*ipy] - Cst delta_tau_j_ipy)) - ((Gtt_u_base.[i + N*imy]
   + Gtt_d_base.[i + N*imy])*(G00_u_base.[j + N*jpx] + G00_d_base.[j + N*jpx]) -
   Gt0_u_base.[i + N*L*jpx]*(G0t_u_base.[j + N*imy] - Cst delta_tau_j_imy) -
   Gt0_d_base.[i + N*L*jpx]*(G0t_d_base.[j + N*imy] - Cst delta_tau_j_imy)) - ((Gtt_u_base.[i + N*imy]
   + Gtt_d_base.[i + N*imy])*(G00_u_base.[j + N*jmx] + G00_d_base.[j + N*jmx]) -
   Gt0_u_base.[i + N*L*jmx]*(G0t_u_base.[j + N*imy] - Cst delta_tau_j_imy) -
   Gt0_d_base.[i + N*L*jmx]*(G0t_d_base.[j + N*imy] - Cst delta_tau_j_imy)) + ((Gtt_u_base.[i + N*imy]
   + Gtt_d_base.[i + N*imy])*(G00_u_base.[j + N*jpy] + G00_d_base.[j + N*jpy]) -
   Gt0_u_base.[i + N*L*jpy]*(G0t_u_base.[j + N*imy] - Cst delta_tau_j_imy) -
   Gt0_d_base.[i + N*L*jpy]*(G0t_d_base.[j + N*imy] - Cst delta_tau_j_imy)) + ((Gtt_u_base.[i + N*imy]
   + Gtt_d_base.[i + N*imy])*(G00_u_base.[j + N*jmy] + G00_d_base.[j + N*jmy]) -
   Gt0_u_base.[i + N*L*jmy]*(G0t_u_base.[j + N*imy] - Cst delta_tau_j_imy) -
   Gt0_d_base.[i + N*L*jmy]*(G0t_d_base.[j + N*imy] - Cst delta_tau_j_imy)) ))%rexpr.

(** measurement.c:772-792 with the deltas defined above it *)
Definition b2g_expr (signfac : R) (Gt0_u_base Gt0_d_base G0t_u_base G0t_d_base G00_u_base G00_d_base Gtt_u_base Gtt_d_base : list R * Z) (N L l i ipxpy ipxmy imxpy imxmy j jpxpy jpxmy jmxpy jmxmy : Z) : rexpr :=
  let delta_tau_j_ipxpy : R := if (l =? 0) && (j =? ipxpy) then 1%R else 0%R in
  let delta_tau_j_imxpy : R := if (l =? 0) && (j =? imxpy) then 1%R else 0%R in
  let delta_tau_j_ipxmy : R := if (l =? 0) && (j =? ipxmy) then 1%R else 0%R in
  let delta_tau_j_imxmy : R := if (l =? 0) && (j =? imxmy) then 1%R else 0%R in
  (Cst signfac * Cst 0.0625 * (((Gtt_u_base.[i + N*ipxpy] +
   Gtt_d_base.[i + N*ipxpy])*(G00_u_base.[j + N*jpxpy] + G00_d_base.[j + N*jpxpy]) -
   Gt0_u_base.[i + N*L*jpxpy]*(G0t_u_base.[j + N*ipxpy] - Cst delta_tau_j_ipxpy) -
   Gt0_d_base.[i + N*L*jpxpy]*(G0t_d_base.[j + N*ipxpy] - Cst delta_tau_j_ipxpy)) -
   ((Gtt_u_base.[i + N*ipxpy] + Gtt_d_base.[i + N*ipxpy])*(G00_u_base.[j + N*jmxpy] +
   G00_d_base.[j + N*jmxpy]) - Gt0_u_base.[i + N*L*jmxpy]*(G0t_u_base.[j + N*ipxpy] - Cst
   delta_tau_j_ipxpy) - Gt0_d_base.[i + N*L*jmxpy]*(G0t_d_base.[j + N*ipxpy] - Cst delta_tau_j_ipxpy))
   - ((Gtt_u_base.[i + N*ipxpy] + Gtt_d_base.[i + N*ipxpy])*(G00_u_base.[j + N*jpxmy] +
   G00_d_base.[j + N*jpxmy]) - Gt0_u_base.[i + N*L*jpxmy]*(G0t_u_base.[j + N*ipxpy] - Cst
   delta_tau_j_ipxpy) - Gt0_d_base.[i + N*L*jpxmy]*(G0t_d_base.[j + N*ipxpy] - Cst delta_tau_j_ipxpy))
   + ((Gtt_u_base.[i + N*ipxpy] + Gtt_d_base.[i + N*ipxpy])*(G00_u_base.[j + N*jmxmy] +
   G00_d_base.[j + N*jmxmy]) - Gt0_u_base.[i + N*L*jmxmy]*(G0t_u_base.[j + N*ipxpy] - Cst
   delta_tau_j_ipxpy) - Gt0_d_base.[i + N*L*jmxmy]*(G0t_d_base.[j + N*ipxpy] - Cst delta_tau_j_ipxpy))
   - ((Gtt_u_base.[i + N*imxpy] + Gtt_d_base.[i + N*imxpy])*(G00_u_base.[j + N*jpxpy] +
   G00_d_base.[j + N*jpxpy]) - Gt0_u_base.[i + N*L*jpxpy]*(G0t_u_base.[j + N*imxpy] - Cst
   delta_tau_j_imxpy) - Gt0_d_base.[i + N*L*jpxpy]*(G0t_d_base.[j + N*imxpy] - Cst delta_tau_j_imxpy))
   + ((Gtt_u_base.[i + N*imxpy] + Gtt_d_base.[i + N*imxpy])*(G00_u_base.[j + N*jmxpy] +
   G00_d_base.[j + N*jmxpy]) - Gt0_u_base.[i + N*L*jmxpy]*(G0t_u_base.[j + N*imxpy] - Cst
   delta_tau_j_imxpy) - Gt0_d_base.[i + N*L*jmxpy]*(G0t_d_base.[j + N*imxpy] - Cst delta_tau_j_imxpy))
   + ((Gtt_u_base.[i + N*imxpy] + Gtt_d_base.[i + N*imxpy])*(G00_u_base.[j + N*jpxmy] +
   G00_d_base.[j + N*jpxmy]) - Gt0_u_base.[i + N*L*jpxmy]*(G0t_u_base.[j + N*imxpy] - Cst
   delta_tau_j_imxpy) - Gt0_d_base.[i + N*L*jpxmy]*(G0t_d_base.[j + N*imxpy] - Cst delta_tau_j_imxpy))
   - ((Gtt_u_base.[i + N*imxpy] + Gtt_d_base.[i + N*imxpy])*(G00_u_base.[j + N*jmxmy] +
   G00_d_base.[j + N*jmxmy]) - Gt0_u_base.[i + N*L*jmxmy]*(G0t_u_base.[j + N*imxpy] - Cst
   delta_tau_j_imxpy) - Gt0_d_base.[i + N*L*jmxmy]*(G0t_d_base.[j + N*imxpy] - Cst delta_tau_j_imxpy))
   - ((Gtt_u_base.[i + N*ipxmy] + Gtt_d_base.[i + N*ipxmy])*(G00_u_base.[j + N*jpxpy] +
   G00_d_base.[j + N*jpxpy]) - Gt0_u_base.[i + N*L*jpxpy]*(G0t_u_base.[j + N*ipxmy] - Cst
   delta_tau_j_ipxmy) - Gt0_d_base.[i + N*L*jpxpy]*(G0t_d_base.[j + N*ipxmy] - Cst delta_tau_j_ipxmy))
   + ((Gtt_u_base.[i + N*ipxmy] + Gtt_d_base.[i + N*ipxmy])*(G00_u_base.[j + N*jmxpy] +
   G00_d_base.[j + N*jmxpy]) - Gt0_u_base.[i + N*L*jmxpy]*(G0t_u_base.[j + N*ipxmy] - Cst
   delta_tau_j_ipxmy) - Gt0_d_base.[i + N*L*jmxpy]*(G0t_d_base.[j + N*ipxmy] - Cst delta_tau_j_ipxmy))
   + ((Gtt_u_base.[i + N*ipxmy] + Gtt_d_base.[i + N*ipxmy])*(G00_u_base.[j + N*jpxmy] +
   G00_d_base.[j + N*jpxmy]) - Gt0_u_base.[i + N*L*jpxmy]*(G0t_u_base.[j + N*ipxmy] - Cst
   delta_tau_j_ipxmy) - Gt0_d_base.[i + N*L*jpxmy]*(G0t_d_base.[j + N*ipxmy] - Cst delta_tau_j_ipxmy))
   - ((Gtt_u_base.[i + N*ipxmy] + Gtt_d_base.[i + N*ipxmy])*(G00_u_base.[j + N*jmxmy] +
   G00_d_base.[j + N*jmxmy]) - Gt0_u_base.[i + N*L*jmxmy]*(G0t_u_base.[j + N*ipxmy] - Cst
   delta_tau_j_ipxmy) - Gt0_d_base.[i + N*L*jmxmy]*(G0t_d_base.[j + N*ipxmy] - Cst delta_tau_j_ipxmy))
   + ((Gtt_u_base.[i + N*imxmy] + Gtt_d_base.[i + N*imxmy])*(G00_u_base.[j + N*jpxpy] +
   G00_d_base.[j + N*jpxpy]) - Gt0_u_base.[i + N*L*jpxpy]*(G0t_u_base.[j + N*imxmy] - Cst
   delta_tau_j_imxmy) - Gt0_d_base.[i + N*L*jpxpy]*(G0t_d_base.[j + N*imxmy] - Cst delta_tau_j_imxmy))
   - ((Gtt_u_base.[i + N*imxmy] + Gtt_d_base.[i + N*imxmy])*(G00_u_base.[j + N*jmxpy] +
   G00_d_base.[j + N*jmxpy]) - Gt0_u_base.[i + N*L*jmxpy]*(G0t_u_base.[j + N*imxmy] - Cst
   delta_tau_j_imxmy) - Gt0_d_base.[i + N*L*jmxpy]*(G0t_d_base.[j + N*imxmy] - Cst delta_tau_j_imxmy))
   - ((Gtt_u_base.[i + N*imxmy] + Gtt_d_base.[i + N*imxmy])*(G00_u_base.[j + N*jpxmy] +
   G00_d_base.[j + N*jpxmy]) - Gt0_u_base.[i + N*L*jpxmy]*(G0t_u_base.[j + N*imxmy] - Cst
   delta_tau_j_imxmy) - Gt0_d_base.[i + N*L*jpxmy]*(G0t_d_base.[j + N*imxmy] - Cst delta_tau_j_imxmy))
   + ((Gtt_u_base.[i + N*imxmy] + Gtt_d_base.[i + N*imxmy])*(G00_u_base.[j + N*jmxmy] +
   G00_d_base.[j + N*jmxmy]) - Gt0_u_base.[i + N*L*jmxmy]*(G0t_u_base.[j + N*imxmy] - Cst
   delta_tau_j_imxmy) - Gt0_d_base.[i + N*L*jmxmy]*(G0t_d_base.[j + N*imxmy] - Cst delta_tau_j_imxmy))
   ))%rexpr.

(** neighbours and next-nearest neighbours of a cell, measurement.c:659-668, 675-684:
    px, mx, py, my, pxpy, pxmy, mxpy, mxmy *)
Definition neighbours8 (nn : nn_maps) (i : Z) : option (Z * Z * Z * Z * (Z * Z * Z * Z)) :=
  let* px := aget (xp1 nn) i in
  let* mx := aget (xm1 nn) i in
  let* py := aget (yp1 nn) i in
  let* my := aget (ym1 nn) i in
  let* pxpy := aget (yp1 nn) px in
  let* pxmy := aget (ym1 nn) px in
  let* mxpy := aget (yp1 nn) mx in
  let* mxmy := aget (ym1 nn) mx in
  Some (px, mx, py, my, (pxpy, pxmy, mxpy, mxmy)).

(** measurement.c:672-792, body of the loop over k, with offset, base pointers and neighbours of i *)
Definition uacc_sc_site (signfac : R) (c : cur_greens) (N Ncell L : Z) (sm : list Z) (nn : nn_maps)
  (l o i : Z) (ni : Z * Z * Z * Z * (Z * Z * Z * Z)) (k : Z) (s : store ufield) : option (store ufield) :=
  let Gt0_u_base := (cGtau0_u c, (Ncell * o) + N * (l + L * (Ncell * o))) in
  let Gt0_d_base := (cGtau0_d c, (Ncell * o) + N * (l + L * (Ncell * o))) in
  let G0t_u_base := (cG0tau_u c, (Ncell * o) + N * ((Ncell * o) + N * l)) in
  let G0t_d_base := (cG0tau_d c, (Ncell * o) + N * ((Ncell * o) + N * l)) in
  let G00_u_base := (cGeqlt_u c, (Ncell * o) + N * (Ncell * o)) in
  let G00_d_base := (cGeqlt_d c, (Ncell * o) + N * (Ncell * o)) in
  let Gtt_u_base := (cGeqlt_u c, (Ncell * o) + N * ((Ncell * o) + N * l)) in
  let Gtt_d_base := (cGeqlt_d c, (Ncell * o) + N * ((Ncell * o) + N * l)) in
  let offset := Ncell * o + N * l in
  let '(ipx, imx, ipy, imy, (ipxpy, ipxmy, imxpy, imxmy)) := ni in
  let* j := aget sm (k + Ncell * i) in
  let* nj := neighbours8 nn j in
  let '(jpx, jmx, jpy, jmy, (jpxpy, jpxmy, jmxpy, jmxmy)) := nj in
  let* Gt0_u_ij := eval Gt0_u_base.[i + N*L*j] in
  let* Gt0_d_ij := eval Gt0_d_base.[i + N*L*j] in
  let* s := u_add u_sc_c_sw (k + offset) (signfac * (Gt0_u_ij * Gt0_d_ij))%R s in
  let* v := eval (dw_expr signfac Gt0_u_ij Gt0_d_base N L ipx imx ipy imy jpx jmx jpy jmy) in
  let* s := u_add u_sc_c_dw (k + offset) v s in
  let* v := eval (sx_expr signfac Gt0_u_ij Gt0_d_base N L ipx imx ipy imy jpx jmx jpy jmy) in
  let* s := u_add u_sc_c_sx (k + offset) v s in
  let* v := eval (jx_expr signfac Gt0_u_base Gt0_d_base G0t_u_base G0t_d_base G00_u_base G00_d_base Gtt_u_base
      Gtt_d_base N L l i ipx j jpx) in
  let* s := u_add Jcorr_x (k + offset) v s in
  let* v := eval (jy_expr signfac Gt0_u_base Gt0_d_base G0t_u_base G0t_d_base G00_u_base G00_d_base Gtt_u_base
      Gtt_d_base N L l i ipy j jpy) in
  let* s := u_add Jcorr_y (k + offset) v s in
  let* v := eval (b1g_expr signfac Gt0_u_base Gt0_d_base G0t_u_base G0t_d_base G00_u_base G00_d_base Gtt_u_base
      Gtt_d_base N L l i ipx imx ipy imy j jpx jmx jpy jmy) in
  let* s := u_add ram_b1g (k + offset) v s in
  let* v := eval (b2g_expr signfac Gt0_u_base Gt0_d_base G0t_u_base G0t_d_base G00_u_base G00_d_base Gtt_u_base
      Gtt_d_base N L l i ipxpy ipxmy imxpy imxmy j jpxpy jpxmy jmxpy jmxmy) in
  u_add ram_b2g (k + offset) v s.

(** measurement.c:656-794, one cell i *)
Definition uacc_sc_row (signfac : R) (c : cur_greens) (N Ncell L : Z) (sm : list Z) (nn : nn_maps)
  (l o i : Z) (s : store ufield) : option (store ufield) :=
  let* ni := neighbours8 nn i in
  for_range 0 Ncell (uacc_sc_site signfac c N Ncell L sm nn l o i ni) s.

(** measurement.c:587-795, time difference l and orbital o *)
Definition uacc_orbital (signfac : R) (c : cur_greens) (N Norb Ncell L : Z) (sm : list Z) (nn : nn_maps)
  (l o : Z) (s : store ufield) : option (store ufield) :=
  let* s := for_range 0 Norb (fun p => for_range 0 Ncell (uacc_corr_row signfac c N Norb Ncell L sm l o p)) s in
  for_range 0 Ncell (uacc_sc_row signfac c N Ncell L sm nn l o) s.

(** measurement.c:580-810, [AccumulateUnequalTimeMeasurement] once the Green's functions are known *)
Definition uaccumulate (sign : R) (c : cur_greens) (m : umeas) : option umeas :=
  let Norb := u_Norb m in
  let Ncell := u_Ncell m in
  let N := Ncell * Norb in
  let L := u_L m in
  let* signfac := rdiv sign (IZR Ncell) in
  let* s := for_range 0 L (fun l => for_range 0 Norb (uacc_orbital signfac c N Norb Ncell L (u_sum m) (u_nn m) l))
              (u_arr m) in
  Some (mk_umeas s (u_sum m) (u_nn m) Norb Ncell L (u_sign m + sign)%R (u_nsampl m + 1)).

(** measurement.c:818-852 [NormalizeUnequalTimeMeasurementData] *)
Definition unormalize (m : umeas) : option umeas :=
  let Norb := u_Norb m in
  let Ncell := u_Ncell m in
  let N := Ncell * Norb in
  let L := u_L m in
  let* nfac := rdiv 1 (IZR (u_nsampl m)) in
  let s := u_arr m in
  let* s := u_scale (Ncell * Norb * Norb * L) nfac Gtau0_u s in
  let* s := u_scale (Ncell * Norb * Norb * L) nfac G0tau_u s in
  let* s := u_scale (Ncell * Norb * Norb * L) nfac Geqlt_u s in
  let* s := u_scale (Ncell * Norb * Norb * L) nfac Gtau0_d s in
  let* s := u_scale (Ncell * Norb * Norb * L) nfac G0tau_d s in
  let* s := u_scale (Ncell * Norb * Norb * L) nfac Geqlt_d s in
  let* s := u_scale (Ncell * Norb * Norb * L) nfac nn_corr s in
  let* s := u_scale (Ncell * Norb * Norb * L) nfac u_zz_corr s in
  let* s := u_scale (Ncell * Norb * Norb * L) nfac u_xx_corr s in
  let* s := u_scale (N * L) nfac u_sc_c_sw s in
  let* s := u_scale (N * L) nfac u_sc_c_dw s in
  let* s := u_scale (N * L) nfac u_sc_c_sx s in
  let* s := u_scale (N * L) nfac Jcorr_x s in
  let* s := u_scale (N * L) nfac Jcorr_y s in
  let* s := u_scale (N * L) nfac ram_b1g s in
  let* s := u_scale (N * L) nfac ram_b2g s in
  Some (mk_umeas s (u_sum m) (u_nn m) Norb Ncell L (u_sign m * nfac)%R (u_nsampl m)).

(** a sequence of samples: sign and Green's functions *)
Definition uaccumulate_all (samples : list (R * cur_greens)) (m : umeas) : option umeas :=
  fold_left (fun o g => let* m := o in uaccumulate (fst g) (snd g) m) samples (Some m).
