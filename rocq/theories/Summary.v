(** Model of the summaries printed at the end of a simulation: /repo/src/measurement.c:352-378
    [PrintMeasurementDataSummary] and 1091-1118 [PrintPhononData].

    A line of the output is the quantity it names, the orbital of the last heading "Results for orbital"
    (0 before the first heading), and the number.  Doubles are real numbers: a quotient with divisor zero (printed
    as nan or inf) is the outcome [None].  Left out: the text, the rounding to six digits by %g. *)
From Coq Require Import ZArith List Reals.
From Verif Require Import Base RealOps Measure PMeasure PhononSweep.
Import ListNotations.
Local Open Scope Z_scope.

(** measurement.c:359-376 and 1099-1116: the texts in front of the numbers *)
Inductive quantity :=
| average_sign | average_total_density | average_spin_up_density | average_spin_down_density
| average_double_occupancy | average_local_moment
| local_acceptance_ratio | block_acceptance_ratio | flip_acceptance_ratio
| average_X | average_X2 | average_V2 | average_phonon_KE | average_phonon_PE | average_sum_nX.

(** heading, quantity, number *)
Definition line : Type := option Z * quantity * R.

(** measurement.c:370-376: the lines of one orbital *)
Definition orbital_lines (m : meas) (o : Z) : option (list line) :=
  let sgn := m_sign m in
  let* u := aget (m_arr m density_u) o in
  let* d := aget (m_arr m density_d) o in
  let* x := aget (m_arr m doubleocc) o in
  let* l1 := rdiv (u + d)%R sgn in
  let* l2 := rdiv u sgn in
  let* l3 := rdiv d sgn in
  let* l4 := rdiv x sgn in
  let* l5 := rdiv (u + d - 2 * x)%R sgn in
  Some [(Some o, average_total_density, l1); (Some o, average_spin_up_density, l2); (Some o, average_spin_down_density, l3);
        (Some o, average_double_occupancy, l4); (Some o, average_local_moment, l5)].

(** measurement.c:356-378 [PrintMeasurementDataSummary] *)
Definition print_summary (m : meas) : option (list line) :=
  let sgn := m_sign m in
  let* total := for_range 0 (m_Norb m) (fun o t =>
    let* u := aget (m_arr m density_u) o in
    let* d := aget (m_arr m density_d) o in
    Some (t + (u + d))%R) 0%R in
  let* t := rdiv total sgn in
  for_range 0 (m_Norb m) (fun o out =>
    let* ls := orbital_lines m o in Some (out ++ ls)) [(None, average_sign, sgn); (None, average_total_density, t)].

(** measurement.c:1104-1116: the lines of one orbital *)
Definition phonon_orbital_lines (m : pmeas) (c : counts) (o : Z) : option (list line) :=
  let sgn := p_sign m in
  let* l1 := rdiv (IZR (n_local_accept c)) (IZR (n_local_total c)) in
  let* l2 := rdiv (IZR (n_block_accept c)) (IZR (n_block_total c)) in
  let* l3 := rdiv (IZR (n_flip_accept c)) (IZR (n_flip_total c)) in
  let* a := aget (p_arr m X_avg) o in let* l4 := rdiv a sgn in
  let* a := aget (p_arr m X_sq_avg) o in let* l5 := rdiv a sgn in
  let* a := aget (p_arr m V_sq_avg) o in let* l6 := rdiv a sgn in
  let* a := aget (p_arr m KE) o in let* l7 := rdiv a sgn in
  let* a := aget (p_arr m PE) o in let* l8 := rdiv a sgn in
  let* a := aget (p_arr m nX) o in let* l9 := rdiv a sgn in
  Some [(Some o, local_acceptance_ratio, l1); (Some o, block_acceptance_ratio, l2); (Some o, flip_acceptance_ratio, l3);
        (Some o, average_X, l4); (Some o, average_X2, l5); (Some o, average_V2, l6);
        (Some o, average_phonon_KE, l7); (Some o, average_phonon_PE, l8); (Some o, average_sum_nX, l9)].

(** measurement.c:1095-1118 [PrintPhononData] *)
Definition print_phonon_summary (m : pmeas) (c : counts) : option (list line) :=
  for_range 0 (p_Norb m) (fun o out =>
    let* ls := phonon_orbital_lines m c o in Some (out ++ ls)) [(None, average_sign, p_sign m)].
