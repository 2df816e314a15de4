(** Model of the functions which write the measurement data to disk and read them back in the build which records every pair of
    sites (/repo/src/measurement_full.c), and of main.c linked with them.  Conventions as in DataFiles.v. *)
From stdpp Require Import gmap strings.
From Coq Require Import ZArith NArith.
From Verif Require Import Base Random FileSys Checkpoint Accum Measure UMeasure PMeasure DataFiles.
Local Open Scope Z_scope.

(** measurement_full.c:316-339 [LoadMeasurementData] *)
Definition load_eqlt_full (Norb Ncell : Z) : list (entry mfield) :=
  let N := Ncell * Norb in
  [ mk_entry "_eqlt_sign.dat" Sign sizeof_double 1;
    mk_entry "_eqlt_nsampl.dat" (Count c_nsampl) sizeof_int 1;
    mk_entry "_eqlt_density_u.dat" (Arr density_u) sizeof_double N;
    mk_entry "_eqlt_density_d.dat" (Arr density_d) sizeof_double N;
    mk_entry "_eqlt_doubleocc.dat" (Arr doubleocc) sizeof_double N;
    mk_entry "_eqlt_grfun_u.dat" (Arr grfun_u) sizeof_double (N*N);
    mk_entry "_eqlt_grfun_d.dat" (Arr grfun_d) sizeof_double (N*N);
    mk_entry "_eqlt_uu_corr.dat" (Arr uu_corr) sizeof_double (N*N);
    mk_entry "_eqlt_dd_corr.dat" (Arr dd_corr) sizeof_double (N*N);
    mk_entry "_eqlt_ud_corr.dat" (Arr ud_corr) sizeof_double (N*N);
    mk_entry "_eqlt_ff_corr.dat" (Arr ff_corr) sizeof_double (N*N);
    mk_entry "_eqlt_zz_corr.dat" (Arr zz_corr) sizeof_double (N*N);
    mk_entry "_eqlt_xx_corr.dat" (Arr xx_corr) sizeof_double (N*N);
    mk_entry "_eqlt_sc_c_sw.dat" (Arr sc_c_sw) sizeof_double (Ncell*Ncell*Norb);
    mk_entry "_eqlt_sc_c_dw.dat" (Arr sc_c_dw) sizeof_double (Ncell*Ncell*Norb);
    mk_entry "_eqlt_sc_c_sx.dat" (Arr sc_c_sx) sizeof_double (Ncell*Ncell*Norb) ].

(** measurement_full.c:346-369 [SaveMeasurementData] *)
Definition save_eqlt_full (Norb Ncell : Z) : list (entry mfield) :=
  let N := Ncell * Norb in
  [ mk_entry "_eqlt_sign.dat" Sign sizeof_double 1;
    mk_entry "_eqlt_nsampl.dat" (Count c_nsampl) sizeof_int 1;
    mk_entry "_eqlt_density_u.dat" (Arr density_u) sizeof_double N;
    mk_entry "_eqlt_density_d.dat" (Arr density_d) sizeof_double N;
    mk_entry "_eqlt_doubleocc.dat" (Arr doubleocc) sizeof_double N;
    mk_entry "_eqlt_grfun_u.dat" (Arr grfun_u) sizeof_double (N*N);
    mk_entry "_eqlt_grfun_d.dat" (Arr grfun_d) sizeof_double (N*N);
    mk_entry "_eqlt_uu_corr.dat" (Arr uu_corr) sizeof_double (N*N);
    mk_entry "_eqlt_dd_corr.dat" (Arr dd_corr) sizeof_double (N*N);
    mk_entry "_eqlt_ud_corr.dat" (Arr ud_corr) sizeof_double (N*N);
    mk_entry "_eqlt_ff_corr.dat" (Arr ff_corr) sizeof_double (N*N);
    mk_entry "_eqlt_zz_corr.dat" (Arr zz_corr) sizeof_double (N*N);
    mk_entry "_eqlt_xx_corr.dat" (Arr xx_corr) sizeof_double (N*N);
    mk_entry "_eqlt_sc_c_sw.dat" (Arr sc_c_sw) sizeof_double (Ncell*Ncell*Norb);
    mk_entry "_eqlt_sc_c_dw.dat" (Arr sc_c_dw) sizeof_double (Ncell*Ncell*Norb);
    mk_entry "_eqlt_sc_c_sx.dat" (Arr sc_c_sx) sizeof_double (Ncell*Ncell*Norb) ].

(** measurement_full.c:737-765 [LoadUnequalTimeMeasurementData] *)
Definition load_uneqlt_full (Norb Ncell L : Z) : list (entry ufield) :=
  let N := Ncell * Norb in
  [ mk_entry "_uneqlt_sign.dat" Sign sizeof_double 1;
    mk_entry "_uneqlt_nsampl.dat" (Count c_nsampl) sizeof_int 1;
    mk_entry "_uneqlt_Gtau0_u.dat" (Arr Gtau0_u) sizeof_double (N*L*N);
    mk_entry "_uneqlt_G0tau_u.dat" (Arr G0tau_u) sizeof_double (N*N*L);
    mk_entry "_uneqlt_Geqlt_u.dat" (Arr Geqlt_u) sizeof_double (N*N*L);
    mk_entry "_uneqlt_Gtau0_d.dat" (Arr Gtau0_d) sizeof_double (N*L*N);
    mk_entry "_uneqlt_G0tau_d.dat" (Arr G0tau_d) sizeof_double (N*N*L);
    mk_entry "_uneqlt_Geqlt_d.dat" (Arr Geqlt_d) sizeof_double (N*N*L);
    mk_entry "_uneqlt_nn_corr.dat" (Arr nn_corr) sizeof_double (N*N*L);
    mk_entry "_uneqlt_zz_corr.dat" (Arr u_zz_corr) sizeof_double (N*N*L);
    mk_entry "_uneqlt_xx_corr.dat" (Arr u_xx_corr) sizeof_double (N*N*L);
    mk_entry "_uneqlt_sc_c_sw.dat" (Arr u_sc_c_sw) sizeof_double (Ncell*Ncell*Norb*L);
    mk_entry "_uneqlt_sc_c_dw.dat" (Arr u_sc_c_dw) sizeof_double (Ncell*Ncell*Norb*L);
    mk_entry "_uneqlt_sc_c_sx.dat" (Arr u_sc_c_sx) sizeof_double (Ncell*Ncell*Norb*L);
    mk_entry "_uneqlt_ram_b1g.dat" (Arr ram_b1g) sizeof_double (Ncell*Ncell*Norb*L);
    mk_entry "_uneqlt_ram_b2g.dat" (Arr ram_b2g) sizeof_double (Ncell*Ncell*Norb*L) ].

(** measurement_full.c:772-800 [SaveUnequalTimeMeasurementData] *)
Definition save_uneqlt_full (Norb Ncell L : Z) : list (entry ufield) :=
  let N := Ncell * Norb in
  [ mk_entry "_uneqlt_sign.dat" Sign sizeof_double 1;
    mk_entry "_uneqlt_nsampl.dat" (Count c_nsampl) sizeof_int 1;
    mk_entry "_uneqlt_Gtau0_u.dat" (Arr Gtau0_u) sizeof_double (N*L*N);
    mk_entry "_uneqlt_G0tau_u.dat" (Arr G0tau_u) sizeof_double (N*N*L);
    mk_entry "_uneqlt_Geqlt_u.dat" (Arr Geqlt_u) sizeof_double (N*N*L);
    mk_entry "_uneqlt_Gtau0_d.dat" (Arr Gtau0_d) sizeof_double (N*L*N);
    mk_entry "_uneqlt_G0tau_d.dat" (Arr G0tau_d) sizeof_double (N*N*L);
    mk_entry "_uneqlt_Geqlt_d.dat" (Arr Geqlt_d) sizeof_double (N*N*L);
    mk_entry "_uneqlt_nn_corr.dat" (Arr nn_corr) sizeof_double (N*N*L);
    mk_entry "_uneqlt_zz_corr.dat" (Arr u_zz_corr) sizeof_double (N*N*L);
    mk_entry "_uneqlt_xx_corr.dat" (Arr u_xx_corr) sizeof_double (N*N*L);
    mk_entry "_uneqlt_sc_c_sw.dat" (Arr u_sc_c_sw) sizeof_double (Ncell*Ncell*Norb*L);
    mk_entry "_uneqlt_sc_c_dw.dat" (Arr u_sc_c_dw) sizeof_double (Ncell*Ncell*Norb*L);
    mk_entry "_uneqlt_sc_c_sx.dat" (Arr u_sc_c_sx) sizeof_double (Ncell*Ncell*Norb*L);
    mk_entry "_uneqlt_ram_b1g.dat" (Arr ram_b1g) sizeof_double (Ncell*Ncell*Norb*L);
    mk_entry "_uneqlt_ram_b2g.dat" (Arr ram_b2g) sizeof_double (Ncell*Ncell*Norb*L) ].

(** measurement_full.c:930-942 [SavePhononData] *)
Definition save_phonon_full (Norb max_nsampl : Z) : list (entry pfield) :=
  [ mk_entry "_phonon_sign.dat" Sign sizeof_double 1;
    mk_entry "_phonon_nsampl.dat" (Count c_nsampl) sizeof_int 1;
    mk_entry "_phonon_iteration_X_avg.dat" (Arr iteration_X_avg) sizeof_double (Norb * max_nsampl);
    mk_entry "_phonon_iteration_X0.dat" (Arr iteration_X0) sizeof_double (Norb * max_nsampl);
    mk_entry "_phonon_X_avg.dat" (Arr X_avg) sizeof_double Norb;
    mk_entry "_phonon_X_sq_avg.dat" (Arr X_sq_avg) sizeof_double Norb ].

(** main.c:249-272, all elementary file operations at the end of a run *)
Definition save_run_full (base : string) (d : dims) (unequal phonons : bool) (r : run_state) : option (list fsop) :=
  let* a := save_ops base (r_ckpt r) in
  let* b := write_all base (r_eq r) (save_eqlt_full (d_Norb d) (d_Ncell d)) in
  let* c := if unequal then write_all base (r_un r) (save_uneqlt_full (d_Norb d) (d_Ncell d) (d_L d)) else Some [] in
  let* e := if phonons then write_all base (r_ph r) (save_phonon_full (d_Norb d) (d_max d)) else Some [] in
  Some (a ++ b ++ c ++ e).

(** main.c:146-182, see [start_run] in DataFiles.v *)
Definition start_run_full (fs : filesys) (base : string) (d : dims) (unequal : bool) (LxN : nat) (total : Z)
  (r : run_state) : option start :=
  if negb (search_checkpoint fs base =? 0) then Some Fresh
  else
    let (st, c) := load_checkpoint fs base LxN (r_ckpt r) in
    if st <? 0 then Some (Return (-5))
    else if ck_iter c =? total then Some (Return (-6))
    else
      let* eq := read_all mfield_eqb fs base (load_eqlt_full (d_Norb d) (d_Ncell d)) (r_eq r) in
      let* un := if unequal then read_all ufield_eqb fs base (load_uneqlt_full (d_Norb d) (d_Ncell d) (d_L d)) (r_un r) else Some (r_un r) in
      Some (Resume (mk_run c eq un (r_ph r))).
