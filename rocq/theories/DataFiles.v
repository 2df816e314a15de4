(** Model of the functions which write the measurement data to disk and read them back
    (/repo/src/measurement.c), and of the order in which main uses them.

    A measurement structure is the contents, byte by byte, of each of its members ([memory]): a
    double is eight bytes, an int four bytes (little endian, two's complement), an array as many
    bytes as were allocated.  Nothing is said about the meaning of the bytes of a double; the
    functions copy them.  File names are not limited in length here (the buffers path[1024] are in
    Paths.v). *)
From stdpp Require Import gmap strings.
From Coq Require Import ZArith NArith.
From Verif Require Import Base Random FileSys Checkpoint Accum Measure UMeasure PMeasure.
Local Open Scope Z_scope.

(** the int members of the three structures, measurement.h:46, 113, 152-161 *)
Inductive counter := c_nsampl | n_local_accept | n_local_total | n_block_accept | n_block_total.

(** the members that are copied: the accumulated sign, an int, an array *)
Inductive slot (F : Type) := Sign | Count (c : counter) | Arr (f : F).
Arguments Sign {F}. Arguments Count {F} c. Arguments Arr {F} f.

Definition counter_eqb (a b : counter) : bool :=
  match a, b with
  | c_nsampl, c_nsampl | n_local_accept, n_local_accept | n_local_total, n_local_total
  | n_block_accept, n_block_accept | n_block_total, n_block_total => true
  | _, _ => false
  end.

Definition slot_eqb {F : Type} (eqb : F -> F -> bool) (s t : slot F) : bool :=
  match s, t with
  | Sign, Sign => true
  | Count a, Count b => counter_eqb a b
  | Arr f, Arr g => eqb f g
  | _, _ => false
  end.

(** contents of the members of a structure *)
Definition memory (F : Type) := slot F -> file.

Definition mem_set {F : Type} (eqb : F -> F -> bool) (m : memory F) (s : slot F) (bs : file) : memory F :=
  fun t => if slot_eqb eqb s t then bs else m t.

Definition sizeof_double := 8.
Definition sizeof_int := 4.

(** one statement [sprintf(path, "%s<suffix>", fnbase); XxxData(path, <member>, <size>, <n>)] *)
Record entry (F : Type) := mk_entry { e_suffix : string; e_slot : slot F; e_size : Z; e_n : Z }.
Arguments mk_entry {F}. Arguments e_suffix {F}. Arguments e_slot {F}. Arguments e_size {F}. Arguments e_n {F}.

Definition e_bytes {F : Type} (e : entry F) : nat := Z.to_nat (e_size e * e_n e).

(** util.c:50-71 [WriteData] called for one member; reading beyond the end of the member is
    undefined, as is a negative number of elements *)
Definition write_entry {F : Type} (base : string) (m : memory F) (e : entry F) : option (list fsop) :=
  let mem := m (e_slot e) in
  if (0 <=? e_n e) && (e_bytes e <=? length mem)%nat
  then Some (write_ops (base +:+ e_suffix e) (take (e_bytes e) mem) false) else None.

(** util.c:13-43 [ReadData] called for one member, the status is not looked at; writing beyond the
    end of the member is undefined *)
Definition read_entry {F : Type} (eqb : F -> F -> bool) (fs : filesys) (base : string)
  (m : memory F) (e : entry F) : option (memory F) :=
  let mem := m (e_slot e) in
  if e_n e <? 0 then None
  else
    let (st, new) := read_data fs (base +:+ e_suffix e) mem (e_bytes e) in
    if st <? 0 then Some m
    else if (length new <=? length mem)%nat
    then Some (mem_set eqb m (e_slot e) (new ++ drop (length new) mem)) else None.

(** a sequence of such statements *)
Fixpoint write_all {F : Type} (base : string) (m : memory F) (es : list (entry F)) : option (list fsop) :=
  match es with
  | [] => Some []
  | e :: es' =>
      let* a := write_entry base m e in
      let* b := write_all base m es' in
      Some (a ++ b)
  end.

Fixpoint read_all {F : Type} (eqb : F -> F -> bool) (fs : filesys) (base : string)
  (es : list (entry F)) (m : memory F) : option (memory F) :=
  match es with
  | [] => Some m
  | e :: es' => let* m := read_entry eqb fs base m e in read_all eqb fs base es' m
  end.

(** measurement.c:385-408 [LoadMeasurementData] *)
Definition load_eqlt (Norb Ncell : Z) : list (entry mfield) :=
  let N := Ncell * Norb in
  [ mk_entry "_eqlt_sign.dat" Sign sizeof_double 1;
    mk_entry "_eqlt_nsampl.dat" (Count c_nsampl) sizeof_int 1;
    mk_entry "_eqlt_density_u.dat" (Arr density_u) sizeof_double Norb;
    mk_entry "_eqlt_density_d.dat" (Arr density_d) sizeof_double Norb;
    mk_entry "_eqlt_doubleocc.dat" (Arr doubleocc) sizeof_double Norb;
    mk_entry "_eqlt_grfun_u.dat" (Arr grfun_u) sizeof_double (N*N);
    mk_entry "_eqlt_grfun_d.dat" (Arr grfun_d) sizeof_double (N*N);
    mk_entry "_eqlt_uu_corr.dat" (Arr uu_corr) sizeof_double (Ncell*Norb*Norb);
    mk_entry "_eqlt_dd_corr.dat" (Arr dd_corr) sizeof_double (Ncell*Norb*Norb);
    mk_entry "_eqlt_ud_corr.dat" (Arr ud_corr) sizeof_double (Ncell*Norb*Norb);
    mk_entry "_eqlt_ff_corr.dat" (Arr ff_corr) sizeof_double (Ncell*Norb*Norb);
    mk_entry "_eqlt_zz_corr.dat" (Arr zz_corr) sizeof_double (Ncell*Norb*Norb);
    mk_entry "_eqlt_xx_corr.dat" (Arr xx_corr) sizeof_double (Ncell*Norb*Norb);
    mk_entry "_eqlt_sc_c_sw.dat" (Arr sc_c_sw) sizeof_double N;
    mk_entry "_eqlt_sc_c_dw.dat" (Arr sc_c_dw) sizeof_double N;
    mk_entry "_eqlt_sc_c_sx.dat" (Arr sc_c_sx) sizeof_double N ].

(** measurement.c:415-438 [SaveMeasurementData] *)
Definition save_eqlt (Norb Ncell : Z) : list (entry mfield) :=
  let N := Ncell * Norb in
  [ mk_entry "_eqlt_sign.dat" Sign sizeof_double 1;
    mk_entry "_eqlt_nsampl.dat" (Count c_nsampl) sizeof_int 1;
    mk_entry "_eqlt_density_u.dat" (Arr density_u) sizeof_double Norb;
    mk_entry "_eqlt_density_d.dat" (Arr density_d) sizeof_double Norb;
    mk_entry "_eqlt_doubleocc.dat" (Arr doubleocc) sizeof_double Norb;
    mk_entry "_eqlt_grfun_u.dat" (Arr grfun_u) sizeof_double (N*N);
    mk_entry "_eqlt_grfun_d.dat" (Arr grfun_d) sizeof_double (N*N);
    mk_entry "_eqlt_uu_corr.dat" (Arr uu_corr) sizeof_double (Ncell*Norb*Norb);
    mk_entry "_eqlt_dd_corr.dat" (Arr dd_corr) sizeof_double (Ncell*Norb*Norb);
    mk_entry "_eqlt_ud_corr.dat" (Arr ud_corr) sizeof_double (Ncell*Norb*Norb);
    mk_entry "_eqlt_ff_corr.dat" (Arr ff_corr) sizeof_double (Ncell*Norb*Norb);
    mk_entry "_eqlt_zz_corr.dat" (Arr zz_corr) sizeof_double (Ncell*Norb*Norb);
    mk_entry "_eqlt_xx_corr.dat" (Arr xx_corr) sizeof_double (Ncell*Norb*Norb);
    mk_entry "_eqlt_sc_c_sw.dat" (Arr sc_c_sw) sizeof_double N;
    mk_entry "_eqlt_sc_c_dw.dat" (Arr sc_c_dw) sizeof_double N;
    mk_entry "_eqlt_sc_c_sx.dat" (Arr sc_c_sx) sizeof_double N ].

(** measurement.c:859-890 [LoadUnequalTimeMeasurementData] *)
Definition load_uneqlt (Norb Ncell L : Z) : list (entry ufield) :=
  let N := Ncell * Norb in
  [ mk_entry "_uneqlt_sign.dat" Sign sizeof_double 1;
    mk_entry "_uneqlt_nsampl.dat" (Count c_nsampl) sizeof_int 1;
    mk_entry "_uneqlt_Gtau0_u.dat" (Arr Gtau0_u) sizeof_double (Ncell*Norb*Norb*L);
    mk_entry "_uneqlt_G0tau_u.dat" (Arr G0tau_u) sizeof_double (Ncell*Norb*Norb*L);
    mk_entry "_uneqlt_Geqlt_u.dat" (Arr Geqlt_u) sizeof_double (Ncell*Norb*Norb*L);
    mk_entry "_uneqlt_Gtau0_d.dat" (Arr Gtau0_d) sizeof_double (Ncell*Norb*Norb*L);
    mk_entry "_uneqlt_G0tau_d.dat" (Arr G0tau_d) sizeof_double (Ncell*Norb*Norb*L);
    mk_entry "_uneqlt_Geqlt_d.dat" (Arr Geqlt_d) sizeof_double (Ncell*Norb*Norb*L);
    mk_entry "_uneqlt_nn_corr.dat" (Arr nn_corr) sizeof_double (Ncell*Norb*Norb*L);
    mk_entry "_uneqlt_zz_corr.dat" (Arr u_zz_corr) sizeof_double (Ncell*Norb*Norb*L);
    mk_entry "_uneqlt_xx_corr.dat" (Arr u_xx_corr) sizeof_double (Ncell*Norb*Norb*L);
    mk_entry "_uneqlt_sc_c_sw.dat" (Arr u_sc_c_sw) sizeof_double (N*L);
    mk_entry "_uneqlt_sc_c_dw.dat" (Arr u_sc_c_dw) sizeof_double (N*L);
    mk_entry "_uneqlt_sc_c_sx.dat" (Arr u_sc_c_sx) sizeof_double (N*L);
    mk_entry "_uneqlt_Jcorr_x.dat" (Arr Jcorr_x) sizeof_double (N*L);
    mk_entry "_uneqlt_Jcorr_y.dat" (Arr Jcorr_y) sizeof_double (N*L);
    mk_entry "_uneqlt_ram_b1g.dat" (Arr ram_b1g) sizeof_double (N*L);
    mk_entry "_uneqlt_ram_b2g.dat" (Arr ram_b2g) sizeof_double (N*L) ].

(** measurement.c:897-928 [SaveUnequalTimeMeasurementData] *)
Definition save_uneqlt (Norb Ncell L : Z) : list (entry ufield) :=
  let N := Ncell * Norb in
  [ mk_entry "_uneqlt_sign.dat" Sign sizeof_double 1;
    mk_entry "_uneqlt_nsampl.dat" (Count c_nsampl) sizeof_int 1;
    mk_entry "_uneqlt_Gtau0_u.dat" (Arr Gtau0_u) sizeof_double (Ncell*Norb*Norb*L);
    mk_entry "_uneqlt_G0tau_u.dat" (Arr G0tau_u) sizeof_double (Ncell*Norb*Norb*L);
    mk_entry "_uneqlt_Geqlt_u.dat" (Arr Geqlt_u) sizeof_double (Ncell*Norb*Norb*L);
    mk_entry "_uneqlt_Gtau0_d.dat" (Arr Gtau0_d) sizeof_double (Ncell*Norb*Norb*L);
    mk_entry "_uneqlt_G0tau_d.dat" (Arr G0tau_d) sizeof_double (Ncell*Norb*Norb*L);
    mk_entry "_uneqlt_Geqlt_d.dat" (Arr Geqlt_d) sizeof_double (Ncell*Norb*Norb*L);
    mk_entry "_uneqlt_nn_corr.dat" (Arr nn_corr) sizeof_double (Ncell*Norb*Norb*L);
    mk_entry "_uneqlt_zz_corr.dat" (Arr u_zz_corr) sizeof_double (Ncell*Norb*Norb*L);
    mk_entry "_uneqlt_xx_corr.dat" (Arr u_xx_corr) sizeof_double (Ncell*Norb*Norb*L);
    mk_entry "_uneqlt_sc_c_sw.dat" (Arr u_sc_c_sw) sizeof_double (N*L);
    mk_entry "_uneqlt_sc_c_dw.dat" (Arr u_sc_c_dw) sizeof_double (N*L);
    mk_entry "_uneqlt_sc_c_sx.dat" (Arr u_sc_c_sx) sizeof_double (N*L);
    mk_entry "_uneqlt_Jcorr_x.dat" (Arr Jcorr_x) sizeof_double (N*L);
    mk_entry "_uneqlt_Jcorr_y.dat" (Arr Jcorr_y) sizeof_double (N*L);
    mk_entry "_uneqlt_ram_b1g.dat" (Arr ram_b1g) sizeof_double (N*L);
    mk_entry "_uneqlt_ram_b2g.dat" (Arr ram_b2g) sizeof_double (N*L) ].

(** measurement.c:1123-1145 [SavePhononData] *)
Definition save_phonon (Norb max_nsampl : Z) : list (entry pfield) :=
  [ mk_entry "_phonon_sign.dat" Sign sizeof_double 1;
    mk_entry "_phonon_nsampl.dat" (Count c_nsampl) sizeof_int 1;
    mk_entry "_phonon_X_avg.dat" (Arr X_avg) sizeof_double Norb;
    mk_entry "_phonon_X_avg_sq.dat" (Arr X_avg_sq) sizeof_double Norb;
    mk_entry "_phonon_X_sq_avg.dat" (Arr X_sq_avg) sizeof_double Norb;
    mk_entry "_phonon_V_sq_avg.dat" (Arr V_sq_avg) sizeof_double Norb;
    mk_entry "_phonon_KE.dat" (Arr KE) sizeof_double Norb;
    mk_entry "_phonon_PE.dat" (Arr PE) sizeof_double Norb;
    mk_entry "_phonon_nX.dat" (Arr nX) sizeof_double Norb;
    mk_entry "_phonon_iteration_X_avg.dat" (Arr iteration_X_avg) sizeof_double (Norb * max_nsampl);
    mk_entry "_phonon_iteration_X0.dat" (Arr iteration_X0) sizeof_double (Norb * max_nsampl);
    mk_entry "_phonon_n_local_accept.dat" (Count n_local_accept) sizeof_int 1;
    mk_entry "_phonon_n_local_total.dat" (Count n_local_total) sizeof_int 1;
    mk_entry "_phonon_n_block_accept.dat" (Count n_block_accept) sizeof_int 1;
    mk_entry "_phonon_n_block_total.dat" (Count n_block_total) sizeof_int 1 ].


(** The dimensions that occur in these functions. *)
Record dims := mk_dims { d_Norb : Z; d_Ncell : Z; d_L : Z; d_max : Z }.

(** measurement.c:385-438, 859-928, 1123-1145 with the dimensions stored in the structures *)
Definition save_eqlt_ops (base : string) (d : dims) (m : memory mfield) :=
  write_all base m (save_eqlt (d_Norb d) (d_Ncell d)).
Definition load_eqlt_data (fs : filesys) (base : string) (d : dims) (m : memory mfield) :=
  read_all mfield_eqb fs base (load_eqlt (d_Norb d) (d_Ncell d)) m.
Definition save_uneqlt_ops (base : string) (d : dims) (m : memory ufield) :=
  write_all base m (save_uneqlt (d_Norb d) (d_Ncell d) (d_L d)).
Definition load_uneqlt_data (fs : filesys) (base : string) (d : dims) (m : memory ufield) :=
  read_all ufield_eqb fs base (load_uneqlt (d_Norb d) (d_Ncell d) (d_L d)) m.
Definition save_phonon_ops (base : string) (d : dims) (m : memory pfield) :=
  write_all base m (save_phonon (d_Norb d) (d_max d)).

(** the variables of main that are stored at the end of a run *)
Record run_state := mk_run {
  r_ckpt : ckpt; r_eq : memory mfield; r_un : memory ufield; r_ph : memory pfield }.

(** main.c:249-272, all elementary file operations at the end of a run ([SaveCheckpoint] does
    not fail, see Checkpoint.v) *)
Definition save_run (base : string) (d : dims) (unequal phonons : bool) (r : run_state) : option (list fsop) :=
  let* a := save_ops base (r_ckpt r) in
  let* b := save_eqlt_ops base d (r_eq r) in
  let* c := if unequal then save_uneqlt_ops base d (r_un r) else Some [] in
  let* e := if phonons then save_phonon_ops base d (r_ph r) else Some [] in
  Some (a ++ b ++ c ++ e).

(** What main does at its start, main.c:146-182: a new simulation; return with status -5 or -6;
    or continuation with the given values of its variables. *)
Inductive start := Fresh | Return (status : Z) | Resume (r : run_state).

(** main.c:146-182; [r] holds the values of the variables before (the structures as allocated),
    [total] is nequil + nsampl and [LxN] the number of field values *)
Definition start_run (fs : filesys) (base : string) (d : dims) (unequal : bool) (LxN : nat) (total : Z)
  (r : run_state) : option start :=
  if negb (search_checkpoint fs base =? 0) then Some Fresh
  else
    let (st, c) := load_checkpoint fs base LxN (r_ckpt r) in
    if st <? 0 then Some (Return (-5))
    else if ck_iter c =? total then Some (Return (-6))
    else
      let* eq := load_eqlt_data fs base d (r_eq r) in
      let* un := if unequal then load_uneqlt_data fs base d (r_un r) else Some (r_un r) in
      Some (Resume (mk_run c eq un (r_ph r))).
