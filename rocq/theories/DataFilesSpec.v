(** Vocabulary for the statements about the files with measurement data. *)
From stdpp Require Import gmap strings.
From Coq Require Import ZArith NArith.
From Verif Require Import Random RandomSpec FileSys Checkpoint CheckpointSpec Measure UMeasure PMeasure DataFiles.

(** The name of the file of each quantity (to be appended to the base name); [None]: not a member
    of the structure, or not stored. *)
Definition eq_file (s : slot mfield) : option string :=
  match s with
  | Sign => Some "_eqlt_sign.dat"
  | Count c_nsampl => Some "_eqlt_nsampl.dat"
  | Count _ => None
  | Arr density_u => Some "_eqlt_density_u.dat"
  | Arr density_d => Some "_eqlt_density_d.dat"
  | Arr doubleocc => Some "_eqlt_doubleocc.dat"
  | Arr grfun_u => Some "_eqlt_grfun_u.dat"
  | Arr grfun_d => Some "_eqlt_grfun_d.dat"
  | Arr uu_corr => Some "_eqlt_uu_corr.dat"
  | Arr dd_corr => Some "_eqlt_dd_corr.dat"
  | Arr ud_corr => Some "_eqlt_ud_corr.dat"
  | Arr ff_corr => Some "_eqlt_ff_corr.dat"
  | Arr zz_corr => Some "_eqlt_zz_corr.dat"
  | Arr xx_corr => Some "_eqlt_xx_corr.dat"
  | Arr sc_c_sw => Some "_eqlt_sc_c_sw.dat"
  | Arr sc_c_dw => Some "_eqlt_sc_c_dw.dat"
  | Arr sc_c_sx => Some "_eqlt_sc_c_sx.dat"
  end.

Definition un_file (s : slot ufield) : option string :=
  match s with
  | Sign => Some "_uneqlt_sign.dat"
  | Count c_nsampl => Some "_uneqlt_nsampl.dat"
  | Count _ => None
  | Arr Gtau0_u => Some "_uneqlt_Gtau0_u.dat"
  | Arr G0tau_u => Some "_uneqlt_G0tau_u.dat"
  | Arr Geqlt_u => Some "_uneqlt_Geqlt_u.dat"
  | Arr Gtau0_d => Some "_uneqlt_Gtau0_d.dat"
  | Arr G0tau_d => Some "_uneqlt_G0tau_d.dat"
  | Arr Geqlt_d => Some "_uneqlt_Geqlt_d.dat"
  | Arr nn_corr => Some "_uneqlt_nn_corr.dat"
  | Arr u_zz_corr => Some "_uneqlt_zz_corr.dat"
  | Arr u_xx_corr => Some "_uneqlt_xx_corr.dat"
  | Arr u_sc_c_sw => Some "_uneqlt_sc_c_sw.dat"
  | Arr u_sc_c_dw => Some "_uneqlt_sc_c_dw.dat"
  | Arr u_sc_c_sx => Some "_uneqlt_sc_c_sx.dat"
  | Arr Jcorr_x => Some "_uneqlt_Jcorr_x.dat"
  | Arr Jcorr_y => Some "_uneqlt_Jcorr_y.dat"
  | Arr ram_b1g => Some "_uneqlt_ram_b1g.dat"
  | Arr ram_b2g => Some "_uneqlt_ram_b2g.dat"
  end.

(** the average velocity [V_avg] is in no file; [cur_X] is not a member of the structure *)
Definition ph_file (s : slot pfield) : option string :=
  match s with
  | Sign => Some "_phonon_sign.dat"
  | Count c_nsampl => Some "_phonon_nsampl.dat"
  | Count n_local_accept => Some "_phonon_n_local_accept.dat"
  | Count n_local_total => Some "_phonon_n_local_total.dat"
  | Count n_block_accept => Some "_phonon_n_block_accept.dat"
  | Count n_block_total => Some "_phonon_n_block_total.dat"
  | Arr X_avg => Some "_phonon_X_avg.dat"
  | Arr X_avg_sq => Some "_phonon_X_avg_sq.dat"
  | Arr X_sq_avg => Some "_phonon_X_sq_avg.dat"
  | Arr V_avg => None
  | Arr V_sq_avg => Some "_phonon_V_sq_avg.dat"
  | Arr PE => Some "_phonon_PE.dat"
  | Arr KE => Some "_phonon_KE.dat"
  | Arr nX => Some "_phonon_nX.dat"
  | Arr iteration_X_avg => Some "_phonon_iteration_X_avg.dat"
  | Arr iteration_X0 => Some "_phonon_iteration_X0.dat"
  | Arr cur_X => None
  end.

(** Size in bytes of a member whose array has [len] elements. *)
Definition slot_size {F : Type} (len : F -> Z) (s : slot F) : nat :=
  match s with Sign => 8 | Count _ => 4 | Arr f => Z.to_nat (8 * len f) end.

(** Every member has the size it is allocated with (Measure.v, UMeasure.v, PMeasure.v). *)
Definition sized {F : Type} (len : F -> Z) (m : memory F) : Prop :=
  forall s, length (m s) = slot_size len s.

Definition eq_len (d : dims) := mfield_len (d_Norb d) (d_Ncell d).
Definition un_len (d : dims) := ufield_len (d_Norb d) (d_Ncell d) (d_L d).
Definition ph_len (d : dims) := pfield_len (d_Norb d) (d_max d).

Definition dims_ok (d : dims) : Prop :=
  (0 <= d_Norb d /\ 0 <= d_Ncell d /\ 0 <= d_L d /\ 0 <= d_max d)%Z.

(** What a run can have in its variables: structures as allocated, a valid checkpoint. *)
Definition run_ok (d : dims) (r : run_state) : Prop :=
  valid_ckpt (r_ckpt r) /\ sized (eq_len d) (r_eq r) /\ sized (un_len d) (r_un r) /\ sized (ph_len d) (r_ph r).

(** the suffixes of the files which belong to a run *)
Definition run_file (unequal phonons : bool) (suf : string) : Prop :=
  suf ∈ suffixes \/ (exists s, eq_file s = Some suf) \/
  (unequal = true /\ exists s, un_file s = Some suf) \/ (phonons = true /\ exists s, ph_file s = Some suf).

(** [fs'] is the disk after the process died after [k] elementary file operations of saving. *)
Definition crash_run (k : nat) (fs : filesys) (base : string) (d : dims) (unequal phonons : bool)
  (r : run_state) : option filesys :=
  match save_run base d unequal phonons r with
  | Some ops => Some (apply_ops fs (take k ops))
  | None => None
  end.

(** number of samples in a structure *)
Definition samples {F : Type} (m : memory F) : Z := bytes_int (m (Count c_nsampl)).
