(** Vocabulary for the statements about the files of the build which records every pair of sites. *)
From stdpp Require Import gmap strings.
From Coq Require Import ZArith NArith.
From Verif Require Import Random RandomSpec FileSys Checkpoint CheckpointSpec Measure UMeasure PMeasure FMeasure DataFiles DataFilesSpec.

(** the names of the equal time files are those of the default build; the current correlations are not measured *)
Definition full_un_file (s : slot ufield) : option string :=
  match s with Arr Jcorr_x | Arr Jcorr_y => None | _ => un_file s end.
(** the phonon quantities of this build; the counters are not stored *)
Definition full_ph_file (s : slot pfield) : option string :=
  match s with
  | Sign | Count c_nsampl | Arr X_avg | Arr X_sq_avg | Arr iteration_X_avg | Arr iteration_X0 => ph_file s
  | _ => None
  end.

(** number of elements of the arrays this build allocates *)
Definition full_eq_len (d : dims) := fmfield_len (d_Norb d) (d_Ncell d).
Definition full_un_len (d : dims) := fufield_len (d_Norb d) (d_Ncell d) (d_L d).
Definition full_ph_len (d : dims) (f : pfield) : Z :=
  match f with X_avg | X_sq_avg | iteration_X_avg | iteration_X0 => pfield_len (d_Norb d) (d_max d) f | _ => 0%Z end.

Definition full_run_ok (d : dims) (r : run_state) : Prop :=
  valid_ckpt (r_ckpt r) /\ sized (full_eq_len d) (r_eq r) /\ sized (full_un_len d) (r_un r) /\ sized (full_ph_len d) (r_ph r).

(** the suffixes of the files which belong to a run *)
Definition full_run_file (unequal phonons : bool) (suf : string) : Prop :=
  suf ∈ suffixes \/ (exists s, eq_file s = Some suf) \/
  (unequal = true /\ exists s, full_un_file s = Some suf) \/ (phonons = true /\ exists s, full_ph_file s = Some suf).

(** the members whose size does not depend on the build *)
Definition same_eq (s : slot mfield) : bool :=
  match s with Sign | Count _ | Arr grfun_u | Arr grfun_d => true | _ => false end.
Definition same_un (s : slot ufield) : bool := match s with Sign | Count _ => true | _ => false end.
