(** Properties C80 and C81: the files of the build which records every pair of sites (measurement_full.c, main.c). *)
From stdpp Require Import gmap strings.
From Coq Require Import ZArith NArith Lia.
From Verif Require Import Base Random RandomSpec RandomFacts FileSys Checkpoint CheckpointSpec CheckpointFacts
  Measure UMeasure PMeasure FMeasure DataFiles DataFilesSpec P_DataFiles FDataFiles FDataFilesSpec FDataFilesFacts.

(** C80 (files): whatever is on disk, at the end of a run every quantity this build measures is in the file of its name,
    byte by byte, and no other file is touched. *)
Theorem C80_full_results_on_disk :
  forall fs base d unequal phonons r, dims_ok d -> full_run_ok d r ->
  exists ops, save_run_full base d unequal phonons r = Some ops /\
    let fs' := apply_ops fs ops in
    (forall s suf, eq_file s = Some suf -> fs' !! (base +:+ suf) = Some (r_eq r s)) /\
    (unequal = true -> forall s suf, full_un_file s = Some suf -> fs' !! (base +:+ suf) = Some (r_un r s)) /\
    (phonons = true -> forall s suf, full_ph_file s = Some suf -> fs' !! (base +:+ suf) = Some (r_ph r s)) /\
    (forall name, (forall suf, full_run_file unequal phonons suf -> name <> base +:+ suf) -> fs' !! name = fs !! name).
Proof. exact full_on_disk. Qed.
Print Assumptions C80_full_results_on_disk.

(** C80 (resuming): started again the program reports a complete simulation, or continues with the iteration number, the
    field and all the accumulated electron data it had. *)
Theorem C80_full_resume_with_all_data :
  forall fs base d unequal phonons r r0 total, dims_ok d -> full_run_ok d r -> full_run_ok d r0 ->
  exists ops, save_run_full base d unequal phonons r = Some ops /\
    let fs' := apply_ops fs ops in
    let again := start_run_full fs' base d unequal (length (ck_s (r_ckpt r))) total r0 in
    (ck_iter (r_ckpt r) = total -> again = Some (Return (-6))) /\
    (ck_iter (r_ckpt r) <> total -> exists r', again = Some (Resume r') /\
       ck_iter (r_ckpt r') = ck_iter (r_ckpt r) /\ ck_s (r_ckpt r') = ck_s (r_ckpt r) /\
       valid_seed (ck_seed (r_ckpt r')) /\
       (forall s, eq_file s <> None -> r_eq r' s = r_eq r s) /\
       (unequal = true -> forall s, full_un_file s <> None -> r_un r' s = r_un r s)).
Proof. exact full_resume_ok. Qed.
Print Assumptions C80_full_resume_with_all_data.

(** A case: one orbital, two cells, two time slices; all bytes equal to [b] except for the number of samples. *)
Definition full_demo (iter : Z) (b : N) (n : Z) : run_state :=
  mk_run (mk_ckpt iter (seed_init 7) [1; 0; 1; 1]%N)
    (filled (full_eq_len demo_dims) b n) (filled (full_un_len demo_dims) b n) (filled (full_ph_len demo_dims) b n).
Lemma full_demo_ok iter b n : (0 <= iter < 100)%Z -> full_run_ok demo_dims (full_demo iter b n).
Proof.
  intros H. split; [|split; [|split]]; [|apply filled_sized..].
  split; [cbn; lia|]. apply seed_init_valid. lia.
Qed.
Example C80_case :
  exists ops r', full_run_ok demo_dims (full_demo 5 9 6) /\ save_run_full "out" demo_dims true true (full_demo 5 9 6) = Some ops /\
    start_run_full (apply_ops ∅ ops) "out" demo_dims true 4 20 (full_demo 0 0 0) = Some (Resume r') /\
    ck_iter (r_ckpt r') = 5%Z /\ samples (r_eq r') = 6%Z /\ r_eq r' (Arr density_d) = repeat 9%N 16 /\
    r_un r' (Arr ram_b2g) = repeat 9%N 64.
Proof.
  do 2 eexists. split; [apply full_demo_ok; lia|]. split; [vm_compute; reflexivity|]. split; [vm_compute; reflexivity|]. vm_compute. repeat split.
Qed.

(** C81, full claim: a simulation of one build is not continued by the other one, or continued with all its data.  False, see
    below.  What holds for every lattice of more than one cell, in both directions: the program continues; the sign, the number of
    samples and the equal time Green's functions are those of the stored simulation, while every other array keeps what it was
    initialised with (zero).  Missing: refusing to continue. *)
Theorem C81_other_build_partial :
  forall fs base d unequal phonons total,
  (0 < d_Norb d)%Z -> (1 < d_Ncell d)%Z -> (0 < d_L d)%Z -> (0 <= d_max d)%Z ->
  (forall r r0, full_run_ok d r -> run_ok d r0 -> ck_iter (r_ckpt r) <> total ->
    exists ops r', save_run_full base d unequal phonons r = Some ops /\
      start_run (apply_ops fs ops) base d unequal (length (ck_s (r_ckpt r))) total r0 = Some (Resume r') /\
      (forall s, eq_file s <> None -> r_eq r' s = if same_eq s then r_eq r s else r_eq r0 s) /\
      (unequal = true -> forall s, full_un_file s <> None -> r_un r' s = if same_un s then r_un r s else r_un r0 s)) /\
  (forall r r0, run_ok d r -> full_run_ok d r0 -> ck_iter (r_ckpt r) <> total ->
    exists ops r', save_run base d unequal phonons r = Some ops /\
      start_run_full (apply_ops fs ops) base d unequal (length (ck_s (r_ckpt r))) total r0 = Some (Resume r') /\
      (forall s, eq_file s <> None -> r_eq r' s = if same_eq s then r_eq r s else r_eq r0 s) /\
      (unequal = true -> forall s, full_un_file s <> None -> r_un r' s = if same_un s then r_un r s else r_un r0 s)).
Proof.
  intros fs base d un ph total H1 H2 H3 H4. assert (true_dims d) as TD by (repeat split; assumption). split; intros r r0.
  - intros V V0 Ht. exact (mixed_default fs base d un ph r r0 total TD V V0 Ht).
  - intros V V0 Ht. exact (mixed_full fs base d un ph r r0 total TD V V0 Ht).
Qed.
Print Assumptions C81_other_build_partial.

Example C81_case : (1 < d_Ncell demo_dims)%Z /\ full_run_ok demo_dims (full_demo 5 9 6) /\ run_ok demo_dims (demo 0 0 0).
Proof. split; [reflexivity|]. split; [apply full_demo_ok; lia|apply demo_ok; lia]. Qed.

(** C81 refuted: six samples of the build for every pair are stored; the default build continues with six samples and densities
    zero, so that the means will be divided by a number of samples that includes these six. *)
Theorem C81_other_build_refuted :
  exists ops r', save_run_full "out" demo_dims false false (full_demo 5 9 6) = Some ops /\
    start_run (apply_ops ∅ ops) "out" demo_dims false 4 20 (demo 0 0 0) = Some (Resume r') /\
    ck_iter (r_ckpt r') = 5%Z /\ samples (r_eq r') = 6%Z /\ r_eq r' (Arr density_u) = repeat 0%N 8 /\
    r_eq (full_demo 5 9 6) (Arr density_u) = repeat 9%N 16.
Proof. do 2 eexists. split; [vm_compute; reflexivity|]. split; [vm_compute; reflexivity|]. vm_compute. repeat split. Qed.
Print Assumptions C81_other_build_refuted.
