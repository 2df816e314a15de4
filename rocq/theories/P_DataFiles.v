(** Properties C58-C60: the files with the results (measurement.c, main.c, util.c). *)
From stdpp Require Import gmap strings.
From Coq Require Import ZArith NArith Lia.
From Verif Require Import Base Random RandomSpec RandomFacts FileSys Checkpoint CheckpointSpec CheckpointFacts
  Measure UMeasure PMeasure DataFiles DataFilesSpec DataFilesFacts.

(** C58 (files): whatever is on disk, at the end of a run every quantity is in the file of its
    name, byte by byte, and no other file is touched. *)
Theorem C58_results_on_disk :
  forall fs base d unequal phonons r, dims_ok d -> run_ok d r ->
  exists ops, save_run base d unequal phonons r = Some ops /\
    let fs' := apply_ops fs ops in
    (forall s suf, eq_file s = Some suf -> fs' !! (base +:+ suf) = Some (r_eq r s)) /\
    (unequal = true -> forall s suf, un_file s = Some suf -> fs' !! (base +:+ suf) = Some (r_un r s)) /\
    (phonons = true -> forall s suf, ph_file s = Some suf -> fs' !! (base +:+ suf) = Some (r_ph r s)) /\
    (forall name, (forall suf, run_file unequal phonons suf -> name <> base +:+ suf) -> fs' !! name = fs !! name).
Proof. exact on_disk. Qed.
Print Assumptions C58_results_on_disk.

(** C58 (resuming): started again (with freshly allocated structures [r0] of the same dimensions)
    the program reports a complete simulation, or continues with the iteration number, the field
    and all the accumulated data it had. *)
Theorem C58_resume_with_all_data :
  forall fs base d unequal phonons r r0 total, dims_ok d -> run_ok d r -> run_ok d r0 ->
  exists ops, save_run base d unequal phonons r = Some ops /\
    let fs' := apply_ops fs ops in
    let again := start_run fs' base d unequal (length (ck_s (r_ckpt r))) total r0 in
    (ck_iter (r_ckpt r) = total -> again = Some (Return (-6))) /\
    (ck_iter (r_ckpt r) <> total -> exists r', again = Some (Resume r') /\
       ck_iter (r_ckpt r') = ck_iter (r_ckpt r) /\ ck_s (r_ckpt r') = ck_s (r_ckpt r) /\
       valid_seed (ck_seed (r_ckpt r')) /\
       (forall s, eq_file s <> None -> r_eq r' s = r_eq r s) /\
       (unequal = true -> forall s, un_file s <> None -> r_un r' s = r_un r s)).
Proof. exact resume_ok. Qed.
Print Assumptions C58_resume_with_all_data.

(** A case: one orbital, two cells, two time slices; [demo b n] has all bytes equal to [b] except
    for the number of samples. *)
Definition demo_dims : dims := mk_dims 1 2 2 3.
Definition filled {F : Type} (len : F -> Z) (b : N) (n : Z) : memory F :=
  fun s => match s with Count c_nsampl => int_bytes n | _ => repeat b (slot_size len s) end.
Definition demo (iter : Z) (b : N) (n : Z) : run_state :=
  mk_run (mk_ckpt iter (seed_init 7) [1; 0; 1; 1]%N)
    (filled (eq_len demo_dims) b n) (filled (un_len demo_dims) b n) (filled (ph_len demo_dims) b n).

Lemma filled_sized {F : Type} (len : F -> Z) b n : sized len (filled len b n).
Proof. intros [|[]|f]; try reflexivity; cbn [filled]; apply repeat_length. Qed.

Lemma demo_ok iter b n : (0 <= iter < 100)%Z -> run_ok demo_dims (demo iter b n).
Proof.
  intros H. split; [|split; [|split]]; [|apply filled_sized..].
  split; [cbn; lia|]. apply seed_init_valid. lia.
Qed.
Lemma demo_dims_ok : dims_ok demo_dims.
Proof. repeat split; discriminate. Qed.

Example C58_case :
  exists ops r', save_run "out" demo_dims true true (demo 5 9 6) = Some ops /\
    start_run (apply_ops ∅ ops) "out" demo_dims true 4 20 (demo 0 0 0) = Some (Resume r') /\
    ck_iter (r_ckpt r') = 5%Z /\ samples (r_eq r') = 6%Z /\ r_eq r' (Arr density_d) = [9; 9; 9; 9; 9; 9; 9; 9]%N /\
    r_eq r' (Arr grfun_u) = repeat 9%N 32 /\ r_un r' (Arr Jcorr_y) = repeat 9%N 32.
Proof. do 2 eexists. split; [vm_compute; reflexivity|]. split; [vm_compute; reflexivity|]. vm_compute. repeat split. Qed.

(** Not every phonon quantity is kept: the accumulated average velocity is in no file. *)
Theorem C58_phonon_velocity_refuted :
  exists d r r' ops, dims_ok d /\ run_ok d r /\ run_ok d r' /\
    save_run "out" d false true r = Some ops /\ save_run "out" d false true r' = Some ops /\
    r_ph r (Arr V_avg) <> r_ph r' (Arr V_avg).
Proof.
  exists demo_dims, (demo 5 9 6),
    (mk_run (r_ckpt (demo 5 9 6)) (r_eq (demo 5 9 6)) (r_un (demo 5 9 6))
       (fun s => match s with Arr V_avg => repeat 8%N 8 | _ => r_ph (demo 5 9 6) s end)).
  eexists. split; [exact demo_dims_ok|]. split; [apply demo_ok; lia|]. split.
  { destruct (demo_ok 5 9 6 ltac:(lia)) as (A & B & C & E). split; [exact A|]. split; [exact B|]. split; [exact C|].
    intros [|c|f]; [apply E|apply E|]. destruct f; try (apply E). reflexivity. }
  split; [vm_compute; reflexivity|]. split; [vm_compute; reflexivity|]. discriminate.
Qed.
Print Assumptions C58_phonon_velocity_refuted.

(** C59, full claim: if some data file of the simulation to be continued is missing or damaged
    (of the wrong size), the program does not continue.  This is false (see below).  What holds,
    for any contents of the disk: the start never leaves the bounds of the structures; a new
    simulation is started exactly if one of the three checkpoint files is missing; the program refuses to
    continue (status -5) exactly if they are there but one of them has the wrong size; if the
    program continues, then the three checkpoint files are there and of the right size, and each
    quantity whose file has the right size holds the contents of that file.
    Missing: refusing to continue; the quantities whose file is missing or of wrong size silently
    keep the value they were initialised with (zero), the others are loaded. *)
Theorem C59_damaged_data_partial :
  forall fs base d unequal LxN total r0, dims_ok d -> run_ok d r0 ->
  let there := forall suf, suf ∈ suffixes -> exists bs, fs !! (base +:+ suf) = Some bs in
  let sizes := file_of_size fs (base +:+ "_iteration.dat") 4 /\ file_of_size fs (base +:+ "_randseed.dat") 128 /\ file_of_size fs (base +:+ "_hsfield.dat") LxN in
  start_run fs base d unequal LxN total r0 <> None /\
  (start_run fs base d unequal LxN total r0 = Some Fresh <-> ~ there) /\
  (start_run fs base d unequal LxN total r0 = Some (Return (-5)) <-> there /\ ~ sizes) /\
  (forall r', start_run fs base d unequal LxN total r0 = Some (Resume r') ->
     file_of_size fs (base +:+ "_iteration.dat") 4 /\ file_of_size fs (base +:+ "_randseed.dat") 128 /\
     file_of_size fs (base +:+ "_hsfield.dat") LxN /\
     (forall s suf, eq_file s = Some suf ->
        (file_of_size fs (base +:+ suf) (slot_size (eq_len d) s) -> fs !! (base +:+ suf) = Some (r_eq r' s)) /\
        (~ file_of_size fs (base +:+ suf) (slot_size (eq_len d) s) -> r_eq r' s = r_eq r0 s)) /\
     (unequal = true -> forall s suf, un_file s = Some suf ->
        (file_of_size fs (base +:+ suf) (slot_size (un_len d) s) -> fs !! (base +:+ suf) = Some (r_un r' s)) /\
        (~ file_of_size fs (base +:+ suf) (slot_size (un_len d) s) -> r_un r' s = r_un r0 s))).
Proof.
  intros fs base d un LxN total r0 D (_ & S1 & S2 & _).
  destruct (start_any fs base d un LxN total r0 D S1 S2) as (H1 & H2). intros there sizes. split; [exact H1|].
  split; [exact (start_fresh fs base d un LxN total r0 D S1 S2)|]. split; [exact (start_refused fs base d un LxN total r0 D S1 S2)|].
  intros r' E. destruct (H2 r' E) as (_ & HL & _ & L1 & L2 & _).
  destruct (load_status_iff fs base LxN (r_ckpt r0)) as (_ & HI). rewrite HL in HI.
  destruct (proj1 HI eq_refl) as (A & B & C).
  split; [exact A|]. split; [exact B|]. split; [exact C|]. split; [exact L1|exact L2].
Qed.
Print Assumptions C59_damaged_data_partial.

(** C59 refuted: six samples are stored; the file with the densities (spin up) is removed and the
    one with those of spin down cut to one byte.  The program continues with six samples, all
    other data as stored, and densities zero. *)
Theorem C59_damaged_data_refuted :
  exists ops fs' r', save_run "out" demo_dims false false (demo 5 9 6) = Some ops /\
    fs' = <["out_eqlt_density_d.dat" := [9%N]]> (delete "out_eqlt_density_u.dat"%string (apply_ops ∅ ops)) /\
    start_run fs' "out" demo_dims false 4 20 (demo 0 0 0) = Some (Resume r') /\
    samples (r_eq r') = 6%Z /\ r_eq r' (Arr doubleocc) = r_eq (demo 5 9 6) (Arr doubleocc) /\
    r_eq r' (Arr density_u) = repeat 0%N 8 /\ r_eq r' (Arr density_d) = repeat 0%N 8 /\
    r_eq (demo 5 9 6) (Arr density_u) = repeat 9%N 8.
Proof.
  do 3 eexists. split; [vm_compute; reflexivity|]. split; [reflexivity|].
  split; [vm_compute; reflexivity|]. vm_compute. repeat split.
Qed.
Print Assumptions C59_damaged_data_refuted.

Example C59_case : dims_ok demo_dims /\ run_ok demo_dims (demo 0 0 0).
Proof. split; [exact demo_dims_ok|apply demo_ok; lia]. Qed.

(** C60, full claim: if the process dies while it saves its results over those of an earlier run,
    the next start gives the old or the new state as a whole (or does not continue).  False, see
    below.  What holds: every quantity has its old or its new value or is reset to its initial
    value.  Missing: that all quantities belong to the same state. *)
Theorem C60_crash_while_saving_partial :
  forall fs base d unequal phonons ro rn r0 ops k fs2 total r',
  dims_ok d -> run_ok d ro -> run_ok d rn -> run_ok d r0 ->
  save_run base d unequal phonons ro = Some ops ->
  crash_run k (apply_ops fs ops) base d unequal phonons rn = Some fs2 ->
  start_run fs2 base d unequal (length (ck_s (r_ckpt rn))) total r0 = Some (Resume r') ->
  (forall s, eq_file s <> None ->
     r_eq r' s = r_eq rn s \/ r_eq r' s = r_eq ro s \/ r_eq r' s = r_eq r0 s) /\
  (unequal = true -> forall s, un_file s <> None ->
     r_un r' s = r_un rn s \/ r_un r' s = r_un ro s \/ r_un r' s = r_un r0 s).
Proof. exact crash_ok. Qed.
Print Assumptions C60_crash_while_saving_partial.

(** C60 refuted: an old state (iteration 5, 6 samples, data 9) is overwritten with a new one
    (iteration 8, 12 samples, data 7).  If the process dies after 175 operations, the next start
    continues at iteration 8 with 12 samples, the new densities, a double occupancy of zero and
    the old Green's functions. *)
Theorem C60_crash_while_saving_refuted :
  exists ops fs2 r', save_run "out" demo_dims false false (demo 5 9 6) = Some ops /\
    crash_run 175 (apply_ops ∅ ops) "out" demo_dims false false (demo 8 7 12) = Some fs2 /\
    start_run fs2 "out" demo_dims false 4 20 (demo 0 0 0) = Some (Resume r') /\
    ck_iter (r_ckpt r') = 8%Z /\ samples (r_eq r') = 12%Z /\
    r_eq r' (Arr density_d) = repeat 7%N 8 /\ r_eq r' (Arr doubleocc) = repeat 0%N 8 /\
    r_eq r' (Arr grfun_u) = repeat 9%N 32.
Proof.
  assert (exists o, save_run "out" demo_dims false false (demo 5 9 6) = Some o) as (o1 & E1)
    by (eexists; vm_compute; reflexivity).
  assert (exists o, save_run "out" demo_dims false false (demo 8 7 12) = Some o) as (o2 & E2)
    by (eexists; vm_compute; reflexivity).
  exists o1, (apply_ops (apply_ops ∅ o1) (take 175 o2)).
  eexists. split; [exact E1|]. split; [unfold crash_run; rewrite E2; reflexivity|].
  vm_compute in E1. injection E1 as <-. vm_compute in E2. injection E2 as <-.
  split; [vm_compute; reflexivity|]. vm_compute. repeat split.
Qed.
Print Assumptions C60_crash_while_saving_refuted.

Example C60_case : run_ok demo_dims (demo 5 9 6) /\ run_ok demo_dims (demo 8 7 12).
Proof. split; apply demo_ok; lia. Qed.
