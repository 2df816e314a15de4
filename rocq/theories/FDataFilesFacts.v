(** Proofs about FDataFiles.v *)
From stdpp Require Import gmap strings list.
From Coq Require Import ZArith NArith Lia.
From Verif Require Import Base Random RandomSpec RandomFacts FileSys Checkpoint CheckpointSpec CheckpointFacts
  Accum Measure UMeasure PMeasure FMeasure DataFiles DataFilesSpec DataFilesFacts FDataFiles FDataFilesSpec.

(** ** the tables of measurement_full.c *)
Lemma full_fits_eq_save d m : dims_ok d -> sized (full_eq_len d) m -> Forall (fits m) (save_eqlt_full (d_Norb d) (d_Ncell d)).
Proof.
  intros (H1 & H2 & _ & _) S. assert (0 <= d_Ncell d * d_Norb d)%Z by nia. assert (0 <= d_Ncell d * d_Ncell d * d_Norb d)%Z by nia.
  unfold save_eqlt_full. cbv zeta. repeat (apply List.Forall_cons; [by_table; rewrite (S _); reflexivity|]). apply List.Forall_nil.
Qed.
Lemma full_fits_eq_load d m : dims_ok d -> sized (full_eq_len d) m -> Forall (fits m) (load_eqlt_full (d_Norb d) (d_Ncell d)).
Proof.
  intros (H1 & H2 & _ & _) S. assert (0 <= d_Ncell d * d_Norb d)%Z by nia. assert (0 <= d_Ncell d * d_Ncell d * d_Norb d)%Z by nia.
  unfold load_eqlt_full. cbv zeta. repeat (apply List.Forall_cons; [by_table; rewrite (S _); reflexivity|]). apply List.Forall_nil.
Qed.
Ltac full_un_pos := 
  match goal with |- context [d_Ncell ?d] =>
    assert (0 <= d_Ncell d * d_Norb d)%Z as P1 by nia; assert (0 <= d_Ncell d * d_Ncell d * d_Norb d)%Z as P2 by nia;
    assert (0 <= d_Ncell d * d_Norb d * d_L d)%Z as P3 by nia; assert (0 <= d_Ncell d * d_Norb d * (d_Ncell d * d_Norb d))%Z as P4 by nia end.
Lemma full_fits_un_save d m : dims_ok d -> sized (full_un_len d) m -> Forall (fits m) (save_uneqlt_full (d_Norb d) (d_Ncell d) (d_L d)).
Proof.
  intros (H1 & H2 & H3 & _) S. full_un_pos.
  unfold save_uneqlt_full. cbv zeta. repeat (apply List.Forall_cons; [by_table; rewrite (S _); reflexivity|]). apply List.Forall_nil.
Qed.
Lemma full_fits_un_load d m : dims_ok d -> sized (full_un_len d) m -> Forall (fits m) (load_uneqlt_full (d_Norb d) (d_Ncell d) (d_L d)).
Proof.
  intros (H1 & H2 & H3 & _) S. full_un_pos.
  unfold load_uneqlt_full. cbv zeta. repeat (apply List.Forall_cons; [by_table; rewrite (S _); reflexivity|]). apply List.Forall_nil.
Qed.
Lemma full_fits_ph_save d m : dims_ok d -> sized (full_ph_len d) m -> Forall (fits m) (save_phonon_full (d_Norb d) (d_max d)).
Proof.
  intros (H1 & _ & _ & H2) S. unfold save_phonon_full. cbv zeta.
  repeat (apply List.Forall_cons; [by_table; rewrite (S _); reflexivity|]). apply List.Forall_nil.
Qed.

Lemma full_eq_save_is d : table_is eq_file (save_eqlt_full (d_Norb d) (d_Ncell d)).
Proof. unfold save_eqlt_full. cbv zeta. table_proof. Qed.
Lemma full_eq_load_is d : table_is eq_file (load_eqlt_full (d_Norb d) (d_Ncell d)).
Proof. unfold load_eqlt_full. cbv zeta. table_proof. Qed.
Lemma full_un_save_is d : table_is full_un_file (save_uneqlt_full (d_Norb d) (d_Ncell d) (d_L d)).
Proof. unfold save_uneqlt_full. cbv zeta. table_proof. Qed.
Lemma full_un_load_is d : table_is full_un_file (load_uneqlt_full (d_Norb d) (d_Ncell d) (d_L d)).
Proof. unfold load_uneqlt_full. cbv zeta. table_proof. Qed.
Lemma full_ph_save_is d : table_is full_ph_file (save_phonon_full (d_Norb d) (d_max d)).
Proof. unfold save_phonon_full. cbv zeta. table_proof. Qed.

(** ** a complete run *)
Definition full_files (base : string) (d : dims) (unequal phonons : bool) (r : run_state) : list (string * file) :=
  ckpt_files base (r_ckpt r) ++ table_files base (r_eq r) (save_eqlt_full (d_Norb d) (d_Ncell d)) ++
  (if unequal then table_files base (r_un r) (save_uneqlt_full (d_Norb d) (d_Ncell d) (d_L d)) else []) ++
  (if phonons then table_files base (r_ph r) (save_phonon_full (d_Norb d) (d_max d)) else []).

Lemma save_run_full_ok base d un ph r : dims_ok d -> full_run_ok d r ->
  save_run_full base d un ph r = Some (files_ops (full_files base d un ph r)).
Proof.
  intros D (V & S1 & S2 & S3). unfold save_run_full. rewrite save_ops_files by exact V. cbn [obind].
  rewrite write_all_ok by (by apply full_fits_eq_save). cbn [obind].
  unfold full_files. rewrite !files_ops_app.
  destruct un; [rewrite write_all_ok by (by apply full_fits_un_save)|]; cbn [obind];
  (destruct ph; [rewrite write_all_ok by (by apply full_fits_ph_save)|]; cbn [obind]); reflexivity.
Qed.

Definition full_suffixes (un ph : bool) : list string :=
  (suffixes ++ map e_suffix (save_eqlt_full 0 0) ++ (if un then map e_suffix (save_uneqlt_full 0 0 0) else []) ++
  (if ph then map e_suffix (save_phonon_full 0 0) else []))%list.

Lemma full_files_names base d un ph r :
  map fst (full_files base d un ph r) = map (String.append base) (full_suffixes un ph).
Proof.
  unfold full_files, full_suffixes. rewrite !map_app. f_equal. f_equal.
  destruct un, ph; reflexivity.
Qed.

Lemma full_names_nodup base d un ph r : NoDup (map fst (full_files base d un ph r)).
Proof.
  rewrite full_files_names. change (map ?f ?l) with (f <$> l). apply NoDup_fmap_2.
  - intros a b E. exact (app_string_inj _ _ _ E).
  - destruct un, ph; match goal with |- ?P => apply (@bool_decide_unpack P _); vm_compute; exact I end.
Qed.

Lemma full_ckpt_in base d un ph r w : w ∈ ckpt_files base (r_ckpt r) -> w ∈ full_files base d un ph r.
Proof. intros H. unfold full_files. apply elem_of_app. by left. Qed.
Lemma full_eq_in base d un ph r s suf : eq_file s = Some suf -> (base +:+ suf, r_eq r s) ∈ full_files base d un ph r.
Proof. intros H. unfold full_files. apply elem_of_app. right. apply elem_of_app. left.
  exact (table_in base (r_eq r) _ _ s suf (full_eq_save_is d) H). Qed.
Lemma full_un_in base d ph r s suf : full_un_file s = Some suf -> (base +:+ suf, r_un r s) ∈ full_files base d true ph r.
Proof. intros H. unfold full_files. do 2 (apply elem_of_app; right). apply elem_of_app. left.
  exact (table_in base (r_un r) _ _ s suf (full_un_save_is d) H). Qed.
Lemma full_ph_in base d un r s suf : full_ph_file s = Some suf -> (base +:+ suf, r_ph r s) ∈ full_files base d un true r.
Proof. intros H. unfold full_files. do 3 (apply elem_of_app; right).
  exact (table_in base (r_ph r) _ _ s suf (full_ph_save_is d) H). Qed.

Lemma full_names_are base d un ph r n : n ∈ map fst (full_files base d un ph r) ->
  exists suf, n = base +:+ suf /\ full_run_file un ph suf.
Proof.
  rewrite full_files_names. intros H. apply elem_of_list_fmap in H as (suf & -> & H).
  exists suf. split; [reflexivity|]. unfold full_suffixes in H. set (d0 := mk_dims 0 0 0 0).
  apply elem_of_app in H as [H|H]; [by left|]. right.
  apply elem_of_app in H as [H|H].
  { left. apply elem_of_list_fmap in H as (e & -> & He). exists (e_slot e).
    apply (full_eq_save_is d0). exists e. by repeat split. }
  right. apply elem_of_app in H as [H|H].
  - left. destruct un; [|by apply elem_of_nil in H]. split; [reflexivity|].
    apply elem_of_list_fmap in H as (e & -> & He). exists (e_slot e). apply (full_un_save_is d0). exists e. by repeat split.
  - right. destruct ph; [|by apply elem_of_nil in H]. split; [reflexivity|].
    apply elem_of_list_fmap in H as (e & -> & He). exists (e_slot e). apply (full_ph_save_is d0). exists e. by repeat split.
Qed.

Lemma full_on_disk fs base d un ph r : dims_ok d -> full_run_ok d r ->
  exists ops, save_run_full base d un ph r = Some ops /\
    let fs' := apply_ops fs ops in
    (forall s suf, eq_file s = Some suf -> fs' !! (base +:+ suf) = Some (r_eq r s)) /\
    (un = true -> forall s suf, full_un_file s = Some suf -> fs' !! (base +:+ suf) = Some (r_un r s)) /\
    (ph = true -> forall s suf, full_ph_file s = Some suf -> fs' !! (base +:+ suf) = Some (r_ph r s)) /\
    (forall name, (forall suf, full_run_file un ph suf -> name <> base +:+ suf) -> fs' !! name = fs !! name).
Proof.
  intros D V. eexists. split; [exact (save_run_full_ok base d un ph r D V)|]. cbv zeta.
  rewrite apply_files. pose proof (full_names_nodup base d un ph r) as ND.
  split; [|split; [|split]].
  - intros s suf H. apply put_files_in; [exact ND|]. exact (full_eq_in base d un ph r s suf H).
  - intros -> s suf H. apply put_files_in; [exact ND|]. exact (full_un_in base d ph r s suf H).
  - intros -> s suf H. apply put_files_in; [exact ND|]. exact (full_ph_in base d un r s suf H).
  - intros name H. apply put_files_other. intros Hin. apply full_names_are in Hin as (suf & -> & Hs). exact (H suf Hs eq_refl).
Qed.

(** ** starting *)
Lemma full_eq_slots_nodup d : NoDup (map e_slot (load_eqlt_full (d_Norb d) (d_Ncell d))).
Proof. unfold load_eqlt_full. cbv zeta. cbn [map e_slot]. repeat (apply NoDup_cons; split; [set_solver|]). apply NoDup_nil_2. Qed.
Lemma full_un_slots_nodup d : NoDup (map e_slot (load_uneqlt_full (d_Norb d) (d_Ncell d) (d_L d))).
Proof. unfold load_uneqlt_full. cbv zeta. cbn [map e_slot]. repeat (apply NoDup_cons; split; [set_solver|]). apply NoDup_nil_2. Qed.

Lemma full_load_eq_ok fs base d m : dims_ok d -> sized (full_eq_len d) m ->
  exists m', read_all mfield_eqb fs base (load_eqlt_full (d_Norb d) (d_Ncell d)) m = Some m' /\ loaded fs base (full_eq_len d) eq_file m m'.
Proof.
  intros D S. destruct (read_all_ok mfield_eqb mfield_eqbP fs base _ m (full_fits_eq_load d m D S) (full_eq_slots_nodup d))
    as (m' & E & _ & R).
  exists m'. split; [exact E|]. intros s suf H. apply (full_eq_load_is d) in H as (e & He & <- & <-).
  rewrite <- (S (e_slot e)). exact (R e He).
Qed.
Lemma full_load_un_ok fs base d m : dims_ok d -> sized (full_un_len d) m ->
  exists m', read_all ufield_eqb fs base (load_uneqlt_full (d_Norb d) (d_Ncell d) (d_L d)) m = Some m' /\ loaded fs base (full_un_len d) full_un_file m m'.
Proof.
  intros D S. destruct (read_all_ok ufield_eqb ufield_eqbP fs base _ m (full_fits_un_load d m D S) (full_un_slots_nodup d))
    as (m' & E & _ & R).
  exists m'. split; [exact E|]. intros s suf H. apply (full_un_load_is d) in H as (e & He & <- & <-).
  rewrite <- (S (e_slot e)). exact (R e He).
Qed.

Lemma full_start_resumes fs base d un LxN total r c : dims_ok d -> sized (full_eq_len d) (r_eq r) -> sized (full_un_len d) (r_un r) ->
  search_checkpoint fs base = 0%Z -> load_checkpoint fs base LxN (r_ckpt r) = (0%Z, c) -> ck_iter c <> total ->
  exists r', start_run_full fs base d un LxN total r = Some (Resume r') /\ r_ckpt r' = c /\
    loaded fs base (full_eq_len d) eq_file (r_eq r) (r_eq r') /\
    (un = true -> loaded fs base (full_un_len d) full_un_file (r_un r) (r_un r')).
Proof.
  intros D S1 S2 Hs HL Ht. unfold start_run_full. rewrite Hs, HL. cbn [Z.eqb negb Z.ltb Z.compare].
  destruct (Z.eqb_spec (ck_iter c) total) as [?|_]; [contradiction|].
  destruct (full_load_eq_ok fs base d (r_eq r) D S1) as (m' & E1 & L1). rewrite E1. cbn [obind].
  destruct un.
  - destruct (full_load_un_ok fs base d (r_un r) D S2) as (u' & E2 & L2). rewrite E2. cbn [obind].
    eexists. split; [reflexivity|]. cbn [r_ckpt r_eq r_un]. split; [reflexivity|]. split; [exact L1|]. intros _. exact L2.
  - cbn [obind]. eexists. split; [reflexivity|]. cbn [r_ckpt r_eq r_un]. split; [reflexivity|]. split; [exact L1|discriminate].
Qed.

Lemma full_start_complete fs base d un LxN total r c :
  search_checkpoint fs base = 0%Z -> load_checkpoint fs base LxN (r_ckpt r) = (0%Z, c) -> ck_iter c = total ->
  start_run_full fs base d un LxN total r = Some (Return (-6)).
Proof. intros Hs HL Ht. unfold start_run_full. rewrite Hs, HL. cbn [Z.eqb negb Z.ltb Z.compare]. by rewrite (proj2 (Z.eqb_eq _ _) Ht). Qed.

Lemma full_resume_ok fs base d un ph r r0 total : dims_ok d -> full_run_ok d r -> full_run_ok d r0 ->
  exists ops, save_run_full base d un ph r = Some ops /\
    let fs' := apply_ops fs ops in
    let again := start_run_full fs' base d un (length (ck_s (r_ckpt r))) total r0 in
    (ck_iter (r_ckpt r) = total -> again = Some (Return (-6))) /\
    (ck_iter (r_ckpt r) <> total -> exists r', again = Some (Resume r') /\
       ck_iter (r_ckpt r') = ck_iter (r_ckpt r) /\ ck_s (r_ckpt r') = ck_s (r_ckpt r) /\
       valid_seed (ck_seed (r_ckpt r')) /\
       (forall s, eq_file s <> None -> r_eq r' s = r_eq r s) /\
       (un = true -> forall s, full_un_file s <> None -> r_un r' s = r_un r s)).
Proof.
  intros D V V0. pose proof V as (VC & S1 & S2 & S3). pose proof V0 as (_ & T1 & T2 & _).
  eexists. split; [exact (save_run_full_ok base d un ph r D V)|]. cbv zeta. rewrite apply_files.
  pose proof (full_names_nodup base d un ph r) as ND. set (fs' := put_files fs _).
  destruct (load_checkpoint_hit fs' base (r_ckpt r) (r_ckpt r0) VC) as (Hs & HL).
  { intros n b H. apply put_files_in; [exact ND|]. by apply full_ckpt_in. }
  split.
  - intros Ht. exact (full_start_complete fs' base d un _ total r0 _ Hs HL Ht).
  - intros Ht. destruct (full_start_resumes fs' base d un _ total r0 _ D T1 T2 Hs HL Ht) as (r' & E & Ec & L1 & L2).
    exists r'. split; [exact E|]. rewrite Ec. cbn [ck_iter ck_s ck_seed].
    split; [reflexivity|]. split; [reflexivity|]. split; [apply loaded_seed_valid, VC|].
    split.
    + apply (loaded_hit fs' base _ _ _ _ _ L1 S1).
      intros s suf H. apply put_files_in; [exact ND|]. exact (full_eq_in base d un ph r s suf H).
    + intros ->. apply (loaded_hit fs' base _ _ _ _ _ (L2 eq_refl) S2).
      intros s suf H. apply put_files_in; [exact ND|]. exact (full_un_in base d ph r s suf H).
Qed.

(** ** the other build *)
Lemma loaded_mixed {F : Type} fs base (len len' : F -> Z) name (m m' r : memory F) s suf :
  loaded fs base len name m m' -> sized len' r -> name s = Some suf -> fs !! (base +:+ suf) = Some (r s) ->
  (slot_size len s = slot_size len' s -> m' s = r s) /\ (slot_size len s <> slot_size len' s -> m' s = m s).
Proof.
  intros L S E HH. destruct (L s suf E) as (L1 & L2). split.
  - intros Hl. rewrite L1 in HH; [congruence|]. eexists. split; [exact HH|]. rewrite Hl. apply S.
  - intros Hl. apply L2. intros (b & B1 & B2). rewrite HH in B1. injection B1 as <-. rewrite (S s) in B2. congruence.
Qed.

Definition true_dims (d : dims) : Prop := (0 < d_Norb d /\ 1 < d_Ncell d /\ 0 < d_L d /\ 0 <= d_max d)%Z.
Lemma true_dims_ok d : true_dims d -> dims_ok d.
Proof. unfold true_dims, dims_ok. lia. Qed.

Lemma len_ne a b : (0 <= a)%Z -> (a < b)%Z -> Z.to_nat (8 * a) <> Z.to_nat (8 * b).
Proof. lia. Qed.

Lemma same_eq_size d s : true_dims d ->
  (same_eq s = true -> slot_size (eq_len d) s = slot_size (full_eq_len d) s) /\
  (same_eq s = false -> slot_size (eq_len d) s <> slot_size (full_eq_len d) s).
Proof.
  intros (H1 & H2 & _ & _). set (a := d_Norb d) in *. set (b := d_Ncell d) in *.
  assert (a < b * a)%Z as P1 by nia. assert (b * a * a < b * a * (b * a))%Z as P2 by nia. assert (b * a < b * b * a)%Z as P3 by nia.
  assert (0 <= b * a)%Z as P4 by nia. assert (0 <= b * a * a)%Z as P5 by nia.
  split; intros E; destruct s as [|c|f]; try discriminate E; try reflexivity;
    destruct f; try discriminate E; try reflexivity; apply len_ne; unfold eq_len, full_eq_len, mfield_len, fmfield_len; fold a b; cbv zeta; lia.
Qed.
Lemma same_un_size d s : true_dims d -> full_un_file s <> None ->
  (same_un s = true -> slot_size (un_len d) s = slot_size (full_un_len d) s) /\
  (same_un s = false -> slot_size (un_len d) s <> slot_size (full_un_len d) s).
Proof.
  intros (H1 & H2 & H3 & _) HF. set (a := d_Norb d) in *. set (b := d_Ncell d) in *. set (l := d_L d) in *.
  assert (b * a * a < b * a * (b * a))%Z as P2 by nia. assert (b * a < b * b * a)%Z as P3 by nia.
  assert (0 <= b * a * a * l)%Z as P4 by nia. assert (0 <= b * a * l)%Z as P5 by nia.
  assert (b * a * a * l < b * a * (b * a) * l)%Z as P6 by nia. assert (b * a * l < b * b * a * l)%Z as P7 by nia.
  assert (b * a * a * l < b * a * l * (b * a))%Z as P8 by nia.
  split; intros E; destruct s as [|c|f]; try discriminate E; try reflexivity;
    destruct f; try (now destruct HF); apply len_ne; unfold un_len, full_un_len, ufield_len, fufield_len; fold a b l; cbv zeta; lia.
Qed.

(** continuing with the default build a simulation of the build for every pair *)
Lemma mixed_default fs base d un ph r r0 total : true_dims d -> full_run_ok d r -> run_ok d r0 -> ck_iter (r_ckpt r) <> total ->
  exists ops r', save_run_full base d un ph r = Some ops /\
    start_run (apply_ops fs ops) base d un (length (ck_s (r_ckpt r))) total r0 = Some (Resume r') /\
    (forall s, eq_file s <> None -> r_eq r' s = if same_eq s then r_eq r s else r_eq r0 s) /\
    (un = true -> forall s, full_un_file s <> None -> r_un r' s = if same_un s then r_un r s else r_un r0 s).
Proof.
  intros TD V V0 Ht. pose proof (true_dims_ok d TD) as D. pose proof V as (VC & S1 & S2 & S3). pose proof V0 as (_ & T1 & T2 & _).
  eexists. set (ND := full_names_nodup base d un ph r). set (fs' := put_files fs (full_files base d un ph r)).
  destruct (load_checkpoint_hit fs' base (r_ckpt r) (r_ckpt r0) VC) as (Hs & HL).
  { intros n b H. apply put_files_in; [exact ND|]. by apply full_ckpt_in. }
  destruct (start_resumes fs' base d un _ total r0 _ D T1 T2 Hs HL Ht) as (r' & E & Ec).
  exists r'. split; [exact (save_run_full_ok base d un ph r D V)|]. rewrite apply_files. fold fs'. split; [exact E|].
  destruct (start_any fs' base d un (length (ck_s (r_ckpt r))) total r0 D T1 T2) as (_ & A).
  destruct (A r' E) as (_ & _ & _ & L1 & L2 & _). split.
  - intros s Hn. destruct (eq_file s) as [suf|] eqn:Es; [|contradiction].
    destruct (loaded_mixed fs' base _ _ _ _ _ _ s suf L1 S1 Es) as (M1 & M2).
    { apply put_files_in; [exact ND|]. exact (full_eq_in base d un ph r s suf Es). }
    destruct (same_eq_size d s TD) as (Q1 & Q2). destruct (same_eq s); auto.
  - intros -> s Hn. destruct (full_un_file s) as [suf|] eqn:Es; [|contradiction].
    assert (un_file s = Some suf) as Eu by (destruct s as [|c|[]]; try discriminate Es; exact Es).
    destruct (loaded_mixed fs' base _ _ _ _ _ _ s suf (L2 eq_refl) S2 Eu) as (M1 & M2).
    { apply put_files_in; [exact ND|]. exact (full_un_in base d ph r s suf Es). }
    destruct (same_un_size d s TD) as (Q1 & Q2); [congruence|]. destruct (same_un s); auto.
Qed.

(** and the other way round *)
Lemma mixed_full fs base d un ph r r0 total : true_dims d -> run_ok d r -> full_run_ok d r0 -> ck_iter (r_ckpt r) <> total ->
  exists ops r', save_run base d un ph r = Some ops /\
    start_run_full (apply_ops fs ops) base d un (length (ck_s (r_ckpt r))) total r0 = Some (Resume r') /\
    (forall s, eq_file s <> None -> r_eq r' s = if same_eq s then r_eq r s else r_eq r0 s) /\
    (un = true -> forall s, full_un_file s <> None -> r_un r' s = if same_un s then r_un r s else r_un r0 s).
Proof.
  intros TD V V0 Ht. pose proof (true_dims_ok d TD) as D. pose proof V as (VC & S1 & S2 & S3). pose proof V0 as (_ & T1 & T2 & _).
  eexists. set (ND := run_names_nodup base d un ph r). set (fs' := put_files fs (run_files base d un ph r)).
  destruct (load_checkpoint_hit fs' base (r_ckpt r) (r_ckpt r0) VC) as (Hs & HL).
  { intros n b H. apply put_files_in; [exact ND|]. by apply ckpt_in. }
  destruct (full_start_resumes fs' base d un _ total r0 _ D T1 T2 Hs HL Ht) as (r' & E & Ec & L1 & L2).
  exists r'. split; [exact (save_run_ok base d un ph r D V)|]. rewrite apply_files. fold fs'. split; [exact E|]. split.
  - intros s Hn. destruct (eq_file s) as [suf|] eqn:Es; [|contradiction].
    destruct (loaded_mixed fs' base _ _ _ _ _ _ s suf L1 S1 Es) as (M1 & M2).
    { apply put_files_in; [exact ND|]. exact (eq_in base d un ph r s suf Es). }
    destruct (same_eq_size d s TD) as (Q1 & Q2). destruct (same_eq s); [apply M1; symmetry; auto|apply M2; intros K; apply Q2; auto].
  - intros -> s Hn. destruct (full_un_file s) as [suf|] eqn:Es; [|contradiction].
    assert (un_file s = Some suf) as Eu by (destruct s as [|c|[]]; try discriminate Es; exact Es).
    destruct (loaded_mixed fs' base _ _ _ _ _ _ s suf (L2 eq_refl) S2 Es) as (M1 & M2).
    { apply put_files_in; [exact ND|]. exact (un_in base d ph r s suf Eu). }
    destruct (same_un_size d s TD) as (Q1 & Q2); [congruence|]. destruct (same_un s); [apply M1; symmetry; auto|apply M2; intros K; apply Q2; auto].
Qed.
