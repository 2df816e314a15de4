(** Proofs about DataFiles.v *)
From stdpp Require Import gmap strings list.
From Coq Require Import ZArith NArith Lia.
From Verif Require Import Base Random RandomSpec RandomFacts FileSys Checkpoint CheckpointSpec CheckpointFacts
  Accum Measure UMeasure PMeasure DataFiles DataFilesSpec.

(** ** sequences of complete writes *)
Definition put_files (fs : filesys) (ws : list (string * file)) : filesys :=
  foldl (fun fs w => <[fst w := snd w]> fs) fs ws.

Definition files_ops (ws : list (string * file)) : list fsop :=
  concat (map (fun w => write_ops (fst w) (snd w) false) ws).

Lemma apply_files ws : forall fs, apply_ops fs (files_ops ws) = put_files fs ws.
Proof.
  induction ws as [|[n c] ws IH]; intros fs; [reflexivity|].
  unfold files_ops. cbn [map concat fst snd]. rewrite apply_ops_app, apply_write. apply IH.
Qed.

Lemma put_files_other ws : forall fs n, n ∉ map fst ws -> put_files fs ws !! n = fs !! n.
Proof.
  induction ws as [|[m c] ws IH]; intros fs n H; [reflexivity|].
  cbn [map] in H. apply not_elem_of_cons in H as [H1 H2].
  unfold put_files. cbn [foldl fst snd]. change (foldl _ ?a ws) with (put_files a ws).
  rewrite IH by exact H2. apply lookup_insert_ne. exact (not_eq_sym H1).
Qed.

Lemma put_files_in ws : forall fs n c, NoDup (map fst ws) -> (n, c) ∈ ws -> put_files fs ws !! n = Some c.
Proof.
  induction ws as [|[m b] ws IH]; intros fs n c ND H; [by apply elem_of_nil in H|].
  cbn [map] in ND. apply NoDup_cons in ND as [N1 N2].
  unfold put_files. cbn [foldl fst snd]. change (foldl _ ?a ws) with (put_files a ws).
  apply elem_of_cons in H as [H|H].
  - injection H as -> ->. rewrite put_files_other by exact N1. apply lookup_insert.
  - by apply IH.
Qed.

(** the disk after the first [k] operations *)
Lemma crash_files ws : forall fs k n c, NoDup (map fst ws) -> (n, c) ∈ ws ->
  let fs' := apply_ops fs (take k (files_ops ws)) in
  fs' !! n = Some c \/ fs' !! n = fs !! n \/ exists j, (j < length c)%nat /\ fs' !! n = Some (take j c).
Proof.
  induction ws as [|[m b] ws IH]; intros fs k n c ND H; [by apply elem_of_nil in H|].
  cbn [map] in ND. apply NoDup_cons in ND as [N1 N2].
  unfold files_ops. cbn [map concat fst snd]. cbv zeta.
  destruct (Nat.le_gt_cases (length (write_ops m b false)) k) as [Hk|Hk].
  - rewrite take_app_ge by exact Hk. rewrite apply_ops_app, apply_write.
    change (concat _) with (files_ops ws).
    apply elem_of_cons in H as [H|H].
    + injection H as -> ->. left.
      assert (forall k fs, fs !! m = Some b -> apply_ops fs (take k (files_ops ws)) !! m = Some b) as G.
      { clear - N1. intros k fs E. revert k fs E N1. induction ws as [|[m' b'] ws IH]; intros k fs E N1.
        - unfold files_ops. cbn. by rewrite take_nil.
        - cbn [map] in N1. apply not_elem_of_cons in N1 as [N1 N2]. cbn [fst] in N1.
          unfold files_ops. cbn [map concat fst snd].
          destruct k as [|k]; [exact E|].
          destruct (Nat.le_gt_cases (length (write_ops m' b' false)) (S k)) as [Hk|Hk].
          + rewrite take_app_ge by exact Hk. rewrite apply_ops_app, apply_write.
            apply IH; [|exact N2]. rewrite lookup_insert_ne; [exact E|]. exact (not_eq_sym N1).
          + rewrite take_app_le by lia. rewrite apply_write_take.
            rewrite lookup_insert_ne; [exact E|]. exact (not_eq_sym N1). }
      apply G. apply lookup_insert.
    + specialize (IH (<[m:=b]> fs) (k - length (write_ops m b false))%nat n c N2 H). cbv zeta in IH.
      rewrite (lookup_insert_ne fs m n b) in IH; [exact IH|].
      intros Heq. apply N1. cbn [fst]. rewrite Heq. exact (elem_of_list_fmap_1 fst ws (n, c) H).
  - rewrite take_app_le by lia.
    destruct k as [|k]; [right; left; reflexivity|].
    rewrite apply_write_take.
    apply elem_of_cons in H as [H|H].
    + injection H as -> ->. right; right. exists k. split.
      * rewrite write_ops_length in Hk. lia.
      * apply lookup_insert.
    + right; left. apply lookup_insert_ne.
      intros Heq. apply N1. cbn [fst]. rewrite Heq. exact (elem_of_list_fmap_1 fst ws (n, c) H).
Qed.

(** ** tables *)
Section Table.
Context {F : Type} (eqb : F -> F -> bool) (eqbP : forall f g, eqb f g = true <-> f = g).

Lemma slot_eqbP (s t : slot F) : slot_eqb eqb s t = true <-> s = t.
Proof.
  destruct s as [|a|f], t as [|b|g]; cbn; split; intro H; try congruence; try discriminate.
  - destruct a, b; cbn in H; congruence || discriminate.
  - injection H as ->. by destruct b.
  - f_equal. by apply eqbP.
  - injection H as ->. by apply eqbP.
Qed.

Lemma mem_set_eq m s bs : mem_set eqb m s bs s = bs.
Proof. unfold mem_set. destruct (slot_eqb eqb s s) eqn:E; [reflexivity|]. exfalso.
  assert (slot_eqb eqb s s = true) by (by apply slot_eqbP). congruence. Qed.
Lemma mem_set_ne m s t bs : s <> t -> mem_set eqb m s bs t = m t.
Proof. intros H. unfold mem_set. destruct (slot_eqb eqb s t) eqn:E; [|reflexivity]. exfalso.
  by apply H, slot_eqbP. Qed.

Definition fits (m : memory F) (e : entry F) : Prop :=
  (0 <= e_n e)%Z /\ e_bytes e = length (m (e_slot e)).

Definition table_files (base : string) (m : memory F) (es : list (entry F)) : list (string * file) :=
  map (fun e => (base +:+ e_suffix e, m (e_slot e))) es.

Lemma write_all_ok base m es : Forall (fits m) es ->
  write_all base m es = Some (files_ops (table_files base m es)).
Proof.
  induction 1 as [|e es (H1 & H2) _ IH]; [reflexivity|].
  cbn [write_all]. unfold write_entry. rewrite (proj2 (Z.leb_le _ _) H1), (proj2 (Nat.leb_le _ _)) by lia.
  cbn [andb obind]. rewrite IH. cbn [obind].
  unfold files_ops, table_files. cbn [map concat fst snd]. rewrite H2, firstn_all. reflexivity.
Qed.

Lemma read_all_ok fs base es : forall m, Forall (fits m) es -> NoDup (map e_slot es) ->
  exists m', read_all eqb fs base es m = Some m' /\
    (forall s, s ∉ map e_slot es -> m' s = m s) /\
    (forall e, e ∈ es ->
       (file_of_size fs (base +:+ e_suffix e) (length (m (e_slot e))) -> fs !! (base +:+ e_suffix e) = Some (m' (e_slot e))) /\
       (~ file_of_size fs (base +:+ e_suffix e) (length (m (e_slot e))) -> m' (e_slot e) = m (e_slot e))).
Proof.
  induction es as [|e es IH]; intros m Hf ND.
  - exists m. split; [reflexivity|]. split; [reflexivity|]. intros e He. by apply elem_of_nil in He.
  - inversion Hf as [|? ? (H1 & H2) Hf']; subst. cbn [map] in ND. apply NoDup_cons in ND as [N1 N2].
    cbn [read_all]. unfold read_entry. rewrite (proj2 (Z.ltb_ge _ _) H1). unfold read_data.
    set (nm := base +:+ e_suffix e).
    assert (exists m1, read_entry eqb fs base m e = Some m1 /\ (forall s, s <> e_slot e -> m1 s = m s) /\
       (file_of_size fs nm (length (m (e_slot e))) -> fs !! nm = Some (m1 (e_slot e))) /\
       (~ file_of_size fs nm (length (m (e_slot e))) -> m1 (e_slot e) = m (e_slot e))) as (m1 & E1 & O1 & R1 & R2).
    { unfold read_entry. rewrite (proj2 (Z.ltb_ge _ _) H1). unfold read_data. fold nm.
      destruct (fs !! nm) as [c|] eqn:E.
      - destruct (Nat.eqb_spec (length c) (e_bytes e)) as [Hc|Hc].
        + cbn [Z.ltb Z.compare]. rewrite (proj2 (Nat.leb_le _ _)) by lia.
          eexists. split; [reflexivity|]. rewrite mem_set_eq. split; [|split].
          * intros s Hs. by apply mem_set_ne, not_eq_sym.
          * intros _. rewrite Hc, H2, drop_all, app_nil_r. reflexivity.
          * intros Hn. destruct Hn. exists c. split; [exact E|congruence].
        + cbn [Z.ltb Z.compare]. exists m. split; [reflexivity|]. split; [reflexivity|]. split; [|reflexivity].
          intros (bs & B1 & B2). exfalso. apply Hc. rewrite E in B1. injection B1 as ->. congruence.
      - cbn [Z.ltb Z.compare]. exists m. split; [reflexivity|]. split; [reflexivity|]. split; [|reflexivity].
        intros (bs & B1 & B2). congruence. }
    fold nm. unfold read_entry, read_data in E1. rewrite (proj2 (Z.ltb_ge _ _) H1) in E1. fold nm in E1.
    rewrite E1. cbn [obind].
    destruct (IH m1) as (m' & E2 & O2 & R3).
    + apply Forall_forall. intros e' He'. rewrite Forall_forall in Hf'. destruct (Hf' _ He') as (A & B).
      split; [exact A|]. rewrite B, O1; [reflexivity|]. intros Heq. apply N1. rewrite <- Heq. by apply elem_of_list_fmap_1.
    + exact N2.
    + exists m'. split; [exact E2|]. split.
      * intros s Hs. cbn [map] in Hs. apply not_elem_of_cons in Hs as [S1 S2].
        rewrite O2 by exact S2. by apply O1.
      * intros e' He'. apply elem_of_cons in He' as [->|He'].
        -- fold nm. rewrite (O2 (e_slot e)) by exact N1. split; assumption.
        -- specialize (R3 e' He'). rewrite O1 in R3; [exact R3|].
           intros Heq. apply N1. rewrite <- Heq. by apply elem_of_list_fmap_1.
Qed.

(** reading what was written *)
Lemma read_back fs base es m r : Forall (fits m) es -> NoDup (map e_slot es) ->
  (forall e, e ∈ es -> fs !! (base +:+ e_suffix e) = Some (r (e_slot e)) /\ length (r (e_slot e)) = length (m (e_slot e))) ->
  exists m', read_all eqb fs base es m = Some m' /\ (forall e, e ∈ es -> m' (e_slot e) = r (e_slot e)).
Proof.
  intros Hf ND H. destruct (read_all_ok fs base es m Hf ND) as (m' & E & _ & R).
  exists m'. split; [exact E|]. intros e He. destruct (H _ He) as (H1 & H2).
  destruct (R _ He) as (R1 & _). rewrite R1 in H1; [congruence|]. eexists. split; [exact H1|exact H2].
Qed.
End Table.

(** ** the tables of measurement.c *)
Ltac by_table := unfold fits, e_bytes; cbn [e_n e_size e_slot e_suffix]; split; [nia|].

Lemma fits_eq_save d m : dims_ok d -> sized (eq_len d) m -> Forall (fits m) (save_eqlt (d_Norb d) (d_Ncell d)).
Proof.
  intros (H1 & H2 & _ & _) S. assert (0 <= d_Ncell d * d_Norb d)%Z by nia.
  assert (0 <= d_Ncell d * d_Norb d * d_Norb d)%Z by nia.
  unfold save_eqlt. cbv zeta. repeat (apply List.Forall_cons; [by_table; rewrite (S _); reflexivity|]). apply List.Forall_nil.
Qed.
Lemma fits_eq_load d m : dims_ok d -> sized (eq_len d) m -> Forall (fits m) (load_eqlt (d_Norb d) (d_Ncell d)).
Proof.
  intros (H1 & H2 & _ & _) S. assert (0 <= d_Ncell d * d_Norb d)%Z by nia.
  assert (0 <= d_Ncell d * d_Norb d * d_Norb d)%Z by nia.
  unfold load_eqlt. cbv zeta. repeat (apply List.Forall_cons; [by_table; rewrite (S _); reflexivity|]). apply List.Forall_nil.
Qed.
Lemma fits_un_save d m : dims_ok d -> sized (un_len d) m -> Forall (fits m) (save_uneqlt (d_Norb d) (d_Ncell d) (d_L d)).
Proof.
  intros (H1 & H2 & H3 & _) S. assert (0 <= d_Ncell d * d_Norb d)%Z by nia.
  assert (0 <= d_Ncell d * d_Norb d * d_Norb d)%Z by nia.
  unfold save_uneqlt. cbv zeta. repeat (apply List.Forall_cons; [by_table; rewrite (S _); reflexivity|]). apply List.Forall_nil.
Qed.
Lemma fits_un_load d m : dims_ok d -> sized (un_len d) m -> Forall (fits m) (load_uneqlt (d_Norb d) (d_Ncell d) (d_L d)).
Proof.
  intros (H1 & H2 & H3 & _) S. assert (0 <= d_Ncell d * d_Norb d)%Z by nia.
  assert (0 <= d_Ncell d * d_Norb d * d_Norb d)%Z by nia.
  unfold load_uneqlt. cbv zeta. repeat (apply List.Forall_cons; [by_table; rewrite (S _); reflexivity|]). apply List.Forall_nil.
Qed.
Lemma fits_ph_save d m : dims_ok d -> sized (ph_len d) m -> Forall (fits m) (save_phonon (d_Norb d) (d_max d)).
Proof.
  intros (H1 & _ & _ & H2) S. unfold save_phonon. cbv zeta.
  repeat (apply List.Forall_cons; [by_table; rewrite (S _); reflexivity|]). apply List.Forall_nil.
Qed.

(** the tables contain exactly the quantities and names of the specification *)
Ltac in_list := (apply elem_of_list_here + (apply elem_of_list_further; in_list)).
Definition table_is {F : Type} (name : slot F -> option string) (es : list (entry F)) : Prop :=
  forall s suf, name s = Some suf <-> exists e, e ∈ es /\ e_slot e = s /\ e_suffix e = suf.

Ltac table_proof :=
  intros s suf; split;
  [ intros E; destruct s as [|[]|[]]; try discriminate E; injection E as <-;
    solve [eexists; split; [in_list|]; split; reflexivity]
  | intros (e & He & <- & <-);
    repeat (apply elem_of_cons in He as [->|He]; [reflexivity|]); by apply elem_of_nil in He ].

Lemma eq_save_is d : table_is eq_file (save_eqlt (d_Norb d) (d_Ncell d)).
Proof. unfold save_eqlt. cbv zeta. table_proof. Qed.
Lemma eq_load_is d : table_is eq_file (load_eqlt (d_Norb d) (d_Ncell d)).
Proof. unfold load_eqlt. cbv zeta. table_proof. Qed.
Lemma un_save_is d : table_is un_file (save_uneqlt (d_Norb d) (d_Ncell d) (d_L d)).
Proof. unfold save_uneqlt. cbv zeta. table_proof. Qed.
Lemma un_load_is d : table_is un_file (load_uneqlt (d_Norb d) (d_Ncell d) (d_L d)).
Proof. unfold load_uneqlt. cbv zeta. table_proof. Qed.
Lemma ph_save_is d : table_is ph_file (save_phonon (d_Norb d) (d_max d)).
Proof. unfold save_phonon. cbv zeta. table_proof. Qed.

(** ** a complete run *)
Definition ckpt_files (base : string) (c : ckpt) : list (string * file) :=
  [ (fn_iteration base, int_bytes (ck_iter c)); (fn_randseed base, u64s_bytes (back_rot (ck_seed c)));
    (fn_hsfield base, ck_s c) ].

Lemma save_ops_files base c : valid_ckpt c -> save_ops base c = Some (files_ops (ckpt_files base c)).
Proof.
  intros (_ & V). unfold save_ops. rewrite saved_words_ok by exact V. cbn [obind].
  unfold files_ops, ckpt_files. cbn [map concat fst snd]. by rewrite app_nil_r.
Qed.

Definition run_files (base : string) (d : dims) (unequal phonons : bool) (r : run_state) : list (string * file) :=
  ckpt_files base (r_ckpt r) ++ table_files base (r_eq r) (save_eqlt (d_Norb d) (d_Ncell d)) ++
  (if unequal then table_files base (r_un r) (save_uneqlt (d_Norb d) (d_Ncell d) (d_L d)) else []) ++
  (if phonons then table_files base (r_ph r) (save_phonon (d_Norb d) (d_max d)) else []).

Lemma files_ops_app a b : files_ops (a ++ b) = (files_ops a ++ files_ops b)%list.
Proof. unfold files_ops. by rewrite map_app, concat_app. Qed.

Lemma save_run_ok base d un ph r : dims_ok d -> run_ok d r ->
  save_run base d un ph r = Some (files_ops (run_files base d un ph r)).
Proof.
  intros D (V & S1 & S2 & S3). unfold save_run. rewrite save_ops_files by exact V. cbn [obind].
  unfold save_eqlt_ops. rewrite write_all_ok by (by apply fits_eq_save). cbn [obind].
  unfold run_files. rewrite !files_ops_app.
  destruct un; [unfold save_uneqlt_ops; rewrite write_all_ok by (by apply fits_un_save)|]; cbn [obind];
  (destruct ph; [unfold save_phonon_ops; rewrite write_all_ok by (by apply fits_ph_save)|]; cbn [obind]); reflexivity.
Qed.

(** the file names *)
Definition run_suffixes (un ph : bool) : list string :=
  (suffixes ++ map e_suffix (save_eqlt 0 0) ++ (if un then map e_suffix (save_uneqlt 0 0 0) else []) ++
  (if ph then map e_suffix (save_phonon 0 0) else []))%list.

Lemma run_files_names base d un ph r :
  map fst (run_files base d un ph r) = map (String.append base) (run_suffixes un ph).
Proof.
  unfold run_files, run_suffixes. rewrite !map_app. f_equal. f_equal.
  destruct un, ph; reflexivity.
Qed.

Lemma run_names_nodup base d un ph r : NoDup (map fst (run_files base d un ph r)).
Proof.
  rewrite run_files_names. change (map ?f ?l) with (f <$> l). apply NoDup_fmap_2.
  - intros a b E. exact (app_string_inj _ _ _ E).
  - destruct un, ph; match goal with |- ?P => apply (@bool_decide_unpack P _); vm_compute; exact I end.
Qed.

Lemma table_in {F : Type} base (m : memory F) es name s suf : table_is name es -> name s = Some suf ->
  (base +:+ suf, m s) ∈ table_files base m es.
Proof.
  intros T E. apply T in E as (e & He & <- & <-).
  exact (elem_of_list_fmap_1 (fun e => (base +:+ e_suffix e, m (e_slot e))) es e He).
Qed.

Lemma ckpt_in base d un ph r w : w ∈ ckpt_files base (r_ckpt r) -> w ∈ run_files base d un ph r.
Proof. intros H. unfold run_files. apply elem_of_app. by left. Qed.
Lemma eq_in base d un ph r s suf : eq_file s = Some suf -> (base +:+ suf, r_eq r s) ∈ run_files base d un ph r.
Proof. intros H. unfold run_files. apply elem_of_app. right. apply elem_of_app. left.
  exact (table_in base (r_eq r) _ _ s suf (eq_save_is d) H). Qed.
Lemma un_in base d ph r s suf : un_file s = Some suf -> (base +:+ suf, r_un r s) ∈ run_files base d true ph r.
Proof. intros H. unfold run_files. do 2 (apply elem_of_app; right). apply elem_of_app. left.
  exact (table_in base (r_un r) _ _ s suf (un_save_is d) H). Qed.
Lemma ph_in base d un r s suf : ph_file s = Some suf -> (base +:+ suf, r_ph r s) ∈ run_files base d un true r.
Proof. intros H. unfold run_files. do 3 (apply elem_of_app; right).
  exact (table_in base (r_ph r) _ _ s suf (ph_save_is d) H). Qed.

Lemma names_are base d un ph r n : n ∈ map fst (run_files base d un ph r) ->
  exists suf, n = base +:+ suf /\ run_file un ph suf.
Proof.
  rewrite run_files_names. intros H. apply elem_of_list_fmap in H as (suf & -> & H).
  exists suf. split; [reflexivity|]. unfold run_suffixes in H. set (d0 := mk_dims 0 0 0 0).
  apply elem_of_app in H as [H|H]; [by left|]. right.
  apply elem_of_app in H as [H|H].
  { left. apply elem_of_list_fmap in H as (e & -> & He). exists (e_slot e).
    apply (eq_save_is d0). exists e. by repeat split. }
  right. apply elem_of_app in H as [H|H].
  - left. destruct un; [|by apply elem_of_nil in H]. split; [reflexivity|].
    apply elem_of_list_fmap in H as (e & -> & He). exists (e_slot e). apply (un_save_is d0). exists e. by repeat split.
  - right. destruct ph; [|by apply elem_of_nil in H]. split; [reflexivity|].
    apply elem_of_list_fmap in H as (e & -> & He). exists (e_slot e). apply (ph_save_is d0). exists e. by repeat split.
Qed.

Lemma on_disk fs base d un ph r : dims_ok d -> run_ok d r ->
  exists ops, save_run base d un ph r = Some ops /\
    let fs' := apply_ops fs ops in
    (forall s suf, eq_file s = Some suf -> fs' !! (base +:+ suf) = Some (r_eq r s)) /\
    (un = true -> forall s suf, un_file s = Some suf -> fs' !! (base +:+ suf) = Some (r_un r s)) /\
    (ph = true -> forall s suf, ph_file s = Some suf -> fs' !! (base +:+ suf) = Some (r_ph r s)) /\
    (forall name, (forall suf, run_file un ph suf -> name <> base +:+ suf) -> fs' !! name = fs !! name).
Proof.
  intros D V. eexists. split; [exact (save_run_ok base d un ph r D V)|]. cbv zeta.
  rewrite apply_files. pose proof (run_names_nodup base d un ph r) as ND.
  split; [|split; [|split]].
  - intros s suf H. apply put_files_in; [exact ND|]. exact (eq_in base d un ph r s suf H).
  - intros -> s suf H. apply put_files_in; [exact ND|]. exact (un_in base d ph r s suf H).
  - intros -> s suf H. apply put_files_in; [exact ND|]. exact (ph_in base d un r s suf H).
  - intros name H. apply put_files_other. intros Hin. apply names_are in Hin as (suf & -> & Hs). exact (H suf Hs eq_refl).
Qed.

(** ** starting *)
Lemma mfield_eqbP f g : mfield_eqb f g = true <-> f = g.
Proof. unfold mfield_eqb. destruct (mfield_eq_dec f g); split; congruence. Qed.
Lemma ufield_eqbP f g : ufield_eqb f g = true <-> f = g.
Proof. unfold ufield_eqb. destruct (ufield_eq_dec f g); split; congruence. Qed.

Lemma eq_slots_nodup d : NoDup (map e_slot (load_eqlt (d_Norb d) (d_Ncell d))).
Proof. unfold load_eqlt. cbv zeta. cbn [map e_slot]. repeat (apply NoDup_cons; split; [set_solver|]). apply NoDup_nil_2. Qed.
Lemma un_slots_nodup d : NoDup (map e_slot (load_uneqlt (d_Norb d) (d_Ncell d) (d_L d))).
Proof. unfold load_uneqlt. cbv zeta. cbn [map e_slot]. repeat (apply NoDup_cons; split; [set_solver|]). apply NoDup_nil_2. Qed.

(** what a structure holds after loading *)
Definition loaded {F : Type} (fs : filesys) (base : string) (len : F -> Z) (name : slot F -> option string)
  (m m' : memory F) : Prop :=
  forall s suf, name s = Some suf ->
    (file_of_size fs (base +:+ suf) (slot_size len s) -> fs !! (base +:+ suf) = Some (m' s)) /\
    (~ file_of_size fs (base +:+ suf) (slot_size len s) -> m' s = m s).

Lemma load_eq_ok fs base d m : dims_ok d -> sized (eq_len d) m ->
  exists m', load_eqlt_data fs base d m = Some m' /\ loaded fs base (eq_len d) eq_file m m'.
Proof.
  intros D S. destruct (read_all_ok mfield_eqb mfield_eqbP fs base _ m (fits_eq_load d m D S) (eq_slots_nodup d))
    as (m' & E & _ & R).
  exists m'. split; [exact E|]. intros s suf H. apply (eq_load_is d) in H as (e & He & <- & <-).
  rewrite <- (S (e_slot e)). exact (R e He).
Qed.
Lemma load_un_ok fs base d m : dims_ok d -> sized (un_len d) m ->
  exists m', load_uneqlt_data fs base d m = Some m' /\ loaded fs base (un_len d) un_file m m'.
Proof.
  intros D S. destruct (read_all_ok ufield_eqb ufield_eqbP fs base _ m (fits_un_load d m D S) (un_slots_nodup d))
    as (m' & E & _ & R).
  exists m'. split; [exact E|]. intros s suf H. apply (un_load_is d) in H as (e & He & <- & <-).
  rewrite <- (S (e_slot e)). exact (R e He).
Qed.

Lemma read_data_hit fs f c old n : fs !! f = Some c -> length c = n -> read_data fs f old n = (0%Z, c).
Proof. intros E H. unfold read_data. rewrite E, (proj2 (Nat.eqb_eq _ _) H). reflexivity. Qed.

Lemma load_checkpoint_hit fs base c old : valid_ckpt c ->
  (forall n b, (n, b) ∈ ckpt_files base c -> fs !! n = Some b) ->
  search_checkpoint fs base = 0%Z /\
  load_checkpoint fs base (length (ck_s c)) old = (0%Z, mk_ckpt (ck_iter c) (loaded_seed (ck_seed c)) (ck_s c)).
Proof.
  intros (Hi & V) H.
  assert (fs !! fn_iteration base = Some (int_bytes (ck_iter c))) as E1 by (apply H; unfold ckpt_files; in_list).
  assert (fs !! fn_randseed base = Some (u64s_bytes (back_rot (ck_seed c)))) as E2 by (apply H; unfold ckpt_files; in_list).
  assert (fs !! fn_hsfield base = Some (ck_s c)) as E3 by (apply H; unfold ckpt_files; in_list).
  split.
  - unfold search_checkpoint. by rewrite E1, E2, E3.
  - unfold load_checkpoint.
    rewrite (read_data_hit fs _ _ _ _ E1) by (apply le_bytes_length).
    rewrite (read_data_hit fs _ _ _ _ E2) by (by rewrite u64s_bytes_length, back_rot_length).
    rewrite (read_data_hit fs _ _ _ _ E3) by reflexivity.
    cbn [Z.ltb Z.compare ck_iter ck_seed ck_s].
    rewrite bytes_int_bytes by exact Hi.
    replace (bytes_u64s 16 (u64s_bytes (back_rot (ck_seed c)))) with (back_rot (ck_seed c)); [reflexivity|].
    symmetry. pose proof (bytes_u64s_bytes (back_rot (ck_seed c)) (back_rot_lt _ V)) as G.
    rewrite back_rot_length in G. exact G.
Qed.

(** what main does with any contents of the disk *)
Lemma start_any fs base d un LxN total r : dims_ok d -> sized (eq_len d) (r_eq r) -> sized (un_len d) (r_un r) ->
  start_run fs base d un LxN total r <> None /\
  (forall r', start_run fs base d un LxN total r = Some (Resume r') ->
     search_checkpoint fs base = 0%Z /\ load_checkpoint fs base LxN (r_ckpt r) = (0%Z, r_ckpt r') /\
     ck_iter (r_ckpt r') <> total /\
     loaded fs base (eq_len d) eq_file (r_eq r) (r_eq r') /\
     (un = true -> loaded fs base (un_len d) un_file (r_un r) (r_un r')) /\
     (un = false -> r_un r' = r_un r) /\ r_ph r' = r_ph r).
Proof.
  intros D S1 S2. unfold start_run.
  destruct (Z.eqb_spec (search_checkpoint fs base) 0) as [Hs|Hs]; cbn [negb]; [|split; [discriminate|intros r' H; discriminate]].
  pose proof (proj2 (proj2 (conj I (conj I (load_status_iff fs base LxN (r_ckpt r)))))) as HS.
  destruct (load_checkpoint fs base LxN (r_ckpt r)) as [st c] eqn:EL. cbv zeta in HS. cbn [fst] in HS.
  destruct (Z.ltb_spec st 0) as [H0|H0]; [split; [discriminate|intros r' H; discriminate]|].
  assert (st = 0%Z) as -> by (destruct HS as ([?|?] & _); lia).
  destruct (Z.eqb_spec (ck_iter c) total) as [Ht|Ht]; [split; [discriminate|intros r' H; discriminate]|].
  destruct (load_eq_ok fs base d (r_eq r) D S1) as (m' & E1 & L1). rewrite E1. cbn [obind].
  destruct un.
  - destruct (load_un_ok fs base d (r_un r) D S2) as (u' & E2 & L2). rewrite E2. cbn [obind].
    split; [discriminate|]. intros r' H. injection H as <-. cbn [r_ckpt r_eq r_un r_ph].
    split; [exact Hs|]. split; [reflexivity|]. split; [exact Ht|]. split; [exact L1|]. split; [intros _; exact L2|]. split; [discriminate|reflexivity].
  - cbn [obind]. split; [discriminate|]. intros r' H. injection H as <-. cbn [r_ckpt r_eq r_un r_ph].
    split; [exact Hs|]. split; [reflexivity|]. split; [exact Ht|]. split; [exact L1|]. split; [discriminate|]. split; reflexivity.
Qed.

(** which way the start goes *)
Lemma start_fresh fs base d un LxN total r : dims_ok d -> sized (eq_len d) (r_eq r) -> sized (un_len d) (r_un r) ->
  start_run fs base d un LxN total r = Some Fresh <-> ~ (forall suf, suf ∈ suffixes -> exists bs, fs !! (base +:+ suf) = Some bs).
Proof.
  intros D S1 S2. rewrite <- (search_iff fs base). unfold start_run.
  destruct (Z.eqb_spec (search_checkpoint fs base) 0) as [Hs|Hs]; cbn [negb]; [|split; auto].
  split; [|intros H; now destruct H]. intros H. exfalso. revert H. clear Hs.
  destruct (load_checkpoint fs base LxN (r_ckpt r)) as [st c]. destruct (st <? 0)%Z; [discriminate|]. destruct (ck_iter c =? total)%Z; [discriminate|].
  destruct (load_eq_ok fs base d (r_eq r) D S1) as (m' & E1 & L1). rewrite E1. cbn [obind].
  destruct un; [|discriminate]. destruct (load_un_ok fs base d (r_un r) D S2) as (u' & E2 & L2). rewrite E2. discriminate.
Qed.
Lemma start_refused fs base d un LxN total r : dims_ok d -> sized (eq_len d) (r_eq r) -> sized (un_len d) (r_un r) ->
  start_run fs base d un LxN total r = Some (Return (-5)) <-> (forall suf, suf ∈ suffixes -> exists bs, fs !! (base +:+ suf) = Some bs) /\
    ~ (file_of_size fs (base +:+ "_iteration.dat") 4 /\ file_of_size fs (base +:+ "_randseed.dat") 128 /\ file_of_size fs (base +:+ "_hsfield.dat") LxN).
Proof.
  intros D S1 S2. rewrite <- (search_iff fs base). destruct (load_status_iff fs base LxN (r_ckpt r)) as (HA & HI). rewrite <- HI. clear HI. unfold start_run.
  destruct (Z.eqb_spec (search_checkpoint fs base) 0) as [Hs|Hs]; cbn [negb]; [|split; [discriminate|intros [? _]; contradiction]].
  destruct (load_checkpoint fs base LxN (r_ckpt r)) as [st c]. cbn [fst] in *. destruct (Z.ltb_spec st 0) as [H0|H0].
  - split; [|reflexivity]. intros _. split; [exact Hs|lia].
  - split; [|intros [_ H]; destruct H; lia]. intros H. exfalso. revert H. destruct (ck_iter c =? total)%Z; [discriminate|].
    destruct (load_eq_ok fs base d (r_eq r) D S1) as (m' & E1 & L1). rewrite E1. cbn [obind].
    destruct un; [|discriminate]. destruct (load_un_ok fs base d (r_un r) D S2) as (u' & E2 & L2). rewrite E2. discriminate.
Qed.

Lemma start_resumes fs base d un LxN total r c : dims_ok d -> sized (eq_len d) (r_eq r) -> sized (un_len d) (r_un r) ->
  search_checkpoint fs base = 0%Z -> load_checkpoint fs base LxN (r_ckpt r) = (0%Z, c) -> ck_iter c <> total ->
  exists r', start_run fs base d un LxN total r = Some (Resume r') /\ r_ckpt r' = c.
Proof.
  intros D S1 S2 Hs HL Ht. unfold start_run. rewrite Hs, HL. cbn [Z.eqb negb Z.ltb Z.compare].
  destruct (Z.eqb_spec (ck_iter c) total) as [?|_]; [contradiction|].
  destruct (load_eq_ok fs base d (r_eq r) D S1) as (m' & E1 & L1). rewrite E1. cbn [obind].
  destruct un.
  - destruct (load_un_ok fs base d (r_un r) D S2) as (u' & E2 & L2). rewrite E2. cbn [obind]. eexists. split; reflexivity.
  - cbn [obind]. eexists. split; reflexivity.
Qed.

Lemma start_complete fs base d un LxN total r c :
  search_checkpoint fs base = 0%Z -> load_checkpoint fs base LxN (r_ckpt r) = (0%Z, c) -> ck_iter c = total ->
  start_run fs base d un LxN total r = Some (Return (-6)).
Proof. intros Hs HL Ht. unfold start_run. rewrite Hs, HL. cbn [Z.eqb negb Z.ltb Z.compare]. by rewrite (proj2 (Z.eqb_eq _ _) Ht). Qed.

Lemma loaded_hit {F : Type} fs base (len : F -> Z) name (m m' r : memory F) :
  loaded fs base len name m m' -> sized len r ->
  (forall s suf, name s = Some suf -> fs !! (base +:+ suf) = Some (r s)) ->
  forall s, name s <> None -> m' s = r s.
Proof.
  intros L S H s Hs. destruct (name s) as [suf|] eqn:E; [|contradiction].
  destruct (L s suf E) as (L1 & _). pose proof (H s suf E) as HH. rewrite L1 in HH; [congruence|].
  eexists. split; [exact HH|]. apply S.
Qed.

(** saving and starting again *)
Lemma resume_ok fs base d un ph r r0 total : dims_ok d -> run_ok d r -> run_ok d r0 ->
  exists ops, save_run base d un ph r = Some ops /\
    let fs' := apply_ops fs ops in
    let again := start_run fs' base d un (length (ck_s (r_ckpt r))) total r0 in
    (ck_iter (r_ckpt r) = total -> again = Some (Return (-6))) /\
    (ck_iter (r_ckpt r) <> total -> exists r', again = Some (Resume r') /\
       ck_iter (r_ckpt r') = ck_iter (r_ckpt r) /\ ck_s (r_ckpt r') = ck_s (r_ckpt r) /\
       valid_seed (ck_seed (r_ckpt r')) /\
       (forall s, eq_file s <> None -> r_eq r' s = r_eq r s) /\
       (un = true -> forall s, un_file s <> None -> r_un r' s = r_un r s)).
Proof.
  intros D V V0. pose proof V as (VC & S1 & S2 & S3). pose proof V0 as (_ & T1 & T2 & _).
  eexists. split; [exact (save_run_ok base d un ph r D V)|]. cbv zeta. rewrite apply_files.
  pose proof (run_names_nodup base d un ph r) as ND. set (fs' := put_files fs _).
  destruct (load_checkpoint_hit fs' base (r_ckpt r) (r_ckpt r0) VC) as (Hs & HL).
  { intros n b H. apply put_files_in; [exact ND|]. by apply ckpt_in. }
  split.
  - intros Ht. exact (start_complete fs' base d un _ total r0 _ Hs HL Ht).
  - intros Ht. destruct (start_resumes fs' base d un _ total r0 _ D T1 T2 Hs HL Ht) as (r' & E & Ec).
    exists r'. split; [exact E|]. rewrite Ec. cbn [ck_iter ck_s ck_seed].
    split; [reflexivity|]. split; [reflexivity|]. split; [apply loaded_seed_valid, VC|].
    destruct (start_any fs' base d un (length (ck_s (r_ckpt r))) total r0 D T1 T2) as (_ & A).
    destruct (A r' E) as (_ & _ & _ & L1 & L2 & _).
    split.
    + apply (loaded_hit fs' base _ _ _ _ _ L1 S1).
      intros s suf H. apply put_files_in; [exact ND|]. exact (eq_in base d un ph r s suf H).
    + intros ->. apply (loaded_hit fs' base _ _ _ _ _ (L2 eq_refl) S2).
      intros s suf H. apply put_files_in; [exact ND|]. exact (un_in base d ph r s suf H).
Qed.

(** ** crashes *)
Lemma loaded_crash {F : Type} (fs fs' : filesys) base (len : F -> Z) name (m m' ro rn : memory F) :
  loaded fs' base len name m m' -> sized len ro -> sized len rn ->
  (forall s suf, name s = Some suf -> fs !! (base +:+ suf) = Some (ro s)) ->
  (forall s suf, name s = Some suf -> let n := base +:+ suf in
     fs' !! n = Some (rn s) \/ fs' !! n = fs !! n \/
     exists j, (j < length (rn s))%nat /\ fs' !! n = Some (take j (rn s))) ->
  forall s, name s <> None -> m' s = rn s \/ m' s = ro s \/ m' s = m s.
Proof.
  intros L So Sn Ho Hc s Hs. destruct (name s) as [suf|] eqn:E; [|contradiction].
  destruct (L s suf E) as (L1 & L2). destruct (Hc s suf E) as [H|[H|(j & Hj & H)]].
  - left. rewrite L1 in H; [congruence|]. eexists. split; [exact H|apply Sn].
  - right; left. rewrite (Ho s suf E) in H. rewrite L1 in H; [congruence|]. eexists. split; [exact H|apply So].
  - right; right. apply L2. intros (b & B1 & B2). rewrite B1 in H. injection H as ->.
    rewrite take_length, <- (Sn s) in B2. lia.
Qed.

Lemma crash_ok fs0 base d un ph ro rn r0 ops k fs2 total r' : dims_ok d -> run_ok d ro -> run_ok d rn -> run_ok d r0 ->
  save_run base d un ph ro = Some ops ->
  crash_run k (apply_ops fs0 ops) base d un ph rn = Some fs2 ->
  start_run fs2 base d un (length (ck_s (r_ckpt rn))) total r0 = Some (Resume r') ->
  (forall s, eq_file s <> None -> r_eq r' s = r_eq rn s \/ r_eq r' s = r_eq ro s \/ r_eq r' s = r_eq r0 s) /\
  (un = true -> forall s, un_file s <> None -> r_un r' s = r_un rn s \/ r_un r' s = r_un ro s \/ r_un r' s = r_un r0 s).
Proof.
  intros D Vo Vn V0 Eo Ec Er. pose proof V0 as (_ & T1 & T2 & _).
  destruct (start_any fs2 base d un (length (ck_s (r_ckpt rn))) total r0 D T1 T2) as (_ & A).
  destruct (A r' Er) as (_ & _ & _ & L1 & L2 & _).
  destruct (on_disk fs0 base d un ph ro D Vo) as (ops' & Eo' & O1 & O2 & _). rewrite Eo in Eo'. injection Eo' as <-.
  unfold crash_run in Ec. rewrite (save_run_ok base d un ph rn D Vn) in Ec. injection Ec as <-.
  pose proof (run_names_nodup base d un ph rn) as ND.
  split.
  - apply (loaded_crash (apply_ops fs0 ops) _ base _ _ _ _ _ _ L1); [apply Vo|apply Vn|exact O1|].
    intros s suf H. apply (crash_files _ _ k _ _ ND). exact (eq_in base d un ph rn s suf H).
  - intros ->. apply (loaded_crash (apply_ops fs0 ops) _ base _ _ _ _ _ _ (L2 eq_refl)); [apply Vo|apply Vn|exact (O2 eq_refl)|].
    intros s suf H. apply (crash_files _ _ k _ _ ND). exact (un_in base d ph rn s suf H).
Qed.
