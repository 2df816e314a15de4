(** C67: the names of the files of a run. *)
From Coq Require Import ZArith NArith List String Ascii Reals Lia.
From Verif Require Import Base SimParams Paths PathsSpec PathsFacts.
Import ListNotations.
Local Open Scope Z_scope.

(** C67: for every second argument: the file names are formed without leaving the buffers exactly if the argument has
    at most 1023 - 5 - digits of the seed - longest ending characters (27 with phonons, else 19);
    then they are the directory, "/sim_", the seed and the endings, and no two files have the same name. *)
Theorem C67_paths_partial : forall fmt_g p dir,
  let room := 1024 - (Z.of_nat (String.length dir) + 5 + Z.of_nat (String.length (dec (sp_itime p))) + longest_suffix p + 1) in
  (0 <= room -> run_paths fmt_g p (Some dir) = Some (map (file_in dir (dec (sp_itime p))) (run_suffixes p))) /\
  (room < 0 -> run_paths fmt_g p (Some dir) = None).
Proof.
  intros fmt_g p dir room. unfold room.
  assert (0 <= longest_suffix p) as H0 by (unfold longest_suffix; destruct (sp_use_phonons p); lia).
  destruct (to_buffer dir) as [d|] eqn:E.
  - assert (d = dir) by now apply to_buffer_same in E. subst d.
    rewrite (run_paths_dir fmt_g p (Some dir) dir E). split; intros H.
    + rewrite (proj2 (Z.leb_le _ _)); [reflexivity|lia].
    + rewrite (proj2 (Z.leb_gt _ _)); [reflexivity|lia].
  - split; intros H.
    + destruct (proj2 (to_buffer_iff dir)) as (r & Er); [lia|congruence].
    + unfold run_paths, base_name. cbn [output_dir]. rewrite E. reflexivity.
Qed.
Print Assumptions C67_paths_partial.

(** C67: without a second argument all names fit, for all parameters (a number printed by %g has at most 13 characters). *)
Theorem C67_default_directory : forall fmt_g p, (forall x, (String.length (fmt_g x) <= 13)%nat) ->
  exists dir, output_dir fmt_g p None = Some dir /\
    run_paths fmt_g p None = Some (map (file_in dir (dec (sp_itime p))) (run_suffixes p)).
Proof.
  intros fmt_g p Hg.
  assert (forall z, Z.of_nat (String.length (dec_int z)) <= 21) as Hi.
  { intros z. unfold dec_int. destruct (z <? 0); [change (Z.of_nat (S (String.length (dec (Z.to_N (- z))))) <= 21); pose proof (dec_len (Z.to_N (- z))); lia|pose proof (dec_len (Z.to_N z)); lia]. }
  pose proof (Hi (sp_Nx p)) as H1. pose proof (Hi (sp_Ny p)) as H2. pose proof (Hg (IZR (sp_L p) * sp_dt p)%R) as H3. pose proof (Hg (sp_mu p)) as H4.
  pose proof (dec_len (sp_itime p)) as H5.
  unfold output_dir. set (dir := (_ ++ _)%string).
  assert (Z.of_nat (String.length dir) <= 200) as HL.
  { unfold dir. rewrite !len_app. cbn [String.length]. lia. }
  destruct (proj2 (to_buffer_iff dir)) as (r & Er); [lia|]. pose proof (to_buffer_same _ _ Er). subst r. exists dir. split; [exact Er|].
  rewrite (run_paths_dir fmt_g p None dir Er). rewrite (proj2 (Z.leb_le _ _)); [reflexivity|]. unfold longest_suffix. destruct (sp_use_phonons p); lia.
Qed.
Print Assumptions C67_default_directory.

(** C67: a file name determines the directory, the seed and the ending.  So the files of a run are
    different from each other and from those of all runs with other seeds or in other directories. *)
Theorem C67_no_collision : forall p p' dir dir' s s', (sp_itime p < 2^64)%N -> (sp_itime p' < 2^64)%N ->
  In s (run_suffixes p) -> In s' (run_suffixes p') ->
  file_in dir (dec (sp_itime p)) s = file_in dir' (dec (sp_itime p')) s' ->
  dir = dir' /\ sp_itime p = sp_itime p' /\ s = s'.
Proof. intros p p' dir dir' s s' H1 H2 Hs Hs' E. exact (file_inj _ _ _ _ _ _ H1 H2 (suffixes_plain _ _ Hs) (suffixes_plain _ _ Hs') E). Qed.
Print Assumptions C67_no_collision.

Theorem C67_files_distinct : forall p dir, (sp_itime p < 2^64)%N -> NoDup (map (file_in dir (dec (sp_itime p))) (run_suffixes p)).
Proof.
  intros p dir H. assert (forall l, incl l (run_suffixes p) -> NoDup l -> NoDup (map (file_in dir (dec (sp_itime p))) l)) as K;
    [|exact (K _ (incl_refl _) (suffixes_distinct p))].
  induction l as [|s l IH]; intros Hi Hn; cbn; [constructor|]. inversion Hn. subst. constructor.
  - intros E. apply in_map_iff in E as (s' & E & Hs'). symmetry in E.
    destruct (C67_no_collision p p dir dir s s' H H (Hi s (or_introl eq_refl)) (Hi s' (or_intror Hs')) E) as (_ & _ & ->). contradiction.
  - apply IH; [|assumption]. intros x Hx. apply Hi. now right.
Qed.
Print Assumptions C67_files_distinct.

(** C67: the default directory tells the two sizes of the lattice, the inverse temperature and the chemical potential up to the precision of %g, and the
    seed (%g prints no underscore); so runs with other values of these do not share a directory. *)
Theorem C67_default_directory_tells : forall fmt_g p p' dir, (forall x, ~ In "_"%char (list_ascii_of_string (fmt_g x))) ->
  0 <= sp_Nx p < 2 ^ 31 -> 0 <= sp_Ny p < 2 ^ 31 -> (sp_itime p < 2 ^ 64)%N ->
  0 <= sp_Nx p' < 2 ^ 31 -> 0 <= sp_Ny p' < 2 ^ 31 -> (sp_itime p' < 2 ^ 64)%N ->
  output_dir fmt_g p None = Some dir -> output_dir fmt_g p' None = Some dir ->
  sp_Nx p = sp_Nx p' /\ sp_Ny p = sp_Ny p' /\ fmt_g (IZR (sp_L p) * sp_dt p)%R = fmt_g (IZR (sp_L p') * sp_dt p')%R /\
  fmt_g (sp_mu p) = fmt_g (sp_mu p') /\ sp_itime p = sp_itime p'.
Proof. exact default_tells. Qed.
Print Assumptions C67_default_directory_tells.

(** C67 refuted: the full claim is that no second argument makes the program write outside of its buffers. *)
Definition many (n : N) : string := N.peano_rect (fun _ => string) ""%string (fun _ s => String "a"%char s) n.
Definition case_params (phonons : bool) : sim_params :=
  mk_sim_params 1 4 4 0 (mk_bonds [0%R] [0%R] [0%R] [0%R] [0%R]) [4%R] [0%R] 0%R phonons (mk_phonon_params [1%R] [1%R] 1 1 1 1) 1 8 4 4 10 10 1 0 1234 100.
Theorem C67_long_argument_refuted : exists fmt_g p dir, run_paths fmt_g p (Some dir) = None.
Proof.
  exists (fun _ => ""%string), (case_params false), (many 996).
  apply (C67_paths_partial (fun _ => ""%string) (case_params false) (many 996)).
  change (dec (sp_itime (case_params false))) with "1234"%string.
  assert (Z.of_nat (String.length (many 996)) = 996) as -> by (vm_compute; reflexivity). reflexivity.
Qed.
Print Assumptions C67_long_argument_refuted.

Example C67_case : run_paths (fun _ => "2"%string) (case_params true) None =
    Some (map (fun s => "output/N4x4_beta2_mu2_sim_1234/sim_1234" ++ s)%string (run_suffixes (case_params true))) /\
  List.length (run_suffixes (case_params true)) = 35%nat /\
  run_paths (fun _ => "2"%string) (case_params false) (Some (many 995)) <> None.
Proof.
  split; [vm_compute; reflexivity|]. split; [reflexivity|]. intros H.
  destruct (C67_paths_partial (fun _ => "2"%string) (case_params false) (many 995)) as [H1 _].
  cbv zeta in H1. rewrite H in H1. clear H. change (dec (sp_itime (case_params false))) with "1234"%string in H1.
  assert (Z.of_nat (String.length (many 995)) = 995) as E by (vm_compute; reflexivity). rewrite E in H1.
  enough (None = Some (map (file_in (many 995) "1234") (run_suffixes (case_params false)))) as K by inversion K.
  apply H1. discriminate.
Qed.

(** runs on 4 x 4 sites and the printed numbers "2" satisfy the hypotheses of [C67_default_directory_tells] *)
Example C67_tells_case : (forall x : R, ~ In "_"%char (list_ascii_of_string ((fun _ => "2"%string) x))) /\ 0 <= sp_Nx (case_params true) < 2 ^ 31 /\
  output_dir (fun _ => "2"%string) (case_params true) None = Some "output/N4x4_beta2_mu2_sim_1234"%string.
Proof. split; [intros x [H|[]]; discriminate|]. split; [cbn; lia|]. vm_compute. reflexivity. Qed.
