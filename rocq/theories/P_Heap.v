(** * C70: memory and file handles of a run

    For every parameter file with admissible parameters, every checkpoint and every behaviour of the
    outside (oracle [orc]): updates may be accepted or not, files may be missing or damaged, signals
    may stop the run at any sweep. *)
From Coq Require Import ZArith List String Bool Lia Reals.
From Verif Require Import Base SimParams ParamSpec Heap HeapSpec HeapCase.
Import ListNotations.
Local Open Scope string_scope.
Local Open Scope Z_scope.

(** No block is released twice, accessed after its release or released although it has not been
    requested, and no file is used after it has been closed ([main] has a result), provided no signal arrives after
    the log file has been closed. *)
Theorem C70_heap_partial orc p lines i0 : valid_params p ->
  (sp_use_phonons p = true -> 0 < sp_neqlt p /\ 0 <= sp_nsampl p) -> no_late_signal orc ->
  exists o h, main orc p lines i0 empty_heap = Some (o, h).
Proof. intros V P S. destruct (main_ok orc p lines i0 V P S) as (o & h & E & _). now exists o, h. Qed.
Print Assumptions C70_heap_partial.

(** Without phonons everything that has been requested is released and every file is closed at the end
    of a run, and the memory in use never exceeds a bound that does not depend on the number of sweeps. *)
Theorem C70_released orc p lines i0 o h : valid_params p -> sp_use_phonons p = false ->
  no_late_signal orc -> sound orc ->
  main orc p lines i0 empty_heap = Some (o, h) ->
  h_peak h <= most_bytes p lines /\ (0 <= o_status o -> h_live h = []).
Proof.
  intros V P S K E. destruct (main_ok orc p lines i0 V) as (o' & h' & E' & H1 & H2 & _); [now rewrite P | exact S |].
  rewrite E in E'. injection E' as <- <-. unfold left_over in H1. rewrite P in H1.
  split; [|intros H; destruct (H1 H K) as (_ & L & _); now destruct (h_live h)].
  destruct (Z.ltb_spec (o_status o) 0) as [H|H]; [now apply H2 | destruct (H1 H K) as (_ & _ & B); lia].
Qed.
Print Assumptions C70_released.

(** With phonons one block of [8 * Norb] bytes is left over for every measurement of the phonons, and nothing else. *)
Theorem C70_left_over orc p lines i0 o h : valid_params p ->
  (sp_use_phonons p = true -> 0 < sp_neqlt p /\ 0 <= sp_nsampl p) -> no_late_signal orc -> sound orc ->
  main orc p lines i0 empty_heap = Some (o, h) -> 0 <= o_status o ->
  Forall (fun b => snd b = 8 * sp_Norb p) (h_live h) /\
  Z.of_nat (List.length (h_live h)) = left_over p (o_from o) (o_to o) /\
  h_peak h <= most_bytes p lines + 8 * sp_Norb p * left_over p (o_from o) (o_to o).
Proof.
  intros V P S K E H. destruct (main_ok orc p lines i0 V P S) as (o' & h' & E' & H1 & _).
  rewrite E in E'. injection E' as <- <-. now apply H1.
Qed.
Print Assumptions C70_left_over.

(** Hence there is no bound that does not depend on the number of sweeps. *)
Theorem C70_bounded_refuted : forall M, exists p o h, valid_params p /\
  sp_Norb p = 1 /\ sp_Nx p = 2 /\ sp_Ny p = 1 /\ sp_L p = 2 /\
  main never p few_lines 0 empty_heap = Some (o, h) /\ o_status o = 0 /\ M < total (h_live h).
Proof.
  intros M. pose (p := pair_params true (Z.max 1 M) 0). exists p.
  destruct (main_ok never p few_lines 0) as (o & h & E & H1 & _ & H3 & H4 & H5).
  - apply pair_valid.
  - intros _. cbn. lia.
  - intros k. reflexivity.
  - assert (W : ~ exists (ch : choice) (k : nat), never ch k = true) by (intros (ch & k & X); discriminate).
    assert (S0 : o_status o = 0).
    { destruct (Z.lt_ge_cases (o_status o) 0) as [X|X]; [elim W; apply H3; now left|].
      destruct (Z.eq_dec (o_status o) 1) as [Y|Y]; [elim W; apply H3; now right; right | lia]. }
    assert (F0 : o_from o = 0).
    { destruct (Z.eq_dec (o_from o) 0) as [X|X]; [exact X | elim W; apply H3; right; now left]. }
    specialize (H4 S0). rewrite F0 in H4.
    exists o, h. split; [apply pair_valid|]. do 4 (split; [reflexivity|]). split; [exact E|]. split; [exact S0|].
    destruct H1 as (Fl & Ll & _); [lia | intros ch [<-|[<-|[<-|[]]]] k; reflexivity |].
    rewrite (total_const _ _ Fl), Ll, F0, H4. unfold left_over, phonon_measurements, p.
    cbn [pair_params sp_use_phonons sp_nequil sp_nsampl sp_L sp_neqlt sp_Norb]. change (2 / 1) with 2. lia.
Qed.
Print Assumptions C70_bounded_refuted.

(** A signal that arrives after the log file has been closed is reported to the closed file. *)
Theorem C70_late_signal_refuted : exists orc p, valid_params p /\ sp_use_phonons p = false /\ sound orc /\
  main orc p few_lines 0 empty_heap = None.
Proof.
  exists (fun ch _ => match ch with LateSignal => true | _ => false end), (pair_params false 1 0).
  split; [apply pair_valid|]. split; [reflexivity|].
  split; [intros ch [<-|[<-|[<-|[]]]] k; reflexivity | vm_compute; reflexivity].
Qed.
Print Assumptions C70_late_signal_refuted.

(** Files of the wrong size are left open. *)
Theorem C70_files_closed_refuted : exists orc p o h, valid_params p /\ sp_use_phonons p = false /\ no_late_signal orc /\
  main orc p few_lines 0 empty_heap = Some (o, h) /\ o_status o = 0 /\ List.length (h_live h) = 16%nat /\ total (h_live h) = 0.
Proof.
  exists (fun ch k => match ch with Checkpoint => true | BadSize => Nat.leb 13 k && Nat.leb k 44 | _ => false end), (pair_params false 1 0).
  eexists _, _. split; [apply pair_valid|]. split; [reflexivity|]. split; [intros k; reflexivity|].
  split; [vm_compute; reflexivity|]. vm_compute. repeat split.
Qed.
Print Assumptions C70_files_closed_refuted.

(** Phonons cannot be simulated without equal time measurements: the program divides by zero. *)
Theorem C70_no_measurements_refuted : exists orc p, valid_params p /\ sound orc /\ no_late_signal orc /\
  sp_neqlt p = 0 /\ main orc p few_lines 0 empty_heap = None.
Proof.
  pose (p := pair_params true 1 0).
  exists never, (mk_sim_params 1 2 1 0 (sp_t p) (sp_U p) (sp_eps p) (sp_mu p) true (sp_phonon p) (sp_dt p) 2 1 1 1 1 0 0 1 0).
  split; [destruct (pair_valid true 1 0); now constructor|].
  split; [intros ch _ k; reflexivity|]. split; [intros k; reflexivity|]. split; [reflexivity|]. vm_compute. reflexivity.
Qed.
Print Assumptions C70_no_measurements_refuted.

(** ** Cases *)

(** All updates accepted, unequal time measurements: nothing is left; the peak is close to the bound. *)
Example C70_case_released : exists o h,
  valid_params (pair_params false 2 1) /\ no_late_signal accepts /\ sound accepts /\
  main accepts (pair_params false 2 1) [] 0 empty_heap = Some (o, h) /\
  o_status o = 0 /\ o_from o = 0 /\ o_to o = 3 /\ h_live h = [] /\
  h_peak h = 2532 /\ most_bytes (pair_params false 2 1) [] = 2884.
Proof.
  eexists _, _. split; [apply pair_valid|]. split; [exact accepts_silent|]. split; [exact accepts_sound|].
  split; [vm_compute; reflexivity|]. vm_compute. repeat split.
Qed.

(** With phonons: three sweeps, two of them with two measurements each. *)
Example C70_case_phonons : exists o h,
  valid_params (pair_params true 2 1) /\ no_late_signal accepts /\ sound accepts /\
  main accepts (pair_params true 2 1) few_lines 0 empty_heap = Some (o, h) /\
  o_status o = 0 /\ map snd (h_live h) = [8; 8; 8; 8] /\
  left_over (pair_params true 2 1) 0 3 = 4.
Proof.
  eexists _, _. split; [apply pair_valid|]. split; [exact accepts_silent|]. split; [exact accepts_sound|].
  split; [vm_compute; reflexivity|]. vm_compute. repeat split.
Qed.

(** The run is stopped after two sweeps. *)
Example C70_case_stopped : exists o h,
  sound stops /\ no_late_signal stops /\
  main stops (pair_params true 2 1) few_lines 0 empty_heap = Some (o, h) /\
  o_status o = 1 /\ o_to o = 2 /\ map snd (h_live h) = [8; 8].
Proof.
  eexists _, _. split; [exact stops_sound|]. split; [intros k; reflexivity|].
  split; [vm_compute; reflexivity|]. vm_compute. repeat split.
Qed.
