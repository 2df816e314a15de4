(** Properties of the driver (main, DQMCSimulation): stopping, resuming, extending,
    exit status.  The Monte Carlo moves and the sampled numbers are arbitrary. *)
From Coq Require Import ZArith List Reals Lia Lra.
From Verif Require Import Base Driver DriverSpec DriverFacts DriverMain.
Import ListNotations.
Local Open Scope Z_scope.

Section P.
Context (C X : Type) (slice : Z -> C * X -> C * X) (post : C * X -> C * X)
  (eq_sample ph_sample uneq_sample : C * X -> list R) (fresh : C) (init_X : C -> C * X) (no_X : X)
  (reload : C -> C) (dim_eq dim_ph dim_un : nat).
Notation main_run := (main_run C X slice post eq_sample ph_sample uneq_sample fresh init_X no_X reload dim_eq dim_ph dim_un).
Notation main_runs := (main_runs C X slice post eq_sample ph_sample uneq_sample fresh init_X no_X reload dim_eq dim_ph dim_un).

(** C11: however often the program is stopped (by signals or by the time limit, at
    any iterations) and started again, the iterations executed over all runs are
    0, 1, 2, ..., k-1, each once; the number of equal time samples in the stored data is
    that of an uninterrupted simulation of k iterations, the stored data are the sums
    of the samples taken over all runs (their mean when the simulation is complete),
    and one run that is left alone completes the simulation. *)
Theorem C11_stop_and_resume :
  forall p os, dvalid p ->
  exists dk sts lg,
    main_runs p os None = Some (dk, sts, lg) /\
    let k := completed dk in
    0 <= k <= d_total p /\
    iters lg = interval 0 k /\
    Z.of_nat (length (eq_vals lg)) = Z.max 0 (k - d_nequil p) * per_iter p /\
    length (un_vals lg) = length (uneq_due p k) /\
    Forall (due p) lg /\
    (forall d, dk = Some d ->
       m_n (dk_eq C d) = Z.of_nat (length (eq_vals lg)) /\
       m_n (dk_un C d) = Z.of_nat (length (un_vals lg)) /\
       (k < d_total p -> m_val (dk_eq C d) = Some (vsum dim_eq (eq_vals lg)) /\
                         m_val (dk_un C d) = Some (vsum dim_un (un_vals lg))) /\
       (k = d_total p ->
          (eq_vals lg <> [] -> m_val (dk_eq C d) = Some (vmean dim_eq (eq_vals lg))) /\
          (un_vals lg <> [] -> m_val (dk_un C d) = Some (vmean dim_un (un_vals lg))))) /\
    (os <> [] -> dk <> None) /\
    (Exists undisturbed os -> k = d_total p).
Proof. exact (runs_main C X slice post eq_sample ph_sample uneq_sample fresh init_X no_X reload dim_eq dim_ph dim_un). Qed.

(** C12, full claim: a completed simulation (n old samples [vs]) which is continued
    with a larger number of sampling iterations (new samples [ws]) ends with the mean
    of all samples.  What holds: the sample count is right, exactly the
    missing iterations are executed, but the stored value is [extended_mean], the sum of
    the OLD MEAN and the new samples divided by the number of all samples; in each
    component this is the mean of all samples iff there was only one old sample or the
    old mean is zero. *)
Theorem C12_extend_finished_partial :
  forall p os d sts lg n' o', dvalid p -> d_nsampl p < n' ->
  (forall cx, length (eq_sample cx) = dim_eq) -> eq_vals lg <> [] ->
  main_runs p os None = Some (Some d, sts, lg) -> dk_iter C d = d_total p -> undisturbed o' ->
  exists d' lg' r,
    main_run (with_nsampl p n') o' (Some d) = Some (Some d', 0, lg') /\
    iters lg' = interval (d_total p) (d_nequil p + n') /\
    m_n (dk_eq C d') = Z.of_nat (length (eq_vals lg ++ eq_vals lg')) /\
    m_val (dk_eq C d') = Some r /\
    r = vscale (1 / IZR (m_n (dk_eq C d'))) (vadd (vmean dim_eq (eq_vals lg)) (vsum dim_eq (eq_vals lg'))) /\
    (forall c, nth c r 0%R = nth c (vmean dim_eq (eq_vals lg ++ eq_vals lg')) 0%R <->
       length (eq_vals lg) = 1%nat \/ nth c (vmean dim_eq (eq_vals lg)) 0%R = 0%R).
Proof.
  intros p os d sts lg n' o' V Hn Hdim Hne E Hd Hu.
  destruct (extend_run C X slice post eq_sample ph_sample uneq_sample fresh init_X no_X reload dim_eq dim_ph dim_un
    p os d sts lg n' o' V Hn Hdim Hne E Hd Hu) as (d' & lg' & E1 & E2 & E3 & E4 & E5 & E6).
  exists d', lg', (extended_mean dim_eq (eq_vals lg) (eq_vals lg')).
  repeat (split; [assumption || (rewrite E3; reflexivity)|]).
  exact (fun c => extended_mean_right dim_eq _ _ c Hne E5 E6).
Qed.

(** C13, full claim: stopping and resuming a simulation with phonons loses neither the
    phonon field nor the phonon data.  What holds: the stored phonon data are those of
    the samples taken by the last run alone. *)
Theorem C13_phonon_data_partial :
  forall p o dk, dvalid p -> d_phonons p = true -> 0 <= completed dk <= d_total p ->
  (dk = None \/ completed dk < d_total p) ->
  exists d' s lg, main_run p o dk = Some (Some d', s, lg) /\
    Z.of_nat (length (ph_vals lg)) =
      (Z.max 0 (dk_iter C d' - d_nequil p) - Z.max 0 (completed dk - d_nequil p)) * per_iter p /\
    m_n (dk_ph C d') = Z.of_nat (length (ph_vals lg)) /\
    (dk_iter C d' < d_total p -> m_val (dk_ph C d') = Some (vsum dim_ph (ph_vals lg))) /\
    (dk_iter C d' = d_total p -> ph_vals lg <> [] -> m_val (dk_ph C d') = Some (vmean dim_ph (ph_vals lg))).
Proof. exact (run_phonons C X slice post eq_sample ph_sample uneq_sample fresh init_X no_X reload dim_eq dim_ph dim_un). Qed.

(** C13 refuted, whatever the moves: two iterations, stopped after the first one; both
    phonon samples are taken, one is in the final data; and the second sample is taken
    from a phonon field made afresh from the stored state (not from the field of the
    first run, as without the interruption). *)
Definition c13_p : dparams := mk_dparams 0 2 1 1 0 true.
Definition c13_stop : doracle := mk_oracle (fun i => 1 <=? i) false (fun _ => false).
Definition c13_go : doracle := mk_oracle (fun _ => false) false (fun _ => false).

Theorem C13_phonon_state_refuted :
  exists d1 d2 lg2,
    main_runs c13_p [c13_stop; c13_go] None = Some (Some d1, [1; 0], lg2) /\
    main_runs c13_p [c13_go] None = Some (Some d2, [0], [LIter 0;
        LMeas 0 0 (eq_sample (slice 0 (init_X fresh))); LPhonon 0 0 (ph_sample (slice 0 (init_X fresh)));
        LIter 1;
        LMeas 1 0 (eq_sample (slice 0 (post (slice 0 (init_X fresh)))));
        LPhonon 1 0 (ph_sample (slice 0 (post (slice 0 (init_X fresh)))))]) /\
    m_n (dk_ph C d1) = 1 /\ m_n (dk_ph C d2) = 2 /\
    ph_vals lg2 = [ph_sample (slice 0 (init_X fresh));
                   ph_sample (slice 0 (init_X (reload (fst (post (slice 0 (init_X fresh)))))))].
Proof.
  do 3 eexists. split; [cbv -[Rplus Rmult Rdiv IZR]; reflexivity|].
  split; [cbv -[Rplus Rmult Rdiv IZR]; reflexivity|]. split; [reflexivity|]. split; [reflexivity|].
  reflexivity.
Qed.

(** C48: outcome of every single run.  Not started when already complete (status -6, the
    disk untouched); otherwise the iterations executed are consecutive and begin where the
    disk says; no sample before the end of the equilibration; status 0 implies that the
    simulation is complete; status 1 implies a stop request; a signal in iteration j
    lets at most iteration j finish; the time limit stops the run before the iteration at
    which it is noticed. *)
Theorem C48_exit_status_partial :
  forall p o dk, dvalid p -> 0 <= completed dk <= d_total p ->
  exists d' s lg, main_run p o dk = Some (d', s, lg) /\
    (dk <> None -> completed dk = d_total p -> s = -6 /\ d' = dk /\ lg = []) /\
    (dk = None \/ completed dk < d_total p ->
       let i0 := completed dk in let i1 := completed d' in
       i0 <= i1 <= d_total p /\ iters lg = interval i0 i1 /\ Forall (due p) lg /\
       (s = 0 \/ s = 1) /\
       (s = 0 -> i1 = d_total p) /\
       (forall j, i0 <= j -> o_sig o j = true -> i1 <= j + 1) /\
       (forall j, i0 <= j < d_total p -> o_time o j = true -> i1 <= j) /\
       (o_sig0 o = true -> i0 < d_total p -> i1 = i0) /\
       (s = 1 -> (i1 = i0 /\ o_sig0 o = true) \/ (i1 < d_total p /\ o_time o i1 = true) \/
                 (i0 < i1 /\ o_sig o (i1 - 1) = true)) /\
       (undisturbed o -> s = 0 /\ i1 = d_total p) /\
       (i0 < i1 -> i1 = d_total p -> (s = 1 <-> o_sig o (d_total p - 1) = true))).
Proof. exact (run_status C X slice post eq_sample ph_sample uneq_sample fresh init_X no_X reload dim_eq dim_ph dim_un). Qed.

(** C48, full claim (comment main.c:309): status 0 iff the simulation ran to
    completion.  Refuted, whatever the moves: a signal during the last iteration. *)
Theorem C48_status_one_though_complete_refuted :
  exists p o d lg, dvalid p /\ main_run p o None = Some (Some d, 1, lg) /\ dk_iter C d = d_total p.
Proof.
  exists (mk_dparams 1 2 2 1 0 false), (mk_oracle (fun _ => false) false (fun i => i =? 2)).
  do 2 eexists. split; [|split; [cbv -[Rplus Rmult Rdiv IZR]; reflexivity|reflexivity]]. repeat split; discriminate.
Qed.
End P.

Print Assumptions C11_stop_and_resume.
Print Assumptions C12_extend_finished_partial.
Print Assumptions C13_phonon_data_partial.
Print Assumptions C13_phonon_state_refuted.
Print Assumptions C48_exit_status_partial.
Print Assumptions C48_status_one_though_complete_refuted.

(** A toy simulation: the state counts the moves, the sample is the count. *)
Definition toy_slice (l : Z) (c : Z * Z) : Z * Z := (fst c + 1, snd c + 1).
Definition toy_sample (c : Z * Z) : list R := [IZR (fst c); IZR (snd c)].
Definition toy_run := main_run Z Z toy_slice (fun c => c) toy_sample toy_sample toy_sample 0
  (fun c => (c, 0)) 0 (fun c => c) 2 2 2.
Definition toy_runs := main_runs Z Z toy_slice (fun c => c) toy_sample toy_sample toy_sample 0
  (fun c => (c, 0)) 0 (fun c => c) 2 2 2.

(** C12 refuted: two samples 1 and 2, then extension by a third sample 3; the stored
    average is (3/2 + 3)/3 = 3/2 instead of 2. *)
Theorem C12_extend_finished_refuted :
  exists p d lg d' lg' r,
    toy_runs p [c13_go] None = Some (Some d, [0], lg) /\ dk_iter Z d = d_total p /\
    toy_run (with_nsampl p 3) c13_go (Some d) = Some (Some d', 0, lg') /\
    map (hd 0%R) (eq_vals lg ++ eq_vals lg') = [1; 2; 3]%R /\
    m_n (dk_eq Z d') = 3 /\ m_val (dk_eq Z d') = Some r /\ nth 0 r 0%R = (3/2)%R.
Proof.
  exists (mk_dparams 0 2 1 1 0 false). do 5 eexists.
  split; [cbv -[Rplus Rmult Rdiv IZR]; reflexivity|]. split; [reflexivity|].
  split; [cbv -[Rplus Rmult Rdiv IZR]; reflexivity|]. split; [reflexivity|].
  split; [reflexivity|]. split; [reflexivity|]. cbn. lra.
Qed.
Print Assumptions C12_extend_finished_refuted.

(** C11, a case: 1 + 3 iterations of two slices; stopped by the time limit before iteration
    2, by a signal during iteration 2, and left alone. *)
Example C11_case :
  exists d lg, toy_runs (mk_dparams 1 3 2 1 2 false)
      [mk_oracle (fun i => 2 <=? i) false (fun _ => false);
       mk_oracle (fun _ => false) false (fun i => i =? 2); c13_go; c13_go] None
    = Some (Some d, [1; 1; 0; -6], lg) /\
    iters lg = [0; 1; 2; 3] /\ map (hd 0%R) (eq_vals lg) = [3; 4; 5; 6; 7; 8]%R /\
    m_n (dk_eq Z d) = 6 /\ m_n (dk_un Z d) = 1 /\ dvalid (mk_dparams 1 3 2 1 2 false).
Proof. do 2 eexists. split; [cbv -[Rplus Rmult Rdiv IZR]; reflexivity|]. split; [reflexivity|]. split; [cbn; reflexivity|].
  split; [reflexivity|]. split; [reflexivity|]. repeat split; discriminate. Qed.
Example C13_case : dvalid c13_p /\ d_phonons c13_p = true.
Proof. split; [repeat split; discriminate|reflexivity]. Qed.
