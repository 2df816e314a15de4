(** Property C15: progress tracking (progress.c). *)
From Coq Require Import ZArith NArith.
From Verif Require Import Progress ProgressSpec ProgressFacts.
Local Open Scope Z_scope.

(** C15 (phase). In every run (fresh or resumed at iteration [i0]), after [n]
    iterations the recorded phase is the phase of the simulation, and the
    counter used for the time per iteration is the number of iterations of that
    phase completed in this run. *)
Theorem C15_phase_follows_simulation :
  forall n i0 nequil nsampl t,
    0 <= i0 -> 0 <= nequil -> 0 < nsampl -> i0 < nequil + nsampl ->
    i0 + Z.of_nat n <= nequil + nsampl ->
    let p := progress_after n i0 nequil nsampl t in
    let done := i0 + Z.of_nat n in
    pg_state p = phase_at nequil nsampl done /\ pg_niter p = in_phase nequil i0 done /\
    pg_nequil p = nequil /\ pg_nsampl p = nsampl.
Proof. exact progress_inv. Qed.
Print Assumptions C15_phase_follows_simulation.

(** C15 (printing), full claim: whenever the signal arrives, the printed counts
    satisfy 0 <= completed <= total.  False, see below.  What holds: they do
    unless the signal arrives between the UpdateProgress call of the last
    equilibration iteration and the increment of the iteration counter.
    (First part: signal after the increment; second part: signal between
    UpdateProgress and the increment.) *)
Theorem C15_printed_counts_partial :
  forall n i0 nequil nsampl t,
    0 <= i0 -> 0 <= nequil -> 0 < nsampl -> i0 < nequil + nsampl ->
    (i0 + Z.of_nat n <= nequil + nsampl ->
       sensible (print_progress (progress_after n i0 nequil nsampl t) (i0 + Z.of_nat n))) /\
    (i0 + Z.of_nat (S n) <= nequil + nsampl -> i0 + Z.of_nat (S n) <> nequil ->
       sensible (print_progress (progress_after (S n) i0 nequil nsampl t) (i0 + Z.of_nat n))).
Proof.
  exact (fun n i0 nequil nsampl t H1 H2 H3 H4 =>
    conj (print_sensible n i0 nequil nsampl t H1 H2 H3 H4) (print_window n i0 nequil nsampl t H1 H2 H3 H4)).
Qed.
Print Assumptions C15_printed_counts_partial.

(** C15 refuted: nequil = 3, nsampl = 5; a signal right after the UpdateProgress
    call of iteration 2 prints -1 completed measurement iterations. *)
Theorem C15_printed_counts_refuted :
  exists n i0 nequil nsampl t,
    0 <= i0 /\ 0 < nequil /\ 0 < nsampl /\ i0 + Z.of_nat (S n) <= nequil + nsampl /\
    print_progress (progress_after (S n) i0 nequil nsampl t) (i0 + Z.of_nat n) = PrMeasure (-1) nsampl None.
Proof.
  exists 2%nat, 0, 3, 5, (fun k => N.of_nat k). repeat split; reflexivity || discriminate.
Qed.
Print Assumptions C15_printed_counts_refuted.

(** C15 refuted for nsampl = 0 (accepted by the parameter validation): the
    completed simulation is not in the phase OUTPUT. *)
Theorem C15_phase_without_sampling_refuted :
  exists nequil t, 0 < nequil /\
    pg_state (progress_after (Z.to_nat nequil) 0 nequil 0 t) <> phase_at nequil 0 nequil.
Proof. exists 4, (fun k => N.of_nat k). split; [reflexivity|discriminate]. Qed.
Print Assumptions C15_phase_without_sampling_refuted.

(** A resumed run: started at iteration 2 of 3 + 5, four iterations done. *)
Example C15_case :
  let p := progress_after 4 2 3 5 (fun k => N.of_nat k) in
  pg_state p = MEASURE /\ pg_niter p = 3 /\ print_progress p 6 = PrMeasure 3 5 (Some 3).
Proof. repeat split. Qed.
