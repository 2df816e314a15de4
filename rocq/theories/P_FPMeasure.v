(** Property C79: the phonon data of the build which records every pair of sites. *)
From Coq Require Import ZArith List Reals Lia Lra Bool.
From Verif Require Import Base Sums RealOps GreenConstruct WickSpec MeasureSpec PMeasure PMeasureSpec PhononSweep PhononCountSpec Summary
  FPMeasure FPMeasureFacts P_PMeasure.
Import ListNotations.
Local Open Scope Z_scope.

(** C79: for any sequence of samples that fits into the histories, the four arrays, the sign and the number of samples are
    those of the default build, entry by entry and unused history entries included; and unless the signs cancel the
    summary shows the sign-weighted averages of the field and its square for every orbital, whatever the acceptance counters hold. *)
Theorem C79_full_build_phonon_data : forall mem Norb Nx Ny L mx dt omega samples,
  0 < Norb -> 0 < Nx -> 0 < Ny -> 0 < L -> dt <> 0%R -> Z.of_nat (length omega) = Norb ->
  let Ncell := Nx * Ny in
  Forall (psample_ok Norb Ncell L) samples -> Z.of_nat (length samples) <= mx -> samples <> [] ->
  exists m0 m m' f0 f f',
    allocate_pmeas Norb Nx Ny L mx = Some m0 /\ paccumulate_all dt omega samples m0 = Some m /\ pnormalize m = Some m' /\
    fallocate_pmeas mem Norb Nx Ny L mx = Some f0 /\ fpaccumulate_all samples f0 = Some f /\ fpnormalize f = Some f' /\
    fp_arr f' fX_avg = p_arr m' X_avg /\ fp_arr f' fX_sq_avg = p_arr m' X_sq_avg /\
    fp_arr f' fiteration_X_avg = p_arr m' iteration_X_avg /\ fp_arr f' fiteration_X0 = p_arr m' iteration_X0 /\
    fp_sign f' = p_sign m' /\ fp_nsampl f' = p_nsampl m' /\
    (lsum psign samples <> 0%R ->
     print_fphonon_summary f' = Some ((None, average_sign, lsum psign samples / IZR (Z.of_nat (length samples)))%R ::
       flat_map (fun o => [(Some o, average_X, phonon_average Norb Ncell L dt omega samples X_avg o);
         (Some o, average_X2, phonon_average Norb Ncell L dt omega samples X_sq_avg o)]) (map Z.of_nat (seq 0 (Z.to_nat Norb))))).
Proof.
  intros mem Norb Nx Ny L mx dt omega samples H1 H2 H3 H4 Hdt Hom Ncell Hs Hmx Hne.
  destruct (both_builds Norb Nx Ny L mx dt omega samples mem H1 H2 H3 H4 Hdt Hom Hs Hmx Hne)
    as (m0 & m & m' & f0 & f & f' & E0 & E & E' & F0 & F & F' & EA & ES & EN & _).
  exists m0, m, m', f0, f, f'. do 6 (split; [assumption|]).
  split; [exact (EA fX_avg)|]. split; [exact (EA fX_sq_avg)|]. split; [exact (EA fiteration_X_avg)|]. split; [exact (EA fiteration_X0)|].
  do 2 (split; [assumption|]). intros HS.
  exact (fphonon_lines Norb Nx Ny L mx dt omega samples mem H1 H2 H3 H4 Hdt Hom Hs Hmx Hne HS f0 f f' F0 F F').
Qed.
Print Assumptions C79_full_build_phonon_data.

(** hypotheses of the theorem: two orbitals, two cells, two time slices, samples of both signs, room for one more *)
Example C79_case : Forall (psample_ok 2 (2 * 1) 2) [case_sample 1; case_sample (-1); case_sample 1] /\
  lsum psign [case_sample 1; case_sample (-1); case_sample 1] = 1%R /\
  phonon_average 2 (2 * 1) 2 (/2) [1; 3]%R [case_sample 1; case_sample (-1); case_sample 1] X_avg 1 = (63/4)%R.
Proof.
  split; [|split].
  - repeat constructor; apply case_ok.
  - unfold lsum, psign, sign_of. cbn. lra.
  - cbv -[Rplus Rmult Rminus Ropp Rinv Rdiv IZR]. replace (1 * 1) with 1 by reflexivity. field.
Qed.

(** C79 is false for the acceptance counters: the default build sets them to zero, this one leaves what is in memory. *)
Theorem C79_counters_refuted : exists mem Norb Nx Ny L mx f0,
  0 < Norb /\ 0 < Nx /\ 0 < Ny /\ 0 < L /\ 0 < mx /\
  fallocate_pmeas mem Norb Nx Ny L mx = Some f0 /\ n_local_total (fp_counts f0) <> 0.
Proof. exists (mk_counts 5 7 0 0 0 0), 1, 1, 1, 1, 1. eexists. do 5 (split; [lia|]). split; [reflexivity|]. cbn. lia. Qed.
Print Assumptions C79_counters_refuted.
