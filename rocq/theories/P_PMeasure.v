(** Properties C45 - C47 and C54: phonon measurements. *)
From Coq Require Import ZArith List Reals Lia Lra Bool.
From Verif Require Import Base Sums SumsFacts RealOps SimParams ParamParser GreenConstruct Accum AccumFacts WickSpec MeasureSpec
  MeasureSeqFacts PMeasure PMeasureSpec PMeasureFacts.
Import ListNotations.
Local Open Scope Z_scope.

(** C54, full claim: every array accumulates the sign times its observable.  It holds for any
    sequence of samples that fits into the histories, for the averages of the field, its square,
    the velocity, its square, the potential energy and the density times the field; entry o of
    sample n of the histories is that of sample n alone.  The square of the average is
    weighted by the square of the sign instead, and the kinetic energy is subject of C46. *)
Theorem C54_phonon_observables_partial : forall Norb Nx Ny L mx dt omega samples,
  0 < Norb -> 0 < Nx -> 0 < Ny -> 0 < L -> dt <> 0%R -> Z.of_nat (length omega) = Norb ->
  let Ncell := Nx * Ny in
  Forall (psample_ok Norb Ncell L) samples -> Z.of_nat (length samples) <= mx ->
  exists m0 m, allocate_pmeas Norb Nx Ny L mx = Some m0 /\ paccumulate_all dt omega samples m0 = Some m /\
    (forall f o, In f [X_avg; X_sq_avg; V_avg; V_sq_avg; PE; nX] -> 0 <= o < Norb ->
       val (p_arr m f) o = lsum (fun s => psign s * observable Norb Ncell L dt omega s f o)%R samples) /\
    (forall o, 0 <= o < Norb ->
       val (p_arr m X_avg_sq) o = lsum (fun s => psign s ^ 2 * observable Norb Ncell L dt omega s X_avg_sq o)%R samples) /\
    (forall f o n, In f [iteration_X_avg; iteration_X0] -> 0 <= o < Norb -> 0 <= n < mx ->
       val (p_arr m f) (o + n * Norb) =
       match nth_error samples (Z.to_nat n) with Some s => psign s * history Norb Ncell L s f o | None => 0 end%R) /\
    p_sign m = lsum psign samples /\ p_nsampl m = Z.of_nat (length samples).
Proof.
  intros Norb Nx Ny L mx dt omega samples H1 H2 H3 H4 Hdt Hom Ncell Hs Hmx.
  assert (0 < Ncell) as HN by (unfold Ncell; nia).
  destruct (allocate_pmeas_ok Norb Ncell L mx H1 Nx Ny eq_refl) as (m0 & E0 & M0 & S0 & N0); [lia|].
  destruct (paccumulate_all_ok Norb Ncell L mx dt omega H1 HN H4 Hdt Hom samples m0 _ Hs M0) as (m & E & M & S & C); [lia|lia|].
  exists m0, m. do 2 (split; [assumption|]). destruct (po_arr _ _ _ _ _ _ M) as [c A]. rewrite N0 in *.
  assert (forall f k, f <> cur_X -> 0 <= k < pfield_len Norb mx f -> val (p_arr m f) k = pincs Norb Ncell L dt omega 0 samples f k) as V.
  { intros f k Hf Hk. change (val (p_arr m f) k) with (rat (p_arr m f) k). rewrite (@arr_get _ _ _ k (A f) Hk).
    cbn beta. destruct f; try congruence; apply Rplus_0_l. }
  split; [|split; [|split; [|split]]].
  - intros f o Hf Ho. repeat (destruct Hf as [<-|Hf]; [rewrite V by (try discriminate; exact Ho); now apply pincs_plain|]). destruct Hf.
  - intros o Ho. rewrite V by (try discriminate; exact Ho). apply pincs_plain. intros n s. cbn -[pow lattice_average]. apply Rpow_mult_distr.
  - intros f o n Hf Ho Hn.
    assert (0 <= o + n * Norb < Norb * mx) as Hk by nia.
    rewrite V; [| destruct Hf as [<-|[<-|[]]]; discriminate | destruct Hf as [<-|[<-|[]]]; exact Hk].
    rewrite <- (pincs_history Norb Ncell L dt omega f o Hf Ho samples 0 (Z.to_nat n)). do 2 f_equal. lia.
  - rewrite S, S0. apply Rplus_0_l.
  - exact C.
Qed.
Print Assumptions C54_phonon_observables_partial.

(** hypotheses of the theorems below: two orbitals, two cells, two time slices *)
Definition case_G (sgn : Z) : greens_func := mk_greens (map (fun k => IZR k) (map Z.of_nat (seq 0 16))) 0 sgn 4.
Definition case_sample (sgn : Z) : psample := mk_psample (case_G 1) (case_G sgn) 1 [1; 2; 3; 5; 8; 13; 21; 34]%R.
Lemma case_ok sgn : psample_ok 2 2 2 (case_sample sgn).
Proof. unfold psample_ok. cbn. lia. Qed.
Example C54_case : Forall (psample_ok 2 2 2) [case_sample 1; case_sample (-1)] /\ psign (case_sample (-1)) = (-1)%R /\
  observable 2 2 2 (/2) [1; 3]%R (case_sample 1) X_avg 1 = (63/4)%R.
Proof.
  split; [|split; [|cbv -[Rplus Rmult Rminus Ropp Rinv Rdiv IZR]; lra]].
  - repeat constructor; apply case_ok.
  - unfold psign, sign_of. cbn. lra.
Qed.

(** C54: with a negative sign the square of the average is accumulated with the wrong sign. *)
Theorem C54_square_of_average_refuted : exists Norb Nx Ny L dt omega s m0 m,
  psample_ok Norb (Nx * Ny) L s /\ allocate_pmeas Norb Nx Ny L 1 = Some m0 /\ paccumulate_all dt omega [s] m0 = Some m /\
  val (p_arr m X_avg_sq) 0 <> (psign s * observable Norb (Nx * Ny) L dt omega s X_avg_sq 0)%R.
Proof.
  destruct (C54_phonon_observables_partial 2 2 1 2 1 (/2) [1; 3]%R [case_sample (-1)]) as (m0 & m & E0 & E & _ & Q & _); try lia; try reflexivity; try (apply Rinv_neq_0_compat; lra).
  { repeat constructor; apply case_ok. }
  exists 2, 2, 1, 2, (/2)%R, [1; 3]%R, (case_sample (-1)), m0, m.
  split; [apply case_ok|]. split; [exact E0|]. split; [exact E|]. rewrite Q by lia.
  cbv -[Rplus Rmult Rminus Ropp Rinv Rdiv IZR not]. intros H. lra.
Qed.
Print Assumptions C54_square_of_average_refuted.

(** C46, full claim: entry o of the kinetic energies accumulates the sign times the kinetic
    energy of orbital o.  It holds for one orbital, and for any number of orbitals for the sum over
    the orbitals. *)
Theorem C46_kinetic_energy_partial : forall Norb Nx Ny L mx dt omega samples,
  0 < Norb -> 0 < Nx -> 0 < Ny -> 0 < L -> dt <> 0%R -> Z.of_nat (length omega) = Norb ->
  let Ncell := Nx * Ny in
  Forall (psample_ok Norb Ncell L) samples -> Z.of_nat (length samples) <= mx ->
  exists m0 m, allocate_pmeas Norb Nx Ny L mx = Some m0 /\ paccumulate_all dt omega samples m0 = Some m /\
    (Norb = 1 -> val (p_arr m KE) 0 = lsum (fun s => psign s * observable Norb Ncell L dt omega s KE 0)%R samples) /\
    sum 0 Norb (val (p_arr m KE)) =
      lsum (fun s => psign s * sum 0 Norb (observable Norb Ncell L dt omega s KE))%R samples.
Proof.
  intros Norb Nx Ny L mx dt omega samples H1 H2 H3 H4 Hdt Hom Ncell Hs Hmx.
  assert (0 < Ncell) as HN by (unfold Ncell; nia).
  destruct (allocate_pmeas_ok Norb Ncell L mx H1 Nx Ny eq_refl) as (m0 & E0 & M0 & S0 & N0); [lia|].
  destruct (paccumulate_all_ok Norb Ncell L mx dt omega H1 HN H4 Hdt Hom samples m0 _ Hs M0) as (m & E & M & S & C); [lia|lia|].
  exists m0, m. do 2 (split; [assumption|]). destruct (po_arr _ _ _ _ _ _ M) as [c A].
  assert (forall k, 0 <= k < Norb -> val (p_arr m KE) k = lsum (fun s => pinc Norb Ncell L dt omega 0 s KE k) samples) as V.
  { intros k Hk. change (val (p_arr m KE) k) with (rat (p_arr m KE) k). rewrite (@arr_get _ _ _ k (A KE) Hk).
    cbn beta. rewrite Rplus_0_l. now apply pincs_plain. }
  split.
  - intros ->. rewrite V by lia. unfold lsum. clear. induction samples as [|s t IH]; cbn [fold_right]; [reflexivity|]. rewrite IH. f_equal.
    unfold pinc, observable. cbn -[lattice_average velocity]. unfold Rdiv. ring.
  - rewrite (@sum_ext _ _ _ _ V). unfold lsum. clear - H1 Hdt.
    induction samples as [|s t IH]; cbn [fold_right]; [now apply sum_zero|]. rewrite sum_plus, IH. f_equal.
    rewrite <- sum_scal. unfold pinc, observable.
    set (h := fun k => (psign s * lattice_average Ncell L (fun i l => / 2 * velocity Norb Ncell L dt (ps_X s) k i l ^ 2))%R).
    transitivity (sum 0 Norb (fun k => if (k =? 0)%Z then IZR Norb * (psign s / (2 * dt)) else 0) + sum 0 Norb (fun k => - h k))%R.
    { rewrite <- sum_plus. apply sum_ext. intros; unfold h; ring. }
    rewrite (@sum_single _ _ _ 0); [|lia|intros i Hi Hne; destruct (Z.eqb_spec i 0); [lia|reflexivity]]. cbn [Z.eqb].
    transitivity (sum 0 Norb (fun _ => psign s / (2 * dt)) + sum 0 Norb (fun k => - h k))%R.
    { rewrite sum_const by lia. rewrite Z.sub_0_r. reflexivity. }
    rewrite <- sum_plus. apply sum_ext. intros; unfold h; field; auto.
Qed.
Print Assumptions C46_kinetic_energy_partial.

(** C46 is false for two orbitals: the whole constant is added to orbital 0. *)
Theorem C46_kinetic_energy_refuted : exists Norb Nx Ny L dt omega s m0 m,
  psample_ok Norb (Nx * Ny) L s /\ (0 < dt)%R /\ psign s = 1%R /\
  allocate_pmeas Norb Nx Ny L 1 = Some m0 /\ paccumulate_all dt omega [s] m0 = Some m /\
  val (p_arr m KE) 0 <> (psign s * observable Norb (Nx * Ny) L dt omega s KE 0)%R /\
  val (p_arr m KE) 1 <> (psign s * observable Norb (Nx * Ny) L dt omega s KE 1)%R.
Proof.
  set (s := case_sample 1).
  destruct (allocate_pmeas_ok 2 2 2 1 ltac:(lia) 2 1 eq_refl) as (m0 & E0 & M0 & S0 & N0); [lia|].
  assert (/ 2 <> 0)%R as Hdt by (apply Rinv_neq_0_compat; lra).
  destruct (paccumulate_all_ok 2 2 2 1 (/2) [1; 3]%R eq_refl eq_refl eq_refl Hdt eq_refl [s] m0 (fun _ _ => 0%R)) as (m & E & M & _);
    [repeat constructor; apply case_ok | exact M0 | lia | cbn; lia |].
  exists 2, 2, 1, 2, (/2)%R, [1; 3]%R, s, m0, m.
  split; [apply case_ok|]. split; [lra|]. split; [unfold psign, sign_of; cbn; lra|].
  split; [exact E0|]. split; [exact E|]. destruct (po_arr _ _ _ _ _ _ M) as [c A]. specialize (A KE).
  split; [change (val (p_arr m KE) 0) with (rat (p_arr m KE) 0) | change (val (p_arr m KE) 1) with (rat (p_arr m KE) 1)].
  - rewrite (@arr_get _ _ _ 0 A) by (cbn; lia). rewrite N0. unfold s.
    cbv -[Rplus Rmult Rminus Ropp Rinv Rdiv IZR not]. intros H. lra.
  - rewrite (@arr_get _ _ _ 1 A) by (cbn; lia). rewrite N0. unfold s.
    cbv -[Rplus Rmult Rminus Ropp Rinv Rdiv IZR not]. intros H. lra.
Qed.
Print Assumptions C46_kinetic_energy_refuted.

(** C45, phonon measurements: after normalisation every entry is the sum of its contributions
    divided by the number of samples; the histories, which hold one entry per sample, are unchanged. *)
Theorem C45_phonon_normalised_is_mean : forall Norb Nx Ny L mx dt omega samples,
  0 < Norb -> 0 < Nx -> 0 < Ny -> 0 < L -> dt <> 0%R -> Z.of_nat (length omega) = Norb ->
  Forall (psample_ok Norb (Nx * Ny) L) samples -> Z.of_nat (length samples) <= mx -> samples <> [] ->
  exists m0 m m', allocate_pmeas Norb Nx Ny L mx = Some m0 /\ paccumulate_all dt omega samples m0 = Some m /\
    pnormalize m = Some m' /\
    (forall f o, In f orbital_fields -> 0 <= o < Norb ->
       val (p_arr m' f) o = (val (p_arr m f) o / IZR (Z.of_nat (length samples)))%R) /\
    (forall f k, In f [iteration_X_avg; iteration_X0] -> 0 <= k < Norb * mx -> val (p_arr m' f) k = val (p_arr m f) k) /\
    p_sign m' = (lsum psign samples / IZR (Z.of_nat (length samples)))%R /\ p_nsampl m' = Z.of_nat (length samples).
Proof.
  intros Norb Nx Ny L mx dt omega samples H1 H2 H3 H4 Hdt Hom Hs Hmx Hne.
  assert (0 < Nx * Ny) as HN by nia.
  destruct (allocate_pmeas_ok Norb (Nx * Ny) L mx H1 Nx Ny eq_refl) as (m0 & E0 & M0 & S0 & N0); [lia|].
  destruct (paccumulate_all_ok Norb (Nx * Ny) L mx dt omega H1 HN H4 Hdt Hom samples m0 _ Hs M0) as (m & E & M & S & C); [lia|lia|].
  rewrite N0, Z.add_0_l in C.
  assert (p_nsampl m <> 0) as Hc by (rewrite C; destruct samples; [congruence|cbn; lia]).
  destruct (pnormalize_ok Norb (Nx * Ny) L mx H1 m _ Hc M) as (m' & E' & M' & S' & C').
  exists m0, m, m'. do 3 (split; [assumption|]).
  destruct (po_arr _ _ _ _ _ _ M) as [c A]. destruct (po_arr _ _ _ _ _ _ M') as [c' A']. rewrite C in *.
  split; [|split; [|split]].
  - intros f o Hf Ho. change (rat (p_arr m' f) o = rat (p_arr m f) o / IZR (Z.of_nat (length samples)))%R.
    repeat (destruct Hf as [<-|Hf]; [rewrite (@arr_get _ _ _ o (A _)), (@arr_get _ _ _ o (A' _)) by exact Ho; reflexivity|]). destruct Hf.
  - intros f k Hf Hk. change (rat (p_arr m' f) k = rat (p_arr m f) k).
    repeat (destruct Hf as [<-|Hf]; [rewrite (@arr_get _ _ _ k (A _)), (@arr_get _ _ _ k (A' _)) by exact Hk; reflexivity|]). destruct Hf.
  - rewrite S', S, S0, Rplus_0_l. reflexivity.
  - exact C'.
Qed.
Print Assumptions C45_phonon_normalised_is_mean.

Example C45_phonon_case : Forall (psample_ok 2 (2 * 1) 2) [case_sample 1; case_sample (-1)] /\ [case_sample 1; case_sample (-1)] <> [].
Proof. split; [repeat constructor; apply case_ok|discriminate]. Qed.

(** C47, full claim: for all accepted parameters the arrays can be allocated and all samples of
    the run fit.  It holds if measurements are enabled (0 < neqlt), for every number of sweeps,
    slices and whatever is measured: the run takes nsampl*(L/neqlt) samples and never leaves the
    arrays. *)
Theorem C47_histories_suffice_partial : forall Norb Nx Ny L dt omega nsampl neqlt what,
  0 < Norb -> 0 < Nx -> 0 < Ny -> 0 < L -> dt <> 0%R -> Z.of_nat (length omega) = Norb ->
  0 <= nsampl -> 0 < neqlt -> (forall it l, psample_ok Norb (Nx * Ny) L (what it l)) ->
  exists m0 m, allocate_for_run Norb Nx Ny L nsampl neqlt = Some m0 /\
    measure_run dt omega L nsampl neqlt what m0 = Some m /\
    p_nsampl m = nsampl * (L / neqlt) /\ p_nsampl m <= p_max m.
Proof.
  intros Norb Nx Ny L dt omega nsampl neqlt what H1 H2 H3 H4 Hdt Hom Hs Hq Hw.
  assert (0 < Nx * Ny) as HN by nia.
  assert (cdiv (nsampl * L) neqlt = Some (nsampl * L / neqlt)) as Ec.
  { unfold cdiv. destruct (Z.eqb_spec neqlt 0); [lia|]. rewrite Z.quot_div_nonneg by nia. reflexivity. }
  destruct (allocate_pmeas_ok Norb (Nx * Ny) L (nsampl * L / neqlt) H1 Nx Ny eq_refl) as (m0 & E0 & M0 & S0 & N0); [apply Z.div_pos; nia|].
  destruct (measure_run_ok Norb (Nx * Ny) L (nsampl * L / neqlt) dt omega H1 HN H4 Hdt Hom nsampl neqlt what m0 _ Hs Hq
     (run_bound L nsampl neqlt Hs Hq) Hw M0 N0) as (m & g & E & M & C).
  exists m0, m. unfold allocate_for_run. rewrite Ec. cbn [obind]. split; [exact E0|]. split; [exact E|]. split; [exact C|].
  rewrite C, (po_max _ _ _ _ _ _ M). now apply run_bound.
Qed.
Print Assumptions C47_histories_suffice_partial.

Example C47_case : (forall it l : Z, psample_ok 2 (2 * 1) 2 (case_sample 1)) /\ 0 < 2 /\ 5 * 2 / 2 = 5.
Proof. split; [repeat constructor; apply case_ok|split; reflexivity]. Qed.

(** C47 is false for neqlt = 0, the documented way to disable measurements: parameters accepted by
    the validation for which the size of the arrays is a division by zero. *)
Theorem C47_disabled_measurements_refuted : exists p, validate p = Some 0 /\ sp_use_phonons p = true /\ sp_neqlt p = 0 /\
  allocate_for_run (sp_Norb p) (sp_Nx p) (sp_Ny p) (sp_L p) (sp_nsampl p) (sp_neqlt p) = None.
Proof.
  set (t := mk_bonds [0%R] [0%R] [0%R] [0%R] [0%R]).
  exists (mk_sim_params 1 2 2 0 t [4%R] [0%R] 0 true (mk_phonon_params [1%R] [1%R] 1 1 1 1) 1 4 2 2 10 10 0 0 1%N 100).
  split; [|split; [reflexivity|split; reflexivity]].
  cbv -[Req_EM_T IZR].
  destruct (Req_EM_T 0 0); [reflexivity|congruence].
Qed.
Print Assumptions C47_disabled_measurements_refuted.
