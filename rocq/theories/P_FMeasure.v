(** C72, C73, C74, C75: measurements recorded for every site (measurement_full.c). *)
From Coq Require Import ZArith List Reals Lia Lra.
From Verif Require Import Base BaseFacts Sums SumsFacts RealOps BlasFacts Lattice LatticeSpec LatticeFacts GreenConstruct
  AccumFacts WickSpec Measure MeasureSpec MeasureFacts MeasureSeqFacts P_Measure UMeasure UMeasureSpec UMeasureFacts UMeasureSeqFacts
  FMeasure FMeasureSpec FMeasureFacts FUMeasureFacts FRecoverFacts.
Import ListNotations.
Local Open Scope Z_scope.

(** C72.  After any non-empty sequence of samples and one normalisation, every entry of the density,
    double occupancy, Green's function and correlation arrays is the mean over the samples of the
    sign times the expectation value for this site or this pair of sites. *)
Theorem C72_site_measurements_are_means : forall junk Norb Nx Ny shift samples,
  0 < Norb -> 0 < Nx -> 0 < Ny -> samples <> [] ->
  let N := Nx * Ny * Norb in
  Forall (dims N) samples ->
  let mean v := (lsum (fun s => sign_of (fst s) (snd s) * v (equal_time (greens_of N (fst s) (snd s)))) samples
                 / IZR (Z.of_nat (length samples)))%R in
  exists m0 m m', f_allocate junk Norb Nx Ny shift = Some m0 /\
    f_accumulate_all samples m0 = Some m /\ f_normalize m = Some m' /\
    (forall f i j, In f two_point_fields -> 0 <= i < N -> 0 <= j < N ->
       val (m_arr m' f) (pair_pos N i j) = mean (fun w => two_point f w i j)) /\
    (forall i, 0 <= i < N ->
       val (m_arr m' density_u) i = mean (fun w => expect_00 w (number up i)) /\
       val (m_arr m' density_d) i = mean (fun w => expect_00 w (number dn i)) /\
       val (m_arr m' doubleocc) i = mean (fun w => correlation w (number up i) (number dn i))) /\
    (forall i j, 0 <= i < N -> 0 <= j < N ->
       val (m_arr m' grfun_u) (pair_pos N i j) = mean (fun w => g00 w up i j) /\
       val (m_arr m' grfun_d) (pair_pos N i j) = mean (fun w => g00 w dn i j)) /\
    m_sign m' = mean (fun _ => 1%R) /\ m_nsampl m' = Z.of_nat (length samples).
Proof.
  intros junk Norb Nx Ny sh samples H1 H2 H3 Hne N Hd mean.
  destruct (f_allocate_ok Norb Nx Ny H1 H2 H3 junk sh) as (m0 & E0 & M0 & S0 & N0).
  rewrite Forall_forall in Hd.
  destruct (f_accumulate_all_ok Norb Nx Ny H1 H2 H3 samples m0 _ Hd M0) as (m & E & M & Sm & Nm).
  rewrite N0, Z.add_0_l in Nm.
  assert (m_nsampl m <> 0) as Hn0.
  { rewrite Nm. destruct samples; [congruence|]. cbn [length]. lia. }
  destruct (f_normalize_ok Norb Nx Ny H1 H2 H3 m _ Hn0 M) as (m' & E' & M' & Sm' & Nm').
  exists m0, m, m'. do 3 (split; [assumption|]).
  assert (forall f k v, 0 <= k < fmfield_len Norb (Nx * Ny) f ->
     (forall s, finc Norb Nx Ny (fst s) (snd s) f k
        = (sign_of (fst s) (snd s) * v (equal_time (greens_of N (fst s) (snd s))))%R) ->
     val (m_arr m' f) k = mean v) as K.
  { intros f k v Hk Hv. change (val (m_arr m' f) k) with (rat (m_arr m' f) k).
    rewrite (arr_get (fo_arr _ _ _ _ _ M' f) Hk). rewrite Nm, Rplus_0_l. unfold mean. f_equal.
    apply lsum_ext0. intros s. apply Hv. }
  split; [|split; [|split; [|split]]].
  - intros f i j Hf Hi Hj. apply K.
    + pose proof (mat_range Norb Nx Ny H1 H2 H3 i j Hi Hj) as R. unfold pair_pos.
      repeat (destruct Hf as [<-|Hf]; [exact R|]). destruct Hf.
    + intros s. now apply finc_two_point.
  - intros i Hi. repeat split; apply K; auto; intros s;
      destruct (finc_density Norb Nx Ny (fst s) (snd s) i) as (I1 & I2 & I3); assumption.
  - intros i j Hi Hj. split; apply K; try (apply mat_range; auto); intros s; reflexivity.
  - rewrite Sm', Sm, S0, Nm, Rplus_0_l. unfold mean. f_equal. apply lsum_ext0. intros s. ring.
  - congruence.
Qed.
Print Assumptions C72_site_measurements_are_means.

(** two sites, two samples with different signs: the densities of the two sites differ *)
Example C72_case : exists samples m0 m m',
  Forall (dims 2) samples /\ samples <> [] /\
  f_allocate (fun _ => 5) 1 2 1 0 = Some m0 /\ f_accumulate_all samples m0 = Some m /\ f_normalize m = Some m' /\
  val (m_arr m' density_u) 0 = (1/4)%R /\ val (m_arr m' density_u) 1 = (-1/8)%R /\
  val (m_arr m' uu_corr) (pair_pos 2 0 1) = (3/16)%R.
Proof.
  set (A := mk_greens [0; 1; -1/4; 1/2]%R 0%R 1 2). set (B := mk_greens [1/2; 0; 1; 1/4]%R 0%R (-1) 2).
  destruct (C72_site_measurements_are_means (fun _ => 5) 1 2 1 0 [(A, A); (B, A)] ltac:(lia) ltac:(lia) ltac:(lia) ltac:(discriminate))
    as (m0 & m & m' & E0 & E & E' & T & D & _).
  { repeat constructor. }
  exists [(A, A); (B, A)], m0, m, m'. split; [repeat constructor|]. split; [discriminate|].
  do 3 (split; [assumption|]).
  destruct (D 0 ltac:(lia)) as (D0 & _). destruct (D 1 ltac:(lia)) as (D1 & _).
  rewrite D0, D1. pose proof (T uu_corr 0 1 ltac:(cbn; tauto) ltac:(lia) ltac:(lia)) as T0.
  change (2 * 1 * 1) with 2 in T0. rewrite T0.
  repeat split; cbv -[Rplus Rmult Rminus Ropp Rinv Rdiv IZR]; lra.
Qed.

(** C72 for the unequal time arrays: every entry of the Green's function, density and spin
    correlation arrays is the mean of the sign times the expectation value of the operators at sites
    i (time l) and j (time 0). *)
Theorem C72_unequal_time_site_measurements : forall junk Norb Nx Ny shift L samples,
  0 < Norb -> 0 < Nx -> 0 < Ny -> 0 < L -> samples <> [] ->
  let N := Nx * Ny * Norb in
  Forall (fun s => cur_ok N L (snd s)) samples ->
  exists m0 m m', fu_allocate junk Norb Nx Ny shift L = Some m0 /\
    fu_accumulate_all samples m0 = Some m /\ fu_normalize m = Some m' /\
    (forall f l i j, In f u_two_point_fields -> 0 <= l < L -> 0 <= i < N -> 0 <= j < N ->
       val (u_arr m' f) (upair_pos N L f l i j) =
         (lsum (fun s => fst s * u_two_point f (uconfig N L l (snd s)) i j) samples / IZR (Z.of_nat (length samples)))%R) /\
    u_sign m' = (lsum fst samples / IZR (Z.of_nat (length samples)))%R /\ u_nsampl m' = Z.of_nat (length samples).
Proof.
  intros junk Norb Nx Ny sh L samples H1 H2 H3 H4 Hne N Hd.
  destruct (fu_allocate_ok Norb Nx Ny L H1 H2 H3 H4 junk sh) as (m0 & E0 & M0 & S0 & N0).
  rewrite Forall_forall in Hd.
  destruct (fu_accumulate_all_ok Norb Nx Ny L H1 H2 H3 H4 samples m0 _ Hd M0) as (m & E & M & Sm & Nm).
  rewrite N0, Z.add_0_l in Nm.
  assert (u_nsampl m <> 0) as Hn0.
  { rewrite Nm. destruct samples; [congruence|]. cbn [length]. lia. }
  destruct (fu_normalize_ok Norb Nx Ny L H1 H2 H3 H4 m _ Hn0 M) as (m' & E' & M' & Sm' & Nm').
  exists m0, m, m'. do 3 (split; [assumption|]). split; [|split].
  - intros f l i j Hf Hl Hi Hj.
    pose proof (upair_range Norb Nx Ny H1 H2 H3 L H4 f l i j Hf Hl Hi Hj) as R.
    fold N in R. change (val (u_arr m' f)) with (rat (u_arr m' f)).
    rewrite (arr_get (fuo_arr _ _ _ _ _ _ M' f) R). rewrite Nm, Rplus_0_l.
    replace (existsb _ _) with false by (repeat (destruct Hf as [<-|Hf]; [reflexivity|]); destruct Hf).
    f_equal. apply lsum_ext0. intros s. now apply fuinc_two_point.
  - rewrite Sm', Sm, S0, Nm, Rplus_0_l. reflexivity.
  - congruence.
Qed.
Print Assumptions C72_unequal_time_site_measurements.

(** two sites and two time steps, negative sign: the density correlation of site 0 at time 1 with
    site 1 and the Green's function *)
Example C72_unequal_time_case : exists c m0 m m',
  cur_ok 2 2 c /\ fu_allocate (fun _ => 7) 1 2 1 0 2 = Some m0 /\ fu_accumulate_all [((-1)%R, c)] m0 = Some m /\
  fu_normalize m = Some m' /\
  val (u_arr m' nn_corr) (upair_pos 2 2 nn_corr 1 0 1) = (- 5 / 4)%R /\
  val (u_arr m' Gtau0_u) (upair_pos 2 2 Gtau0_u 1 0 1) = (- 1 / 2)%R /\
  val (u_arr m' G0tau_d) (upair_pos 2 2 G0tau_d 1 0 1) = (1 / 4)%R.
Proof.
  set (id := [1/2; 0; 0; 1/2; 1/2; 0; 0; 1/2]%R).
  set (gt := [1/2; 0; 0; 1/2; 0; 1/2; 1/2; 0]%R).
  set (g0 := [1/2; 0; 0; 1/2; 0; -1/4; -1/4; 0]%R).
  set (c := mk_cur gt g0 id gt g0 id).
  assert (cur_ok 2 2 c) as Hc.
  { split.
    - intros a Ha. repeat (destruct Ha as [<-|Ha]; [reflexivity|]). destruct Ha.
    - intros s i j Hi Hj. assert (i = 0 \/ i = 1) as [-> | ->] by lia; assert (j = 0 \/ j = 1) as [-> | ->] by lia;
      destruct s; split; reflexivity. }
  destruct (C72_unequal_time_site_measurements (fun _ => 7) 1 2 1 0 2 [((-1)%R, c)] ltac:(lia) ltac:(lia) ltac:(lia) ltac:(lia) ltac:(discriminate))
    as (m0 & m & m' & E0 & E & E' & H & _).
  { constructor; [|constructor]. exact Hc. }
  exists c, m0, m, m'. split; [exact Hc|]. do 3 (split; [assumption|]).
  pose proof (fun f Hf => H f 1 0 1 Hf ltac:(lia) ltac:(lia) ltac:(lia)) as Q. change (2 * 1 * 1) with 2 in Q.
  rewrite !Q by (cbn; tauto). repeat split; cbv -[Rplus Rmult Rminus Ropp Rinv Rdiv IZR]; lra.
Qed.

(** C73.  The pair correlations recorded for every pair of cells.  Full statement: for all shifts.
    The program does not use the shift, so the neighbours are those of the lattice only if the
    shift is a multiple of Nx. *)
Theorem C73_site_pair_correlations_partial : forall junk Norb Nx Ny shift samples,
  0 < Norb -> 0 < Nx -> 0 < Ny -> shift mod Nx = 0 -> samples <> [] ->
  let Ncell := Nx * Ny in let N := Nx * Ny * Norb in
  Forall (dims N) samples ->
  exists m0 m m', f_allocate junk Norb Nx Ny shift = Some m0 /\
    f_accumulate_all samples m0 = Some m /\ f_normalize m = Some m' /\
    (forall f o i j, In f pair_fields -> 0 <= o < Norb -> 0 <= i < Ncell -> 0 <= j < Ncell ->
       let nb c d := site Ncell (cell_step Nx Ny shift d c) o in
       val (m_arr m' f) (cells_pos Ncell o i j) =
         (lsum (fun s => sign_of (fst s) (snd s) * pair_correlation (equal_time (greens_of N (fst s) (snd s)))
            (pair_op (site Ncell i o) (pair_shape f (nb i))) (pair_op (site Ncell j o) (pair_shape f (nb j)))) samples
          / IZR (Z.of_nat (length samples)))%R).
Proof.
  intros junk Norb Nx Ny sh samples H1 H2 H3 Hmod Hne Ncell N Hd.
  destruct (f_allocate_ok Norb Nx Ny H1 H2 H3 junk sh) as (m0 & E0 & M0 & S0 & N0).
  rewrite Forall_forall in Hd.
  destruct (f_accumulate_all_ok Norb Nx Ny H1 H2 H3 samples m0 _ Hd M0) as (m & E & M & Sm & Nm).
  rewrite N0, Z.add_0_l in Nm.
  assert (m_nsampl m <> 0) as Hn0.
  { rewrite Nm. destruct samples; [congruence|]. cbn [length]. lia. }
  destruct (f_normalize_ok Norb Nx Ny H1 H2 H3 m _ Hn0 M) as (m' & E' & M' & Sm' & Nm').
  exists m0, m, m'. do 3 (split; [assumption|]).
  intros f o i j Hf Ho Hi Hj nb.
  assert (0 <= cells_pos Ncell o i j < fmfield_len Norb (Nx * Ny) f) as R.
  { pose proof (cells_range Norb Nx Ny H2 H3 o i j Ho Hi Hj) as R.
    repeat (destruct Hf as [<-|Hf]; [exact R|]). destruct Hf. }
  change (val (m_arr m' f)) with (rat (m_arr m' f)).
  rewrite (arr_get (fo_arr _ _ _ _ _ M' f) R). rewrite Nm, Rplus_0_l. f_equal.
  apply lsum_ext0. intros s. unfold cells_pos, Ncell. rewrite finc_pair by auto.
  assert (forall d c, cell_step Nx Ny sh d c = cell_step Nx Ny 0 d c) as ES.
  { intros d c. unfold cell_step. rewrite (Z.div_mod sh Nx) by lia. rewrite Hmod, Z.add_0_r, Z.mul_comm.
    apply wrap_shift_mult; auto. }
  unfold nb, pair_shape, Ncell. repeat (destruct Hf as [<-|Hf]; [now rewrite !ES|]). destruct Hf.
Qed.
Print Assumptions C73_site_pair_correlations_partial.

(** C73 for the unequal time pair and Raman correlations; the B1g array also needs that the
    lattice is not a chain (a single cell is fine), as in C53. *)
Theorem C73_site_bond_correlations_partial : forall junk Norb Nx Ny shift L samples,
  0 < Norb -> 0 < Nx -> 0 < Ny -> 0 < L -> shift mod Nx = 0 -> samples <> [] ->
  let Ncell := Nx * Ny in let N := Nx * Ny * Norb in
  Forall (fun s => cur_ok N L (snd s)) samples ->
  exists m0 m m', fu_allocate junk Norb Nx Ny shift L = Some m0 /\
    fu_accumulate_all samples m0 = Some m /\ fu_normalize m = Some m' /\
    (forall f l o i j, In f site_bond_fields -> (f = ram_b1g -> (Nx = 1 <-> Ny = 1)) ->
       0 <= l < L -> 0 <= o < Norb -> 0 <= i < Ncell -> 0 <= j < Ncell ->
       let nb c d := site Ncell (cell_step Nx Ny shift d c) o in
       val (u_arr m' f) (ucells_pos Norb Ncell l o i j) =
         (lsum (fun s => fst s * u_bond f (uconfig N L l (snd s)) (site Ncell i o) (site Ncell j o) (nb i) (nb j)) samples
          / IZR (Z.of_nat (length samples)))%R).
Proof.
  intros junk Norb Nx Ny sh L samples H1 H2 H3 H4 Hmod Hne Ncell N Hd.
  destruct (fu_allocate_ok Norb Nx Ny L H1 H2 H3 H4 junk sh) as (m0 & E0 & M0 & S0 & N0).
  rewrite Forall_forall in Hd.
  destruct (fu_accumulate_all_ok Norb Nx Ny L H1 H2 H3 H4 samples m0 _ Hd M0) as (m & E & M & Sm & Nm).
  rewrite N0, Z.add_0_l in Nm.
  assert (u_nsampl m <> 0) as Hn0.
  { rewrite Nm. destruct samples; [congruence|]. cbn [length]. lia. }
  destruct (fu_normalize_ok Norb Nx Ny L H1 H2 H3 H4 m _ Hn0 M) as (m' & E' & M' & Sm' & Nm').
  exists m0, m, m'. do 3 (split; [assumption|]).
  intros f l o i j Hf Hb Hl Ho Hi Hj nb.
  pose proof (ucells_range Norb Nx Ny H1 H2 H3 L H4 f l o i j Hf Hl Ho Hi Hj) as R.
  fold Ncell in R. change (val (u_arr m' f)) with (rat (u_arr m' f)).
  rewrite (arr_get (fuo_arr _ _ _ _ _ _ M' f) R). rewrite Nm, Rplus_0_l.
  replace (existsb _ _) with false by (repeat (destruct Hf as [<-|Hf]; [reflexivity|]); destruct Hf).
  f_equal. apply lsum_ext0. intros s. unfold ucells_pos, Ncell, N. rewrite fuinc_bond by auto. f_equal.
  assert (forall d c, cell_step Nx Ny sh d c = cell_step Nx Ny 0 d c) as ES.
  { intros d c. unfold cell_step. rewrite (Z.div_mod sh Nx) by lia. rewrite Hmod, Z.add_0_r, Z.mul_comm.
    apply wrap_shift_mult; auto. }
  transitivity (u_bond f (uconfig (Nx * Ny * Norb) L l (snd s)) (site (Nx * Ny) i o) (site (Nx * Ny) j o)
     (fun d => site (Nx * Ny) (cell_step Nx Ny 0 d i) o) (fun d => site (Nx * Ny) (cell_step Nx Ny 0 d j) o)).
  - repeat (destruct Hf as [<-|Hf]; [first [reflexivity|apply fu_b1g; auto]|]). destruct Hf.
  - unfold nb, u_bond, pair_shape, b1g_shape, b2g_shape, Ncell.
    repeat (destruct Hf as [<-|Hf]; [now rewrite !ES|]). destruct Hf.
Qed.
Print Assumptions C73_site_bond_correlations_partial.

(** the hypotheses allow a 2 x 3 lattice of two orbitals with a shift of one row, and four time steps *)
Example C73_case : exists c m0 m m', let N := 2 * 3 * 2 in
  cur_ok N 4 c /\ 2 mod 2 = 0 /\ (2 = 1 <-> 3 = 1) /\
  fu_allocate (fun _ => 1) 2 2 3 2 4 = Some m0 /\ fu_accumulate_all [(1%R, c)] m0 = Some m /\ fu_normalize m = Some m' /\
  val (u_arr m' u_sc_c_sx) (ucells_pos 2 6 3 1 4 2) = 1%R.
Proof.
  set (a := repeat (1/2)%R 576). set (c := mk_cur a a a a a a).
  assert (forall k, 0 <= k < 576 -> val a k = (1/2)%R) as V.
  { intros k Hk. unfold val, a. clear - Hk.
    rewrite (nth_indep _ 0%R (1/2)%R) by (rewrite repeat_length; lia). apply nth_repeat. }
  assert (cur_ok (2 * 3 * 2) 4 c) as Hc.
  { split.
    - intros b Hb. repeat (destruct Hb as [<-|Hb]; [reflexivity|]). destruct Hb.
    - intros s i j Hi Hj. destruct s; cbn [uconfig gt0 gtt g0t c cGtau0_u cG0tau_u cGeqlt_u cGtau0_d cG0tau_d cGeqlt_d];
        rewrite !V by lia; auto. }
  destruct (C73_site_bond_correlations_partial (fun _ => 1) 2 2 3 2 4 [(1%R, c)] ltac:(lia) ltac:(lia) ltac:(lia) ltac:(lia) eq_refl ltac:(discriminate))
    as (m0 & m & m' & E0 & E & E' & H).
  { constructor; [|constructor]. exact Hc. }
  exists c, m0, m, m'. split; [exact Hc|]. split; [reflexivity|]. split; [split; intros D; discriminate D|].
  do 3 (split; [assumption|]).
  pose proof (H u_sc_c_sx 3 1 4 2 ltac:(cbn; tauto) ltac:(discriminate) ltac:(lia) ltac:(lia) ltac:(lia) ltac:(lia)) as Q.
  change (2 * 3) with 6 in Q. rewrite Q. clear.
  assert (forall i j s, gt0 (uconfig 12 4 3 c) s i j = val a (i + 12 * (3 + 4 * j))) as G by (intros; destruct s; reflexivity).
  unfold lsum, u_bond, pair_correlation, lsum, pair_op, pair_shape. cbn [fold_right map fst snd length].
  cbv -[Rplus Rmult Rminus Ropp Rinv Rdiv IZR]. lra.
Qed.

(** a shifted lattice: the d-wave pair correlation of a cell with itself is not that of its neighbours *)
Theorem C73_shifted_refuted : exists junk Gu Gd m0 m',
  let Norb := 1 in let Nx := 2 in let Ny := 1 in let shift := 1 in
  dims 2 (Gu, Gd) /\
  f_allocate junk Norb Nx Ny shift = Some m0 /\ f_accumulate Gu Gd m0 = Some m' /\
  val (m_arr m' sc_c_dw) (cells_pos 2 0 0 0) <>
    (sign_of Gu Gd * let nb c d := cell_step Nx Ny shift d c in
      pair_correlation (equal_time (greens_of 2 Gu Gd)) (pair_op 0%Z (pair_shape sc_c_dw (nb 0%Z)))
        (pair_op 0%Z (pair_shape sc_c_dw (nb 0%Z))))%R.
Proof.
  set (G := mk_greens [1; 0; 0; 1]%R 0%R 1 2).
  destruct (f_allocate_ok 1 2 1 ltac:(lia) ltac:(lia) ltac:(lia) (fun _ => 0) 1) as (m0 & E0 & M0 & _).
  destruct (f_accumulate_ok 1 2 1 ltac:(lia) ltac:(lia) ltac:(lia) G G m0 _ eq_refl eq_refl M0) as (m' & E' & M' & _).
  exists (fun _ => 0), G, G, m0, m'. cbv zeta. split; [split; reflexivity|]. do 2 (split; [assumption|]).
  change (val (m_arr m' sc_c_dw)) with (rat (m_arr m' sc_c_dw)).
  rewrite (@arr_get _ _ _ _ (fo_arr _ _ _ _ _ M' sc_c_dw)) by (split; [vm_compute; discriminate|reflexivity]).
  pose proof (finc_pair 1 2 1 G G sc_c_dw 0 0 0 ltac:(cbn; tauto) ltac:(lia) ltac:(lia) ltac:(lia)) as I.
  change (cells_pos 2 0 0 0) with (0 + 2 * 1 * 0 + 2 * 1 * (2 * 1) * 0). rewrite I.
  cbv -[Rplus Rmult Rminus Ropp Rinv Rdiv IZR not]. intros H. lra.
Qed.
Print Assumptions C73_shifted_refuted.

(** a chain: the B1g correlation of a cell with itself is wrong *)
Theorem C73_chain_refuted : exists junk c m0 m',
  let Norb := 1 in let Nx := 2 in let Ny := 1 in let L := 1 in
  cur_ok 2 L c /\
  fu_allocate junk Norb Nx Ny 0 L = Some m0 /\ fu_accumulate 1 c m0 = Some m' /\
  val (u_arr m' ram_b1g) (ucells_pos Norb 2 0 0 0 0) <>
    (let nb x d := cell_step Nx Ny 0 d x in u_bond ram_b1g (uconfig 2 L 0 c) 0 0 (nb 0) (nb 0)).
Proof.
  set (a := [1/4; 0; 0; 1/4]%R). set (c := mk_cur a a a a a a).
  assert (cur_ok 2 1 c) as Hc.
  { split.
    - intros b Hb. repeat (destruct Hb as [<-|Hb]; [reflexivity|]). destruct Hb.
    - intros s i j Hi Hj. assert (i = 0 \/ i = 1) as [-> | ->] by lia; assert (j = 0 \/ j = 1) as [-> | ->] by lia;
      destruct s; split; reflexivity. }
  destruct (fu_allocate_ok 1 2 1 1 ltac:(lia) ltac:(lia) ltac:(lia) ltac:(lia) (fun _ => 0) 0) as (m0 & E0 & M0 & _).
  destruct (fu_accumulate_ok 1 2 1 1 ltac:(lia) ltac:(lia) ltac:(lia) ltac:(lia) 1%R c m0 _ Hc M0) as (m' & E' & M' & _).
  exists (fun _ => 0), c, m0, m'. cbv zeta. split; [exact Hc|]. do 2 (split; [assumption|]).
  change (val (u_arr m' ram_b1g)) with (rat (u_arr m' ram_b1g)).
  rewrite (@arr_get _ _ _ _ (fuo_arr _ _ _ _ _ _ M' ram_b1g)) by (split; [vm_compute; discriminate|reflexivity]).
  pose proof (fuinc_bond 1 2 1 1 1%R c ram_b1g 0 0 0 0 ltac:(cbn; tauto) ltac:(lia) ltac:(lia) ltac:(lia) ltac:(lia)) as I.
  change (ucells_pos 1 2 0 0 0 0) with (0 + 2 * 1 * 0 + 2 * 1 * (2 * 1) * (0 + 1 * 0)). rewrite I.
  cbv -[Rplus Rmult Rminus Ropp Rinv Rdiv IZR not]. intros H. lra.
Qed.
Print Assumptions C73_chain_refuted.

(** C74.  For every sequence of samples, the arrays of the default measurements are the averages
    over all cells of the arrays recorded for every site, before and after the normalisation. *)
Theorem C74_averages_of_site_measurements : forall junk junk' Norb Nx Ny shift samples,
  0 < Norb -> 0 < Nx -> 0 < Ny -> 0 <= shift ->
  Forall (dims (Nx * Ny * Norb)) samples ->
  exists a0 s0 a s, allocate_meas junk Norb Nx Ny shift = Some a0 /\ f_allocate junk' Norb Nx Ny shift = Some s0 /\
    accumulate_all samples a0 = Some a /\ f_accumulate_all samples s0 = Some s /\
    averages_of Norb Nx Ny shift a s /\
    (samples <> [] -> exists a' s', normalize a = Some a' /\ f_normalize s = Some s' /\ averages_of Norb Nx Ny shift a' s').
Proof.
  intros junk junk' Norb Nx Ny sh samples H1 H2 H3 H4 Hd.
  destruct (allocate_meas_ok Norb Nx Ny sh H1 H2 H3 H4 junk) as (a0 & Ea0 & Ma0 & Sa0 & Na0).
  destruct (f_allocate_ok Norb Nx Ny H1 H2 H3 junk' sh) as (s0 & Es0 & Ms0 & Ss0 & Ns0).
  rewrite Forall_forall in Hd.
  destruct (accumulate_all_ok Norb Nx Ny sh H1 H2 H3 samples a0 _ Hd Ma0) as (a & Ea & Ma & Sa & Na).
  destruct (f_accumulate_all_ok Norb Nx Ny H1 H2 H3 samples s0 _ Hd Ms0) as (s & Es & Ms & Ss & Ns).
  pose proof (content_add Norb Nx Ny sh _ _ _ (fun x => inc Norb Nx Ny sh (fst x) (snd x))
     (fun x => finc Norb Nx Ny (fst x) (snd x)) samples (content_zero Norb Nx Ny sh)
     (fun x => inc_rel Norb Nx Ny sh H2 H3 (fst x) (snd x))) as C.
  assert (m_sign a = m_sign s) as ES by congruence.
  assert (m_nsampl a = m_nsampl s) as EN by lia.
  exists a0, s0, a, s. do 4 (split; [assumption|]). split.
  - eapply content_recovers; eauto.
  - intros Hne. assert (m_nsampl a <> 0) as Hn.
    { rewrite Na, Na0. destruct samples; [congruence|]. cbn [length]. lia. }
    destruct (normalize_ok Norb Nx Ny sh H1 H2 H3 a _ Hn Ma) as (a' & Ea' & Ma' & Sa' & Na').
    destruct (f_normalize_ok Norb Nx Ny H1 H2 H3 s _ ltac:(congruence) Ms) as (s' & Es' & Ms' & Ss' & Ns').
    exists a', s'. do 2 (split; [assumption|]). eapply content_recovers; eauto; try congruence.
    rewrite EN. now apply content_div.
Qed.
Print Assumptions C74_averages_of_site_measurements.

(** C74 for the unequal time arrays, except the current correlations, which measurement_full.c
    does not record. *)
Theorem C74_unequal_time_averages : forall junk junk' Norb Nx Ny shift L samples,
  0 < Norb -> 0 < Nx -> 0 < Ny -> 0 <= shift -> 0 < L ->
  Forall (fun s => cur_ok (Nx * Ny * Norb) L (snd s)) samples ->
  exists a0 s0 a s, allocate_umeas junk Norb Nx Ny shift L = Some a0 /\ fu_allocate junk' Norb Nx Ny shift L = Some s0 /\
    uaccumulate_all samples a0 = Some a /\ fu_accumulate_all samples s0 = Some s /\
    u_averages_of Norb Nx Ny shift L a s /\
    (samples <> [] -> exists a' s', unormalize a = Some a' /\ fu_normalize s = Some s' /\ u_averages_of Norb Nx Ny shift L a' s').
Proof.
  intros junk junk' Norb Nx Ny sh L samples H1 H2 H3 H4 H5 Hd.
  destruct (allocate_umeas_ok Norb Nx Ny sh L H1 H2 H3 H4 H5 junk) as (a0 & Ea0 & Ma0 & Sa0 & Na0).
  destruct (fu_allocate_ok Norb Nx Ny L H1 H2 H3 H5 junk' sh) as (s0 & Es0 & Ms0 & Ss0 & Ns0).
  rewrite Forall_forall in Hd.
  destruct (uaccumulate_all_ok Norb Nx Ny sh L H1 H2 H3 H5 samples a0 _ Hd Ma0) as (a & Ea & Ma & Sa & Na).
  destruct (fu_accumulate_all_ok Norb Nx Ny L H1 H2 H3 H5 samples s0 _ Hd Ms0) as (s & Es & Ms & Ss & Ns).
  pose proof (ucontent_add Norb Nx Ny sh L _ _ _ (fun x => uinc Norb Nx Ny sh L (fst x) (snd x))
     (fun x => fuinc Norb Nx Ny L (fst x) (snd x)) samples (ucontent_zero Norb Nx Ny sh L)
     (fun x => uinc_rel Norb Nx Ny sh H2 H3 L (fst x) (snd x))) as C.
  assert (u_sign a = u_sign s) as ES by congruence.
  assert (u_nsampl a = u_nsampl s) as EN by lia.
  exists a0, s0, a, s. do 4 (split; [assumption|]). split.
  - eapply ucontent_recovers; eauto.
  - intros Hne. assert (u_nsampl a <> 0) as Hn.
    { rewrite Na, Na0. destruct samples; [congruence|]. cbn [length]. lia. }
    destruct (unormalize_ok Norb Nx Ny sh L H1 H2 H3 H5 a _ Hn Ma) as (a' & Ea' & Ma' & Sa' & Na').
    destruct (fu_normalize_ok Norb Nx Ny L H1 H2 H3 H5 s _ ltac:(congruence) Ms) as (s' & Es' & Ms' & Ss' & Ns').
    exists a', s'. do 2 (split; [assumption|]). eapply ucontent_recovers; eauto; try congruence.
    rewrite EN. eapply ucontent_div; [exact C|]. cbn beta. intros f k Hf.
    replace (existsb _ _) with false; [reflexivity|].
    destruct Hf as [Hf|Hf]; repeat (destruct Hf as [<-|Hf]; [reflexivity|]); destruct Hf.
Qed.
Print Assumptions C74_unequal_time_averages.

(** two cells with densities 1 and 1/2: the site data tell them apart, the default data hold the average *)
Example C74_case : exists G a0 s0 a s, dims 2 (G, G) /\
  allocate_meas (fun _ => 0) 1 2 1 0 = Some a0 /\ f_allocate (fun _ => 0) 1 2 1 0 = Some s0 /\
  accumulate_all [(G, G)] a0 = Some a /\ f_accumulate_all [(G, G)] s0 = Some s /\
  val (m_arr a density_u) 0 = (3/4)%R /\ val (m_arr s density_u) 0 = 1%R /\ val (m_arr s density_u) 1 = (1/2)%R.
Proof.
  set (G := mk_greens [0; 1; -1/4; 1/2]%R 0%R 1 2).
  assert (Forall (dims (2 * 1 * 1)) [(G, G)]) as Hd by (repeat constructor).
  destruct (C74_averages_of_site_measurements (fun _ => 0) (fun _ => 0) 1 2 1 0 [(G, G)] ltac:(lia) ltac:(lia) ltac:(lia) ltac:(lia) Hd)
    as (a0 & s0 & a & s & E1 & E2 & E3 & E4 & (_ & D & _) & _).
  exists G, a0, s0, a, s. split; [repeat constructor|]. do 4 (split; [assumption|]).
  rewrite (D density_u 0) by (cbn; tauto || lia).
  assert (val (m_arr s density_u) 0 = 1%R /\ val (m_arr s density_u) 1 = (1/2)%R) as [V0 V1].
  { rewrite Forall_forall in Hd.
    destruct (f_allocate_ok 1 2 1 ltac:(lia) ltac:(lia) ltac:(lia) (fun _ => 0) 0) as (y0 & Y0 & M0 & _).
    destruct (f_accumulate_all_ok 1 2 1 ltac:(lia) ltac:(lia) ltac:(lia) [(G, G)] y0 _ Hd M0) as (y & Y & M & _).
    assert (y0 = s0) as -> by congruence. assert (y = s) as -> by congruence.
    pose proof (fo_arr _ _ _ _ _ M density_u) as A.
    change (val (m_arr s density_u)) with (rat (m_arr s density_u)).
    rewrite (@arr_get _ _ _ 0 A), (@arr_get _ _ _ 1 A) by (cbn; lia).
    cbv -[Rplus Rmult Rminus Ropp Rinv Rdiv IZR]. lra. }
  split; [|split; assumption]. unfold average. change (2 * 1) with 2.
  change (sum 0 2 ?F) with (F 0%Z + (F 1%Z + 0))%R. cbn beta. change (site 2 0 0) with 0. change (site 2 1 0) with 1.
  rewrite V0, V1. lra.
Qed.

(** C75, full claim: the summary shows the mean sign and the sign-weighted average of the total
    density per unit cell.  Proved: the first number is the mean sign; the second is the sum of sign
    times density divided by the number of samples, so it is the claimed average only if the mean
    sign is 1 (or the density is zero).  Multiplied by the mean sign the claimed average is what is printed. *)
Theorem C75_site_summary_partial : forall junk Norb Nx Ny shift samples,
  0 < Norb -> 0 < Nx -> 0 < Ny -> samples <> [] ->
  let Ncell := Nx * Ny in let N := Nx * Ny * Norb in
  Forall (dims N) samples ->
  let total s := (sum 0 N (fun i => expect_00 (equal_time (greens_of N (fst s) (snd s))) (charge i)) / IZR Ncell)%R in
  let sgn s := sign_of (fst s) (snd s) in
  let mean_sign := (lsum sgn samples / IZR (Z.of_nat (length samples)))%R in
  let weighted := (lsum (fun s => sgn s * total s)%R samples / lsum sgn samples)%R in
  lsum sgn samples <> 0%R ->
  exists m0 m m' density, f_allocate junk Norb Nx Ny shift = Some m0 /\
    f_accumulate_all samples m0 = Some m /\ f_normalize m = Some m' /\
    f_summary m' = Some (mean_sign, density) /\
    density = (mean_sign * weighted)%R /\ (mean_sign = 1%R -> density = weighted).
Proof.
  intros junk Norb Nx Ny sh samples H1 H2 H3 Hne Ncell N Hd total sgn mean_sign weighted Hs.
  destruct (f_allocate_ok Norb Nx Ny H1 H2 H3 junk sh) as (m0 & E0 & M0 & S0 & N0).
  rewrite Forall_forall in Hd.
  destruct (f_accumulate_all_ok Norb Nx Ny H1 H2 H3 samples m0 _ Hd M0) as (m & E & M & Sm & Nm).
  rewrite N0, Z.add_0_l in Nm.
  assert (m_nsampl m <> 0) as Hn0.
  { rewrite Nm. destruct samples; [congruence|]. cbn [length]. lia. }
  destruct (f_normalize_ok Norb Nx Ny H1 H2 H3 m _ Hn0 M) as (m' & E' & M' & Sm' & Nm').
  exists m0, m, m', (mean_sign * weighted)%R. do 3 (split; [assumption|]).
  split; [|split; [reflexivity|intros ->; ring]].
  rewrite (f_summary_ok Norb Nx Ny H1 H2 H3 m' _ M'). do 2 f_equal.
  { rewrite Sm', Sm, S0, Rplus_0_l, Nm. reflexivity. }
  unfold mean_sign, weighted. rewrite Nm in Hn0 |- *.
  assert (IZR (Z.of_nat (length samples)) <> 0%R) as Hn by (now apply IZR_neq).
  assert (IZR Ncell <> 0%R) as HC by (apply IZR_neq; unfold Ncell; nia).
  transitivity (lsum (fun s => sgn s * total s)%R samples / IZR (Z.of_nat (length samples)))%R; [|field; auto].
  transitivity (lsum (fun s => (/ IZR Ncell * sum 0 N (fun i => finc Norb Nx Ny (fst s) (snd s) density_u i
      + finc Norb Nx Ny (fst s) (snd s) density_d i))%R) samples / IZR (Z.of_nat (length samples)))%R.
  - unfold Ncell in *. fold N.
    rewrite (@sum_ext 0 N _ (fun i => / IZR (Z.of_nat (length samples)) *
       lsum (fun s => finc Norb Nx Ny (fst s) (snd s) density_u i + finc Norb Nx Ny (fst s) (snd s) density_d i)%R samples)%R)
      by (intros; rewrite lsum_plus0; unfold Rdiv; ring).
    rewrite sum_scal, <- lsum_sum.
    rewrite (lsum_ext0 _ (fun s => (/ IZR (Nx * Ny) * sum 0 N (fun i => finc Norb Nx Ny (fst s) (snd s) density_u i
      + finc Norb Nx Ny (fst s) (snd s) density_d i))%R) (fun s => sum 0 N (fun i => finc Norb Nx Ny (fst s) (snd s) density_u i
      + finc Norb Nx Ny (fst s) (snd s) density_d i) / IZR (Nx * Ny))%R) by (intros; unfold Rdiv; ring).
    rewrite lsum_div. unfold Rdiv. ring.
  - f_equal. apply lsum_ext0. intros s. unfold total, sgn, Rdiv.
    rewrite (@sum_ext 0 N _ (fun i => sign_of (fst s) (snd s) *
        expect_00 (equal_time (greens_of N (fst s) (snd s))) (charge i))%R).
    + rewrite sum_scal. ring.
    + intros i _. destruct (finc_density Norb Nx Ny (fst s) (snd s) i) as (I1 & I2 & _). rewrite I1, I2.
      fold N. unfold expect_00, charge, number, lsum. cbn [fold_right]. ring.
Qed.
Print Assumptions C75_site_summary_partial.

(** half filling of one orbital on two cells, one sample of sign -1: the printed density is -1 *)
Theorem C75_site_summary_refuted : exists G H m0 m m' density,
  dims 2 (G, H) /\
  f_allocate (fun _ => 0) 1 2 1 0 = Some m0 /\ f_accumulate_all [(G, H)] m0 = Some m /\ f_normalize m = Some m' /\
  f_summary m' = Some ((-1)%R, density) /\ density = (-1)%R /\
  let w := equal_time (greens_of 2 G H) in
  ((sign_of G H * sum 0%Z 2%Z (fun i => expect_00 w (charge i)) / IZR 2) / sign_of G H = 1)%R.
Proof.
  set (G := mk_greens [1/2; 0; 0; 1/2]%R 0%R 1 2). set (H := mk_greens [1/2; 0; 0; 1/2]%R 0%R (-1) 2).
  destruct (C75_site_summary_partial (fun _ => 0) 1 2 1 0 [(G, H)] ltac:(lia) ltac:(lia) ltac:(lia) ltac:(discriminate))
    as (m0 & m & m' & d & E0 & E & E' & P & D & _).
  { repeat constructor. }
  { cbv -[Rplus Rmult Rminus Ropp Rinv Rdiv IZR not]. lra. }
  exists G, H, m0, m, m', d. split; [repeat constructor|]. do 3 (split; [assumption|]).
  split; [|split].
  - rewrite P. do 2 f_equal. cbv -[Rplus Rmult Rminus Ropp Rinv Rdiv IZR]. lra.
  - rewrite D. cbv -[Rplus Rmult Rminus Ropp Rinv Rdiv IZR]. field_simplify; lra.
  - cbv -[Rplus Rmult Rminus Ropp Rinv Rdiv IZR]. field_simplify; lra.
Qed.
Print Assumptions C75_site_summary_refuted.
