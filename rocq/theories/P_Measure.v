(** C43, C44, C45, C51: equal time measurements. *)
From Coq Require Import ZArith List Reals Lia Lra.
From Verif Require Import Base BaseFacts Sums SumsFacts RealOps BlasFacts Lattice LatticeSpec LatticeFacts GreenConstruct
  AccumFacts WickSpec Measure MeasureSpec MeasureFacts MeasureSeqFacts.
Import ListNotations.
Local Open Scope Z_scope.

(** matrices of dimension N x N *)
Definition dims (N : Z) (s : greens_func * greens_func) : Prop :=
  Z.of_nat (length (gf_mat (fst s))) = N * N /\ Z.of_nat (length (gf_mat (snd s))) = N * N.

(** C43.  Starting from a freshly allocated structure and after any number of samples, one more
    call of AccumulateMeasurement adds to every entry the sign of the configuration times the
    average over all cells i of the expectation value, the second site being displaced by k. *)
Theorem C43_accumulate_is_signed_average : forall junk Norb Nx Ny shift samples Gu Gd,
  0 < Norb -> 0 < Nx -> 0 < Ny -> 0 <= shift ->
  let Ncell := Nx * Ny in let N := Nx * Ny * Norb in
  Forall (dims N) ((Gu, Gd) :: samples) ->
  let w := equal_time (greens_of N Gu Gd) in
  exists m0 m m', allocate_meas junk Norb Nx Ny shift = Some m0 /\
    accumulate_all samples m0 = Some m /\ accumulate Gu Gd m = Some m' /\
    (forall f o p k, In f two_point_fields -> 0 <= o < Norb -> 0 <= p < Norb -> 0 <= k < Ncell ->
       val (m_arr m' f) (entry Norb Ncell o p k) = (val (m_arr m f) (entry Norb Ncell o p k) +
         sign_of Gu Gd * average Ncell (fun i =>
           two_point f w (site Ncell i o) (site Ncell (cell_plus Nx Ny shift k i) p)))%R) /\
    (forall o, 0 <= o < Norb ->
       val (m_arr m' density_u) o = (val (m_arr m density_u) o +
         sign_of Gu Gd * average Ncell (fun i => expect_00 w (number up (site Ncell i o))))%R /\
       val (m_arr m' density_d) o = (val (m_arr m density_d) o +
         sign_of Gu Gd * average Ncell (fun i => expect_00 w (number dn (site Ncell i o))))%R /\
       val (m_arr m' doubleocc) o = (val (m_arr m doubleocc) o +
         sign_of Gu Gd * average Ncell (fun i =>
           correlation w (number up (site Ncell i o)) (number dn (site Ncell i o))))%R) /\
    (forall i j, 0 <= i < N -> 0 <= j < N ->
       val (m_arr m' grfun_u) (i + N * j) = (val (m_arr m grfun_u) (i + N * j) +
         sign_of Gu Gd * greens_of N Gu Gd up i j)%R /\
       val (m_arr m' grfun_d) (i + N * j) = (val (m_arr m grfun_d) (i + N * j) +
         sign_of Gu Gd * greens_of N Gu Gd dn i j)%R) /\
    m_sign m' = (m_sign m + sign_of Gu Gd)%R /\ m_nsampl m' = m_nsampl m + 1.
Proof.
  intros junk Norb Nx Ny sh samples Gu Gd H1 H2 H3 H4 Ncell N Hd w.
  destruct (allocate_meas_ok Norb Nx Ny sh H1 H2 H3 H4 junk) as (m0 & E0 & M0 & _).
  rewrite Forall_forall in Hd.
  destruct (accumulate_all_ok Norb Nx Ny sh H1 H2 H3 samples m0 _ (fun s Hs => Hd s (or_intror Hs)) M0)
    as (m & E & M & _).
  destruct (Hd _ (or_introl eq_refl)) as [Du Dd].
  destruct (accumulate_ok Norb Nx Ny sh H1 H2 H3 Gu Gd m _ Du Dd M) as (m' & E' & M' & Es & En).
  exists m0, m, m'. do 3 (split; [assumption|]).
  assert (forall f k, 0 <= k < mfield_len Norb (Nx * Ny) f ->
     val (m_arr m' f) k = (val (m_arr m f) k + inc Norb Nx Ny sh Gu Gd f k)%R) as K.
  { intros f k Hk. change (val (m_arr m' f) k) with (rat (m_arr m' f) k).
    change (val (m_arr m f) k) with (rat (m_arr m f) k).
    rewrite (arr_get (mo_arr _ _ _ _ _ _ M' f) Hk), (arr_get (mo_arr _ _ _ _ _ _ M f) Hk). reflexivity. }
  split; [|split; [|split; [|split; auto]]].
  - intros f o p k Hf Ho Hp Hk. rewrite K.
    + now rewrite inc_two_point.
    + pose proof (entry_range Norb Nx Ny H1 H2 H3 o p k Ho Hp Hk) as R. unfold entry.
      repeat (destruct Hf as [<-|Hf]; [exact R|]). destruct Hf.
  - intros o Ho. destruct (inc_density Norb Nx Ny sh H2 H3 Gu Gd o) as (I1 & I2 & I3).
    rewrite !K by exact Ho. rewrite I1, I2, I3. auto.
  - intros i j Hi Hj. rewrite !K by (apply mat_range; auto; lia). auto.
Qed.
Print Assumptions C43_accumulate_is_signed_average.

(** C43: every ordered pair of cells has exactly one displacement, so the entries of one
    correlation array for two orbitals together collect every ordered pair of sites once. *)
Theorem C43_each_pair_counted_once : forall Nx Ny shift, 0 < Nx -> 0 < Ny -> 0 <= shift ->
  let Ncell := Nx * Ny in
  (forall i j, 0 <= i < Ncell -> 0 <= j < Ncell ->
     exists! k, 0 <= k < Ncell /\ cell_plus Nx Ny shift k i = j) /\
  (forall h : Z -> Z -> R,
     sum 0 Ncell (fun k => average Ncell (fun i => h i (cell_plus Nx Ny shift k i))) =
     average Ncell (fun i => sum 0 Ncell (fun j => h i j))).
Proof.
  intros Nx Ny sh H1 H2 H3 Ncell. split.
  - intros i j Hi Hj. destruct (displacement_unique Nx Ny sh H1 H2 i j Hi Hj) as (k & Hk & Ek & Uk).
    exists k. split; [auto|]. intros k' [Hk' Ek']. symmetry. auto.
  - intros h. unfold average, Rdiv.
    rewrite (@sum_ext _ _ _ (fun k => / IZR Ncell * sum 0 Ncell (fun i => h i (cell_plus Nx Ny sh k i)))%R)
      by (intros; ring).
    rewrite sum_scal, sum_swap, Rmult_comm. f_equal. apply sum_ext. intros i Hi.
    apply (sum_displacements Nx Ny sh H1 H2 i (h i) Hi).
Qed.
Print Assumptions C43_each_pair_counted_once.

(** a lattice of two cells, negative sign: the spin down correlation at displacement 1 *)
Example C43_case : exists m0 m',
  let Gu := mk_greens [1; 0; 0; 1]%R 0%R 1 2 in
  let Gd := mk_greens [1/2; 1/4; 1/4; 1/2]%R 0%R (-1) 2 in
  dims (2 * 1 * 1) (Gu, Gd) /\
  allocate_meas (fun _ => 7) 1 2 1 0 = Some m0 /\ accumulate Gu Gd m0 = Some m' /\
  val (m_arr m' dd_corr) (entry 1 2 0 0 1) = (- 3 / 16)%R.
Proof.
  set (Gu := mk_greens [1; 0; 0; 1]%R 0%R 1 2).
  set (Gd := mk_greens [1/2; 1/4; 1/4; 1/2]%R 0%R (-1) 2).
  destruct (C43_accumulate_is_signed_average (fun _ => 7) 1 2 1 0 [] Gu Gd ltac:(lia) ltac:(lia) ltac:(lia) ltac:(lia))
    as (m0 & m & m' & E0 & E & E' & H & _).
  { constructor; [|constructor]. split; reflexivity. }
  injection E as <-. exists m0, m'. split; [split; reflexivity|]. do 2 (split; [assumption|]).
  change (entry 1 2 0 0 1) with (entry 1 (2 * 1) 0 0 1).
  rewrite (H dd_corr 0 0 1 ltac:(cbn; tauto)) by lia.
  replace (val (m_arr m0 dd_corr) (entry 1 (2 * 1) 0 0 1)) with 0%R.
  - cbv -[Rplus Rmult Rminus Ropp Rinv Rdiv IZR]. lra.
  - cbv in E0. injection E0 as <-. reflexivity.
Qed.

(** C44.  Sum rules between the arrays, after any sequence of samples. *)
Theorem C44_equal_time_sum_rules : forall junk Norb Nx Ny shift samples,
  0 < Norb -> 0 < Nx -> 0 < Ny -> 0 <= shift ->
  let Ncell := Nx * Ny in
  Forall (dims (Nx * Ny * Norb)) samples ->
  exists m0 m, allocate_meas junk Norb Nx Ny shift = Some m0 /\ accumulate_all samples m0 = Some m /\
    (forall o, 0 <= o < Norb ->
       val (m_arr m density_u) o = val (m_arr m uu_corr) (entry Norb Ncell o o 0) /\
       val (m_arr m density_d) o = val (m_arr m dd_corr) (entry Norb Ncell o o 0) /\
       val (m_arr m doubleocc) o = (val (m_arr m ud_corr) (entry Norb Ncell o o 0) / 2)%R) /\
    (forall o p k, 0 <= o < Norb -> 0 <= p < Norb -> 0 <= k < Ncell ->
       let e := entry Norb Ncell o p k in
       val (m_arr m zz_corr) e = (val (m_arr m uu_corr) e + val (m_arr m dd_corr) e - val (m_arr m ud_corr) e)%R).
Proof.
  intros junk Norb Nx Ny sh samples H1 H2 H3 H4 Ncell Hd.
  destruct (allocate_meas_ok Norb Nx Ny sh H1 H2 H3 H4 junk) as (m0 & E0 & M0 & _).
  rewrite Forall_forall in Hd.
  destruct (accumulate_all_ok Norb Nx Ny sh H1 H2 H3 samples m0 _ Hd M0) as (m & E & M & _).
  exists m0, m. do 2 (split; [assumption|]).
  assert (forall f k, 0 <= k < mfield_len Norb (Nx * Ny) f ->
     val (m_arr m f) k = lsum (fun s => inc Norb Nx Ny sh (fst s) (snd s) f k) samples) as K.
  { intros f k Hk. change (val (m_arr m f) k) with (rat (m_arr m f) k).
    rewrite (arr_get (mo_arr _ _ _ _ _ _ M f) Hk). cbn beta. apply Rplus_0_l. }
  assert (forall o p k, 0 <= o < Norb -> 0 <= p < Norb -> 0 <= k < Nx * Ny ->
            0 <= entry Norb Ncell o p k < Nx * Ny * Norb * Norb) as RE
    by (intros; now apply entry_range).
  assert (forall i, 0 <= i < Ncell -> cell_plus Nx Ny sh 0 i = i) as P0.
  { intros i Hi. apply plus_zero; auto. unfold Ncell in *; nia. }
  assert (0 <= 0 < Nx * Ny) as Z0 by nia.
  assert (forall (A : Type) (f g : A -> R) l, (forall a, f a = g a) -> lsum f l = lsum g l) as LE.
  { intros A f g l Hfg. unfold lsum. induction l; cbn; congruence. }
  split.
  - intros o Ho. pose proof (RE o o 0 Ho Ho Z0) as Re. rewrite !K by (exact Ho || exact Re).
    repeat split.
    + apply LE. intros s. destruct (inc_density Norb Nx Ny sh H2 H3 (fst s) (snd s) o) as (-> & _ & _).
      rewrite inc_two_point by (auto; cbn; tauto). unfold average. do 2 f_equal. apply sum_ext. intros i Hi.
      rewrite P0 by auto. cbn. unfold delta. rewrite Z.eqb_refl. ring.
    + apply LE. intros s. destruct (inc_density Norb Nx Ny sh H2 H3 (fst s) (snd s) o) as (_ & -> & _).
      rewrite inc_two_point by (auto; cbn; tauto). unfold average. do 2 f_equal. apply sum_ext. intros i Hi.
      rewrite P0 by auto. cbn. unfold delta. rewrite Z.eqb_refl. ring.
    + transitivity (lsum (fun s => (/2 * inc Norb Nx Ny sh (fst s) (snd s) ud_corr (entry Norb Ncell o o 0))%R) samples).
      2:{ unfold lsum. clear. induction samples; cbn [fold_right]; [unfold Rdiv; ring|]. rewrite IHsamples. unfold Rdiv. ring. }
      apply LE. intros s. destruct (inc_density Norb Nx Ny sh H2 H3 (fst s) (snd s) o) as (_ & _ & ->).
      rewrite inc_two_point by (auto; cbn; tauto).
      transitivity (sign_of (fst s) (snd s) * (/2 * average (Nx * Ny) (fun i => two_point ud_corr
          (equal_time (greens_of (Nx * Ny * Norb) (fst s) (snd s))) (site (Nx * Ny) i o)
          (site (Nx * Ny) (cell_plus Nx Ny sh 0 i) o))))%R; [|ring].
      f_equal. unfold average, Rdiv. rewrite <- Rmult_assoc. f_equal. rewrite <- sum_scal. apply sum_ext. intros i Hi.
      rewrite P0 by auto. cbn. field.
  - intros o p k Ho Hp Hk e. pose proof (RE o p k Ho Hp Hk) as Re. unfold e. rewrite !K by exact Re.
    assert (forall f g h : (greens_func * greens_func) -> R,
      lsum f samples + lsum g samples - lsum h samples = lsum (fun s => f s + g s - h s) samples)%R as L3.
    { intros. unfold lsum. clear. induction samples; cbn [fold_right]; [ring|]. rewrite <- IHsamples. ring. }
    rewrite L3. apply LE. intros s. rewrite !inc_two_point by (auto; cbn; tauto).
    rewrite <- Rmult_plus_distr_l, <- Rmult_minus_distr_l. f_equal. unfold average, Rdiv.
    rewrite <- Rmult_plus_distr_r, <- Rmult_minus_distr_r. f_equal.
    rewrite <- sum_plus. unfold Rminus. rewrite <- sum_opp, <- sum_plus. apply sum_ext. intros i Hi. cbn. ring.
Qed.
Print Assumptions C44_equal_time_sum_rules.

(** C45.  After any non-empty sequence of samples and one normalisation every array entry, and
    the sign, is the sum of the contributions of the samples divided by their number; the
    contribution of a sample is what a fresh structure contains after this sample alone.
    Without samples the normalisation divides by zero. *)
Theorem C45_normalised_is_mean : forall junk Norb Nx Ny shift samples,
  0 < Norb -> 0 < Nx -> 0 < Ny -> 0 <= shift -> samples <> [] ->
  Forall (dims (Nx * Ny * Norb)) samples ->
  exists m0 m m' (c : list meas), allocate_meas junk Norb Nx Ny shift = Some m0 /\
    accumulate_all samples m0 = Some m /\ normalize m = Some m' /\
    Forall2 (fun s x => accumulate (fst s) (snd s) m0 = Some x) samples c /\
    (forall f k, 0 <= k < mfield_len Norb (Nx * Ny) f ->
       val (m_arr m' f) k = (lsum (fun x => val (m_arr x f) k) c / IZR (Z.of_nat (length samples)))%R) /\
    m_sign m' = (lsum m_sign c / IZR (Z.of_nat (length samples)))%R.
Proof.
  intros junk Norb Nx Ny sh samples H1 H2 H3 H4 Hne Hd.
  destruct (allocate_meas_ok Norb Nx Ny sh H1 H2 H3 H4 junk) as (m0 & E0 & M0 & S0 & N0).
  rewrite Forall_forall in Hd.
  destruct (accumulate_all_ok Norb Nx Ny sh H1 H2 H3 samples m0 _ Hd M0) as (m & E & M & Sm & Nm).
  rewrite N0, Z.add_0_l in Nm.
  assert (m_nsampl m <> 0) as Hn0.
  { rewrite Nm. destruct samples; [congruence|]. cbn [length]. lia. }
  destruct (normalize_ok Norb Nx Ny sh H1 H2 H3 m _ Hn0 M) as (m' & E' & M' & Sm' & Nm').
  assert (exists c, Forall2 (fun s x => accumulate (fst s) (snd s) m0 = Some x) samples c /\
    (forall f k, 0 <= k < mfield_len Norb (Nx * Ny) f ->
       lsum (fun x => val (m_arr x f) k) c = lsum (fun s => inc Norb Nx Ny sh (fst s) (snd s) f k) samples) /\
    lsum m_sign c = lsum (fun s => sign_of (fst s) (snd s)) samples) as (c & C1 & C2 & C3).
  { clear - H1 H2 H3 Hd M0 S0. induction samples as [|s l IH].
    - exists []. repeat split; constructor.
    - destruct IH as (c & C1 & C2 & C3); [intros; apply Hd; now right|].
      destruct (Hd s (or_introl eq_refl)) as [Du Dd].
      destruct (accumulate_ok Norb Nx Ny sh H1 H2 H3 _ _ m0 _ Du Dd M0) as (x & Ex & Mx & Sx & _).
      exists (x :: c). split; [now constructor|]. unfold lsum in *. cbn [fold_right]. split.
      + intros f k Hk. rewrite C2 by auto. f_equal. change (val (m_arr x f) k) with (rat (m_arr x f) k).
        rewrite (arr_get (mo_arr _ _ _ _ _ _ Mx f) Hk). apply Rplus_0_l.
      + rewrite C3, Sx, S0. ring. }
  exists m0, m, m', c. do 4 (split; [assumption|]). split.
  - intros f k Hk. rewrite C2 by auto. change (val (m_arr m' f) k) with (rat (m_arr m' f) k).
    rewrite (arr_get (mo_arr _ _ _ _ _ _ M' f) Hk). cbn beta. rewrite Nm. f_equal. apply Rplus_0_l.
  - rewrite Sm', Sm, S0, C3, Nm. f_equal. apply Rplus_0_l.
Qed.
Print Assumptions C45_normalised_is_mean.

Theorem C45_no_samples_refuted : exists junk Norb Nx Ny m0,
  allocate_meas junk Norb Nx Ny 0 = Some m0 /\ normalize m0 = None.
Proof.
  destruct (allocate_meas_ok 1 2 2 0 ltac:(lia) ltac:(lia) ltac:(lia) ltac:(lia) (fun _ => 0)) as (m0 & E & _ & _ & Hn).
  exists (fun _ => 0), 1, 2, 2, m0. split; [exact E|]. now apply normalize_zero.
Qed.
Print Assumptions C45_no_samples_refuted.

(** C51.  The pairing correlations.  Full statement: as for the two-site correlations, with the
    neighbours [cell_step Nx Ny shift] of the periodic lattice.  The program uses the neighbours
    of the lattice without shift, so this holds for shifts which are multiples of Nx only. *)
Theorem C51_pair_correlations_partial : forall junk Norb Nx Ny shift samples Gu Gd,
  0 < Norb -> 0 < Nx -> 0 < Ny -> 0 <= shift -> shift mod Nx = 0 ->
  let Ncell := Nx * Ny in let N := Nx * Ny * Norb in
  Forall (dims N) ((Gu, Gd) :: samples) ->
  let w := equal_time (greens_of N Gu Gd) in
  exists m0 m m', allocate_meas junk Norb Nx Ny shift = Some m0 /\
    accumulate_all samples m0 = Some m /\ accumulate Gu Gd m = Some m' /\
    (forall f o k, In f pair_fields -> 0 <= o < Norb -> 0 <= k < Ncell ->
       val (m_arr m' f) (k + Ncell * o) = (val (m_arr m f) (k + Ncell * o) +
         sign_of Gu Gd * average Ncell (fun i => let j := cell_plus Nx Ny shift k i in
           let nb c d := site Ncell (cell_step Nx Ny shift d c) o in
           pair_correlation w (pair_op (site Ncell i o) (pair_shape f (nb i)))
             (pair_op (site Ncell j o) (pair_shape f (nb j)))))%R).
Proof.
  intros junk Norb Nx Ny sh samples Gu Gd H1 H2 H3 H4 Hmod Ncell N Hd w.
  destruct (allocate_meas_ok Norb Nx Ny sh H1 H2 H3 H4 junk) as (m0 & E0 & M0 & _).
  rewrite Forall_forall in Hd.
  destruct (accumulate_all_ok Norb Nx Ny sh H1 H2 H3 samples m0 _ (fun s Hs => Hd s (or_intror Hs)) M0)
    as (m & E & M & _).
  destruct (Hd _ (or_introl eq_refl)) as [Du Dd].
  destruct (accumulate_ok Norb Nx Ny sh H1 H2 H3 Gu Gd m _ Du Dd M) as (m' & E' & M' & Es & En).
  exists m0, m, m'. do 3 (split; [assumption|]).
  intros f o k Hf Ho Hk.
  assert (0 <= k + Ncell * o < mfield_len Norb (Nx * Ny) f) as Re.
  { assert (0 <= k + Ncell * o < N) as R by (unfold Ncell, N in *; nia).
    repeat (destruct Hf as [<-|Hf]; [exact R|]). destruct Hf. }
  change (val (m_arr m' f) (k + Ncell * o)) with (rat (m_arr m' f) (k + Ncell * o)).
  change (val (m_arr m f) (k + Ncell * o)) with (rat (m_arr m f) (k + Ncell * o)).
  rewrite (arr_get (mo_arr _ _ _ _ _ _ M' f) Re), (arr_get (mo_arr _ _ _ _ _ _ M f) Re).
  unfold Ncell. rewrite inc_pair by auto. cbv zeta. do 2 f_equal. unfold average. f_equal. apply sum_ext. intros i _.
  assert (forall d c, cell_step Nx Ny sh d c = cell_step Nx Ny 0 d c) as ES.
  { intros d c. unfold cell_step. rewrite (Z.div_mod sh Nx) by lia. rewrite Hmod, Z.add_0_r, Z.mul_comm.
    apply wrap_shift_mult; auto. }
  unfold pair_shape. repeat (destruct Hf as [<-|Hf]; [now rewrite !ES|]). destruct Hf.
Qed.
Print Assumptions C51_pair_correlations_partial.

Theorem C51_pair_correlations_refuted : exists junk Gu Gd m0 m',
  let Norb := 1 in let Nx := 2 in let Ny := 1 in let shift := 1 in
  dims 2 (Gu, Gd) /\
  allocate_meas junk Norb Nx Ny shift = Some m0 /\ accumulate Gu Gd m0 = Some m' /\
  val (m_arr m' sc_c_dw) 0 <> (val (m_arr m0 sc_c_dw) 0 +
    sign_of Gu Gd * average 2 (fun i => let j := cell_plus Nx Ny shift 0 i in
      let nb c d := cell_step Nx Ny shift d c in
      pair_correlation (equal_time (greens_of 2 Gu Gd)) (pair_op i (pair_shape sc_c_dw (nb i)))
        (pair_op j (pair_shape sc_c_dw (nb j)))))%R.
Proof.
  set (G := mk_greens [1; 0; 0; 1]%R 0%R 1 2).
  destruct (allocate_meas_ok 1 2 1 1 ltac:(lia) ltac:(lia) ltac:(lia) ltac:(lia) (fun _ => 0)) as (m0 & E0 & M0 & _).
  destruct (accumulate_ok 1 2 1 1 ltac:(lia) ltac:(lia) ltac:(lia) G G m0 _ eq_refl eq_refl M0) as (m' & E' & M' & _).
  exists (fun _ => 0), G, G, m0, m'. cbv zeta. split; [split; reflexivity|]. do 2 (split; [assumption|]).
  change (val (m_arr m' sc_c_dw) 0) with (rat (m_arr m' sc_c_dw) 0).
  change (val (m_arr m0 sc_c_dw) 0) with (rat (m_arr m0 sc_c_dw) 0).
  rewrite (@arr_get _ _ _ 0 (mo_arr _ _ _ _ _ _ M' sc_c_dw)), (@arr_get _ _ _ 0 (mo_arr _ _ _ _ _ _ M0 sc_c_dw))
    by (cbn; lia).
  pose proof (inc_pair 1 2 1 1 ltac:(lia) ltac:(lia) G G sc_c_dw 0 0 ltac:(cbn; tauto) ltac:(lia) ltac:(lia)) as I.
  change (0 + 2 * 1 * 0) with 0 in I. rewrite I.
  cbv -[Rplus Rmult Rminus Ropp Rinv Rdiv IZR not]. intros H. lra.
Qed.
Print Assumptions C51_pair_correlations_refuted.
