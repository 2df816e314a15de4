(** C44, C45, C52, C53: unequal time measurements. *)
From Coq Require Import ZArith List Reals Lia Lra.
From Verif Require Import Base BaseFacts Sums SumsFacts RealOps BlasFacts Lattice LatticeSpec LatticeFacts GreenConstruct
  AccumFacts WickSpec Measure MeasureSpec MeasureFacts MeasureSeqFacts UMeasure UMeasureSpec UMeasureFacts UMeasureSeqFacts.
Import ListNotations.
Local Open Scope Z_scope.

(** C52.  Starting from a freshly allocated structure and after any number of samples, one more
    call of AccumulateUnequalTimeMeasurement adds to every entry of the Green's function, density
    and spin correlation arrays the sign of the configuration times the average over all cells i
    of the expectation value of operators at time difference l, the second site being displaced by k. *)
Theorem C52_unequal_time_correlations : forall junk Norb Nx Ny shift L samples sign c,
  0 < Norb -> 0 < Nx -> 0 < Ny -> 0 <= shift -> 0 < L ->
  let Ncell := Nx * Ny in let N := Nx * Ny * Norb in
  Forall (fun s => cur_ok N L (snd s)) ((sign, c) :: samples) ->
  exists m0 m m', allocate_umeas junk Norb Nx Ny shift L = Some m0 /\
    uaccumulate_all samples m0 = Some m /\ uaccumulate sign c m = Some m' /\
    (forall f l o p k, In f u_two_point_fields ->
       0 <= l < L -> 0 <= o < Norb -> 0 <= p < Norb -> 0 <= k < Ncell ->
       val (u_arr m' f) (uentry Norb Ncell o p l k) = (val (u_arr m f) (uentry Norb Ncell o p l k) +
         sign * average Ncell (fun i => u_two_point f (uconfig N L l c)
           (site Ncell i o) (site Ncell (cell_plus Nx Ny shift k i) p)))%R) /\
    u_sign m' = (u_sign m + sign)%R /\ u_nsampl m' = u_nsampl m + 1.
Proof.
  intros junk Norb Nx Ny sh L samples sign c H1 H2 H3 H4 H5 Ncell N Hd.
  destruct (allocate_umeas_ok Norb Nx Ny sh L H1 H2 H3 H4 H5 junk) as (m0 & E0 & M0 & _).
  rewrite Forall_forall in Hd.
  destruct (uaccumulate_all_ok Norb Nx Ny sh L H1 H2 H3 H5 samples m0 _ (fun s Hs => Hd s (or_intror Hs)) M0)
    as (m & E & M & _).
  pose proof (Hd _ (or_introl eq_refl)) as Dc.
  destruct (uaccumulate_ok Norb Nx Ny sh L H1 H2 H3 H5 sign c m _ Dc M) as (m' & E' & M' & Es & En).
  exists m0, m, m'. do 3 (split; [assumption|]). split; [|split; auto].
  intros f l o p k Hf Hl Ho Hp Hk.
  assert (0 <= uentry Norb Ncell o p l k < ufield_len Norb (Nx * Ny) L f) as Re.
  { pose proof (uentry_range Norb Nx Ny L H1 H2 H3 H5 l o p k Hl Ho Hp Hk) as R.
    repeat (destruct Hf as [<-|Hf]; [exact R|]). destruct Hf. }
  unfold Ncell, N in *.   rewrite <- (uinc_two_point Norb Nx Ny sh L H2 H3 sign c f l o p k Hf Hl Ho Hp Hk).
  change (val (u_arr m' f)) with (rat (u_arr m' f)). change (val (u_arr m f)) with (rat (u_arr m f)).
  rewrite (arr_get (uo_arr _ _ _ _ _ _ _ M' f) Re), (arr_get (uo_arr _ _ _ _ _ _ _ M f) Re). reflexivity.
Qed.
Print Assumptions C52_unequal_time_correlations.

(** two cells and two time steps, negative sign: density correlation at displacement 1 and time difference 1 *)
Example C52_case : exists c m0 m',
  cur_ok (2 * 1 * 1) 2 c /\
  allocate_umeas (fun _ => 7) 1 2 1 0 2 = Some m0 /\ uaccumulate (-1) c m0 = Some m' /\
  val (u_arr m' nn_corr) (uentry 1 2 0 0 1 1) = (- 5 / 4)%R.
Proof.
  set (id := [1/2; 0; 0; 1/2; 1/2; 0; 0; 1/2]%R).
  set (gt := [1/2; 0; 0; 1/2; 0; 1/2; 1/2; 0]%R).
  set (g0 := [1/2; 0; 0; 1/2; 0; -1/4; -1/4; 0]%R).
  set (c := mk_cur gt g0 id gt g0 id).
  assert (cur_ok (2 * 1 * 1) 2 c) as Hc.
  { split.
    - intros a Ha. repeat (destruct Ha as [<-|Ha]; [reflexivity|]). destruct Ha.
    - intros s i j Hi Hj. assert (i = 0 \/ i = 1) as [-> | ->] by lia; assert (j = 0 \/ j = 1) as [-> | ->] by lia;
      destruct s; split; reflexivity. }
  destruct (C52_unequal_time_correlations (fun _ => 7) 1 2 1 0 2 [] (-1)%R c ltac:(lia) ltac:(lia) ltac:(lia) ltac:(lia) ltac:(lia))
    as (m0 & m & m' & E0 & E & E' & H & _).
  { constructor; [|constructor]. exact Hc. }
  injection E as <-. exists c, m0, m'. split; [exact Hc|]. do 2 (split; [assumption|]).
  change (uentry 1 2 0 0 1 1) with (uentry 1 (2 * 1) 0 0 1 1).
  rewrite (H nn_corr 1 0 0 1 ltac:(cbn; tauto)) by lia.
  replace (val (u_arr m0 nn_corr) (uentry 1 (2 * 1) 0 0 1 1)) with 0%R.
  - cbv -[Rplus Rmult Rminus Ropp Rinv Rdiv IZR]. lra.
  - cbv in E0. injection E0 as <-. reflexivity.
Qed.

(** C44.  At time difference zero the unequal time correlations agree with the equal time
    correlations, after any sequence of samples of which the Green's functions agree:
    nn is uu + dd + ud, zz and xx and the pair correlations are the same. *)
Theorem C44_unequal_time_at_zero : forall junk Norb Nx Ny shift L (samples : list (greens_func * greens_func * cur_greens)),
  0 < Norb -> 0 < Nx -> 0 < Ny -> 0 <= shift -> 0 < L ->
  let Ncell := Nx * Ny in let N := Nx * Ny * Norb in
  Forall (fun '(Gu, Gd, c) =>
    (Z.of_nat (length (gf_mat Gu)) = N * N /\ Z.of_nat (length (gf_mat Gd)) = N * N) /\ cur_ok N L c /\
    (forall s i j, 0 <= i < N -> 0 <= j < N -> gtt (uconfig N L 0 c) s i j = greens_of N Gu Gd s i j)) samples ->
  exists m0 m u0 u, allocate_meas junk Norb Nx Ny shift = Some m0 /\ accumulate_all (map fst samples) m0 = Some m /\
    allocate_umeas junk Norb Nx Ny shift L = Some u0 /\
    uaccumulate_all (map (fun '(Gu, Gd, c) => (sign_of Gu Gd, c)) samples) u0 = Some u /\
    (forall o p k, 0 <= o < Norb -> 0 <= p < Norb -> 0 <= k < Ncell ->
       let e := entry Norb Ncell o p k in let e0 := uentry Norb Ncell o p 0 k in
       val (u_arr u nn_corr) e0 = (val (m_arr m uu_corr) e + val (m_arr m dd_corr) e + val (m_arr m ud_corr) e)%R /\
       val (u_arr u u_zz_corr) e0 = val (m_arr m zz_corr) e /\
       val (u_arr u u_xx_corr) e0 = val (m_arr m xx_corr) e) /\
    (forall o k, 0 <= o < Norb -> 0 <= k < Ncell ->
       let e := k + Ncell * o in
       val (u_arr u u_sc_c_sw) e = val (m_arr m sc_c_sw) e /\
       val (u_arr u u_sc_c_dw) e = val (m_arr m sc_c_dw) e /\
       val (u_arr u u_sc_c_sx) e = val (m_arr m sc_c_sx) e).
Proof.
  intros junk Norb Nx Ny sh L samples H1 H2 H3 H4 H5 Ncell N Hd.
  destruct (allocate_meas_ok Norb Nx Ny sh H1 H2 H3 H4 junk) as (m0 & E0 & M0 & _).
  destruct (allocate_umeas_ok Norb Nx Ny sh L H1 H2 H3 H4 H5 junk) as (u0 & F0 & U0 & _).
  rewrite Forall_forall in Hd.
  destruct (accumulate_all_ok Norb Nx Ny sh H1 H2 H3 (map fst samples) m0 (fun _ _ => 0%R)) as (m & E & M & _); [|exact M0|].
  { intros s Hs. apply in_map_iff in Hs as ([[Gu Gd] c] & <- & Hs). apply (Hd _ Hs). }
  destruct (uaccumulate_all_ok Norb Nx Ny sh L H1 H2 H3 H5 (map (fun '(Gu, Gd, c) => (sign_of Gu Gd, c)) samples) u0 (fun _ _ => 0%R))
    as (u & F & U & _); [|exact U0|].
  { intros s Hs. apply in_map_iff in Hs as ([[Gu Gd] c] & <- & Hs). apply (Hd _ Hs). }
  exists m0, m, u0, u. do 4 (split; [assumption|]).
  assert (forall A B (h : B -> R) (k : A -> B) l, lsum h (map k l) = lsum (fun a => h (k a)) l) as LM.
  { intros. unfold lsum. induction l; cbn; congruence. }
  assert (forall f k, 0 <= k < mfield_len Norb (Nx * Ny) f ->
     val (m_arr m f) k = lsum (fun s => inc Norb Nx Ny sh (fst (fst s)) (snd (fst s)) f k) samples) as K.
  { intros f k Hk. change (val (m_arr m f) k) with (rat (m_arr m f) k).
    rewrite (arr_get (mo_arr _ _ _ _ _ _ M f) Hk). cbn beta. rewrite LM. apply Rplus_0_l. }
  assert (forall f k, 0 <= k < ufield_len Norb (Nx * Ny) L f ->
     val (u_arr u f) k = lsum (fun s => uinc Norb Nx Ny sh L (sign_of (fst (fst s)) (snd (fst s))) (snd s) f k) samples) as KU.
  { intros f k Hk. change (val (u_arr u f) k) with (rat (u_arr u f) k).
    rewrite (arr_get (uo_arr _ _ _ _ _ _ _ U f) Hk). cbn beta. rewrite LM, Rplus_0_l.
    unfold lsum. clear. induction samples as [|[[Gu Gd] c] t IH]; cbn [fold_right]; [reflexivity|]. rewrite IH. reflexivity. }
  assert (forall f g : greens_func * greens_func * cur_greens -> R,
            (forall a, In a samples -> f a = g a) -> lsum f samples = lsum g samples) as LE.
  { clear. intros f g H. unfold lsum. induction samples; cbn [fold_right]; [reflexivity|].
    rewrite IHsamples by (intros; apply H; now right). rewrite H by now left. reflexivity. }
  (* agreement of all Green's functions *)
  assert (forall a, In a samples -> forall s i j, 0 <= i < N -> 0 <= j < N ->
     let W := uconfig N L 0 (snd a) in let G := greens_of N (fst (fst a)) (snd (fst a)) in
     gtt W s i j = G s i j /\ g00 W s i j = G s i j /\ gt0 W s i j = G s i j /\ g0t W s i j = G s i j) as AG.
  { intros [[Gu Gd] c] Ha s i j Hi Hj. cbn [fst snd]. cbv zeta.
    destruct (Hd _ Ha) as (_ & [_ Hz] & HG). destruct (Hz s i j Hi Hj) as [Z1 Z2].
    rewrite Z1, Z2, <- (HG s i j Hi Hj). repeat split; auto. apply g00_zero. }
  assert (forall (x : R) f g, (forall i, 0 <= i < Nx * Ny -> f i = g i) ->
     (x * average (Nx * Ny) f = x * average (Nx * Ny) g)%R) as AE.
  { intros x f g H. unfold average. do 2 f_equal. apply sum_ext. exact H. }
  assert (0 <= 0 < L) as L0 by lia.
  split.
  - intros o p k Ho Hp Hk e e0.
    pose proof (entry_range Norb Nx Ny H1 H2 H3 o p k Ho Hp Hk : 0 <= e < Nx * Ny * Norb * Norb) as Re.
    pose proof (uentry_range Norb Nx Ny L H1 H2 H3 H5 0 o p k L0 Ho Hp Hk : 0 <= e0 < Nx * Ny * Norb * Norb * L) as Re0.
    rewrite !K by exact Re. rewrite !KU by exact Re0.
    assert (forall a i, In a samples -> 0 <= i < Nx * Ny ->
      let W := uconfig N L 0 (snd a) in let G := equal_time (greens_of N (fst (fst a)) (snd (fst a))) in
      let si := site (Nx * Ny) i o in let sj := site (Nx * Ny) (cell_plus Nx Ny sh k i) p in
      u_two_point nn_corr W si sj = (two_point uu_corr G si sj + two_point dd_corr G si sj + two_point ud_corr G si sj)%R /\
      u_two_point u_zz_corr W si sj = two_point zz_corr G si sj /\
      u_two_point u_xx_corr W si sj = two_point xx_corr G si sj) as P.
    { intros a i Ha Hi W G si sj.
      assert (0 <= si < N) as Ri by (apply site_range; auto).
      assert (0 <= sj < N) as Rj by (apply site_range; auto; apply plus_range; auto).
      pose proof (fun s => AG a Ha s si si Ri Ri) as A1. pose proof (fun s => AG a Ha s si sj Ri Rj) as A2.
      pose proof (fun s => AG a Ha s sj si Rj Ri) as A3. pose proof (fun s => AG a Ha s sj sj Rj Rj) as A4.
      cbv zeta in A1, A2, A3, A4. fold W in A1, A2, A3, A4.
      assert (tau_zero W = true) as Et by reflexivity.
      clearbody W si sj. unfold u_two_point, two_point, correlation, charge, spin_z, spin_x, number, lsum,
        cdag_c_tt, cdag_c_00, cdag_c_t0, c_cdag_t0, same_spin. cbn [fold_right fst snd only].
      rewrite Et. unfold only.
      repeat match goal with
      | |- context [gtt W ?s ?x ?y] => first [rewrite (proj1 (A1 s)) | rewrite (proj1 (A2 s)) | rewrite (proj1 (A3 s)) | rewrite (proj1 (A4 s))]
      end.
      assert (forall s x y, (x = si \/ x = sj) -> (y = si \/ y = sj) ->
         let G := greens_of N (fst (fst a)) (snd (fst a)) in
         g00 W s x y = G s x y /\ gt0 W s x y = G s x y /\ g0t W s x y = G s x y) as A.
      { intros s x y [-> | ->] [-> | ->]; [apply A1|apply A2|apply A3|apply A4]. }
      cbv zeta in A.
      rewrite !(fun s x y Hx Hy => proj1 (A s x y Hx Hy)) by auto.
      rewrite !(fun s x y Hx Hy => proj1 (proj2 (A s x y Hx Hy))) by auto.
      rewrite !(fun s x y Hx Hy => proj2 (proj2 (A s x y Hx Hy))) by auto.
      unfold G, equal_time. cbn [gtt g00 gt0 g0t tau_zero]. repeat split; ring. }
    split; [|split].
    + assert (forall f g h : greens_func * greens_func * cur_greens -> R,
        lsum f samples + lsum g samples + lsum h samples = lsum (fun s => f s + g s + h s) samples)%R as L3.
      { intros. unfold lsum. clear. induction samples; cbn [fold_right]; [ring|]. rewrite <- IHsamples. ring. }
      rewrite L3. apply LE. intros a Ha. unfold e, e0, Ncell.
      rewrite uinc_two_point by (auto; cbn; tauto). rewrite !inc_two_point by (auto; cbn; tauto).
      rewrite <- !Rmult_plus_distr_l. f_equal. unfold average, Rdiv. rewrite <- !Rmult_plus_distr_r. f_equal.
      rewrite <- !sum_plus. apply sum_ext. intros i Hi. apply (P a i Ha Hi).
    + apply LE. intros a Ha. unfold e, e0, Ncell.
      rewrite uinc_two_point by (auto; cbn; tauto). rewrite !inc_two_point by (auto; cbn; tauto).
      apply AE. intros i Hi. apply (P a i Ha Hi).
    + apply LE. intros a Ha. unfold e, e0, Ncell.
      rewrite uinc_two_point by (auto; cbn; tauto). rewrite !inc_two_point by (auto; cbn; tauto).
      apply AE. intros i Hi. apply (P a i Ha Hi).
  - intros o k Ho Hk e.
    assert (0 <= e < Nx * Ny * Norb) as Re by (unfold e, Ncell in *; nia).
    assert (0 <= e < Nx * Ny * Norb * L) as Re0 by nia.
    rewrite !K by exact Re. rewrite !KU by exact Re0.
    assert (e = k + (Nx * Ny * o + Nx * Ny * Norb * 0)) as Ee by (unfold e, Ncell; ring).
    assert (forall a i (q : mfield), In a samples -> 0 <= i < Nx * Ny -> In q pair_fields ->
      let j := cell_plus Nx Ny sh k i in let nb x d := site (Nx * Ny) (cell_step Nx Ny 0 d x) o in
      pair_correlation (uconfig N L 0 (snd a)) (pair_op (site (Nx * Ny) i o) (pair_shape q (nb i)))
        (pair_op (site (Nx * Ny) j o) (pair_shape q (nb j))) =
      pair_correlation (equal_time (greens_of N (fst (fst a)) (snd (fst a)))) (pair_op (site (Nx * Ny) i o) (pair_shape q (nb i)))
        (pair_op (site (Nx * Ny) j o) (pair_shape q (nb j)))) as P.
    { intros a i q Ha Hi Hq j nb.
      assert (forall x, 0 <= x < Nx * Ny -> 0 <= site (Nx * Ny) x o < N) as Rs by (intros; now apply site_range).
      assert (forall x d, 0 <= site (Nx * Ny) (cell_step Nx Ny 0 d x) o < N) as Rd by (intros; apply Rs; apply step_range; auto).
      pose proof (plus_range Nx Ny sh H2 H3 k i : 0 <= j < Nx * Ny) as Hj.
      assert (forall s x y, 0 <= x < N -> 0 <= y < N ->
        gt0 (uconfig N L 0 (snd a)) s x y = greens_of N (fst (fst a)) (snd (fst a)) s x y) as A by (intros; now apply AG).
      set (W := uconfig N L 0 (snd a)) in *. set (G := greens_of N (fst (fst a)) (snd (fst a))) in *.
      clearbody W G j.
      repeat (destruct Hq as [<-|Hq]; [cbn -[cell_step site Z.mul Z.add nb]; unfold nb; rewrite !A by auto; reflexivity|]).
      destruct Hq. }
    assert (forall q a, In a samples -> In q pair_fields -> forall qu, In qu u_bond_fields ->
      (forall W i j n1 n2, ubond_code qu W i j n1 n2 = pair_correlation W (pair_op i (pair_shape q n1)) (pair_op j (pair_shape q n2))) ->
      uinc Norb Nx Ny sh L (sign_of (fst (fst a)) (snd (fst a))) (snd a) qu e =
      inc Norb Nx Ny sh (fst (fst a)) (snd (fst a)) q e) as Q.
    { intros q a Ha Hq qu Hqu HQ. rewrite Ee at 1. rewrite uinc_bond by auto. unfold e, Ncell.
      rewrite inc_pair by auto. apply AE. intros i Hi. cbv zeta. rewrite HQ. now apply P. }
    split; [|split]; apply LE; intros a Ha; apply Q; auto; try (cbn; tauto); intros; reflexivity.
Qed.
Print Assumptions C44_unequal_time_at_zero.

(** the hypotheses are satisfiable with more than one time step *)
Example C44_unequal_time_case : exists Gu c,
  let N := 2 in
  cur_ok N 2 c /\ Z.of_nat (length (gf_mat Gu)) = N * N /\
  (forall s i j, 0 <= i < N -> 0 <= j < N -> gtt (uconfig N 2 0 c) s i j = greens_of N Gu Gu s i j) /\
  (exists i j, 0 <= i < N /\ 0 <= j < N /\ gtt (uconfig N 2 0 c) up i j <> gtt (uconfig N 2 1 c) up i j).
Proof.
  set (id := [1/2; 0; 0; 1/2; 1/3; 0; 0; 1/3]%R).
  set (gt := [1/2; 0; 0; 1/2; 0; 1/2; 1/2; 0]%R).
  set (g0 := [1/2; 0; 0; 1/2; 0; -1/4; -1/4; 0]%R).
  exists (mk_greens [1/2; 0; 0; 1/2]%R 0%R 1 2), (mk_cur gt g0 id gt g0 id). cbv zeta. split; [|split; [|split]].
  - split.
    + intros a Ha. repeat (destruct Ha as [<-|Ha]; [reflexivity|]). destruct Ha.
    + intros s i j Hi Hj. assert (i = 0 \/ i = 1) as [-> | ->] by lia; assert (j = 0 \/ j = 1) as [-> | ->] by lia;
      destruct s; split; reflexivity.
  - reflexivity.
  - intros s i j Hi Hj. assert (i = 0 \/ i = 1) as [-> | ->] by lia; assert (j = 0 \/ j = 1) as [-> | ->] by lia;
      destruct s; reflexivity.
  - exists 0, 0. split; [lia|]. split; [lia|]. cbv -[Rplus Rmult Rminus Ropp Rinv Rdiv IZR not]. intros H. lra.
Qed.

(** C45 for the unequal time arrays: after any non-empty sequence of samples and one normalisation
    every entry is the mean of the contributions of the samples, a contribution being what a fresh
    structure contains after this sample alone.  Without samples the normalisation divides by zero. *)
Theorem C45_unequal_time_normalised_is_mean : forall junk Norb Nx Ny shift L samples,
  0 < Norb -> 0 < Nx -> 0 < Ny -> 0 <= shift -> 0 < L -> samples <> [] ->
  Forall (fun s => cur_ok (Nx * Ny * Norb) L (snd s)) samples ->
  exists m0 m m' (c : list umeas), allocate_umeas junk Norb Nx Ny shift L = Some m0 /\
    uaccumulate_all samples m0 = Some m /\ unormalize m = Some m' /\
    Forall2 (fun s x => uaccumulate (fst s) (snd s) m0 = Some x) samples c /\
    (forall f k, 0 <= k < ufield_len Norb (Nx * Ny) L f ->
       val (u_arr m' f) k = (lsum (fun x => val (u_arr x f) k) c / IZR (Z.of_nat (length samples)))%R) /\
    u_sign m' = (lsum u_sign c / IZR (Z.of_nat (length samples)))%R.
Proof.
  intros junk Norb Nx Ny sh L samples H1 H2 H3 H4 H5 Hne Hd.
  destruct (allocate_umeas_ok Norb Nx Ny sh L H1 H2 H3 H4 H5 junk) as (m0 & E0 & M0 & S0 & N0).
  rewrite Forall_forall in Hd.
  destruct (uaccumulate_all_ok Norb Nx Ny sh L H1 H2 H3 H5 samples m0 _ Hd M0) as (m & E & M & Sm & Nm).
  rewrite N0, Z.add_0_l in Nm.
  assert (u_nsampl m <> 0) as Hn0.
  { rewrite Nm. destruct samples; [congruence|]. cbn [length]. lia. }
  destruct (unormalize_ok Norb Nx Ny sh L H1 H2 H3 H5 m _ Hn0 M) as (m' & E' & M' & Sm' & Nm').
  assert (exists c, Forall2 (fun s x => uaccumulate (fst s) (snd s) m0 = Some x) samples c /\
    (forall f k, 0 <= k < ufield_len Norb (Nx * Ny) L f ->
       lsum (fun x => val (u_arr x f) k) c = lsum (fun s => uinc Norb Nx Ny sh L (fst s) (snd s) f k) samples) /\
    lsum u_sign c = lsum fst samples) as (c & C1 & C2 & C3).
  { clear - H1 H2 H3 H5 Hd M0 S0. induction samples as [|s l IH].
    - exists []. repeat split; constructor.
    - destruct IH as (c & C1 & C2 & C3); [intros; apply Hd; now right|].
      destruct (uaccumulate_ok Norb Nx Ny sh L H1 H2 H3 H5 (fst s) _ m0 _ (Hd s (or_introl eq_refl)) M0)
        as (x & Ex & Mx & Sx & _).
      exists (x :: c). split; [now constructor|]. unfold lsum in *. cbn [fold_right]. split.
      + intros f k Hk. rewrite C2 by auto. f_equal. change (val (u_arr x f) k) with (rat (u_arr x f) k).
        rewrite (arr_get (uo_arr _ _ _ _ _ _ _ Mx f) Hk). apply Rplus_0_l.
      + rewrite C3, Sx, S0. ring. }
  exists m0, m, m', c. do 4 (split; [assumption|]). split.
  - intros f k Hk. rewrite C2 by auto. change (val (u_arr m' f) k) with (rat (u_arr m' f) k).
    rewrite (arr_get (uo_arr _ _ _ _ _ _ _ M' f) Hk). cbn beta. rewrite Nm. f_equal. apply Rplus_0_l.
  - rewrite Sm', Sm, S0, C3, Nm. f_equal. apply Rplus_0_l.
Qed.
Print Assumptions C45_unequal_time_normalised_is_mean.

Theorem C45_unequal_time_no_samples_refuted : exists junk Norb Nx Ny L m0,
  allocate_umeas junk Norb Nx Ny 0 L = Some m0 /\ unormalize m0 = None.
Proof.
  destruct (allocate_umeas_ok 1 2 2 0 4 ltac:(lia) ltac:(lia) ltac:(lia) ltac:(lia) ltac:(lia) (fun _ => 0)) as (m0 & E & _ & _ & Hn).
  exists (fun _ => 0), 1, 2, 2, 4, m0. split; [exact E|]. now apply unormalize_zero.
Qed.
Print Assumptions C45_unequal_time_no_samples_refuted.

(** C53.  The pair, current and Raman correlations.  Full statement: as for C52, with the neighbours
    [cell_step Nx Ny shift] of the periodic lattice.  The program uses the neighbours of the lattice
    without shift, and drops the commutator of the two operators of a bond in the B1g array.  So the
    statement holds if the shift is a multiple of Nx, and for the B1g array if in addition the
    lattice is not a chain (a single cell is fine). *)
Theorem C53_bond_correlations_partial : forall junk Norb Nx Ny shift L samples sign c,
  0 < Norb -> 0 < Nx -> 0 < Ny -> 0 <= shift -> 0 < L -> shift mod Nx = 0 ->
  let Ncell := Nx * Ny in let N := Nx * Ny * Norb in
  Forall (fun s => cur_ok N L (snd s)) ((sign, c) :: samples) ->
  exists m0 m m', allocate_umeas junk Norb Nx Ny shift L = Some m0 /\
    uaccumulate_all samples m0 = Some m /\ uaccumulate sign c m = Some m' /\
    (forall f l o k, In f u_bond_fields -> (f = ram_b1g -> (Nx = 1 <-> Ny = 1)) ->
       0 <= l < L -> 0 <= o < Norb -> 0 <= k < Ncell ->
       val (u_arr m' f) (k + (Ncell * o + N * l)) = (val (u_arr m f) (k + (Ncell * o + N * l)) +
         sign * average Ncell (fun i => let j := cell_plus Nx Ny shift k i in
           let nb x d := site Ncell (cell_step Nx Ny shift d x) o in
           u_bond f (uconfig N L l c) (site Ncell i o) (site Ncell j o) (nb i) (nb j)))%R).
Proof.
  intros junk Norb Nx Ny sh L samples sign c H1 H2 H3 H4 H5 Hmod Ncell N Hd.
  destruct (allocate_umeas_ok Norb Nx Ny sh L H1 H2 H3 H4 H5 junk) as (m0 & E0 & M0 & _).
  rewrite Forall_forall in Hd.
  destruct (uaccumulate_all_ok Norb Nx Ny sh L H1 H2 H3 H5 samples m0 _ (fun s Hs => Hd s (or_intror Hs)) M0)
    as (m & E & M & _).
  pose proof (Hd _ (or_introl eq_refl) : cur_ok (Nx * Ny * Norb) L c) as Dc.
  destruct (uaccumulate_ok Norb Nx Ny sh L H1 H2 H3 H5 sign c m _ Dc M) as (m' & E' & M' & Es & En).
  exists m0, m, m'. do 3 (split; [assumption|]).
  intros f l o k Hf Hb Hl Ho Hk. unfold Ncell, N in *.
  assert (0 <= k + (Nx * Ny * o + Nx * Ny * Norb * l) < ufield_len Norb (Nx * Ny) L f) as Re.
  { pose proof (ubond_range Norb Nx Ny L H1 H2 H3 l o k Hl Ho Hk) as R.
    repeat (destruct Hf as [<-|Hf]; [exact R|]). destruct Hf. }
  change (val (u_arr m' f)) with (rat (u_arr m' f)). change (val (u_arr m f)) with (rat (u_arr m f)).
  rewrite (arr_get (uo_arr _ _ _ _ _ _ _ M' f) Re), (arr_get (uo_arr _ _ _ _ _ _ _ M f) Re). f_equal.
  rewrite uinc_bond by auto. f_equal. unfold average. f_equal. apply sum_ext. intros i Hi. cbv zeta.
  assert (forall d x, cell_step Nx Ny sh d x = cell_step Nx Ny 0 d x) as ES.
  { intros d x. unfold cell_step. rewrite (Z.div_mod sh Nx) by lia. rewrite Hmod, Z.add_0_r, Z.mul_comm.
    apply wrap_shift_mult; auto. }
  transitivity (u_bond f (uconfig (Nx * Ny * Norb) L l c) (site (Nx * Ny) i o)
     (site (Nx * Ny) (cell_plus Nx Ny sh k i) o)
     (fun d => site (Nx * Ny) (cell_step Nx Ny 0 d i) o)
     (fun d => site (Nx * Ny) (cell_step Nx Ny 0 d (cell_plus Nx Ny sh k i)) o)).
  - repeat (destruct Hf as [<-|Hf]; [try reflexivity|]); [|destruct Hf].
    apply b1g_code; auto.
  - unfold u_bond, pair_shape, b1g_shape, b2g_shape.
    repeat (destruct Hf as [<-|Hf]; [now rewrite !ES|]). destruct Hf.
Qed.
Print Assumptions C53_bond_correlations_partial.

(** the hypotheses allow a 2 x 3 lattice of two orbitals with a shift of one row, and four time steps *)
Example C53_case : exists c, let N := 2 * 3 * 2 in cur_ok N 4 c /\ 2 mod 2 = 0 /\ (2 = 1 <-> 3 = 1).
Proof.
  set (a := repeat (1/2)%R 576). exists (mk_cur a a a a a a). cbv zeta. split; [split|split; [reflexivity|split; intros H; discriminate H]].
  - intros b Hb. repeat (destruct Hb as [<-|Hb]; [reflexivity|]). destruct Hb.
  - assert (forall k, 0 <= k < 576 -> val a k = (1/2)%R) as V.
    { intros k Hk. unfold val, a. clear - Hk.
      rewrite (nth_indep _ 0%R (1/2)%R) by (rewrite repeat_length; lia). apply nth_repeat. }
    intros s i j Hi Hj. destruct s; cbn [uconfig gt0 gtt g0t cGtau0_u cG0tau_u cGeqlt_u cGtau0_d cG0tau_d cGeqlt_d];
      rewrite !V by lia; auto.
Qed.

(** a shifted lattice: the current correlation in y direction is not that of the neighbours *)
Theorem C53_shifted_refuted : exists junk c m0 m',
  let Norb := 1 in let Nx := 2 in let Ny := 1 in let shift := 1 in let L := 1 in
  cur_ok 2 L c /\
  allocate_umeas junk Norb Nx Ny shift L = Some m0 /\ uaccumulate 1 c m0 = Some m' /\
  val (u_arr m' Jcorr_y) 0 <> (val (u_arr m0 Jcorr_y) 0 +
    1 * average 2 (fun i => let j := cell_plus Nx Ny shift 0 i in
      let nb x d := cell_step Nx Ny shift d x in u_bond Jcorr_y (uconfig 2 L 0 c) i j (nb i) (nb j)))%R.
Proof.
  set (a := [1/4; 0; 0; 1/4]%R). set (c := mk_cur a a a a a a).
  assert (cur_ok 2 1 c) as Hc.
  { split.
    - intros b Hb. repeat (destruct Hb as [<-|Hb]; [reflexivity|]). destruct Hb.
    - intros s i j Hi Hj. assert (i = 0 \/ i = 1) as [-> | ->] by lia; assert (j = 0 \/ j = 1) as [-> | ->] by lia;
      destruct s; split; reflexivity. }
  destruct (allocate_umeas_ok 1 2 1 1 1 ltac:(lia) ltac:(lia) ltac:(lia) ltac:(lia) ltac:(lia) (fun _ => 0)) as (m0 & E0 & M0 & _).
  destruct (uaccumulate_ok 1 2 1 1 1 ltac:(lia) ltac:(lia) ltac:(lia) ltac:(lia) 1%R c m0 _ Hc M0) as (m' & E' & M' & _).
  exists (fun _ => 0), c, m0, m'. cbv zeta. split; [exact Hc|]. do 2 (split; [assumption|]).
  change (val (u_arr m' Jcorr_y) 0) with (rat (u_arr m' Jcorr_y) 0).
  change (val (u_arr m0 Jcorr_y) 0) with (rat (u_arr m0 Jcorr_y) 0).
  rewrite (@arr_get _ _ _ 0 (uo_arr _ _ _ _ _ _ _ M' Jcorr_y)), (@arr_get _ _ _ 0 (uo_arr _ _ _ _ _ _ _ M0 Jcorr_y))
    by (cbn; lia).
  pose proof (uinc_bond 1 2 1 1 1 ltac:(lia) ltac:(lia) 1%R c Jcorr_y 0 0 0 ltac:(cbn; tauto) ltac:(lia) ltac:(lia) ltac:(lia)) as I.
  change (0 + (2 * 1 * 0 + 2 * 1 * 1 * 0)) with 0 in I. rewrite I.
  cbv -[Rplus Rmult Rminus Ropp Rinv Rdiv IZR not]. intros H. lra.
Qed.
Print Assumptions C53_shifted_refuted.

(** a chain: the B1g correlation is wrong *)
Theorem C53_chain_refuted : exists junk c m0 m',
  let Norb := 1 in let Nx := 2 in let Ny := 1 in let L := 1 in
  cur_ok 2 L c /\
  allocate_umeas junk Norb Nx Ny 0 L = Some m0 /\ uaccumulate 1 c m0 = Some m' /\
  val (u_arr m' ram_b1g) 0 <> (val (u_arr m0 ram_b1g) 0 +
    1 * average 2 (fun i => let j := cell_plus Nx Ny 0 0 i in
      let nb x d := cell_step Nx Ny 0 d x in u_bond ram_b1g (uconfig 2 L 0 c) i j (nb i) (nb j)))%R.
Proof.
  set (a := [1/4; 0; 0; 1/4]%R). set (c := mk_cur a a a a a a).
  assert (cur_ok 2 1 c) as Hc.
  { split.
    - intros b Hb. repeat (destruct Hb as [<-|Hb]; [reflexivity|]). destruct Hb.
    - intros s i j Hi Hj. assert (i = 0 \/ i = 1) as [-> | ->] by lia; assert (j = 0 \/ j = 1) as [-> | ->] by lia;
      destruct s; split; reflexivity. }
  destruct (allocate_umeas_ok 1 2 1 0 1 ltac:(lia) ltac:(lia) ltac:(lia) ltac:(lia) ltac:(lia) (fun _ => 0)) as (m0 & E0 & M0 & _).
  destruct (uaccumulate_ok 1 2 1 0 1 ltac:(lia) ltac:(lia) ltac:(lia) ltac:(lia) 1%R c m0 _ Hc M0) as (m' & E' & M' & _).
  exists (fun _ => 0), c, m0, m'. cbv zeta. split; [exact Hc|]. do 2 (split; [assumption|]).
  change (val (u_arr m' ram_b1g) 0) with (rat (u_arr m' ram_b1g) 0).
  change (val (u_arr m0 ram_b1g) 0) with (rat (u_arr m0 ram_b1g) 0).
  rewrite (@arr_get _ _ _ 0 (uo_arr _ _ _ _ _ _ _ M' ram_b1g)), (@arr_get _ _ _ 0 (uo_arr _ _ _ _ _ _ _ M0 ram_b1g))
    by (cbn; lia).
  pose proof (uinc_bond 1 2 1 0 1 ltac:(lia) ltac:(lia) 1%R c ram_b1g 0 0 0 ltac:(cbn; tauto) ltac:(lia) ltac:(lia) ltac:(lia)) as I.
  change (0 + (2 * 1 * 0 + 2 * 1 * 1 * 0)) with 0 in I. rewrite I.
  cbv -[Rplus Rmult Rminus Ropp Rinv Rdiv IZR not]. intros H. lra.
Qed.
Print Assumptions C53_chain_refuted.
