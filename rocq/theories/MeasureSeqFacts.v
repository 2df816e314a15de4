(** Proofs about sequences of equal time measurements. *)
From Coq Require Import ZArith List Reals Lia Lra Bool.
From Verif Require Import Base BaseFacts Sums SumsFacts RealOps Blas BlasFacts Lattice LatticeSpec LatticeFacts
  GreenConstruct Accum AccumFacts WickSpec Measure MeasureSpec MeasureFacts.
Import ListNotations.
Local Open Scope Z_scope.

Lemma rdiv_ok x y : y <> 0%R -> rdiv x y = Some (x / y)%R.
Proof. intros. unfold rdiv. destruct (Req_EM_T y 0); [contradiction|reflexivity]. Qed.

Section Seq.
Variables (Norb Nx Ny sh : Z).
Hypotheses (HNorb : 0 < Norb) (HNx : 0 < Nx) (HNy : 0 < Ny) (Hsh : 0 <= sh).
Notation Ncell := (Nx * Ny).
Notation N := (Nx * Ny * Norb).
Notation size := (mfield_len Norb Ncell).
Notation Accs := (accs mfield size).
Notation Adds := (adds mfield size).

Record meas_ok (m : meas) (g : mfield -> Z -> R) : Prop := {
  mo_Norb : m_Norb m = Norb;
  mo_Ncell : m_Ncell m = Ncell;
  mo_maps : maps_ok Nx Ny sh (m_sum m) (m_nn m);
  mo_arr : Accs (m_arr m) g }.

Definition good (G : greens_func) : Prop := lenZ (gf_mat G) = N * N.

(** what one sample adds *)
Definition inc (Gu Gd : greens_func) (f : mfield) (idx : Z) : R :=
  let u := gf_mat Gu in let d := gf_mat Gd in
  let sf := (sign_of Gu Gd / IZR Ncell)%R in
  match f with
  | density_u | density_d | doubleocc =>
      (sf * sum 0 Ncell (fun i => dens_val Norb Nx Ny u d f (site Ncell i idx)))%R
  | grfun_u => (sign_of Gu Gd * val u idx)%R
  | grfun_d => (sign_of Gu Gd * val d idx)%R
  | uu_corr | dd_corr | ud_corr | ff_corr | zz_corr | xx_corr =>
      sum 0 Norb (fun o => sum 0 Norb (fun p => sum 0 Ncell (fun i => sum 0 Ncell (fun k =>
        corr_inc Norb Nx Ny sh sf u d o p i k f idx))))
  | sc_c_sw | sc_c_dw | sc_c_sx =>
      sum 0 Norb (fun o => sum 0 Ncell (fun i => sum 0 Ncell (fun k => pair_inc Norb Nx Ny sh sf u d o i k f idx)))
  end.

Lemma sums4_zero (v : Z -> Z -> Z -> Z -> R) : (forall o p i k, v o p i k = 0%R) ->
  sum 0 Norb (fun o => sum 0 Norb (fun p => sum 0 Ncell (fun i => sum 0 Ncell (fun k => v o p i k)))) = 0%R.
Proof. intros H. do 4 (apply sum_zero; intros). apply H. Qed.
Lemma sums3_zero (v : Z -> Z -> Z -> R) : (forall o i k, v o i k = 0%R) ->
  sum 0 Norb (fun o => sum 0 Ncell (fun i => sum 0 Ncell (fun k => v o i k))) = 0%R.
Proof. intros H. do 3 (apply sum_zero; intros). apply H. Qed.

Lemma NN_nonneg : 0 <= N * N. Proof. nia. Qed.
Lemma IZR_Ncell : IZR Ncell <> 0%R.
Proof. apply IZR_neq. nia. Qed.

Lemma accumulate_ok Gu Gd m g : good Gu -> good Gd -> meas_ok m g ->
  exists m', accumulate Gu Gd m = Some m' /\ meas_ok m' (fun f k => g f k + inc Gu Gd f k)%R /\
    m_sign m' = (m_sign m + sign_of Gu Gd)%R /\ m_nsampl m' = m_nsampl m + 1.
Proof.
  intros HGu HGd [E1 E2 Hm Ha]. unfold accumulate. rewrite E1, E2.
  rewrite rdiv_ok by apply IZR_Ncell. cbn [obind]. fold (sign_of Gu Gd).
  set (sf := (sign_of Gu Gd / IZR Ncell)%R). set (u := gf_mat Gu). set (d := gf_mat Gd).
  destruct (acc_density_ok Norb Nx Ny HNorb HNx HNy sf u d HGu HGd _ _ Ha) as (s1 & -> & A1). cbn [obind].
  destruct (axpy_field_ok _ _ _ mfield_eqbP _ _ (N * N) (sign_of Gu Gd) u grfun_u A1) as (s2 & -> & A2);
    [reflexivity | apply NN_nonneg | unfold u; rewrite HGu; lia |]. cbn [obind].
  destruct (axpy_field_ok _ _ _ mfield_eqbP _ _ (N * N) (sign_of Gu Gd) d grfun_d A2) as (s3 & -> & A3);
    [reflexivity | apply NN_nonneg | unfold d; rewrite HGd; lia |]. cbn [obind].
  destruct (acc_corr_ok Norb Nx Ny sh HNorb HNx HNy sf u d HGu HGd _ _ Hm _ _ A3) as (s4 & -> & A4).
  cbn [obind].
  destruct (acc_sc_ok Norb Nx Ny sh HNorb HNx HNy sf u d HGu HGd _ _ Hm _ _ A4) as (s5 & -> & A5).
  cbn [obind]. eexists; split; [reflexivity|]. split; [|split; reflexivity].
  split; cbn [m_Norb m_Ncell m_sum m_nn m_arr]; auto.
  eapply accs_ext; [|exact A5]. cbn beta. intros f k Hk. unfold inc. fold u d sf.
  destruct f; cbn [mfield_eqb mfield_eq_dec]; unfold mfield_eqb; cbn -[sum Z.mul dens_val corr_inc pair_inc];
    try (rewrite (sums4_zero (fun o p i k' => corr_inc Norb Nx Ny sh sf u d o p i k' _ k))
          by (intros; unfold corr_inc; cbn; destruct (_ =? _); ring));
    try (rewrite (sums3_zero (fun o i k' => pair_inc Norb Nx Ny sh sf u d o i k' _ k))
          by (intros; unfold pair_inc, pair_val; cbn; destruct (_ =? _); ring)); unfold val, rat; try ring.
Qed.

Lemma raw_len (junk : Z -> Z) n : 0 <= n -> Z.of_nat (length (map junk (map Z.of_nat (seq 0 (Z.to_nat n))))) = n.
Proof. intros. rewrite !map_length, seq_length. lia. Qed.

Lemma repeat_arr n : 0 <= n -> arr n (repeat 0%R (Z.to_nat n)) (fun _ => 0%R).
Proof.
  intros. split; [rewrite repeat_length; lia|]. intros k Hk.
  rewrite (@aget_nth _ _ _ 0%R) by (rewrite repeat_length; lia). f_equal.
  apply nth_repeat.
Qed.

Lemma size_nonneg f : 0 <= size f.
Proof. destruct f; cbn; nia. Qed.

Lemma allocate_meas_ok junk : exists m, allocate_meas junk Norb Nx Ny sh = Some m /\
  meas_ok m (fun _ _ => 0%R) /\ m_sign m = 0%R /\ m_nsampl m = 0.
Proof.
  unfold allocate_meas.
  destruct (sum_map_ok Nx Ny sh HNx HNy Hsh (map junk (map Z.of_nat (seq 0 (Z.to_nat (Ncell * Ncell))))))
    as (sm & -> & HL & Hsm); [apply raw_len; nia|]. cbn [obind].
  destruct (nn_map_ok Nx Ny HNx HNy (let r := map junk (map Z.of_nat (seq 0 (Z.to_nat Ncell))) in mk_nn_maps r r r r))
    as (nn & E & (L1 & L2 & L3 & L4) & Hnn); try (apply raw_len; nia).
  cbv zeta in E. rewrite E. cbn [obind].
  eexists; split; [reflexivity|]. split; [|split; reflexivity]. split; cbn [m_Norb m_Ncell m_sum m_nn m_arr]; auto.
  - split.
    + intros k i Hk Hi. rewrite aget_at by (rewrite HL; nia). now rewrite Hsm.
    + intros c Hc. unfold neighbours. rewrite !aget_at by lia. cbn [obind].
      destruct (coords_range Nx Ny HNx c Hc) as [Hx Hy].
      destruct (Hnn (fst (coords Nx c)) (snd (coords Nx c)) Hx Hy I) as (F1 & F2 & F3 & F4).
      assert (fst (coords Nx c) + Nx * snd (coords Nx c) = c) as Ec.
      { unfold coords; cbn [fst snd]. pose proof (Z.div_mod c Nx). lia. }
      rewrite Ec in *. rewrite F1, F2, F3, F4. unfold cell_step, vplus. cbn [fst snd].
      rewrite !Z.add_0_r. reflexivity.
  - intros f. apply repeat_arr. apply size_nonneg.
Qed.

Lemma accumulate_all_ok samples : forall m g,
  (forall s, In s samples -> good (fst s) /\ good (snd s)) -> meas_ok m g ->
  exists m', accumulate_all samples m = Some m' /\
    meas_ok m' (fun f k => g f k + lsum (fun s => inc (fst s) (snd s) f k) samples)%R /\
    m_sign m' = (m_sign m + lsum (fun s => sign_of (fst s) (snd s)) samples)%R /\
    m_nsampl m' = m_nsampl m + Z.of_nat (length samples).
Proof.
  induction samples as [|s l IH]; intros m g Hg Hm.
  - exists m. split; [reflexivity|]. cbn. split; [|split; [ring|lia]].
    destruct Hm as [H1 H2 H3 H4]; split; auto. eapply accs_ext; [|exact H4]. intros; cbn; ring.
  - destruct (Hg s ltac:(now left)) as [Hu Hd].
    destruct (accumulate_ok _ _ _ _ Hu Hd Hm) as (m1 & E1 & Hm1 & Es & En).
    destruct (IH m1 _ ltac:(intros; apply Hg; now right) Hm1) as (m' & E & Hm' & Es' & En').
    exists m'. unfold accumulate_all in *. cbn [fold_left obind]. rewrite E1, E. split; [reflexivity|].
    split; [|split].
    + destruct Hm' as [H1 H2 H3 H4]; split; auto. eapply accs_ext; [|exact H4]. unfold lsum; cbn [fold_right]. intros. ring.
    + rewrite Es', Es. unfold lsum; cbn [fold_right]. ring.
    + rewrite En', En. cbn [length]. lia.
Qed.

Lemma normalize_ok m g : m_nsampl m <> 0 -> meas_ok m g ->
  exists m', normalize m = Some m' /\ meas_ok m' (fun f k => g f k / IZR (m_nsampl m))%R /\
    m_sign m' = (m_sign m / IZR (m_nsampl m))%R /\ m_nsampl m' = m_nsampl m.
Proof.
  intros Hn [E1 E2 Hm Ha]. unfold normalize. rewrite E1, E2.
  rewrite rdiv_ok by (apply IZR_neq; lia). cbn [obind].
  set (c := (1 / IZR (m_nsampl m))%R).
  assert (forall f n s g, Accs s g -> n = size f -> exists s', m_scale n c f s = Some s' /\
     Accs s' (fun f' k => if mfield_eqb f' f then c * g f' k else g f' k)%R) as S.
  { intros f n s g' H ->. apply scale_field_ok; auto. - exact mfield_eqbP. - apply size_nonneg. }
  set (g0 := g) in Ha at 1.
  repeat match goal with
  | H : Accs ?s _ |- context [m_scale ?n c ?f ?s] =>
      let s' := fresh "s" in let A := fresh "A" in
      destruct (S f n s _ H eq_refl) as (s' & -> & A); clear H; cbn [obind]
  end.
  eexists; split; [reflexivity|]. cbn [m_sign m_nsampl]. split; [|split; [unfold c; unfold Rdiv; ring|reflexivity]].
  split; cbn [m_Norb m_Ncell m_sum m_nn m_arr]; auto.
  eapply accs_ext; [|eassumption]. unfold g0. intros f k Hk. unfold mfield_eqb.
  destruct f; cbn -[c]; unfold c, Rdiv; ring.
Qed.

Lemma normalize_zero m : m_nsampl m = 0 -> normalize m = None.
Proof.
  intros E. unfold normalize. rewrite E. unfold rdiv. destruct (Req_EM_T 0 0); [reflexivity|congruence].
Qed.

(** the increments, entry by entry *)
Lemma average_scal x f : (x / IZR Ncell * sum 0 Ncell f = x * average Ncell f)%R.
Proof. unfold average. field. apply IZR_Ncell. Qed.

Lemma inc_two_point Gu Gd f o p k : In f two_point_fields ->
  0 <= o < Norb -> 0 <= p < Norb -> 0 <= k < Ncell ->
  inc Gu Gd f (entry Norb Ncell o p k) =
    (sign_of Gu Gd * average Ncell (fun i => two_point f (equal_time (greens_of N Gu Gd))
        (site Ncell i o) (site Ncell (cell_plus Nx Ny sh k i) p)))%R.
Proof.
  intros Hf Ho Hp Hk. rewrite <- average_scal, <- sum_scal.
  transitivity (sum 0 Norb (fun o' => sum 0 Norb (fun p' => sum 0 Ncell (fun i => sum 0 Ncell (fun k' =>
        corr_inc Norb Nx Ny sh (sign_of Gu Gd / IZR Ncell) (gf_mat Gu) (gf_mat Gd) o' p' i k' f
          (entry Norb Ncell o p k)))))).
  { repeat (destruct Hf as [<-|Hf]; [reflexivity|]). destruct Hf. }
  unfold corr_inc.
  rewrite (collapse2 Norb Ncell (fun o p i k => (sign_of Gu Gd / IZR Ncell *
     two_point f (equal_time (fun s i j => val match s with up => gf_mat Gu | dn => gf_mat Gd end (i + N * j)))
        (site Ncell i o) (site Ncell (cell_plus Nx Ny sh k i) p))%R)) by auto.
  apply sum_ext. intros i _. f_equal.
Qed.

Lemma inc_pair Gu Gd f o k : In f pair_fields -> 0 <= o < Norb -> 0 <= k < Ncell ->
  inc Gu Gd f (k + Ncell * o) =
    (sign_of Gu Gd * average Ncell (fun i => let j := cell_plus Nx Ny sh k i in
        pair_correlation (equal_time (greens_of N Gu Gd))
          (pair_op (site Ncell i o) (pair_shape f (fun d => site Ncell (cell_step Nx Ny 0 d i) o)))
          (pair_op (site Ncell j o) (pair_shape f (fun d => site Ncell (cell_step Nx Ny 0 d j) o)))))%R.
Proof.
  intros Hf Ho Hk. rewrite <- average_scal, <- sum_scal.
  transitivity (sum 0 Norb (fun o' => sum 0 Ncell (fun i => sum 0 Ncell (fun k' =>
        pair_inc Norb Nx Ny sh (sign_of Gu Gd / IZR Ncell) (gf_mat Gu) (gf_mat Gd) o' i k' f (k + Ncell * o))))).
  { repeat (destruct Hf as [<-|Hf]; [reflexivity|]). destruct Hf. }
  unfold pair_inc.
  rewrite (@sum_ext _ _ _ (fun o' => sum 0 Ncell (fun k' => if k' + Ncell * o' =? k + Ncell * o then
     sum 0 Ncell (fun i => (sign_of Gu Gd / IZR Ncell * pair_val Norb Nx Ny (gf_mat Gu) (gf_mat Gd) f o' i (cell_plus Nx Ny sh k' i))%R)
     else 0%R))).
  2:{ intros o' _. rewrite sum_swap. apply sum_ext. intros k' _. destruct (_ =? _); [reflexivity|].
      now apply sum_zero. }
  rewrite (collapse1 Ncell (fun o' k' => sum 0 Ncell (fun i => (sign_of Gu Gd / IZR Ncell *
      pair_val Norb Nx Ny (gf_mat Gu) (gf_mat Gd) f o' i (cell_plus Nx Ny sh k' i))%R))) by auto.
  apply sum_ext. intros i _. f_equal. unfold pair_val. cbv zeta.
  assert (forall s i j, val match s with up => gf_mat Gu | dn => gf_mat Gd end (i + N * j) = greens_of N Gu Gd s i j) as E
    by (intros [] ? ?; reflexivity).
  repeat (destruct Hf as [<-|Hf]; [cbn -[greens_of site cell_step cell_plus]; now rewrite ?E|]). destruct Hf.
Qed.

Lemma inc_density Gu Gd o :
  let w := equal_time (greens_of N Gu Gd) in
  inc Gu Gd density_u o = (sign_of Gu Gd * average Ncell (fun i => expect_00 w (number up (site Ncell i o))))%R /\
  inc Gu Gd density_d o = (sign_of Gu Gd * average Ncell (fun i => expect_00 w (number dn (site Ncell i o))))%R /\
  inc Gu Gd doubleocc o = (sign_of Gu Gd * average Ncell (fun i =>
      correlation w (number up (site Ncell i o)) (number dn (site Ncell i o))))%R.
Proof.
  cbv zeta. rewrite <- !average_scal. unfold inc. repeat split; f_equal; apply sum_ext; intros i _;
    cbn -[val site Z.mul Z.add delta greens_of]; unfold delta; rewrite Z.eqb_refl; unfold greens_of; ring.
Qed.

Lemma inc_grfun Gu Gd k : inc Gu Gd grfun_u k = (sign_of Gu Gd * val (gf_mat Gu) k)%R /\
  inc Gu Gd grfun_d k = (sign_of Gu Gd * val (gf_mat Gd) k)%R.
Proof. split; reflexivity. Qed.

(** every ordered pair of cells has exactly one displacement *)
Lemma displacement_unique i j : 0 <= i < Ncell -> 0 <= j < Ncell ->
  exists k, 0 <= k < Ncell /\ cell_plus Nx Ny sh k i = j /\
    forall k', 0 <= k' < Ncell -> cell_plus Nx Ny sh k' i = j -> k' = k.
Proof.
  intros Hi Hj. pose proof (cplus_group Nx Ny sh HNx HNy) as [G1 G2 G3 [G4 G5] G6].
  change (cell_plus Nx Ny sh) with (cplus Nx Ny sh). set (pl := cplus Nx Ny sh) in *.
  destruct (G6 i Hi) as (i' & Hi' & Ei).
  assert (forall k, 0 <= k < Ncell -> pl (pl k i) i' = k) as Cancel.
  { intros k Hk. rewrite <- G2, Ei, G3, G5; auto. }
  exists (pl j i'). split; [apply G1; auto|]. split.
  - rewrite <- G2 by auto. rewrite (G3 i'), Ei, G3, G5; auto.
  - intros k' Hk' E. now rewrite <- (Cancel k'), E.
Qed.

Lemma sum_displacements i (h : Z -> R) : 0 <= i < Ncell ->
  sum 0 Ncell (fun k => h (cell_plus Nx Ny sh k i)) = sum 0 Ncell h.
Proof.
  intros Hi.
  rewrite (@sum_ext _ _ _ (fun k => sum 0 Ncell (fun j => if j =? cell_plus Nx Ny sh k i then h j else 0%R))).
  2:{ intros k Hk. symmetry. rewrite (@sum_single _ _ _ (cell_plus Nx Ny sh k i)).
      - now rewrite Z.eqb_refl.
      - apply plus_range; auto.
      - intros j _ Hn. apply Z.eqb_neq in Hn. now rewrite Hn. }
  rewrite sum_swap. apply sum_ext. intros j Hj.
  destruct (displacement_unique i j Hi Hj) as (k & Hk & Ek & Uk).
  rewrite (@sum_single _ _ _ k); auto.
  - now rewrite Ek, Z.eqb_refl.
  - intros k' Hk' Hn. destruct (Z.eqb_spec j (cell_plus Nx Ny sh k' i)); auto.
    exfalso. apply Hn. apply Uk; auto.
Qed.
End Seq.
