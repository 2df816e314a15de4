(** Proofs about the equal time measurements recorded for every site. *)
From Coq Require Import ZArith List Reals Lia Lra Bool.
From Verif Require Import Base BaseFacts Sums SumsFacts RealOps Blas BlasFacts Lattice LatticeSpec LatticeFacts
  GreenConstruct Accum AccumFacts WickSpec Measure MeasureSpec MeasureFacts MeasureSeqFacts FMeasure.
Import ListNotations.
Local Open Scope Z_scope.

(** collapse of the sums over the entries *)
Lemma collapse_pair N (v : Z -> Z -> R) i0 j0 : 0 <= i0 < N -> 0 <= j0 < N ->
  sum 0 N (fun i => sum 0 N (fun j => if i + N * j =? i0 + N * j0 then v i j else 0%R)) = v i0 j0.
Proof.
  intros Hi Hj. rewrite sum_swap. now apply (collapse1 N (fun j i => v i j)).
Qed.
Lemma collapse_cells Norb Ncell (v : Z -> Z -> Z -> R) o0 i0 j0 :
  0 <= o0 < Norb -> 0 <= i0 < Ncell -> 0 <= j0 < Ncell ->
  sum 0 Norb (fun o => sum 0 Ncell (fun i => sum 0 Ncell (fun j =>
    if i + Ncell * j + Ncell * Ncell * o =? i0 + Ncell * j0 + Ncell * Ncell * o0 then v o i j else 0%R)))
  = v o0 i0 j0.
Proof.
  intros Ho Hi Hj.
  assert (forall o i j, 0 <= i < Ncell -> 0 <= j < Ncell ->
    i + Ncell * j + Ncell * Ncell * o = i0 + Ncell * j0 + Ncell * Ncell * o0 -> o = o0 /\ i = i0 /\ j = j0) as U.
  { intros o i j Hi' Hj' E.
    replace (i + Ncell * j + Ncell * Ncell * o) with (i + Ncell * (j + Ncell * o)) in E by ring.
    replace (i0 + Ncell * j0 + Ncell * Ncell * o0) with (i0 + Ncell * (j0 + Ncell * o0)) in E by ring.
    apply two_idx in E; auto. destruct E as [Ei E]. apply two_idx in E; auto. tauto. }
  rewrite (@sum_single _ _ _ o0); auto.
  - rewrite <- (collapse_pair Ncell (v o0) i0 j0) by auto. do 2 (apply sum_ext; intros).
    destruct (Z.eqb_spec (i + Ncell * i1 + Ncell * Ncell * o0) (i0 + Ncell * j0 + Ncell * Ncell * o0)),
      (Z.eqb_spec (i + Ncell * i1) (i0 + Ncell * j0)); auto; exfalso; lia.
  - intros o Ho' Hn. do 2 (apply sum_zero; intros).
    destruct (Z.eqb_spec (i + Ncell * i1 + Ncell * Ncell * o) (i0 + Ncell * j0 + Ncell * Ncell * o0)) as [E|]; auto.
    exfalso. apply Hn. eapply U; [ | |exact E]; auto.
Qed.

(** the neighbour maps *)
Lemma nn_steps Nx Ny nn : 0 < Nx -> 0 < Ny ->
  (exists junk, lattice_nn_map Nx Ny (let r := map junk (map Z.of_nat (seq 0 (Z.to_nat (Nx * Ny)))) in mk_nn_maps r r r r) = Some nn) ->
  forall x, 0 <= x < Nx * Ny ->
    aget (xp1 nn) x = Some (cell_step Nx Ny 0 (1, 0) x) /\ aget (xm1 nn) x = Some (cell_step Nx Ny 0 (-1, 0) x) /\
    aget (yp1 nn) x = Some (cell_step Nx Ny 0 (0, 1) x) /\ aget (ym1 nn) x = Some (cell_step Nx Ny 0 (0, -1) x).
Proof.
  intros HNx HNy [junk E] x Hx.
  destruct (nn_map_ok Nx Ny HNx HNy (let r := map junk (map Z.of_nat (seq 0 (Z.to_nat (Nx * Ny)))) in mk_nn_maps r r r r))
    as (nn' & E' & (L1 & L2 & L3 & L4) & Hnn); try (apply raw_len; nia).
  rewrite E in E'. injection E' as <-.
  rewrite !aget_at by lia.
  destruct (coords_range Nx Ny HNx x Hx) as [Hx' Hy'].
  destruct (Hnn (fst (coords Nx x)) (snd (coords Nx x)) Hx' Hy' I) as (F1 & F2 & F3 & F4).
  assert (fst (coords Nx x) + Nx * snd (coords Nx x) = x) as Ec.
  { unfold coords; cbn [fst snd]. pose proof (Z.div_mod x Nx). lia. }
  rewrite Ec in *. rewrite F1, F2, F3, F4. unfold cell_step, vplus. cbn [fst snd].
  rewrite !Z.add_0_r. auto.
Qed.
Lemma nn_map_total Nx Ny junk : 0 < Nx -> 0 < Ny -> exists nn,
  lattice_nn_map Nx Ny (let r := map junk (map Z.of_nat (seq 0 (Z.to_nat (Nx * Ny)))) in mk_nn_maps r r r r) = Some nn.
Proof.
  intros HNx HNy.
  destruct (nn_map_ok Nx Ny HNx HNy (let r := map junk (map Z.of_nat (seq 0 (Z.to_nat (Nx * Ny)))) in mk_nn_maps r r r r))
    as (nn & E & _); try (apply raw_len; nia). eauto.
Qed.

Section Full.
Variables (Norb Nx Ny : Z).
Hypotheses (HNorb : 0 < Norb) (HNx : 0 < Nx) (HNy : 0 < Ny).
Notation Ncell := (Nx * Ny).
Notation N := (Nx * Ny * Norb).
Notation size := (fmfield_len Norb Ncell).
Notation Accs := (accs mfield size).
Notation Adds := (adds mfield size).
Notation step := (cell_step Nx Ny 0).

Definition fmaps_ok (nn : nn_maps) : Prop := forall c, 0 <= c < Ncell ->
  neighbours nn c = Some (step (1, 0) c, step (-1, 0) c, step (0, 1) c, step (0, -1) c).

Lemma cells_range o i j : 0 <= o < Norb -> 0 <= i < Ncell -> 0 <= j < Ncell ->
  0 <= i + Ncell * j + Ncell * Ncell * o < Ncell * Ncell * Norb.
Proof. intros. assert (0 <= i + Ncell * j < Ncell * Ncell) by nia. split; nia. Qed.

Section Sample.
Variables (sign : R) (Gu Gd : list R).
Hypotheses (HGu : lenZ Gu = N * N) (HGd : lenZ Gd = N * N).
Let G (s : spin) (i j : Z) : R := val (match s with up => Gu | dn => Gd end) (i + N * j).
Notation w := (equal_time G).

Let Ug r q := Gu_get Norb Nx Ny HNorb HNx HNy Gu Gd HGu r q.
Let Dg r q := Gd_get Norb Nx Ny HNorb HNx HNy Gu Gd HGd r q.

Lemma facc_density_ok : Adds (facc_density sign Gu Gd N)
  (fun f idx => match f with
     | density_u | density_d | doubleocc => (sign * dens_val Norb Nx Ny Gu Gd f idx)%R
     | _ => 0%R end).
Proof.
  unfold facc_density. eapply adds_ext; [|apply adds_loop; [nia|]].
  2:{ intros i Hi s g H. rewrite Ug, Dg by auto. cbn [obind]. cbn beta.
      assert (forall f v, In f [density_u; density_d; doubleocc] ->
            Adds (m_add f i v) (fun f' k' => if mfield_eqb f' f && (i =? k') then v else 0%R)) as A.
      { intros f v Hf. apply adds_add_to; [exact mfield_eqbP|].
        repeat (destruct Hf as [<-|Hf]; [exact Hi|]). destruct Hf. }
      revert s g H.
      refine (adds_seq _ _ _ _ _ _ (A density_u _ _) (adds_seq _ _ _ _ _ _ (A density_d _ _) (A doubleocc _ _)));
        cbn; tauto. }
  cbn beta. intros f k Hk.
  destruct f; cbn -[Z.mul val] in Hk |- *;
    try (apply sum_zero; intros; ring);
    (rewrite (@sum_single _ _ _ k); [rewrite Z.eqb_refl; ring | lia |
      intros o Ho Hn; destruct (Z.eqb_spec o k); [lia|ring]]).
Qed.

Definition fcorr_inc (i j : Z) (f : mfield) (idx : Z) : R :=
  if i + N * j =? idx then (sign * two_point f w i j)%R else 0%R.

Lemma facc_corr_site_ok i j : 0 <= i < N -> 0 <= j < N ->
  Adds (facc_corr_site sign Gu Gd N i (G up i i) (G dn i i) j) (fcorr_inc i j).
Proof.
  intros Hi Hj s g H. unfold facc_corr_site.
  rewrite !Ug, !Dg by auto. cbn [obind]. cbn beta. fold (G up j j) (G dn j j) (G up i j) (G dn i j) (G up j i) (G dn j i).
  pose proof (mat_range Norb Nx Ny HNorb HNx HNy i j Hi Hj) as He.
  assert (forall f v, In f two_point_fields ->
            Adds (m_add f (i + N * j) v)
              (fun f' k' => if mfield_eqb f' f && (i + N * j =? k') then v else 0%R)) as A.
  { intros f v Hf. apply adds_add_to; [exact mfield_eqbP|].
    repeat (destruct Hf as [<-|Hf]; [exact He|]). destruct Hf. }
  destruct (Z.eqb_spec i j) as [<-|Hne].
  - revert s g H. eapply adds_ext.
    2:{ refine (adds_seq _ _ _ _ _ _ (adds_seq _ _ _ _ _ _ (A uu_corr _ _)
          (adds_seq _ _ _ _ _ _ (A dd_corr _ _) (adds_seq _ _ _ _ _ _ (A ff_corr _ _)
          (adds_seq _ _ _ _ _ _ (A zz_corr _ _) (A xx_corr _ _))))) (A ud_corr _ _)); cbn; tauto. }
    intros f idx _. unfold fcorr_inc. rewrite (two_point_same Norb Nx Ny Gu Gd).
    destruct f; cbn -[G]; destruct (_ =? idx); unfold G; ring.
  - revert s g H. eapply adds_ext.
    2:{ refine (adds_seq _ _ _ _ _ _ (adds_seq _ _ _ _ _ _ (A uu_corr _ _)
          (adds_seq _ _ _ _ _ _ (A dd_corr _ _) (adds_seq _ _ _ _ _ _ (A ff_corr _ _)
          (adds_seq _ _ _ _ _ _ (A zz_corr _ _) (A xx_corr _ _))))) (A ud_corr _ _)); cbn; tauto. }
    intros f idx _. unfold fcorr_inc. rewrite (two_point_diff Norb Nx Ny Gu Gd) by auto.
    destruct f; cbn -[G]; destruct (_ =? idx); unfold G; ring.
Qed.

Lemma facc_corr_ok : Adds (facc_corr sign Gu Gd N)
  (fun f idx => sum 0 N (fun i => sum 0 N (fun j => fcorr_inc i j f idx))).
Proof.
  unfold facc_corr. apply (adds_loop _ _ 0 N _ (fun i f idx => sum 0 N (fun j => fcorr_inc i j f idx))); [nia|].
  intros i Hi s g H. rewrite Ug, Dg by auto. cbn [obind]. revert s g H.
  apply (adds_loop _ _ 0 N _ (fun j => fcorr_inc i j)); [nia|]. intros j Hj. now apply facc_corr_site_ok.
Qed.

Definition fpair_inc (o i j : Z) (f : mfield) (idx : Z) : R :=
  if i + Ncell * j + Ncell * Ncell * o =? idx then (sign * pair_val Norb Nx Ny Gu Gd f o i j)%R else 0%R.

Lemma facc_sc_site_ok nn o i j : fmaps_ok nn ->
  0 <= o < Norb -> 0 <= i < Ncell -> 0 <= j < Ncell ->
  Adds (facc_sc_site sign (Gu, Ncell * o + N * (Ncell * o)) (Gd, Ncell * o + N * (Ncell * o)) N Ncell nn o i
          (step (1, 0) i) (step (-1, 0) i) (step (0, 1) i) (step (0, -1) i) j) (fpair_inc o i j).
Proof.
  intros Hnn Ho Hi Hj s g H. unfold facc_sc_site.
  rewrite Hnn by auto. cbn [obind].
  pose proof (fun d => step_range Nx Ny HNx HNy d i) as Ri. pose proof (fun d => step_range Nx Ny HNx HNy d j) as Rj.
  set (off := Ncell * o + N * (Ncell * o)).
  assert (forall a b, 0 <= a < Ncell -> 0 <= b < Ncell -> 0 <= off + (a + N * b) < lenZ Gu) as BU.
  { intros. rewrite HGu. now apply orb_range. }
  assert (forall a b, 0 <= a < Ncell -> 0 <= b < Ncell -> 0 <= off + (a + N * b) < lenZ Gd) as BD.
  { intros. rewrite HGd. now apply orb_range. }
  assert (forall a b, rat Gu (off + (a + N * b)) = G up (site Ncell a o) (site Ncell b o)) as EU.
  { intros. apply (orbE Norb Nx Ny Gu Gd up). }
  assert (forall a b, rat Gd (off + (a + N * b)) = G dn (site Ncell a o) (site Ncell b o)) as ED.
  { intros. apply (orbE Norb Nx Ny Gu Gd dn). }
  pose proof (cells_range o i j Ho Hi Hj) as He.
  set (e := i + Ncell * j + Ncell * Ncell * o) in *.
  assert (forall f v, In f pair_fields ->
            Adds (m_add f e v) (fun f' k' => if mfield_eqb f' f && (e =? k') then v else 0%R)) as A.
  { intros f v Hf. apply adds_add_to; [exact mfield_eqbP|].
    repeat (destruct Hf as [<-|Hf]; [exact He|]). destruct Hf. }
  rewrite !eval_ok by (cbn [reads_ok fst snd]; repeat split; (apply BU || apply BD); auto).
  cbn [obind].
  rewrite !eval_ok by (cbn [reads_ok fst snd]; repeat split; (apply BU || apply BD); auto).
  cbn [obind value fst snd]. rewrite !EU, !ED.
  revert s g H. eapply adds_ext.
  2:{ refine (adds_seq _ _ _ _ _ _ (A sc_c_sw _ _) (adds_seq _ _ _ _ _ _ (A sc_c_dw _ _) (A sc_c_sx _ _))); cbn; tauto. }
  intros f idx _. unfold fpair_inc. fold e.
  destruct f; cbn -[G cell_step site Z.mul Z.add]; try (destruct (_ =? idx); reflexivity || ring).
  all: destruct (_ =? idx); [|ring].
  - unfold pair_val. cbn -[G cell_step site Z.mul Z.add val]. rewrite !step_zero by auto. unfold G, val. ring.
  - unfold pair_val. cbn -[G cell_step site Z.mul Z.add val]. replace 0.25%R with (/2 * /2)%R by lra. unfold G, val. ring.
  - unfold pair_val. cbn -[G cell_step site Z.mul Z.add val]. replace 0.25%R with (/2 * /2)%R by lra. unfold G, val. ring.
Qed.

Lemma facc_sc_ok nn : fmaps_ok nn ->
  Adds (facc_sc sign Gu Gd N Norb Ncell nn)
    (fun f idx => sum 0 Norb (fun o => sum 0 Ncell (fun i => sum 0 Ncell (fun j => fpair_inc o i j f idx)))).
Proof.
  intros Hm. unfold facc_sc.
  apply (adds_loop _ _ 0 Norb _ (fun o f idx => sum 0 Ncell (fun i => sum 0 Ncell (fun j =>
        fpair_inc o i j f idx)))); [lia|]. intros o Ho. cbv zeta.
  apply (adds_loop _ _ 0 Ncell _ (fun i f idx => sum 0 Ncell (fun j => fpair_inc o i j f idx))); [nia|].
  intros i Hi s g H'. unfold facc_sc_row. rewrite Hm by auto. cbn [obind]. revert s g H'.
  apply (adds_loop _ _ 0 Ncell _ (fun j => fpair_inc o i j)); [nia|]. intros j Hj. now apply facc_sc_site_ok.
Qed.
End Sample.

Record fmeas_ok (m : meas) (g : mfield -> Z -> R) : Prop := {
  fo_Norb : m_Norb m = Norb;
  fo_Ncell : m_Ncell m = Ncell;
  fo_maps : fmaps_ok (m_nn m);
  fo_arr : Accs (m_arr m) g }.

(** what one sample adds *)
Definition finc (Gu Gd : greens_func) (f : mfield) (idx : Z) : R :=
  let u := gf_mat Gu in let d := gf_mat Gd in let sg := sign_of Gu Gd in
  match f with
  | density_u | density_d | doubleocc => (sg * dens_val Norb Nx Ny u d f idx)%R
  | grfun_u => (sg * val u idx)%R
  | grfun_d => (sg * val d idx)%R
  | uu_corr | dd_corr | ud_corr | ff_corr | zz_corr | xx_corr =>
      sum 0 N (fun i => sum 0 N (fun j => fcorr_inc sg u d i j f idx))
  | sc_c_sw | sc_c_dw | sc_c_sx =>
      sum 0 Norb (fun o => sum 0 Ncell (fun i => sum 0 Ncell (fun j => fpair_inc sg u d o i j f idx)))
  end.

Notation good := (good Norb Nx Ny).

Lemma f_accumulate_ok Gu Gd m g : good Gu -> good Gd -> fmeas_ok m g ->
  exists m', f_accumulate Gu Gd m = Some m' /\ fmeas_ok m' (fun f k => g f k + finc Gu Gd f k)%R /\
    m_sign m' = (m_sign m + sign_of Gu Gd)%R /\ m_nsampl m' = m_nsampl m + 1.
Proof.
  intros HGu HGd [E1 E2 Hm Ha]. unfold f_accumulate. rewrite E1, E2. fold (sign_of Gu Gd).
  set (sg := sign_of Gu Gd). set (u := gf_mat Gu). set (d := gf_mat Gd).
  assert (0 <= N * N) as HNN by nia.
  destruct (facc_density_ok sg u d HGu HGd _ _ Ha) as (s1 & -> & A1). cbn [obind].
  destruct (axpy_field_ok _ _ _ mfield_eqbP _ _ (N * N) sg u grfun_u A1) as (s2 & -> & A2);
    [reflexivity | auto | unfold u; rewrite HGu; lia |]. cbn [obind].
  destruct (axpy_field_ok _ _ _ mfield_eqbP _ _ (N * N) sg d grfun_d A2) as (s3 & -> & A3);
    [reflexivity | auto | unfold d; rewrite HGd; lia |]. cbn [obind].
  destruct (facc_corr_ok sg u d HGu HGd _ _ A3) as (s4 & -> & A4). cbn [obind].
  destruct (facc_sc_ok sg u d HGu HGd _ Hm _ _ A4) as (s5 & -> & A5).
  cbn [obind]. eexists; split; [reflexivity|]. split; [|split; reflexivity].
  split; cbn [m_Norb m_Ncell m_nn m_arr]; auto.
  eapply accs_ext; [|exact A5]. cbn beta. intros f k Hk. unfold finc. fold u d sg.
  assert (forall f, ~ In f two_point_fields -> sum 0 N (fun i => sum 0 N (fun j => fcorr_inc sg u d i j f k)) = 0%R) as Z1.
  { intros f' Hf. do 2 (apply sum_zero; intros). unfold fcorr_inc. destruct f'; try (exfalso; apply Hf; cbn; tauto);
      cbn; destruct (_ =? _); ring. }
  assert (forall f, ~ In f pair_fields -> sum 0 Norb (fun o => sum 0 Ncell (fun i => sum 0 Ncell (fun j => fpair_inc sg u d o i j f k))) = 0%R) as Z2.
  { intros f' Hf. do 3 (apply sum_zero; intros). unfold fpair_inc, pair_val. destruct f'; try (exfalso; apply Hf; cbn; tauto);
      cbn; destruct (_ =? _); ring. }
  destruct f; cbn [mfield_eqb mfield_eq_dec]; unfold mfield_eqb; cbn -[sum Z.mul dens_val fcorr_inc fpair_inc];
    try (rewrite Z1 by (cbn; intuition discriminate));
    try (rewrite Z2 by (cbn; intuition discriminate)); unfold val, rat; try ring.
Qed.

Lemma fsize_nonneg f : 0 <= size f.
Proof. destruct f; cbn; nia. Qed.

Lemma f_allocate_ok junk sh : exists m, f_allocate junk Norb Nx Ny sh = Some m /\
  fmeas_ok m (fun _ _ => 0%R) /\ m_sign m = 0%R /\ m_nsampl m = 0.
Proof.
  unfold f_allocate. destruct (nn_map_total Nx Ny junk HNx HNy) as [nn E].
  pose proof (nn_steps Nx Ny nn HNx HNy (ex_intro _ junk E)) as Q.
  cbv zeta in E. rewrite E. cbn [obind].
  eexists; split; [reflexivity|]. split; [|split; reflexivity]. split; cbn [m_Norb m_Ncell m_nn m_arr]; auto.
  - intros c Hc. unfold neighbours. destruct (Q c Hc) as (-> & -> & -> & ->). reflexivity.
  - intros f. apply repeat_arr. apply fsize_nonneg.
Qed.

Lemma f_accumulate_all_ok samples : forall m g,
  (forall s, In s samples -> good (fst s) /\ good (snd s)) -> fmeas_ok m g ->
  exists m', f_accumulate_all samples m = Some m' /\
    fmeas_ok m' (fun f k => g f k + lsum (fun s => finc (fst s) (snd s) f k) samples)%R /\
    m_sign m' = (m_sign m + lsum (fun s => sign_of (fst s) (snd s)) samples)%R /\
    m_nsampl m' = m_nsampl m + Z.of_nat (length samples).
Proof.
  induction samples as [|s l IH]; intros m g Hg Hm.
  - exists m. split; [reflexivity|]. cbn. split; [|split; [ring|lia]].
    destruct Hm as [H1 H2 H3 H4]; split; auto. eapply accs_ext; [|exact H4]. intros; cbn; ring.
  - destruct (Hg s ltac:(now left)) as [Hu Hd].
    destruct (f_accumulate_ok _ _ _ _ Hu Hd Hm) as (m1 & E1 & Hm1 & Es & En).
    destruct (IH m1 _ ltac:(intros; apply Hg; now right) Hm1) as (m' & E & Hm' & Es' & En').
    exists m'. unfold f_accumulate_all in *. cbn [fold_left obind]. rewrite E1, E. split; [reflexivity|].
    split; [|split].
    + destruct Hm' as [H1 H2 H3 H4]; split; auto. eapply accs_ext; [|exact H4]. unfold lsum; cbn [fold_right]. intros. ring.
    + rewrite Es', Es. unfold lsum; cbn [fold_right]. ring.
    + rewrite En', En. cbn [length]. lia.
Qed.

Lemma f_normalize_ok m g : m_nsampl m <> 0 -> fmeas_ok m g ->
  exists m', f_normalize m = Some m' /\ fmeas_ok m' (fun f k => g f k / IZR (m_nsampl m))%R /\
    m_sign m' = (m_sign m / IZR (m_nsampl m))%R /\ m_nsampl m' = m_nsampl m.
Proof.
  intros Hn [E1 E2 Hm Ha]. unfold f_normalize. rewrite E1, E2.
  rewrite rdiv_ok by (apply IZR_neq; lia). cbn [obind].
  set (c := (1 / IZR (m_nsampl m))%R).
  set (sc := fun (done : list mfield) f k => if existsb (mfield_eqb f) done then (c * g f k)%R else g f k).
  assert (forall f n s done, Accs s (sc done) -> n = size f -> existsb (mfield_eqb f) done = false ->
     exists s', m_scale n c f s = Some s' /\ Accs s' (sc (f :: done))) as S.
  { intros f n s done H -> Hd.
    destruct (scale_field_ok _ _ _ mfield_eqbP s (sc done) (size f) c f H eq_refl (fsize_nonneg f)) as (s' & E & A).
    exists s'; split; auto. eapply accs_ext; [|exact A]. cbn beta. intros f' k _. unfold sc. cbn [existsb].
    destruct (mfield_eqb f' f) eqn:Ef; cbn [orb]; auto. apply mfield_eqbP in Ef. subst. now rewrite Hd. }
  assert (Accs (m_arr m) (sc [])) as A by exact Ha. clear Ha.
  repeat match goal with
  | H : Accs ?s (sc ?done) |- context [m_scale ?n c ?f ?s] =>
      let s' := fresh "s" in let A := fresh "A" in
      destruct (S f n s done H eq_refl eq_refl) as (s' & -> & A); clear H; cbn [obind]
  end.
  eexists; split; [reflexivity|]. cbn [m_sign m_nsampl]. split; [|split; [unfold c; unfold Rdiv; ring|reflexivity]].
  split; cbn [m_Norb m_Ncell m_nn m_arr]; auto.
  eapply accs_ext; [|eassumption]. intros f k Hk. unfold sc.
  replace (existsb _ _) with true by (destruct f; reflexivity). unfold c, Rdiv. ring.
Qed.

Lemma f_normalize_zero m : m_nsampl m = 0 -> f_normalize m = None.
Proof.
  intros E. unfold f_normalize. rewrite E. unfold rdiv. destruct (Req_EM_T 0 0); [reflexivity|congruence].
Qed.

(** the increments, entry by entry *)
Lemma finc_two_point Gu Gd f i j : In f two_point_fields -> 0 <= i < N -> 0 <= j < N ->
  finc Gu Gd f (i + N * j) = (sign_of Gu Gd * two_point f (equal_time (greens_of N Gu Gd)) i j)%R.
Proof.
  intros Hf Hi Hj.
  transitivity (sum 0 N (fun i' => sum 0 N (fun j' => fcorr_inc (sign_of Gu Gd) (gf_mat Gu) (gf_mat Gd) i' j' f (i + N * j)))).
  { repeat (destruct Hf as [<-|Hf]; [reflexivity|]). destruct Hf. }
  unfold fcorr_inc.
  rewrite (collapse_pair N (fun i' j' => (sign_of Gu Gd *
     two_point f (equal_time (fun s i j => val match s with up => gf_mat Gu | dn => gf_mat Gd end (i + N * j))) i' j')%R)) by auto.
  f_equal.
Qed.

Lemma finc_pair Gu Gd f o i j : In f pair_fields -> 0 <= o < Norb -> 0 <= i < Ncell -> 0 <= j < Ncell ->
  finc Gu Gd f (i + Ncell * j + Ncell * Ncell * o) =
    (sign_of Gu Gd * pair_correlation (equal_time (greens_of N Gu Gd))
          (pair_op (site Ncell i o) (pair_shape f (fun d => site Ncell (step d i) o)))
          (pair_op (site Ncell j o) (pair_shape f (fun d => site Ncell (step d j) o))))%R.
Proof.
  intros Hf Ho Hi Hj.
  transitivity (sum 0 Norb (fun o' => sum 0 Ncell (fun i' => sum 0 Ncell (fun j' =>
     fpair_inc (sign_of Gu Gd) (gf_mat Gu) (gf_mat Gd) o' i' j' f (i + Ncell * j + Ncell * Ncell * o))))).
  { repeat (destruct Hf as [<-|Hf]; [reflexivity|]). destruct Hf. }
  unfold fpair_inc.
  rewrite (collapse_cells Norb Ncell (fun o' i' j' =>
     (sign_of Gu Gd * pair_val Norb Nx Ny (gf_mat Gu) (gf_mat Gd) f o' i' j')%R)) by auto.
  f_equal. unfold pair_val.
  assert (forall s i j, val match s with up => gf_mat Gu | dn => gf_mat Gd end (i + N * j) = greens_of N Gu Gd s i j) as E
    by (intros [] ? ?; reflexivity).
  repeat (destruct Hf as [<-|Hf]; [cbn -[greens_of site cell_step]; now rewrite ?E|]). destruct Hf.
Qed.

Lemma finc_density Gu Gd i :
  let w := equal_time (greens_of N Gu Gd) in
  finc Gu Gd density_u i = (sign_of Gu Gd * expect_00 w (number up i))%R /\
  finc Gu Gd density_d i = (sign_of Gu Gd * expect_00 w (number dn i))%R /\
  finc Gu Gd doubleocc i = (sign_of Gu Gd * correlation w (number up i) (number dn i))%R.
Proof.
  cbv zeta. unfold finc. repeat split; f_equal;
    cbn -[val Z.mul Z.add delta greens_of]; unfold delta; rewrite Z.eqb_refl; unfold greens_of; ring.
Qed.

Lemma finc_grfun Gu Gd k : finc Gu Gd grfun_u k = (sign_of Gu Gd * val (gf_mat Gu) k)%R /\
  finc Gu Gd grfun_d k = (sign_of Gu Gd * val (gf_mat Gd) k)%R.
Proof. split; reflexivity. Qed.

(** the summary *)
Lemma f_summary_ok m g : fmeas_ok m g ->
  f_summary m = Some (m_sign m, (sum 0 N (fun i => g density_u i + g density_d i) / IZR Ncell)%R).
Proof.
  intros [E1 E2 Hm Ha]. unfold f_summary. rewrite E1, E2. replace (Norb * Ncell) with N by ring.
  match goal with |- obind (for_range _ _ ?body ?s0) _ = _ =>
    destruct (@for_range_inv _ (fun h t => t = sum 0 h (fun i => g density_u i + g density_d i)%R) 0 N body s0)
      as (s' & E & H) end.
  - nia.
  - intros i t Hi ->. rewrite (proj2 (Ha density_u) i Hi), (proj2 (Ha density_d) i Hi). cbn [obind].
    eexists; split; [reflexivity|]. now rewrite sum_last by lia.
  - now rewrite sum_nil.
  - rewrite E. cbn [obind]. rewrite rdiv_ok by (apply IZR_Ncell; auto). now rewrite H.
Qed.
End Full.
