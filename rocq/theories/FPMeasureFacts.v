(** Proofs about the phonon measurements of the build which records every pair of sites. *)
From Coq Require Import ZArith List Reals Lia Lra Bool.
From Verif Require Import Base BaseFacts Sums SumsFacts RealOps Blas BlasFacts LatticeFacts GreenConstruct
  Accum AccumFacts WickSpec MeasureSpec MeasureSeqFacts PMeasure PMeasureSpec PMeasureFacts PhononSweep PhononCountSpec Summary PSummaryFacts FPMeasure.
Import ListNotations.
Local Open Scope Z_scope.

Lemma fpfield_eqbP f g : fpfield_eqb f g = true <-> f = g.
Proof. unfold fpfield_eqb. destruct (fpfield_eq_dec f g); split; congruence. Qed.

Section Facts.
Variables (Norb Ncell L mx : Z).
Hypotheses (HNorb : 0 < Norb) (HNcell : 0 < Ncell) (HL : 0 < L).
Notation N := (Ncell * Norb).
Notation size := (fpfield_len Norb mx).
Notation Accs := (accs fpfield size).
Notation Adds := (adds fpfield size).

Section One.
Variables (sign sf : R) (X : list R) (n : Z).
Hypotheses (HX : lenZ X = N * L) (Hn : 0 <= n < mx).

Definition fsite_inc (o i l : Z) (f : fpfield) (k : Z) : R :=
  let x := field Norb Ncell X o i l in
  match f with
  | fX_avg => if o =? k then sf * x else 0
  | fX_sq_avg => if o =? k then sf * x ^ 2 else 0
  | fiteration_X_avg => if (o + n * Norb) =? k then sf * x else 0
  | fiteration_X0 => 0
  end%R.

Lemma facc_site_adds o i l : 0 <= o < Norb -> 0 <= i < Ncell -> 0 <= l < L ->
  Adds (facc_site sf X Norb Ncell n l o i) (fsite_inc o i l).
Proof.
  intros Ho Hi Hl s g Hs. unfold facc_site.
  rewrite (X_at Norb Ncell L HNorb HNcell X) by auto. cbn [obind].
  set (x := field Norb Ncell X o i l).
  assert (0 <= o + n * Norb < Norb * mx) as Hh by nia.
  do 3 (match goal with H : Accs ?s _ |- context [fp_add ?f ?k ?v ?s] =>
    let s' := fresh "s" in let A := fresh "A" in
    destruct (add_to_ok _ _ size fpfield_eqbP s _ f k v H) as (s' & -> & A); [cbn; lia|]; clear H; cbn [obind] end).
  eexists; split; [reflexivity|]. eapply accs_ext; [|eassumption]. cbn beta. intros f k _.
  destruct f; unfold fpfield_eqb, fsite_inc; cbn -[Z.mul Z.add Z.eqb field val x Rmult Rplus];
    try destruct (_ =? _); fold x; ring.
Qed.

Definition forb_inc (o l : Z) (f : fpfield) (k : Z) : R :=
  (sum 0 Ncell (fun i => fsite_inc o i l f k) +
   match f with fiteration_X0 => if (o + n * Norb) =? k then sign / IZR L * field Norb Ncell X o 0 l else 0 | _ => 0 end)%R.

Lemma facc_orbital_adds o l : 0 <= o < Norb -> 0 <= l < L ->
  Adds (facc_orbital sign sf X Norb Ncell L n l o) (forb_inc o l).
Proof.
  intros Ho Hl. unfold facc_orbital.
  replace (o * Ncell + l * N) with (0 + o * Ncell + l * N) by ring.
  apply (adds_ext _ _ _ (fun f k => (sum 0 Ncell (fun i => fsite_inc o i l f k) +
    if fpfield_eqb f fiteration_X0 && ((o + n * Norb) =? k) then sign / IZR L * field Norb Ncell X o 0 l else 0)%R)).
  { intros f k _. unfold forb_inc. f_equal. destruct f; reflexivity. }
  apply (adds_seq _ _ (for_range 0 Ncell _)).
  - apply adds_loop; [lia|]. intros i Hi. now apply facc_site_adds.
  - rewrite (X_at Norb Ncell L HNorb HNcell X) by (auto; lia). rewrite rdiv_ok by (now apply IZR_pos_neq). cbn [obind].
    apply adds_add_to; [exact fpfield_eqbP|]. cbn. nia.
Qed.

Lemma facc_slices_adds :
  Adds (for_range 0 L (facc_slice sign sf X Norb Ncell L n))
    (fun f k => sum 0 L (fun l => sum 0 Norb (fun o => forb_inc o l f k))).
Proof.
  apply adds_loop; [lia|]. intros l Hl. unfold facc_slice. apply adds_loop; [lia|]. intros o Ho. now apply facc_orbital_adds.
Qed.
End One.

Record fpmeas_ok (m : fpmeas) (g : fpfield -> Z -> R) : Prop := {
  fpo_Norb : fp_Norb m = Norb;
  fpo_Ncell : fp_Ncell m = Ncell;
  fpo_L : fp_L m = L;
  fpo_arr : Accs (fp_arr m) g }.

(** the corresponding array of the default build *)
Definition dflt (f : fpfield) : pfield :=
  match f with fX_avg => X_avg | fX_sq_avg => X_sq_avg | fiteration_X_avg => iteration_X_avg | fiteration_X0 => iteration_X0 end.

Variables (dt : R) (omega : list R).
Notation inc := (pinc Norb Ncell L dt omega).

Lemma fpaccumulate_ok s m g : psample_ok Norb Ncell L s -> fpmeas_ok m g -> 0 <= fp_nsampl m < mx ->
  exists m', fpaccumulate (ps_Gu s) (ps_Gd s) (ps_X s) m = Some m' /\
    fpmeas_ok m' (fun f k => g f k + inc (fp_nsampl m) s (dflt f) k)%R /\
    fp_sign m' = (fp_sign m + psign s)%R /\ fp_nsampl m' = fp_nsampl m + 1 /\ fp_counts m' = fp_counts m.
Proof.
  intros (HGu & HGd & HX & Hl) [E1 E2 E3 Ha] Hn. unfold fpaccumulate. rewrite E1, E2, E3.
  fold (sign_of (ps_Gu s) (ps_Gd s)). fold (psign s).
  rewrite rdiv_ok by now apply IZR_pos_neq. cbn [obind]. rewrite rdiv_ok by now apply IZR_pos_neq. cbn [obind].
  set (sg := psign s). set (sf := (sg / IZR Ncell / IZR L)%R). set (n := fp_nsampl m) in *.
  destruct (facc_slices_adds sg sf (ps_X s) n HX Hn _ _ Ha) as (s1 & -> & A1). cbn [obind].
  eexists; split; [reflexivity|]. split; [|repeat split; reflexivity].
  constructor; cbn [fp_Norb fp_Ncell fp_L fp_arr]; auto.
  eapply accs_ext; [|exact A1]. cbn beta. intros f k Hk. f_equal.
  set (F := field Norb Ncell (ps_X s)).
  assert (forall k (H : Z -> Z -> Z -> R), 0 <= k < Norb ->
    sum 0 L (fun l => sum 0 Norb (fun o => sum 0 Ncell (fun i => if o =? k then sf * H o i l else 0) + 0))%R
    = (sg * lattice_average Ncell L (H k))%R) as CO.
  { clear k Hk. intros k H Hk. rewrite <- average_scale by auto. fold sf.
    rewrite <- (collapse_orb Norb Ncell L k (fun o i l => H o i l)) by auto. rewrite <- sum_scal. apply sum_ext; intros l _.
    rewrite <- sum_scal. apply sum_ext; intros o _. rewrite Rplus_0_r, <- sum_scal. apply sum_ext; intros i _. destruct (o =? k); ring. }
  unfold forb_inc, fsite_inc. destruct f; cbn in Hk; unfold pinc, observable, history, dflt; fold sg; fold F.
  - now rewrite <- CO by auto.
  - now rewrite <- (CO k (fun o i l => F o i l ^ 2)%R) by auto.
  - rewrite <- (average_scale Ncell L HNcell HL). fold sf.
    transitivity (sum 0 L (fun l => sum 0 Norb (fun o => sum 0 Ncell (fun i => if (o + n * Norb) =? k then (fun o i l => sf * F o i l)%R o i l else 0%R)))).
    { do 2 (apply sum_ext; intros). apply Rplus_0_r. }
    rewrite (collapse_orb_hist Norb Ncell L n k (fun o i l => sf * F o i l)%R). destruct (_ && _); auto.
    rewrite <- sum_scal. apply sum_ext; intros. apply sum_scal.
  - destruct ((0 <=? k - n * Norb) && (k - n * Norb <? Norb)) eqn:B.
    + apply andb_true_iff in B as [B1 B2]. apply Z.leb_le in B1. apply Z.ltb_lt in B2.
      rewrite (@sum_ext _ _ _ (fun l => sg / IZR L * F (k - n * Norb)%Z 0%Z l)%R).
      * rewrite (sum_scal 0 L (sg / IZR L) (fun l => F (k - n * Norb) 0 l)). unfold average. field. now apply IZR_pos_neq.
      * intros l _. rewrite (@sum_single _ _ _ (k - n * Norb)); try lia.
        -- rewrite sum_zero by reflexivity. destruct (Z.eqb_spec (k - n * Norb + n * Norb) k); [apply Rplus_0_l|lia].
        -- intros o Ho Hne. rewrite sum_zero by reflexivity. destruct (Z.eqb_spec (o + n * Norb) k); [lia|apply Rplus_0_l].
    + apply andb_false_iff in B. rewrite Z.leb_gt, Z.ltb_ge in B.
      do 2 (apply sum_zero; intros). rewrite sum_zero by reflexivity. destruct (Z.eqb_spec (i0 + n * Norb) k); [lia|apply Rplus_0_l].
Qed.

Lemma fpmeas_ok_ext m g h : (forall f k, 0 <= k < size f -> g f k = h f k) -> fpmeas_ok m g -> fpmeas_ok m h.
Proof. intros E [H1 H2 H3 H4]. constructor; auto. eapply accs_ext; [|exact H4]. auto. Qed.

Lemma fpaccumulate_all_ok samples : forall m g, Forall (psample_ok Norb Ncell L) samples -> fpmeas_ok m g ->
  0 <= fp_nsampl m -> fp_nsampl m + Z.of_nat (length samples) <= mx ->
  exists m', fpaccumulate_all samples m = Some m' /\
    fpmeas_ok m' (fun f k => g f k + pincs Norb Ncell L dt omega (fp_nsampl m) samples (dflt f) k)%R /\
    fp_sign m' = (fp_sign m + lsum psign samples)%R /\ fp_nsampl m' = fp_nsampl m + Z.of_nat (length samples) /\
    fp_counts m' = fp_counts m.
Proof.
  induction samples as [|s t IH]; intros m g Hs Hm H0 Hmx.
  - exists m. split; [reflexivity|]. split; [|split; [unfold lsum; cbn; ring|split; [cbn; lia|reflexivity]]].
    eapply fpmeas_ok_ext; [|exact Hm]. intros; cbn; ring.
  - inversion Hs as [|? ? Hs1 Hs2]; subst. cbn [length] in Hmx.
    destruct (fpaccumulate_ok s m g Hs1 Hm) as (m1 & E1 & Hm1 & Es & En & Ec); [lia|].
    destruct (IH m1 _ Hs2 Hm1) as (m' & E & Hm' & Es' & En' & Ec'); [lia|lia|].
    exists m'. unfold fpaccumulate_all in *. cbn [fold_left obind]. rewrite E1, E. split; [reflexivity|]. split; [|split; [|split]].
    + eapply fpmeas_ok_ext; [|exact Hm']. intros f k _. cbn [pincs]. cbv beta. rewrite En. ring.
    + rewrite Es', Es. unfold lsum; cbn [fold_right]. ring.
    + rewrite En', En. cbn [length]. lia.
    + congruence.
Qed.

Lemma fpnormalize_ok m g : fp_nsampl m <> 0 -> fpmeas_ok m g ->
  exists m', fpnormalize m = Some m' /\
    fpmeas_ok m' (fun f k => match f with fiteration_X_avg | fiteration_X0 => g f k | _ => g f k / IZR (fp_nsampl m) end)%R /\
    fp_sign m' = (fp_sign m / IZR (fp_nsampl m))%R /\ fp_nsampl m' = fp_nsampl m /\ fp_counts m' = fp_counts m.
Proof.
  intros Hn [E1 E2 E3 Ha]. unfold fpnormalize. rewrite E1.
  rewrite rdiv_ok by (apply IZR_neq; lia). cbn [obind].
  set (q := (1 / IZR (fp_nsampl m))%R).
  do 2 (match goal with
  | H : Accs ?s _ |- context [fp_scale ?n q ?f ?s] =>
      let s' := fresh "s" in let A := fresh "A" in
      destruct (scale_field_ok _ _ _ fpfield_eqbP s _ n q f H) as (s' & -> & A); [reflexivity|lia|]; clear H; cbn [obind]
  end).
  eexists; split; [reflexivity|]. cbn [fp_sign fp_nsampl fp_counts]. split; [|split; [unfold q; unfold Rdiv; ring|split; reflexivity]].
  constructor; cbn [fp_Norb fp_Ncell fp_L fp_arr]; auto.
  eapply accs_ext; [|eassumption]. intros f k Hk.
  destruct f; cbv beta iota delta [fpfield_eqb fpfield_eq_dec fpfield_rec fpfield_rect]; unfold q, Rdiv; ring.
Qed.

Lemma fallocate_pmeas_ok mem Nx Ny : Ncell = Nx * Ny -> 0 <= mx ->
  exists m, fallocate_pmeas mem Norb Nx Ny L mx = Some m /\ fpmeas_ok m (fun _ _ => 0%R) /\ fp_sign m = 0%R /\ fp_nsampl m = 0 /\ fp_counts m = mem.
Proof.
  intros E Hmx. unfold fallocate_pmeas. destruct (Z.ltb_spec (Norb * mx) 0); [nia|].
  eexists; split; [reflexivity|]. split; [|repeat split; reflexivity]. constructor; auto.
  cbn [fp_arr]. intros f. eapply arr_ext; [|apply repeat_arr]; [reflexivity|]. destruct f; cbn; nia.
Qed.

End Facts.

Lemma arr_eq n a b g h : arr n a g -> arr n b h -> (forall k, 0 <= k < n -> g k = h k) -> a = b.
Proof.
  intros [La Ga] [Lb Gb] E. apply (nth_ext _ _ 0%R 0%R); [lia|]. intros j Hj.
  assert (0 <= Z.of_nat j < n) as Hk by lia. pose proof (Ga _ Hk) as A. pose proof (Gb _ Hk) as B. rewrite E in A by auto.
  rewrite aget_rat in A by (unfold lenZ; lia). rewrite aget_rat in B by (unfold lenZ; lia). unfold rat in *. rewrite !Nat2Z.id in *. congruence.
Qed.

Lemma for_ext S (f g : Z -> S -> option S) lo hi st : (forall i s, f i s = g i s) -> for_range lo hi f st = for_range lo hi g st.
Proof.
  intros H. unfold for_range. generalize (Z.to_nat (hi - lo)) as n. intros n. revert lo st.
  induction n; intros lo st; cbn; [reflexivity|]. rewrite H. destruct (g lo st); cbn; auto.
Qed.

Section Both.
Variables (Norb Nx Ny L mx : Z) (dt : R) (omega : list R) (samples : list psample) (mem : counts).
Hypotheses (H1 : 0 < Norb) (H2 : 0 < Nx) (H3 : 0 < Ny) (H4 : 0 < L) (Hdt : dt <> 0%R) (Hom : Z.of_nat (length omega) = Norb).
Notation Ncell := (Nx * Ny).
Hypotheses (Hs : Forall (psample_ok Norb Ncell L) samples) (Hmx : Z.of_nat (length samples) <= mx) (Hne : samples <> []).

Lemma both_builds : exists m0 m m' f0 f f', 
  allocate_pmeas Norb Nx Ny L mx = Some m0 /\ paccumulate_all dt omega samples m0 = Some m /\ pnormalize m = Some m' /\
  fallocate_pmeas mem Norb Nx Ny L mx = Some f0 /\ fpaccumulate_all samples f0 = Some f /\ fpnormalize f = Some f' /\
  (forall a, fp_arr f' a = p_arr m' (dflt a)) /\ fp_sign f' = p_sign m' /\ fp_nsampl f' = p_nsampl m' /\
  fp_Norb f' = Norb /\ fp_counts f' = mem /\
  fp_sign f' = (lsum psign samples / IZR (Z.of_nat (length samples)))%R /\
  (forall a o, In a [fX_avg; fX_sq_avg] -> 0 <= o < Norb -> aget (fp_arr f' a) o =
     Some (lsum (fun s => psign s * observable Norb Ncell L dt omega s (dflt a) o)%R samples / IZR (Z.of_nat (length samples)))%R).
Proof.
  assert (0 < Ncell) as HN by nia.
  assert (length samples <> 0%nat) as Hc by (destruct samples; [congruence|cbn; lia]).
  destruct (allocate_pmeas_ok Norb Ncell L mx H1 Nx Ny eq_refl) as (m0 & E0 & M0 & S0 & N0); [lia|].
  destruct (paccumulate_all_ok Norb Ncell L mx dt omega H1 HN H4 Hdt Hom samples m0 _ Hs M0) as (m & E & M & S & C); [lia|lia|].
  destruct (pnormalize_ok Norb Ncell L mx H1 m _ ltac:(lia) M) as (m' & E' & M' & S' & C').
  destruct (fallocate_pmeas_ok Norb Ncell L mx H1 mem Nx Ny eq_refl) as (f0 & F0 & G0 & T0 & K0 & J0); [lia|].
  destruct (fpaccumulate_all_ok Norb Ncell L mx H1 HN H4 dt omega samples f0 _ Hs G0) as (f & F & G & T & K & J); [lia|lia|].
  destruct (fpnormalize_ok Norb Ncell L mx H1 f _ ltac:(lia) G) as (f' & F' & G' & T' & K' & J').
  exists m0, m, m', f0, f, f'. do 6 (split; [assumption|]).
  destruct (po_arr _ _ _ _ _ _ M') as [c A]. pose proof (fpo_arr _ _ _ _ _ _ G') as B.
  rewrite N0 in *. rewrite K0 in *. rewrite S0 in *. rewrite T0 in *. rewrite Z.add_0_l in *. rewrite C, K in *. rewrite S, T in *.
  split.
  { intros a. pose proof (A (dflt a)) as Aa. pose proof (B a) as Ba. 
    assert (pfield_len Norb mx (dflt a) = fpfield_len Norb mx a) as EL by (destruct a; reflexivity). rewrite EL in Aa.
    apply (arr_eq _ _ _ _ _ Ba Aa). intros k _. destruct a; reflexivity. }
  split; [congruence|]. split; [congruence|]. split; [exact (fpo_Norb _ _ _ _ _ _ G')|]. split; [congruence|].
  split; [rewrite T'; now rewrite Rplus_0_l|].
  intros a o Ha Ho. destruct (B a) as [_ Q].
  rewrite Q by (destruct Ha as [<-|[<-|[]]]; exact Ho). f_equal.
  destruct Ha as [<-|[<-|[]]]; cbn [dflt]; rewrite Rplus_0_l; f_equal; now apply pincs_plain.
Qed.

Lemma fphonon_lines : lsum psign samples <> 0%R -> forall f0 f f',
  fallocate_pmeas mem Norb Nx Ny L mx = Some f0 -> fpaccumulate_all samples f0 = Some f -> fpnormalize f = Some f' ->
  print_fphonon_summary f' = Some ((None, average_sign, lsum psign samples / IZR (Z.of_nat (length samples)))%R ::
    flat_map (fun o => [(Some o, average_X, phonon_average Norb Ncell L dt omega samples X_avg o);
      (Some o, average_X2, phonon_average Norb Ncell L dt omega samples X_sq_avg o)]) (map Z.of_nat (seq 0 (Z.to_nat Norb)))).
Proof.
  intros HS g0 g g' K0 K K'.
  destruct both_builds as (m0 & m & m' & f0 & f & f' & _ & _ & _ & F0 & F & F' & _ & _ & _ & EN & _ & ES & Q).
  rewrite F0 in K0. injection K0 as <-. rewrite F in K. injection K as <-. rewrite F' in K'. injection K' as <-.
  unfold print_fphonon_summary. rewrite EN, ES. set (M := IZR (Z.of_nat (length samples))) in *.
  assert (M <> 0)%R as HM by (apply IZR_neq; destruct samples; [congruence|cbn [length]; lia]).
  set (S := lsum psign samples) in *.
  assert (S / M <> 0)%R as HSM. { intros K. apply HS. replace S with (S / M * M)%R by (field; exact HM). rewrite K. ring. }
  match goal with |- for_range _ _ _ ?i = Some (?h :: ?t) => change (h :: t) with (i ++ t) end.
  set (LF := fun o =>
    let* a := aget (fp_arr f' fX_avg) o in let* l1 := rdiv a (S / M)%R in
    let* a := aget (fp_arr f' fX_sq_avg) o in let* l2 := rdiv a (S / M)%R in
    Some [(Some o, average_X, l1); (Some o, average_X2, l2)]).
  etransitivity; [|apply (flat_loop omega samples Norb LF); [lia|]].
  - apply for_ext. intros o out. unfold LF.
    destruct (aget _ o); [|reflexivity]. cbn [obind]. destruct (rdiv r _); [|reflexivity]. cbn [obind].
    destruct (aget _ o); [|reflexivity]. cbn [obind]. destruct (rdiv r1 _); reflexivity.
  - intros o Ho. unfold LF. rewrite !Q by (cbn; tauto). cbn [obind]. rewrite !rdiv_ok by exact HSM. cbn [obind]. unfold phonon_average, dflt. fold S.
    assert (forall x, x / M / (S / M) = x / S)%R as QQ by (intros; field; auto). now rewrite !QQ.
Qed.
End Both.
