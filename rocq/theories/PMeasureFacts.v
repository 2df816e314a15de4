(** Proofs about phonon measurements. *)
From Coq Require Import ZArith List Reals Lia Lra Bool.
From Verif Require Import Base BaseFacts Sums SumsFacts RealOps Blas BlasFacts ParamParser LatticeFacts GreenConstruct
  Accum AccumFacts WickSpec MeasureSpec MeasureSeqFacts PMeasure PMeasureSpec.
Import ListNotations.
Local Open Scope Z_scope.

Lemma pfield_eqbP f g : pfield_eqb f g = true <-> f = g.
Proof. unfold pfield_eqb. destruct (pfield_eq_dec f g); split; congruence. Qed.

Section Facts.
Variables (Norb Ncell L mx : Z) (dt : R) (omega : list R).
Hypotheses (HNorb : 0 < Norb) (HNcell : 0 < Ncell) (HL : 0 < L) (Hdt : dt <> 0%R) (Hom : lenZ omega = Norb).
Notation N := (Ncell * Norb).
Notation size := (pfield_len Norb mx).
Notation Accs := (accs pfield size).
Notation Adds := (adds pfield size).

Lemma IZR_pos_neq n : 0 < n -> IZR n <> 0%R.
Proof. intros. apply IZR_neq. lia. Qed.

Lemma acc_average_ok sign s g : Accs s g ->
  exists s', for_range 0 Norb (acc_average sign dt) s = Some s' /\
    Accs s' (fun f k => g f k + match f with
      | X_avg => g cur_X k
      | X_avg_sq => g cur_X k * g cur_X k
      | KE => if k =? 0 then IZR Norb * (sign / (2 * dt)) else 0
      | _ => 0 end)%R.
Proof.
  intros Hs.
  destruct (@for_range_inv _ (fun h s => Accs s (fun f k => g f k + match f with
      | X_avg => if k <? h then g cur_X k else 0
      | X_avg_sq => if k <? h then g cur_X k * g cur_X k else 0
      | KE => if k =? 0 then IZR h * (sign / (2 * dt)) else 0
      | _ => 0 end)%R) 0 Norb (acc_average sign dt) s) as (s' & E & A); [lia| | |].
  - intros o s1 Ho A. unfold acc_average.
    destruct (A cur_X) as [_ Hc]. rewrite Hc by (cbn; lia). cbn [obind]. clear Hc.
    rewrite rdiv_ok by auto.
    do 3 (match goal with H : Accs ?s _ |- context [p_add ?f ?k ?v ?s] =>
      let s' := fresh "s" in let A := fresh "A" in
      destruct (add_to_ok _ _ size pfield_eqbP s _ f k v H) as (s' & -> & A); [cbn; lia|]; clear H; cbn [obind] end).
    eexists; split; [reflexivity|]. eapply accs_ext; [|eassumption]. cbn beta. intros f k Hk.
    destruct f; unfold pfield_eqb; cbn -[Z.eqb Z.ltb IZR]; try ring;
      destruct (Z.eqb_spec o k); destruct (Z.ltb_spec k o); destruct (Z.ltb_spec k (o + 1)); destruct (Z.eqb_spec k 0);
      destruct (Z.eqb_spec 0 k); try lia; subst; rewrite ?plus_IZR; replace 0.5%R with (/ 2)%R by lra; try (field; auto).
  - eapply accs_ext; [|exact Hs]. intros f k Hk. destruct f; cbn -[Z.eqb Z.ltb IZR] in *; rewrite ?Rplus_0_r; auto;
      try (destruct (Z.ltb_spec k 0); [lia|]; ring). destruct (k =? 0); ring.
  - exists s'; split; auto. eapply accs_ext; [|exact A]. intros f k Hk. cbn beta.
    destruct f; auto; cbn in Hk; destruct (Z.ltb_spec k Norb); auto; lia.
Qed.

Section One.
Variables (sign sf : R) (X : list R) (n : Z).
Hypotheses (HX : lenZ X = N * L) (Hn : 0 <= n < mx).

Lemma X_at o i l : 0 <= o < Norb -> 0 <= i < Ncell -> 0 <= l < L ->
  aget X (i + o * Ncell + l * N) = Some (field Norb Ncell X o i l).
Proof.
  intros. replace (i + o * Ncell + l * N) with (site Ncell i o + N * l) by (unfold site; ring).
  rewrite aget_rat; [reflexivity|]. rewrite HX. unfold site.
  assert (0 <= i + Ncell * o < N) by nia. nia.
Qed.

Definition site_inc (o i l : Z) (f : pfield) (k : Z) : R :=
  let x := field Norb Ncell X o i l in let v := velocity Norb Ncell L dt X o i l in
  match f with
  | cur_X => if o =? k then sf * x else 0
  | X_sq_avg => if o =? k then sf * x ^ 2 else 0
  | iteration_X_avg => if (o + n * Norb) =? k then sf * x else 0
  | V_avg => if o =? k then sf * v else 0
  | V_sq_avg => if o =? k then sf * v ^ 2 else 0
  | PE => if o =? k then sf * (/ 2 * val omega o ^ 2 * x ^ 2) else 0
  | KE => if o =? k then - (sf * (/ 2 * v ^ 2)) else 0
  | _ => 0
  end%R.

Lemma hist_range o : 0 <= o < Norb -> 0 <= o + n * Norb < Norb * mx.
Proof. intros. nia. Qed.

Lemma acc_site_adds o i l : 0 <= o < Norb -> 0 <= i < Ncell -> 0 <= l < L ->
  Adds (acc_site sf dt X omega Norb Ncell n l ((l + 1) mod L) o i) (site_inc o i l).
Proof.
  intros Ho Hi Hl s g Hs. unfold acc_site.
  pose proof (Z.mod_pos_bound (l + 1) L HL) as Hm.
  rewrite !X_at by auto. cbn [obind]. rewrite (@aget_rat omega o) by lia. cbn [obind].
  assert (dt * dt <> 0)%R by now apply Rmult_integral_contrapositive.
  rewrite !rdiv_ok by auto. cbn [obind].
  set (x := field Norb Ncell X o i l). set (y := field Norb Ncell X o i ((l + 1) mod L)). set (w := rat omega o).
  pose proof (hist_range o Ho) as Hh.
  do 7 (match goal with H : Accs ?s _ |- context [p_add ?f ?k ?v ?s] =>
    let s' := fresh "s" in let A := fresh "A" in
    destruct (add_to_ok _ _ size pfield_eqbP s _ f k v H) as (s' & -> & A); [cbn; lia|]; clear H; cbn [obind] end).
  eexists; split; [reflexivity|]. eapply accs_ext; [|eassumption]. cbn beta. intros f k _.
  assert (0.5 = / 2)%R as E5 by lra.
  destruct f; unfold pfield_eqb; cbn -[Z.mul Z.add Z.eqb field velocity val x y w Rmult Rplus Ropp Rdiv];
    try destruct (_ =? _); rewrite ?E5; unfold velocity; fold x y; change (val omega o) with w; try field; auto.
Qed.

Definition orb_inc (o l : Z) (f : pfield) (k : Z) : R :=
  (sum 0 Ncell (fun i => site_inc o i l f k) +
   match f with iteration_X0 => if (o + n * Norb) =? k then sign / IZR L * field Norb Ncell X o 0 l else 0 | _ => 0 end)%R.

Lemma acc_orbital_adds o l : 0 <= o < Norb -> 0 <= l < L ->
  Adds (acc_orbital sign sf dt X omega Norb Ncell L n l ((l + 1) mod L) o) (orb_inc o l).
Proof.
  intros Ho Hl. unfold acc_orbital.
  replace (o * Ncell + l * N) with (0 + o * Ncell + l * N) by ring.
  apply (adds_ext _ _ _ (fun f k => (sum 0 Ncell (fun i => site_inc o i l f k) +
    if pfield_eqb f iteration_X0 && ((o + n * Norb) =? k) then sign / IZR L * field Norb Ncell X o 0 l else 0)%R)).
  { intros f k _. unfold orb_inc. f_equal. destruct f; reflexivity. }
  apply (adds_seq _ _ (for_range 0 Ncell _)).
  - apply adds_loop; [lia|]. intros i Hi. now apply acc_site_adds.
  - rewrite X_at by lia. rewrite rdiv_ok by (now apply IZR_pos_neq). cbn [obind].
    apply adds_add_to; [exact pfield_eqbP|]. cbn. now apply hist_range.
Qed.

Lemma acc_slice_adds l : 0 <= l < L ->
  Adds (acc_slice sign sf dt X omega Norb Ncell L n l) (fun f k => sum 0 Norb (fun o => orb_inc o l f k)).
Proof.
  intros Hl. unfold acc_slice. rewrite cmod_pos by lia. cbn [obind].
  apply adds_loop; [lia|]. intros o Ho. now apply acc_orbital_adds.
Qed.

Lemma acc_slices_adds :
  Adds (for_range 0 L (acc_slice sign sf dt X omega Norb Ncell L n))
    (fun f k => sum 0 L (fun l => sum 0 Norb (fun o => orb_inc o l f k))).
Proof. apply adds_loop; [lia|]. intros. now apply acc_slice_adds. Qed.

Variables (Gu Gd : greens_func) (lg : Z).
Hypotheses (HGu : lenZ (gf_mat Gu) = N * N) (HGd : lenZ (gf_mat Gd) = N * N) (Hlg : 0 <= lg < L).

Lemma sum_nX_ok o : 0 <= o < Norb -> sum_nX X Norb Ncell (gf_mat Gu) (gf_mat Gd) lg o =
  Some (sum 0 Ncell (fun i => electrons Norb Ncell Gu Gd (site Ncell i o) * field Norb Ncell X o i lg)%R).
Proof.
  intros Ho. unfold sum_nX.
  destruct (@for_range_inv _ (fun h a => a = sum 0 h (fun i => electrons Norb Ncell Gu Gd (site Ncell i o) * field Norb Ncell X o i lg)%R)
    0 Ncell (fun i a =>
    let io := i + Ncell * o in
    let* gu := aget (gf_mat Gu) (io + N * io) in
    let* gd := aget (gf_mat Gd) (io + N * io) in
    let* x := aget X (i + o * Ncell + lg * N) in
    Some (a + ((1 - gu) + (1 - gd)) * x)%R) 0%R) as (a & E & ->); [lia| | |].
  - intros i a Hi ->. cbv zeta. assert (0 <= i + Ncell * o < N) by nia.
    assert (0 <= i + Ncell * o + N * (i + Ncell * o) < N * N) by nia.
    rewrite (@aget_rat (gf_mat Gu)) by lia. rewrite (@aget_rat (gf_mat Gd)) by lia. rewrite X_at by auto. cbn [obind].
    eexists; split; [reflexivity|]. rewrite sum_last by lia. reflexivity.
  - now rewrite sum_nil.
  - exact E.
Qed.

Lemma acc_nX_adds : Adds (for_range 0 Norb (acc_nX sign X Norb Ncell (gf_mat Gu) (gf_mat Gd) lg))
  (fun f k => match f with
     | nX => sign * average Ncell (fun i => electrons Norb Ncell Gu Gd (site Ncell i k) * field Norb Ncell X k i lg)
     | _ => 0 end)%R.
Proof.
  apply (adds_ext _ _ _ (fun f k => sum 0 Norb (fun o => if pfield_eqb f nX && (o =? k) then
     sum 0 Ncell (fun i => electrons Norb Ncell Gu Gd (site Ncell i o) * field Norb Ncell X o i lg)%R * (sign / IZR Ncell) else 0)%R)).
  { intros f k Hk. destruct f; unfold pfield_eqb; cbn -[sum Z.eqb]; try (apply sum_zero; reflexivity).
    cbn in Hk. rewrite (@sum_single _ _ _ k); auto; [|intros i Hi Hne; destruct (Z.eqb_spec i k); [lia|reflexivity]].
    rewrite Z.eqb_refl. unfold average. field. now apply IZR_pos_neq. }
  apply adds_loop; [lia|]. intros o Ho. unfold acc_nX. rewrite sum_nX_ok by auto. cbn [obind].
  rewrite rdiv_ok by now apply IZR_pos_neq. cbn [obind]. apply adds_add_to; [exact pfield_eqbP|]. cbn. lia.
Qed.
End One.

Record pmeas_ok (m : pmeas) (g : pfield -> Z -> R) : Prop := {
  po_Norb : p_Norb m = Norb;
  po_Ncell : p_Ncell m = Ncell;
  po_L : p_L m = L;
  po_max : p_max m = mx;
  po_arr : exists c, Accs (p_arr m) (fun f k => match f with cur_X => c k | _ => g f k end) }.

(** what the n-th sample adds *)
Definition pinc (n : Z) (s : psample) (f : pfield) (k : Z) : R :=
  (match f with
  | iteration_X_avg | iteration_X0 =>
      if (0 <=? k - n * Norb) && (k - n * Norb <? Norb)
      then psign s * history Norb Ncell L s f (k - n * Norb) else 0
  | X_avg_sq => (psign s * lattice_average Ncell L (field Norb Ncell (ps_X s) k)) ^ 2
  | KE => (if k =? 0 then IZR Norb * (psign s / (2 * dt)) else 0)
     - psign s * lattice_average Ncell L (fun i l => / 2 * velocity Norb Ncell L dt (ps_X s) k i l ^ 2)
  | _ => psign s * observable Norb Ncell L dt omega s f k
  end)%R.

Lemma average_scale x f : (x / IZR Ncell / IZR L * sum 0 L (fun l => sum 0 Ncell (fun i => f i l)) = x * lattice_average Ncell L f)%R.
Proof.
  unfold lattice_average, average.
  replace (sum 0 L (fun l => sum 0 Ncell (fun i => f i l) / IZR Ncell)%R) with
    (sum 0 L (fun l => sum 0 Ncell (fun i => f i l)) / IZR Ncell)%R.
  { field. split; now apply IZR_pos_neq. }
  unfold Rdiv. rewrite Rmult_comm, <- sum_scal. apply sum_ext. intros; ring.
Qed.

Lemma collapse_orb k (F : Z -> Z -> Z -> R) : 0 <= k < Norb ->
  sum 0 L (fun l => sum 0 Norb (fun o => sum 0 Ncell (fun i => if o =? k then F o i l else 0%R))) =
  sum 0 L (fun l => sum 0 Ncell (fun i => F k i l)).
Proof.
  intros Hk. apply sum_ext. intros l _.
  rewrite (@sum_single _ _ _ k); auto; [now rewrite Z.eqb_refl|].
  intros o Ho Hne. apply sum_zero. intros. destruct (Z.eqb_spec o k); [lia|reflexivity].
Qed.
Lemma collapse_orb_hist n k (F : Z -> Z -> Z -> R) :
  sum 0 L (fun l => sum 0 Norb (fun o => sum 0 Ncell (fun i => if (o + n * Norb) =? k then F o i l else 0%R))) =
  if (0 <=? k - n * Norb) && (k - n * Norb <? Norb)
  then sum 0 L (fun l => sum 0 Ncell (fun i => F (k - n * Norb) i l)) else 0%R.
Proof.
  destruct ((0 <=? k - n * Norb) && (k - n * Norb <? Norb)) eqn:B.
  - apply andb_true_iff in B as [B1 B2]. apply Z.leb_le in B1. apply Z.ltb_lt in B2.
    rewrite <- collapse_orb by lia. do 3 (apply sum_ext; intros).
    destruct (Z.eqb_spec (i0 + n * Norb) k); destruct (Z.eqb_spec i0 (k - n * Norb)); try lia; auto.
  - apply andb_false_iff in B. rewrite Z.leb_gt, Z.ltb_ge in B.
    do 3 (apply sum_zero; intros). destruct (Z.eqb_spec (i0 + n * Norb) k); [lia|reflexivity].
Qed.

Lemma repeat_zero_arr : arr Norb (repeat 0%R (Z.to_nat Norb)) (fun _ => 0%R).
Proof. apply repeat_arr. lia. Qed.

Lemma paccumulate_ok s m g : psample_ok Norb Ncell L s -> pmeas_ok m g -> 0 <= p_nsampl m < mx ->
  exists m', paccumulate1 dt omega s m = Some m' /\ pmeas_ok m' (fun f k => g f k + pinc (p_nsampl m) s f k)%R /\
    p_sign m' = (p_sign m + psign s)%R /\ p_nsampl m' = p_nsampl m + 1.
Proof.
  intros (HGu & HGd & HX & Hl) [E1 E2 E3 E4 [c Ha]] Hn. unfold paccumulate1, paccumulate. rewrite E1, E2, E3.
  fold (sign_of (ps_Gu s) (ps_Gd s)). fold (psign s).
  rewrite rdiv_ok by now apply IZR_pos_neq. cbn [obind]. rewrite rdiv_ok by now apply IZR_pos_neq. cbn [obind].
  set (sg := psign s). set (sf := (sg / IZR Ncell / IZR L)%R). set (n := p_nsampl m) in *.
  pose proof (accs_put _ _ _ pfield_eqbP _ _ cur_X _ _ Ha repeat_zero_arr) as A0.
  destruct (acc_slices_adds sg sf (ps_X s) n HX Hn _ _ A0) as (s1 & -> & A1). cbn [obind].
  destruct (acc_average_ok sg _ _ A1) as (s2 & -> & A2). cbn [obind].
  destruct (acc_nX_adds sg (ps_X s) HX (ps_Gu s) (ps_Gd s) (ps_l s) HGu HGd Hl _ _ A2) as (s3 & -> & A3). cbn [obind].
  eexists; split; [reflexivity|]. split; [|split; reflexivity].
  constructor; cbn [p_Norb p_Ncell p_L p_max p_arr]; auto.
  eexists. eapply accs_ext; [|exact A3]. cbn beta.
  assert (forall k F, 0 <= k < Norb -> sum 0 L (fun l => sum 0 Norb (fun o => sum 0 Ncell (fun i => if o =? k then sf * F o i l else 0)))%R
    = (sg * lattice_average Ncell L (F k))%R) as CO.
  { intros k F Hk. rewrite (collapse_orb k (fun o i l => sf * F o i l)%R) by auto. rewrite <- average_scale. fold sf.
    rewrite <- sum_scal. apply sum_ext; intros. apply sum_scal. }
  assert (forall (k : Z) (F : Z -> Z -> Z -> R), sum 0 L (fun l => sum 0 Norb (fun o => sum 0 Ncell (fun i => if (o + n * Norb) =? k then (sf * F o i l)%R else 0%R)))
    = if (0 <=? k - n * Norb) && (k - n * Norb <? Norb) then (sg * lattice_average Ncell L (F (k - n * Norb)%Z))%R else 0%R) as CH.
  { intros k F. rewrite (collapse_orb_hist n k (fun o i l => sf * F o i l)%R). destruct (_ && _); auto. rewrite <- average_scale. fold sf.
    rewrite <- sum_scal. apply sum_ext; intros. apply sum_scal. }
  set (OI := fun f k => sum 0 L (fun l => sum 0 Norb (fun o => orb_inc sg sf (ps_X s) n o l f k))).
  assert (forall f k F, f <> iteration_X0 -> 0 <= k < Norb ->
    (forall o i l, site_inc sf (ps_X s) n o i l f k = if o =? k then (sf * F o i l)%R else 0%R) ->
    OI f k = (sg * lattice_average Ncell L (F k))%R) as QO.
  { intros f k F Hf Hk HF. rewrite <- CO by auto. unfold OI. do 2 (apply sum_ext; intros). unfold orb_inc.
    rewrite (@sum_ext _ _ _ _ (fun i _ => HF _ i _)). destruct f; try apply Rplus_0_r. congruence. }
  assert (forall f k, f <> iteration_X0 -> (forall o i l, site_inc sf (ps_X s) n o i l f k = 0%R) -> OI f k = 0%R) as QZ.
  { intros f k Hf HF. unfold OI. do 2 (apply sum_zero; intros). unfold orb_inc. rewrite sum_zero by (intros; apply HF).
    destruct f; try apply Rplus_0_r. congruence. }
  assert (forall h, lattice_average Ncell L (fun i l => - h i l) = - lattice_average Ncell L h)%R as LN.
  { intros h. unfold lattice_average, average, Rdiv. rewrite <- Ropp_mult_distr_l_reverse, <- sum_opp. f_equal. apply sum_ext; intros.
    rewrite sum_opp. ring. }
  assert (forall k, 0 <= k < Norb -> OI cur_X k = (sg * lattice_average Ncell L (field Norb Ncell (ps_X s) k))%R) as QC.
  { intros k Hk. apply (QO cur_X k (field Norb Ncell (ps_X s))); auto. discriminate. }
  intros f k Hk. change (sum 0 L (fun l => sum 0 Norb (fun o => orb_inc sg sf (ps_X s) n o l f k))) with (OI f k).
  change (sum 0 L (fun l => sum 0 Norb (fun o => orb_inc sg sf (ps_X s) n o l cur_X k))) with (OI cur_X k).
  destruct f; cbn in Hk; unfold pinc, observable, history; cbv beta iota delta [pfield_eqb pfield_eq_dec pfield_rec pfield_rect]; fold sg.
  - rewrite (QZ X_avg) by (auto; discriminate). rewrite QC by auto. ring.
  - rewrite (QZ X_avg_sq) by (auto; discriminate). rewrite QC by auto. ring.
  - rewrite (QO X_sq_avg k (fun o i l => field Norb Ncell (ps_X s) o i l ^ 2)%R) by (auto; discriminate). ring.
  - rewrite (QO V_avg k (velocity Norb Ncell L dt (ps_X s))) by (auto; discriminate). ring.
  - rewrite (QO V_sq_avg k (fun o i l => velocity Norb Ncell L dt (ps_X s) o i l ^ 2)%R) by (auto; discriminate). ring.
  - rewrite (QO PE k (fun o i l => / 2 * val omega o ^ 2 * field Norb Ncell (ps_X s) o i l ^ 2)%R) by (auto; discriminate). ring.
  - rewrite (QO KE k (fun o i l => - (/ 2 * velocity Norb Ncell L dt (ps_X s) o i l ^ 2))%R); auto; [|discriminate|].
    + rewrite (LN (fun i l => / 2 * velocity Norb Ncell L dt (ps_X s) k i l ^ 2)%R). ring.
    + intros. unfold site_inc. destruct (_ =? _); ring.
  - rewrite (QZ nX) by (auto; discriminate). ring.
  - assert (OI iteration_X_avg k = if (0 <=? k - n * Norb) && (k - n * Norb <? Norb)
        then (sg * lattice_average Ncell L (field Norb Ncell (ps_X s) (k - n * Norb)%Z))%R else 0%R) as ->; [|ring].
    rewrite <- CH. unfold OI. do 2 (apply sum_ext; intros). unfold orb_inc. apply Rplus_0_r.
  - assert (sum 0 L (fun l => sum 0 Norb (fun o => if (o + n * Norb =? k)%Z then sg / IZR L * field Norb Ncell (ps_X s) o 0%Z l else 0)) =
      if (0 <=? k - n * Norb)%Z && (k - n * Norb <? Norb)%Z
        then sg * average L (fun l => field Norb Ncell (ps_X s) (k - n * Norb)%Z 0%Z l) else 0)%R as Q0.
    {destruct ((0 <=? k - n * Norb) && (k - n * Norb <? Norb)) eqn:B.
    + apply andb_true_iff in B as [B1 B2]. apply Z.leb_le in B1. apply Z.ltb_lt in B2.
      rewrite (@sum_ext _ _ _ (fun l => sg / IZR L * field Norb Ncell (ps_X s) (k - n * Norb)%Z 0%Z l)%R).
      * rewrite (sum_scal 0 L (sg / IZR L) (fun l => field Norb Ncell (ps_X s) (k - n * Norb) 0 l)). unfold average. field. now apply IZR_pos_neq.
      * intros l _. rewrite (@sum_single _ _ _ (k - n * Norb)); try lia;
          [|intros o Ho Hne; destruct (Z.eqb_spec (o + n * Norb) k); [lia|reflexivity]].
        destruct (Z.eqb_spec (k - n * Norb + n * Norb) k); [reflexivity|lia].
    + apply andb_false_iff in B. rewrite Z.leb_gt, Z.ltb_ge in B.
      do 2 (apply sum_zero; intros). destruct (Z.eqb_spec (i0 + n * Norb) k); [lia|reflexivity]. }
    assert (OI iteration_X0 k = sum 0 L (fun l => sum 0 Norb (fun o => if (o + n * Norb =? k)%Z then sg / IZR L * field Norb Ncell (ps_X s) o 0%Z l else 0)))%R as ->.
    { unfold OI. do 2 (apply sum_ext; intros). unfold orb_inc. rewrite sum_zero by reflexivity. apply Rplus_0_l. }
    rewrite Q0. ring.
  - reflexivity.
Qed.

Lemma pmeas_ok_ext m g h : (forall f k, f <> cur_X -> 0 <= k < size f -> g f k = h f k) -> pmeas_ok m g -> pmeas_ok m h.
Proof.
  intros E [H1 H2 H3 H4 [c H5]]. constructor; auto. exists c. eapply accs_ext; [|exact H5]. cbn beta. intros f k Hk.
  destruct f; auto; apply E; auto; discriminate.
Qed.

(** what a sequence of samples adds, the first one being number n *)
Fixpoint pincs (n : Z) (samples : list psample) (f : pfield) (k : Z) : R :=
  match samples with [] => 0 | s :: t => pinc n s f k + pincs (n + 1) t f k end%R.

Lemma paccumulate_all_ok samples : forall m g, Forall (psample_ok Norb Ncell L) samples -> pmeas_ok m g ->
  0 <= p_nsampl m -> p_nsampl m + Z.of_nat (length samples) <= mx ->
  exists m', paccumulate_all dt omega samples m = Some m' /\
    pmeas_ok m' (fun f k => g f k + pincs (p_nsampl m) samples f k)%R /\
    p_sign m' = (p_sign m + lsum psign samples)%R /\ p_nsampl m' = p_nsampl m + Z.of_nat (length samples).
Proof.
  induction samples as [|s t IH]; intros m g Hs Hm H0 Hmx.
  - exists m. split; [reflexivity|]. split; [|split; [unfold lsum; cbn; ring|cbn; lia]].
    eapply pmeas_ok_ext; [|exact Hm]. intros; cbn; ring.
  - inversion Hs as [|? ? Hs1 Hs2]; subst. cbn [length] in Hmx.
    destruct (paccumulate_ok s m g Hs1 Hm) as (m1 & E1 & Hm1 & Es & En); [lia|].
    destruct (IH m1 _ Hs2 Hm1) as (m' & E & Hm' & Es' & En'); [lia|lia|].
    exists m'. unfold paccumulate_all in *. cbn [fold_left obind]. rewrite E1, E. split; [reflexivity|]. split; [|split].
    + eapply pmeas_ok_ext; [|exact Hm']. intros f k _ _. cbn [pincs]. cbv beta. rewrite En. ring.
    + rewrite Es', Es. unfold lsum; cbn [fold_right]. ring.
    + rewrite En', En. cbn [length]. lia.
Qed.

Lemma pincs_plain samples f k (v : psample -> R) :
  (forall n s, pinc n s f k = v s) -> forall n, pincs n samples f k = lsum v samples.
Proof.
  intros H. unfold lsum. induction samples as [|s t IH]; intros n; cbn [pincs fold_right]; [reflexivity|]. now rewrite H, IH.
Qed.

Lemma pinc_other n s f k o : In f [iteration_X_avg; iteration_X0] -> 0 <= o < Norb -> k <> n ->
  pinc n s f (o + k * Norb) = 0%R.
Proof.
  intros Hf Ho Hk. unfold pinc. assert ((0 <=? o + k * Norb - n * Norb) && (o + k * Norb - n * Norb <? Norb) = false) as E.
  { apply andb_false_iff. rewrite Z.leb_gt, Z.ltb_ge. nia. }
  destruct Hf as [<-|[<-|[]]]; now rewrite E.
Qed.
Lemma pinc_same n s f o : In f [iteration_X_avg; iteration_X0] -> 0 <= o < Norb ->
  pinc n s f (o + n * Norb) = (psign s * history Norb Ncell L s f o)%R.
Proof.
  intros Hf Ho. unfold pinc. replace (o + n * Norb - n * Norb) with o by ring.
  assert ((0 <=? o) && (o <? Norb) = true) as E by (apply andb_true_iff; rewrite Z.leb_le, Z.ltb_lt; lia).
  destruct Hf as [<-|[<-|[]]]; now rewrite E.
Qed.
Lemma pincs_history f o : In f [iteration_X_avg; iteration_X0] -> 0 <= o < Norb -> forall samples n j,
  pincs n samples f (o + (n + Z.of_nat j) * Norb) =
  match nth_error samples j with Some s => (psign s * history Norb Ncell L s f o)%R | None => 0%R end.
Proof.
  intros Hf Ho. induction samples as [|s t IH]; intros n j; cbn [pincs]; [now destruct j|].
  destruct j as [|j]; cbn [nth_error].
  - rewrite Z.add_0_r, pinc_same by auto.
    assert (forall t n m, m < n -> pincs n t f (o + m * Norb) = 0%R) as Q.
    { clear IH t. induction t as [|s' t IH]; intros n' m Hm; cbn [pincs]; [reflexivity|].
      rewrite pinc_other by (auto; lia). rewrite IH by lia. ring. }
    rewrite Q by lia. ring.
  - rewrite pinc_other by (auto; lia). replace (n + Z.of_nat (S j)) with (n + 1 + Z.of_nat j) by lia. rewrite IH. apply Rplus_0_l.
Qed.

Lemma pnormalize_ok m g : p_nsampl m <> 0 -> pmeas_ok m g ->
  exists m', pnormalize m = Some m' /\
    pmeas_ok m' (fun f k => match f with iteration_X_avg | iteration_X0 => g f k | _ => g f k / IZR (p_nsampl m) end)%R /\
    p_sign m' = (p_sign m / IZR (p_nsampl m))%R /\ p_nsampl m' = p_nsampl m.
Proof.
  intros Hn [E1 E2 E3 E4 [c Ha]]. unfold pnormalize. rewrite E1.
  rewrite rdiv_ok by (apply IZR_neq; lia). cbn [obind].
  set (q := (1 / IZR (p_nsampl m))%R).
  do 8 (match goal with
  | H : Accs ?s _ |- context [p_scale ?n q ?f ?s] =>
      let s' := fresh "s" in let A := fresh "A" in
      destruct (scale_field_ok _ _ _ pfield_eqbP s _ n q f H) as (s' & -> & A); [reflexivity|lia|]; clear H; cbn [obind]
  end).
  eexists; split; [reflexivity|]. cbn [p_sign p_nsampl]. split; [|split; [unfold q; unfold Rdiv; ring|reflexivity]].
  constructor; cbn [p_Norb p_Ncell p_L p_max p_arr]; auto. exists c.
  eapply accs_ext; [|eassumption]. intros f k Hk.
  destruct f; cbv beta iota delta [pfield_eqb pfield_eq_dec pfield_rec pfield_rect]; unfold q, Rdiv; ring.
Qed.

Lemma allocate_pmeas_ok Nx Ny : Ncell = Nx * Ny -> 0 <= mx ->
  exists m, allocate_pmeas Norb Nx Ny L mx = Some m /\ pmeas_ok m (fun _ _ => 0%R) /\ p_sign m = 0%R /\ p_nsampl m = 0.
Proof.
  intros E Hmx. unfold allocate_pmeas. destruct (Z.ltb_spec (Norb * mx) 0); [nia|].
  eexists; split; [reflexivity|]. split; [|split; reflexivity]. constructor; auto. exists (fun _ => 0%R).
  cbn [p_arr]. intros f. eapply arr_ext; [|apply repeat_arr]; [destruct f; reflexivity|]. destruct f; cbn; nia.
Qed.

Lemma measure_run_ok nsampl neqlt what m g : 0 <= nsampl -> 0 < neqlt -> nsampl * (L / neqlt) <= mx ->
  (forall it l, psample_ok Norb Ncell L (what it l)) -> pmeas_ok m g -> p_nsampl m = 0 ->
  exists m' g', measure_run dt omega L nsampl neqlt what m = Some m' /\ pmeas_ok m' g' /\ p_nsampl m' = nsampl * (L / neqlt).
Proof.
  intros Hs Hq Hmx Hw Hm Hz. unfold measure_run.
  assert (0 <= L / neqlt) as HLq by (apply Z.div_pos; lia).
  match goal with |- context [for_range 0 nsampl ?b m] =>
    destruct (@for_range_inv _ (fun it m => (exists g, pmeas_ok m g) /\ p_nsampl m = it * (L / neqlt)) 0 nsampl b m)
      as (m' & E & (g' & H') & En) end; [lia| | |].
  - intros it m1 Hit ((g1 & Hm1) & Hn1).
    match goal with |- context [for_range 0 L ?b m1] =>
    destruct (@for_range_inv _ (fun l m => (exists g, pmeas_ok m g) /\ p_nsampl m = it * (L / neqlt) + l / neqlt) 0 L b m1)
      as (m2 & E2 & (g2 & H2) & Hn2) end; [lia| | |].
    + intros l m2 Hl ((g2 & Hm2) & Hn2). destruct (Z.ltb_spec 0 neqlt); [|lia]. rewrite cmod_pos by lia. cbn [obind].
      pose proof (Z.div_mod (l + 1) neqlt ltac:(lia)) as D. pose proof (Z.mod_pos_bound (l + 1) neqlt Hq) as B.
      pose proof (Z.div_mod l neqlt ltac:(lia)) as D'. pose proof (Z.mod_pos_bound l neqlt Hq) as B'.
      destruct (Z.eqb_spec ((l + 1) mod neqlt) 0) as [E0|E0].
      * assert ((l + 1) / neqlt = l / neqlt + 1) as Ed by nia.
        assert ((l + 1) / neqlt <= L / neqlt) as Hle by (apply Z.div_le_mono; lia).
        assert (0 <= l / neqlt) by (apply Z.div_pos; lia).
        destruct (paccumulate_ok (what it l) m2 g2 (Hw it l) Hm2) as (m3 & E3 & H3 & _ & Hn3); [nia|].
        exists m3. split; [exact E3|]. split; [eexists; exact H3|]. lia.
      * exists m2. split; [reflexivity|]. split; [eexists; exact Hm2|]. rewrite Hn2. f_equal. nia.
    + split; [eexists; exact Hm1|]. rewrite Z.div_0_l by lia. lia.
    + exists m2. split; [exact E2|]. split; [eexists; exact H2|]. lia.
  - split; [eexists; exact Hm|]. lia.
  - exists m', g'. auto.
Qed.

Lemma run_bound nsampl neqlt : 0 <= nsampl -> 0 < neqlt -> nsampl * (L / neqlt) <= nsampl * L / neqlt.
Proof. intros. apply Z.div_le_lower_bound; [lia|]. pose proof (Z.mul_div_le L neqlt). nia. Qed.
End Facts.
