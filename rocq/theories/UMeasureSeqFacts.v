(** Proofs about sequences of unequal time measurements. *)
From Coq Require Import ZArith List Reals Lia Lra Bool.
From Verif Require Import Base BaseFacts Sums SumsFacts RealOps Blas BlasFacts Lattice LatticeSpec LatticeFacts
  Accum AccumFacts WickSpec Measure MeasureSpec MeasureFacts MeasureSeqFacts UMeasure UMeasureSpec UMeasureFacts.
Import ListNotations.
Local Open Scope Z_scope.

Section Seq.
Variables (Norb Nx Ny sh L : Z).
Hypotheses (HNorb : 0 < Norb) (HNx : 0 < Nx) (HNy : 0 < Ny) (Hsh : 0 <= sh) (HL : 0 < L).
Notation Ncell := (Nx * Ny).
Notation N := (Nx * Ny * Norb).
Notation size := (ufield_len Norb Ncell L).
Notation Accs := (accs ufield size).

Record umeas_ok (m : umeas) (g : ufield -> Z -> R) : Prop := {
  uo_Norb : u_Norb m = Norb;
  uo_Ncell : u_Ncell m = Ncell;
  uo_L : u_L m = L;
  uo_maps : umaps_ok Nx Ny sh (u_sum m) (u_nn m);
  uo_arr : Accs (u_arr m) g }.

(** what one sample adds *)
Definition uinc (sign : R) (c : cur_greens) (f : ufield) (idx : Z) : R :=
  (sum 0 L (fun l => sum 0 Norb (fun o =>
       sum 0 Norb (fun p => sum 0 Ncell (fun i => sum 0 Ncell (fun k =>
          ucorr_inc Norb Nx Ny sh L (sign / IZR Ncell) c l o p i k f idx)))
       + sum 0 Ncell (fun i => sum 0 Ncell (fun k => ubond_inc Norb Nx Ny sh L (sign / IZR Ncell) c l o i k f idx)))))%R.

Lemma uaccumulate_ok sign c m g : cur_ok N L c -> umeas_ok m g ->
  exists m', uaccumulate sign c m = Some m' /\ umeas_ok m' (fun f k => g f k + uinc sign c f k)%R /\
    u_sign m' = (u_sign m + sign)%R /\ u_nsampl m' = u_nsampl m + 1.
Proof.
  intros HC [E1 E2 E3 Hm Ha]. unfold uaccumulate. rewrite E1, E2, E3.
  rewrite rdiv_ok by (apply IZR_Ncell; auto). cbn [obind].
  destruct (uacc_ok Norb Nx Ny sh L HNorb HNx HNy HL (sign / IZR Ncell) c HC _ _ Hm _ _ Ha) as (s1 & -> & A1).
  cbn [obind]. eexists; split; [reflexivity|]. split; [|split; reflexivity].
  split; cbn [u_Norb u_Ncell u_L u_sum u_nn u_arr]; auto.
Qed.

Lemma usize_nonneg f : 0 <= size f.
Proof. destruct f; cbn; nia. Qed.

Lemma allocate_umeas_ok junk : exists m, allocate_umeas junk Norb Nx Ny sh L = Some m /\
  umeas_ok m (fun _ _ => 0%R) /\ u_sign m = 0%R /\ u_nsampl m = 0.
Proof.
  unfold allocate_umeas.
  destruct (sum_map_ok Nx Ny sh HNx HNy Hsh (map junk (map Z.of_nat (seq 0 (Z.to_nat (Ncell * Ncell))))))
    as (sm & -> & HLs & Hsm); [apply raw_len; nia|]. cbn [obind].
  destruct (nn_map_ok Nx Ny HNx HNy (let r := map junk (map Z.of_nat (seq 0 (Z.to_nat Ncell))) in mk_nn_maps r r r r))
    as (nn & E & (L1 & L2 & L3 & L4) & Hnn); try (apply raw_len; nia).
  cbv zeta in E. rewrite E. cbn [obind].
  eexists; split; [reflexivity|]. split; [|split; reflexivity]. split; cbn [u_Norb u_Ncell u_L u_sum u_nn u_arr]; auto.
  - split.
    + intros k i Hk Hi. rewrite aget_at by (rewrite HLs; nia). now rewrite Hsm.
    + assert (forall x, 0 <= x < Ncell ->
        aget (xp1 nn) x = Some (cell_step Nx Ny 0 (1, 0) x) /\ aget (xm1 nn) x = Some (cell_step Nx Ny 0 (-1, 0) x) /\
        aget (yp1 nn) x = Some (cell_step Nx Ny 0 (0, 1) x) /\ aget (ym1 nn) x = Some (cell_step Nx Ny 0 (0, -1) x)) as Q.
      { intros x Hx. rewrite !aget_at by lia.
        destruct (coords_range Nx Ny HNx x Hx) as [Hx' Hy'].
        destruct (Hnn (fst (coords Nx x)) (snd (coords Nx x)) Hx' Hy' I) as (F1 & F2 & F3 & F4).
        assert (fst (coords Nx x) + Nx * snd (coords Nx x) = x) as Ec.
        { unfold coords; cbn [fst snd]. pose proof (Z.div_mod x Nx). lia. }
        rewrite Ec in *. rewrite F1, F2, F3, F4. unfold cell_step, vplus. cbn [fst snd].
        rewrite !Z.add_0_r. auto. }
      intros x Hx. unfold neighbours8. destruct (Q x Hx) as (-> & -> & -> & ->). cbn [obind].
      destruct (Q (cell_step Nx Ny 0 (1, 0) x) ltac:(apply step_range; auto)) as (_ & _ & -> & ->).
      destruct (Q (cell_step Nx Ny 0 (-1, 0) x) ltac:(apply step_range; auto)) as (_ & _ & -> & ->).
      cbn [obind]. rewrite !step_step by auto. reflexivity.
  - intros f. apply repeat_arr. apply usize_nonneg.
Qed.

Lemma uaccumulate_all_ok samples : forall m g,
  (forall s, In s samples -> cur_ok N L (snd s)) -> umeas_ok m g ->
  exists m', uaccumulate_all samples m = Some m' /\
    umeas_ok m' (fun f k => g f k + lsum (fun s => uinc (fst s) (snd s) f k) samples)%R /\
    u_sign m' = (u_sign m + lsum fst samples)%R /\
    u_nsampl m' = u_nsampl m + Z.of_nat (length samples).
Proof.
  induction samples as [|s l IH]; intros m g Hg Hm.
  - exists m. split; [reflexivity|]. cbn. split; [|split; [ring|lia]].
    destruct Hm as [H1 H2 H3 H4 H5]; split; auto. eapply accs_ext; [|exact H5]. intros; cbn; ring.
  - destruct (uaccumulate_ok (fst s) (snd s) _ _ (Hg s ltac:(now left)) Hm) as (m1 & E1 & Hm1 & Es & En).
    destruct (IH m1 _ ltac:(intros; apply Hg; now right) Hm1) as (m' & E & Hm' & Es' & En').
    exists m'. unfold uaccumulate_all in *. cbn [fold_left obind]. rewrite E1, E. split; [reflexivity|].
    split; [|split].
    + destruct Hm' as [H1 H2 H3 H4 H5]; split; auto. eapply accs_ext; [|exact H5]. unfold lsum; cbn [fold_right]. intros. ring.
    + rewrite Es', Es. unfold lsum; cbn [fold_right]. ring.
    + rewrite En', En. cbn [length]. lia.
Qed.

Lemma unormalize_ok m g : u_nsampl m <> 0 -> umeas_ok m g ->
  exists m', unormalize m = Some m' /\ umeas_ok m' (fun f k => g f k / IZR (u_nsampl m))%R /\
    u_sign m' = (u_sign m / IZR (u_nsampl m))%R /\ u_nsampl m' = u_nsampl m.
Proof.
  intros Hn [E1 E2 E3 Hm Ha]. unfold unormalize. rewrite E1, E2, E3.
  rewrite rdiv_ok by (apply IZR_neq; lia). cbn [obind].
  set (q := (1 / IZR (u_nsampl m))%R).
  set (sc := fun (done : list ufield) f k => if existsb (ufield_eqb f) done then (q * g f k)%R else g f k).
  assert (forall f n s done, Accs s (sc done) -> n = size f -> existsb (ufield_eqb f) done = false ->
     exists s', u_scale n q f s = Some s' /\ Accs s' (sc (f :: done))) as S.
  { intros f n s done H -> Hd.
    destruct (scale_field_ok _ _ _ ufield_eqbP s (sc done) (size f) q f H eq_refl (usize_nonneg f)) as (s' & E & A).
    exists s'; split; auto. eapply accs_ext; [|exact A]. cbn beta. intros f' k _. unfold sc. cbn [existsb].
    destruct (ufield_eqb f' f) eqn:Ef; cbn [orb]; auto. apply ufield_eqbP in Ef. subst. now rewrite Hd. }
  assert (Accs (u_arr m) (sc [])) as A by exact Ha. clear Ha.
  repeat match goal with
  | H : Accs ?s (sc ?done) |- context [u_scale ?n q ?f ?s] =>
      let s' := fresh "s" in let A := fresh "A" in
      destruct (S f n s done H eq_refl eq_refl) as (s' & -> & A); clear H; cbn [obind]
  end.
  eexists; split; [reflexivity|]. cbn [u_sign u_nsampl]. split; [|split; [unfold q; unfold Rdiv; ring|reflexivity]].
  split; cbn [u_Norb u_Ncell u_L u_sum u_nn u_arr]; auto.
  eapply accs_ext; [|eassumption]. intros f k Hk. unfold sc.
  replace (existsb _ _) with true by (destruct f; reflexivity). unfold q, Rdiv. ring.
Qed.

Lemma unormalize_zero m : u_nsampl m = 0 -> unormalize m = None.
Proof.
  intros E. unfold unormalize. rewrite E. unfold rdiv. destruct (Req_EM_T 0 0); [reflexivity|congruence].
Qed.

(** the increments, entry by entry *)
Lemma uinc_two_point sign c f l o p k : In f u_two_point_fields ->
  0 <= l < L -> 0 <= o < Norb -> 0 <= p < Norb -> 0 <= k < Ncell ->
  uinc sign c f (uentry Norb Ncell o p l k) =
    (sign * average Ncell (fun i => u_two_point f (uconfig N L l c)
        (site Ncell i o) (site Ncell (cell_plus Nx Ny sh k i) p)))%R.
Proof.
  intros Hf Hl Ho Hp Hk. rewrite <- average_scal, <- sum_scal by auto.
  transitivity (sum 0 L (fun l' => sum 0 Norb (fun o' => sum 0 Norb (fun p' => sum 0 Ncell (fun i => sum 0 Ncell (fun k' =>
        ucorr_inc Norb Nx Ny sh L (sign / IZR Ncell) c l' o' p' i k' f (uentry Norb Ncell o p l k))))))).
  { unfold uinc. do 2 (apply sum_ext; intros). match goal with |- (?a + ?b = _)%R => replace b with 0%R; [ring|] end.
    symmetry. do 2 (apply sum_zero; intros). unfold ubond_inc.
    assert (forall W x y n1 n2, ubond_code f W x y n1 n2 = 0%R) as Z0.
    { repeat (destruct Hf as [<-|Hf]; [reflexivity|]). destruct Hf. }
    rewrite Z0, Rmult_0_r. now destruct (_ =? _). }
  unfold ucorr_inc.
  now rewrite (collapse3 Norb Ncell L (fun l o p i k => (sign / IZR Ncell *
     u_two_point f (uconfig N L l c) (site Ncell i o) (site Ncell (cell_plus Nx Ny sh k i) p))%R)) by auto.
Qed.

Lemma uinc_bond sign c f l o k : In f u_bond_fields ->
  0 <= l < L -> 0 <= o < Norb -> 0 <= k < Ncell ->
  uinc sign c f (k + (Ncell * o + N * l)) =
    (sign * average Ncell (fun i => let j := cell_plus Nx Ny sh k i in
        let nb x d := site Ncell (cell_step Nx Ny 0 d x) o in
        ubond_code f (uconfig N L l c) (site Ncell i o) (site Ncell j o) (nb i) (nb j)))%R.
Proof.
  intros Hf Hl Ho Hk. rewrite <- average_scal, <- sum_scal by auto.
  transitivity (sum 0 L (fun l' => sum 0 Norb (fun o' => sum 0 Ncell (fun i => sum 0 Ncell (fun k' =>
        ubond_inc Norb Nx Ny sh L (sign / IZR Ncell) c l' o' i k' f (k + (Ncell * o + N * l))))))).
  { unfold uinc. do 2 (apply sum_ext; intros). match goal with |- (?a + ?b = _)%R => replace a with 0%R; [ring|] end.
    symmetry. do 3 (apply sum_zero; intros). unfold ucorr_inc.
    assert (forall W x y, u_two_point f W x y = 0%R) as Z0.
    { repeat (destruct Hf as [<-|Hf]; [reflexivity|]). destruct Hf. }
    rewrite Z0, Rmult_0_r. now destruct (_ =? _). }
  unfold ubond_inc.
  now rewrite (collapse_bond Norb Ncell L (fun l o i k => (sign / IZR Ncell *
     ubond_code f (uconfig N L l c) (site Ncell i o) (site Ncell (cell_plus Nx Ny sh k i) o)
          (fun d => site Ncell (cell_step Nx Ny 0 d i) o)
          (fun d => site Ncell (cell_step Nx Ny 0 d (cell_plus Nx Ny sh k i)) o))%R)) by auto.
Qed.
End Seq.
