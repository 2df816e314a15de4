(** Proofs about the unequal time measurements recorded for every site. *)
From Coq Require Import ZArith List Reals Lia Lra Bool.
From Verif Require Import Base BaseFacts Sums SumsFacts RealOps Blas BlasFacts Lattice LatticeSpec LatticeFacts
  Accum AccumFacts WickSpec Measure MeasureSpec MeasureFacts MeasureSeqFacts UMeasure UMeasureSpec UMeasureFacts
  UMeasureSeqFacts FMeasure FMeasureFacts.
Import ListNotations.
Local Open Scope Z_scope.

Lemma collapse_pair_time N L (v : Z -> Z -> Z -> R) l0 i0 j0 : 0 <= l0 < L -> 0 <= i0 < N -> 0 <= j0 < N ->
  sum 0 L (fun l => sum 0 N (fun i => sum 0 N (fun j =>
    if i + N * j + N * N * l =? i0 + N * j0 + N * N * l0 then v l i j else 0%R))) = v l0 i0 j0.
Proof. intros. now apply (collapse_cells L N v). Qed.

Lemma collapse_cells_time Norb Ncell L (v : Z -> Z -> Z -> Z -> R) l0 o0 i0 j0 :
  0 <= l0 < L -> 0 <= o0 < Norb -> 0 <= i0 < Ncell -> 0 <= j0 < Ncell ->
  sum 0 L (fun l => sum 0 Norb (fun o => sum 0 Ncell (fun i => sum 0 Ncell (fun j =>
    if i + Ncell * j + Ncell * Ncell * (o + Norb * l) =? i0 + Ncell * j0 + Ncell * Ncell * (o0 + Norb * l0)
    then v l o i j else 0%R)))) = v l0 o0 i0 j0.
Proof.
  intros Hl Ho Hi Hj. rewrite (@sum_single _ _ _ l0); auto.
  - rewrite <- (collapse_cells Norb Ncell (v l0) o0 i0 j0) by auto. do 3 (apply sum_ext; intros).
    destruct (Z.eqb_spec (i1 + Ncell * i2 + Ncell * Ncell * (i + Norb * l0)) (i0 + Ncell * j0 + Ncell * Ncell * (o0 + Norb * l0))),
      (Z.eqb_spec (i1 + Ncell * i2 + Ncell * Ncell * i) (i0 + Ncell * j0 + Ncell * Ncell * o0)); auto; exfalso; nia.
  - intros l Hl' Hn. do 3 (apply sum_zero; intros).
    destruct (Z.eqb_spec (i1 + Ncell * i2 + Ncell * Ncell * (i + Norb * l)) (i0 + Ncell * j0 + Ncell * Ncell * (o0 + Norb * l0))) as [E|]; auto.
    exfalso. apply Hn.
    replace (i1 + Ncell * i2 + Ncell * Ncell * (i + Norb * l)) with (i1 + Ncell * (i2 + Ncell * (i + Norb * l))) in E by ring.
    replace (i0 + Ncell * j0 + Ncell * Ncell * (o0 + Norb * l0)) with (i0 + Ncell * (j0 + Ncell * (o0 + Norb * l0))) in E by ring.
    apply two_idx in E; auto. destruct E as [_ E]. apply two_idx in E; auto. destruct E as [_ E].
    apply two_idx in E; auto. tauto.
Qed.

(** fields of the two-site correlations which are not Green's functions, and of the correlations of
    bonds recorded for every pair of cells *)
Definition fu_corr_fields : list ufield := [nn_corr; u_zz_corr; u_xx_corr].
Definition fu_bond_fields : list ufield := [u_sc_c_sw; u_sc_c_dw; u_sc_c_sx; ram_b1g; ram_b2g].

Section Full.
Variables (Norb Nx Ny L : Z).
Hypotheses (HNorb : 0 < Norb) (HNx : 0 < Nx) (HNy : 0 < Ny) (HL : 0 < L).
Notation Ncell := (Nx * Ny).
Notation N := (Nx * Ny * Norb).
Notation size := (fufield_len Norb Ncell L).
Notation Accs := (accs ufield size).
Notation Adds := (adds ufield size).
Notation step := (cell_step Nx Ny 0).

Definition fumaps_ok (nn : nn_maps) : Prop := forall c, 0 <= c < Ncell -> neighbours8 nn c = Some (nb8 Nx Ny c).

Lemma pair_time_range l i j : 0 <= l < L -> 0 <= i < N -> 0 <= j < N -> 0 <= i + N * j + N * N * l < N * N * L.
Proof. intros. assert (0 <= i + N * j < N * N) by nia. split; nia. Qed.
Lemma cells_time_range l o i j : 0 <= l < L -> 0 <= o < Norb -> 0 <= i < Ncell -> 0 <= j < Ncell ->
  0 <= i + Ncell * j + Ncell * Ncell * (o + Norb * l) < Ncell * Ncell * Norb * L.
Proof.
  intros. assert (0 <= i + Ncell * j < Ncell * Ncell) by nia.
  assert (0 <= o + Norb * l < Norb * L) by nia.
  replace (Ncell * Ncell * Norb * L) with (Ncell * Ncell * (Norb * L)) by ring.
  set (q := Ncell * Ncell) in *. set (t := o + Norb * l) in *. set (M := Norb * L) in *. nia.
Qed.

Section Sample.
Variables (sign : R) (c : cur_greens).
Hypothesis HC : cur_ok N L c.
Notation w l := (uconfig N L l c).
Ltac inl := cbn; tauto.

Definition fgreens (f : ufield) : list R :=
  match f with
  | Gtau0_u => cGtau0_u c | G0tau_u => cG0tau_u c | Geqlt_u => cGeqlt_u c
  | Gtau0_d => cGtau0_d c | G0tau_d => cG0tau_d c | Geqlt_d => cGeqlt_d c
  | _ => []
  end.

Lemma fuacc_greens_ok : Adds (fuacc_greens sign c N L) (fun f k => sign * rat (fgreens f) k)%R.
Proof.
  intros s g H. unfold fuacc_greens.
  assert (N * L * N = N * N * L) as EL by ring.
  assert (0 <= N * N * L) as HNN by nia.
  pose proof (fun a Ha => clen Norb Nx Ny L c HC a Ha) as CL.
  destruct (axpy_field_ok _ _ _ ufield_eqbP _ _ (N * L * N) sign (cGtau0_u c) Gtau0_u H) as (s1 & -> & A1);
    [reflexivity | lia | rewrite CL by inl; lia |]. cbn [obind].
  destruct (axpy_field_ok _ _ _ ufield_eqbP _ _ (N * N * L) sign (cG0tau_u c) G0tau_u A1) as (s2 & -> & A2);
    [reflexivity | lia | rewrite CL by inl; lia |]. cbn [obind].
  destruct (axpy_field_ok _ _ _ ufield_eqbP _ _ (N * N * L) sign (cGeqlt_u c) Geqlt_u A2) as (s3 & -> & A3);
    [reflexivity | lia | rewrite CL by inl; lia |]. cbn [obind].
  destruct (axpy_field_ok _ _ _ ufield_eqbP _ _ (N * L * N) sign (cGtau0_d c) Gtau0_d A3) as (s4 & -> & A4);
    [reflexivity | lia | rewrite CL by inl; lia |]. cbn [obind].
  destruct (axpy_field_ok _ _ _ ufield_eqbP _ _ (N * N * L) sign (cG0tau_d c) G0tau_d A4) as (s5 & -> & A5);
    [reflexivity | lia | rewrite CL by inl; lia |]. cbn [obind].
  destruct (axpy_field_ok _ _ _ ufield_eqbP _ _ (N * N * L) sign (cGeqlt_d c) Geqlt_d A5) as (s6 & -> & A6);
    [reflexivity | lia | rewrite CL by inl; lia |].
  exists s6. split; [reflexivity|]. eapply accs_ext; [|exact A6]. cbn beta. intros f k _.
  assert (rat [] k = 0%R) as E0 by (unfold rat; destruct (Z.to_nat k); reflexivity).
  unfold ufield_eqb. destruct f; cbn -[rat]; rewrite ?E0; ring.
Qed.

Definition fucorr_inc (l i j : Z) (f : ufield) (idx : Z) : R :=
  if existsb (ufield_eqb f) fu_corr_fields && (i + N * j + N * N * l =? idx)
  then (sign * u_two_point f (w l) i j)%R else 0%R.

Lemma fuacc_corr_site_ok l i j : 0 <= l < L -> 0 <= i < N -> 0 <= j < N ->
  Adds (fuacc_corr_site sign c N L l i (gtt (w l) up i i) (gtt (w l) dn i i) j) (fucorr_inc l i j).
Proof.
  intros Hl Hi Hj s g H. unfold fuacc_corr_site.
  rewrite (gt0_get Norb Nx Ny L HNorb HNx HNy HL c HC l up i j), (gt0_get Norb Nx Ny L HNorb HNx HNy HL c HC l dn i j),
    (g00_get Norb Nx Ny L HNorb HNx HNy HL c HC l up j j), (g00_get Norb Nx Ny L HNorb HNx HNy HL c HC l dn j j),
    (g0t_get Norb Nx Ny L HNorb HNx HNy c HC l up j i), (g0t_get Norb Nx Ny L HNorb HNx HNy c HC l dn j i) by auto.
  cbn [obind].
  pose proof (pair_time_range l i j Hl Hi Hj) as He.
  set (e := i + N * j + N * N * l) in *.
  assert (forall f v, In f fu_corr_fields ->
            Adds (u_add f e v) (fun f' k' => if ufield_eqb f' f && (e =? k') then v else 0%R)) as A.
  { intros f v Hf. apply adds_add_to; [exact ufield_eqbP|].
    repeat (destruct Hf as [<-|Hf]; [exact He|]). destruct Hf. }
  destruct ((i =? j) && (l =? 0)) eqn:Eq.
  - apply andb_prop in Eq as [E1 E2]. apply Z.eqb_eq in E1, E2. subst j l.
    replace (i + N * i) with e by (unfold e; ring).
    revert s g H. eapply adds_ext.
    2:{ refine (adds_seq _ _ _ _ _ _ (A nn_corr _ _) (adds_seq _ _ _ _ _ _ (A u_zz_corr _ _) (A u_xx_corr _ _))); inl. }
    intros f idx _. unfold fucorr_inc. fold e. rewrite (u_same Norb Nx Ny L c HC) by auto.
    unfold ufield_eqb. clearbody e. destruct f; cbn -[gtt uconfig]; try ring; destruct (e =? idx); ring.
  - assert (l <> 0 \/ i <> j) as Hne.
    { destruct (Z.eq_dec l 0) as [->|]; [right|now left]. intros ->. now rewrite !Z.eqb_refl in Eq. }
    revert s g H. eapply adds_ext.
    2:{ refine (adds_seq _ _ _ _ _ _ (A nn_corr _ _) (adds_seq _ _ _ _ _ _ (A u_zz_corr _ _) (A u_xx_corr _ _))); inl. }
    intros f idx _. unfold fucorr_inc. fold e. rewrite (u_diff Norb Nx Ny L c l f i j Hne).
    unfold ufield_eqb. clearbody e. destruct f; cbn -[gtt g00 gt0 g0t uconfig]; try ring; destruct (e =? idx); ring.
Qed.

Lemma fuacc_corr_ok l : 0 <= l < L -> Adds (fuacc_corr sign c N L l)
  (fun f idx => sum 0 N (fun i => sum 0 N (fun j => fucorr_inc l i j f idx))).
Proof.
  intros Hl. unfold fuacc_corr.
  apply (adds_loop _ _ 0 N _ (fun i f idx => sum 0 N (fun j => fucorr_inc l i j f idx))); [nia|].
  intros i Hi s g H.
  rewrite (gtt_get Norb Nx Ny L HNorb HNx HNy c HC l up), (gtt_get Norb Nx Ny L HNorb HNx HNy c HC l dn) by auto.
  cbn [obind]. revert s g H.
  apply (adds_loop _ _ 0 N _ (fun j => fucorr_inc l i j)); [nia|]. intros j Hj. now apply fuacc_corr_site_ok.
Qed.

Definition fubond_inc (l o i j : Z) (f : ufield) (idx : Z) : R :=
  if existsb (ufield_eqb f) fu_bond_fields && (i + Ncell * j + Ncell * Ncell * (o + Norb * l) =? idx)
  then (sign * ubond_code f (w l) (site Ncell i o) (site Ncell j o)
          (fun d => site Ncell (step d i) o) (fun d => site Ncell (step d j) o))%R else 0%R.

Lemma fuacc_sc_site_ok nn l o i j : fumaps_ok nn ->
  0 <= l < L -> 0 <= o < Norb -> 0 <= i < Ncell -> 0 <= j < Ncell ->
  Adds (fuacc_sc_site sign c N Norb Ncell L nn l o i (nb8 Nx Ny i) j) (fubond_inc l o i j).
Proof.
  intros Hnn Hl Ho Hi Hj s g H. unfold fuacc_sc_site, nb8 at 1.
  rewrite Hnn by auto. unfold nb8. cbn [obind].
  pose proof (fun d => step_range Nx Ny HNx HNy d i) as Ri.
  pose proof (fun d => step_range Nx Ny HNx HNy d j) as Rj.
  pose proof (cells_time_range l o i j Hl Ho Hi Hj) as He.
  set (e := i + Ncell * j + Ncell * Ncell * (o + Norb * l)) in *.
  assert (forall f v, In f fu_bond_fields ->
            Adds (u_add f e v) (fun f' k' => if ufield_eqb f' f && (e =? k') then v else 0%R)) as A.
  { intros f v Hf. apply adds_add_to; [exact ufield_eqbP|].
    repeat (destruct Hf as [<-|Hf]; [exact He|]). destruct Hf. }
  pose proof (fun x y => col_base Norb Nx Ny L HNorb HNx HNy c HC (cG0tau_u c) ltac:(inl) l o x y Hl Ho) as B1.
  pose proof (fun x y => col_base Norb Nx Ny L HNorb HNx HNy c HC (cG0tau_d c) ltac:(inl) l o x y Hl Ho) as B2.
  pose proof (fun x y => col_base Norb Nx Ny L HNorb HNx HNy c HC (cGeqlt_u c) ltac:(inl) l o x y Hl Ho) as B3.
  pose proof (fun x y => col_base Norb Nx Ny L HNorb HNx HNy c HC (cGeqlt_d c) ltac:(inl) l o x y Hl Ho) as B4.
  pose proof (fun x y => zero_base Norb Nx Ny L HNorb HNx HNy HL c HC (cGeqlt_u c) ltac:(inl) o x y Ho) as B5.
  pose proof (fun x y => zero_base Norb Nx Ny L HNorb HNx HNy HL c HC (cGeqlt_d c) ltac:(inl) o x y Ho) as B6.
  pose proof (fun x y => row_base Norb Nx Ny L HNorb HNx HNy HL c HC (cGtau0_u c) ltac:(inl) l o x y Hl Ho) as B7.
  pose proof (fun x y => row_base Norb Nx Ny L HNorb HNx HNy HL c HC (cGtau0_d c) ltac:(inl) l o x y Hl Ho) as B8.
  rewrite (eval_ok (Rd _ _)) by (apply B7; auto). cbn [obind].
  rewrite (eval_ok (Rd _ _)) by (apply B8; auto). cbn [obind].
  rewrite (eval_ok (dw_expr _ _ _ _ _ _ _ _ _ _ _ _ _)) by (cbn [dw_expr reads_ok fst snd]; repeat split; apply B8; auto).
  rewrite (eval_ok (sx_expr _ _ _ _ _ _ _ _ _ _ _ _ _)) by (cbn [sx_expr reads_ok fst snd]; repeat split; apply B8; auto).
  rewrite (eval_ok (b1g_expr _ _ _ _ _ _ _ _ _ _ _ _ _ _ _ _ _ _ _ _ _ _))
    by (unfold b1g_expr; cbn [reads_ok fst snd]; repeat split; first [apply B1|apply B2|apply B3|apply B4|apply B5|apply B6|apply B7|apply B8]; auto).
  rewrite (eval_ok (b2g_expr _ _ _ _ _ _ _ _ _ _ _ _ _ _ _ _ _ _ _ _ _ _))
    by (unfold b2g_expr; cbn [reads_ok fst snd]; repeat split; first [apply B1|apply B2|apply B3|apply B4|apply B5|apply B6|apply B7|apply B8]; auto).
  cbn [obind]. clear B1 B2 B3 B4 B5 B6 B7 B8.
  revert s g H. eapply adds_ext.
  2:{ refine (adds_seq _ _ _ _ _ _ (A u_sc_c_sw _ _) (adds_seq _ _ _ _ _ _ (A u_sc_c_dw _ _)
       (adds_seq _ _ _ _ _ _ (A u_sc_c_sx _ _) (adds_seq _ _ _ _ _ _ (A ram_b1g _ _) (A ram_b2g _ _))))); cbn; tauto. }
  clear A. intros f idx _. unfold fubond_inc. fold e.
  assert (forall x, 0 <= x < Ncell -> Forall (fun x => 0 <= x < Ncell)
     [x; step (1, 0) x; step (-1, 0) x; step (0, 1) x; step (0, -1) x]) as F1 by (intros; repeat constructor; try apply step_range; auto; lia).
  assert (forall x, 0 <= x < Ncell -> Forall (fun x => 0 <= x < Ncell)
     [x; step (1, 1) x; step (1, -1) x; step (-1, 1) x; step (-1, -1) x]) as F2 by (intros; repeat constructor; try apply step_range; auto; lia).
  assert (forall x, 0 <= x < Ncell -> forall y, In y [step (1, 1) x; step (1, -1) x; step (-1, 1) x; step (-1, -1) x] ->
     delta y x = delta (step (1, 1) x) x) as D2.
  { intros x Hx. assert (forall d, In d [(1, 1); (1, -1); (-1, 1); (-1, -1)] -> delta (step d x) x = delta (step (1, 1) x) x) as D.
    { intros d Hd. unfold delta.
      pose proof (step_fix Nx Ny HNx HNy d x Hx) as Q1. pose proof (step_fix Nx Ny HNx HNy (1, 1) x Hx) as Q2.
      destruct (Z.eqb_spec (step d x) x) as [E1|E1], (Z.eqb_spec (step (1, 1) x) x) as [E2|E2]; auto; exfalso.
      - apply E2. apply Q2. apply Q1 in E1. cbn [fst snd] in *.
        rewrite !one_mod by auto.
        repeat (destruct Hd as [<-|Hd]; [cbn [fst snd] in E1; rewrite ?one_mod, ?mone_mod in E1 by auto; exact E1|]). destruct Hd.
      - apply E1. apply Q1. apply Q2 in E2. cbn [fst snd] in *. rewrite !one_mod in E2 by auto.
        repeat (destruct Hd as [<-|Hd]; [cbn [fst snd]; rewrite ?one_mod, ?mone_mod by auto; exact E2|]). destruct Hd. }
    intros y Hy. repeat (destruct Hy as [<-|Hy]; [apply D; cbn; tauto|]). destruct Hy. }
  rewrite (b1g_value Norb Nx Ny L sign c l o) by (apply (Forall_app _ [_; _; _; _; _] [_; _; _; _; _]); auto).
  rewrite (b2g_value Norb Nx Ny L sign c l o Hl) by (auto; apply (Forall_app _ [_; _; _; _; _] [_; _; _; _; _]); auto).
  unfold dw_expr, sx_expr. cbn [value fst snd].
  rewrite ?(gt0_base Norb Nx Ny L c up l), ?(gt0_base Norb Nx Ny L c dn l).
  set (W := w l). clearbody W. clearbody e.
  unfold ufield_eqb.
  destruct f; cbn [ufield_eq_dec ufield_rec ufield_rect andb orb existsb fu_bond_fields ubond_code u_bond]; try (destruct (_ =? idx); ring).
  all: try (cbn -[bare correlation pair_correlation step site Z.mul Z.add]; ring).
  all: destruct (e =? idx); try ring.
  - cbn -[step site Z.mul Z.add]. rewrite !step_id by auto. ring.
  - cbn -[step site Z.mul Z.add]. replace 0.25%R with (/2 * /2)%R by lra. ring.
  - cbn -[step site Z.mul Z.add]. replace 0.25%R with (/2 * /2)%R by lra. ring.
Qed.

Lemma fuacc_slice_ok nn l : fumaps_ok nn -> 0 <= l < L ->
  Adds (fuacc_slice sign c N Norb Ncell L nn l)
    (fun f idx => sum 0 N (fun i => sum 0 N (fun j => fucorr_inc l i j f idx))
       + sum 0 Norb (fun o => sum 0 Ncell (fun i => sum 0 Ncell (fun j => fubond_inc l o i j f idx))))%R.
Proof.
  intros Hm Hl. apply (adds_seq _ _ _ _ _ _ (fuacc_corr_ok l Hl)).
  apply (adds_loop _ _ 0 Norb _ (fun o f idx => sum 0 Ncell (fun i => sum 0 Ncell (fun j => fubond_inc l o i j f idx)))); [lia|].
  intros o Ho.
  apply (adds_loop _ _ 0 Ncell _ (fun i f idx => sum 0 Ncell (fun j => fubond_inc l o i j f idx))); [nia|].
  intros i Hi s g H. unfold fuacc_sc_row. rewrite Hm by auto. cbn [obind]. revert s g H.
  apply (adds_loop _ _ 0 Ncell _ (fun j => fubond_inc l o i j)); [nia|]. intros j Hj. now apply fuacc_sc_site_ok.
Qed.
End Sample.

Record fumeas_ok (m : umeas) (g : ufield -> Z -> R) : Prop := {
  fuo_Norb : u_Norb m = Norb;
  fuo_Ncell : u_Ncell m = Ncell;
  fuo_L : u_L m = L;
  fuo_maps : fumaps_ok (u_nn m);
  fuo_arr : Accs (u_arr m) g }.

(** what one sample adds *)
Definition fuinc (sign : R) (c : cur_greens) (f : ufield) (idx : Z) : R :=
  (sign * rat (fgreens c f) idx
   + sum 0 L (fun l => sum 0 N (fun i => sum 0 N (fun j => fucorr_inc sign c l i j f idx))
       + sum 0 Norb (fun o => sum 0 Ncell (fun i => sum 0 Ncell (fun j => fubond_inc sign c l o i j f idx)))))%R.

Lemma fu_accumulate_ok sign c m g : cur_ok N L c -> fumeas_ok m g ->
  exists m', fu_accumulate sign c m = Some m' /\ fumeas_ok m' (fun f k => g f k + fuinc sign c f k)%R /\
    u_sign m' = (u_sign m + sign)%R /\ u_nsampl m' = u_nsampl m + 1.
Proof.
  intros HC [E1 E2 E3 Hm Ha]. unfold fu_accumulate. rewrite E1, E2, E3.
  destruct (fuacc_greens_ok sign c HC _ _ Ha) as (s1 & -> & A1). cbn [obind].
  assert (Adds (for_range 0 L (fuacc_slice sign c N Norb Ncell L (u_nn m)))
    (fun f idx => sum 0 L (fun l => sum 0 N (fun i => sum 0 N (fun j => fucorr_inc sign c l i j f idx))
       + sum 0 Norb (fun o => sum 0 Ncell (fun i => sum 0 Ncell (fun j => fubond_inc sign c l o i j f idx)))))%R) as AL.
  { apply (adds_loop _ _ 0 L _ (fun l f idx => sum 0 N (fun i => sum 0 N (fun j => fucorr_inc sign c l i j f idx))
       + sum 0 Norb (fun o => sum 0 Ncell (fun i => sum 0 Ncell (fun j => fubond_inc sign c l o i j f idx))))%R); [lia|].
    intros l Hl. now apply fuacc_slice_ok. }
  destruct (AL _ _ A1) as (s2 & -> & A2). cbn [obind].
  eexists; split; [reflexivity|]. split; [|split; reflexivity].
  split; cbn [u_Norb u_Ncell u_L u_nn u_arr]; auto.
  eapply accs_ext; [|exact A2]. cbn beta. intros f k _. unfold fuinc. ring.
Qed.

Lemma fusize_nonneg f : 0 <= size f.
Proof. destruct f; cbn; nia. Qed.

Lemma fu_allocate_ok junk sh : exists m, fu_allocate junk Norb Nx Ny sh L = Some m /\
  fumeas_ok m (fun _ _ => 0%R) /\ u_sign m = 0%R /\ u_nsampl m = 0.
Proof.
  unfold fu_allocate. destruct (nn_map_total Nx Ny junk HNx HNy) as [nn E].
  pose proof (nn_steps Nx Ny nn HNx HNy (ex_intro _ junk E)) as Q.
  cbv zeta in E. rewrite E. cbn [obind].
  eexists; split; [reflexivity|]. split; [|split; reflexivity]. split; cbn [u_Norb u_Ncell u_L u_nn u_arr]; auto.
  - intros x Hx. unfold neighbours8. destruct (Q x Hx) as (-> & -> & -> & ->). cbn [obind].
    destruct (Q (step (1, 0) x) ltac:(apply step_range; auto)) as (_ & _ & -> & ->).
    destruct (Q (step (-1, 0) x) ltac:(apply step_range; auto)) as (_ & _ & -> & ->).
    cbn [obind]. rewrite !step_step by auto. reflexivity.
  - intros f. apply repeat_arr. apply fusize_nonneg.
Qed.

Lemma fu_accumulate_all_ok samples : forall m g,
  (forall s, In s samples -> cur_ok N L (snd s)) -> fumeas_ok m g ->
  exists m', fu_accumulate_all samples m = Some m' /\
    fumeas_ok m' (fun f k => g f k + lsum (fun s => fuinc (fst s) (snd s) f k) samples)%R /\
    u_sign m' = (u_sign m + lsum fst samples)%R /\
    u_nsampl m' = u_nsampl m + Z.of_nat (length samples).
Proof.
  induction samples as [|s l IH]; intros m g Hg Hm.
  - exists m. split; [reflexivity|]. cbn. split; [|split; [ring|lia]].
    destruct Hm as [H1 H2 H3 H4 H5]; split; auto. eapply accs_ext; [|exact H5]. intros; cbn; ring.
  - destruct (fu_accumulate_ok (fst s) (snd s) _ _ (Hg s ltac:(now left)) Hm) as (m1 & E1 & Hm1 & Es & En).
    destruct (IH m1 _ ltac:(intros; apply Hg; now right) Hm1) as (m' & E & Hm' & Es' & En').
    exists m'. unfold fu_accumulate_all in *. cbn [fold_left obind]. rewrite E1, E. split; [reflexivity|].
    split; [|split].
    + destruct Hm' as [H1 H2 H3 H4 H5]; split; auto. eapply accs_ext; [|exact H5]. unfold lsum; cbn [fold_right]. intros. ring.
    + rewrite Es', Es. unfold lsum; cbn [fold_right]. ring.
    + rewrite En', En. cbn [length]. lia.
Qed.

Lemma fu_normalize_ok m g : u_nsampl m <> 0 -> fumeas_ok m g ->
  exists m', fu_normalize m = Some m' /\
    fumeas_ok m' (fun f k => if existsb (ufield_eqb f) [Jcorr_x; Jcorr_y] then g f k else g f k / IZR (u_nsampl m))%R /\
    u_sign m' = (u_sign m / IZR (u_nsampl m))%R /\ u_nsampl m' = u_nsampl m.
Proof.
  intros Hn [E1 E2 E3 Hm Ha]. unfold fu_normalize. rewrite E1, E2, E3.
  rewrite rdiv_ok by (apply IZR_neq; lia). cbn [obind].
  set (q := (1 / IZR (u_nsampl m))%R).
  set (sc := fun (done : list ufield) f k => if existsb (ufield_eqb f) done then (q * g f k)%R else g f k).
  assert (forall f n s done, Accs s (sc done) -> n = size f -> existsb (ufield_eqb f) done = false ->
     exists s', u_scale n q f s = Some s' /\ Accs s' (sc (f :: done))) as S.
  { intros f n s done H -> Hd.
    destruct (scale_field_ok _ _ _ ufield_eqbP s (sc done) (size f) q f H eq_refl (fusize_nonneg f)) as (s' & E & A).
    exists s'; split; auto. eapply accs_ext; [|exact A]. cbn beta. intros f' k _. unfold sc. cbn [existsb].
    destruct (ufield_eqb f' f) eqn:Ef; cbn [orb]; auto. apply ufield_eqbP in Ef. subst. now rewrite Hd. }
  assert (Accs (u_arr m) (sc [])) as A by exact Ha. clear Ha.
  repeat match goal with
  | H : Accs ?s (sc ?done) |- context [u_scale ?n q ?f ?s] =>
      let s' := fresh "s" in let A := fresh "A" in
      destruct (S f n s done H eq_refl eq_refl) as (s' & -> & A); clear H; cbn [obind]
  end.
  eexists; split; [reflexivity|]. cbn [u_sign u_nsampl]. split; [|split; [unfold q; unfold Rdiv; ring|reflexivity]].
  split; cbn [u_Norb u_Ncell u_L u_nn u_arr]; auto.
  eapply accs_ext; [|eassumption]. intros f k Hk. unfold sc, ufield_eqb.
  destruct f; cbn -[q]; unfold q, Rdiv; try ring.
Qed.

(** the increments, entry by entry *)
Lemma fgreens_nil c f k : ~ In f [Gtau0_u; G0tau_u; Geqlt_u; Gtau0_d; G0tau_d; Geqlt_d] -> rat (fgreens c f) k = 0%R.
Proof.
  intros H. assert (fgreens c f = []) as -> by (destruct f; cbn in *; tauto).
  unfold rat. destruct (Z.to_nat k); reflexivity.
Qed.

Lemma fuinc_greens sign c f k : In f [Gtau0_u; G0tau_u; Geqlt_u; Gtau0_d; G0tau_d; Geqlt_d] ->
  fuinc sign c f k = (sign * rat (fgreens c f) k)%R.
Proof.
  intros Hf. unfold fuinc. match goal with |- (_ + ?b = _)%R => replace b with 0%R; [ring|] end.
  symmetry. apply sum_zero. intros l _.
  match goal with |- (?a + ?b = _)%R => replace a with 0%R; [replace b with 0%R; [ring|]|] end; symmetry.
  - do 3 (apply sum_zero; intros). unfold fubond_inc.
    repeat (destruct Hf as [<-|Hf]; [reflexivity|]). destruct Hf.
  - do 2 (apply sum_zero; intros). unfold fucorr_inc.
    repeat (destruct Hf as [<-|Hf]; [reflexivity|]). destruct Hf.
Qed.

Lemma fuinc_corr sign c f l i j : In f fu_corr_fields -> 0 <= l < L -> 0 <= i < N -> 0 <= j < N ->
  fuinc sign c f (i + N * j + N * N * l) = (sign * u_two_point f (uconfig N L l c) i j)%R.
Proof.
  intros Hf Hl Hi Hj. unfold fuinc.
  rewrite fgreens_nil by (intros B; repeat (destruct Hf as [<-|Hf]; [cbn in B; intuition discriminate|]); destruct Hf).
  rewrite Rmult_0_r, Rplus_0_l.
  transitivity (sum 0 L (fun l' => sum 0 N (fun i' => sum 0 N (fun j' =>
    if i' + N * j' + N * N * l' =? i + N * j + N * N * l then (sign * u_two_point f (uconfig N L l' c) i' j')%R else 0%R)))).
  - apply sum_ext. intros l' _.
    match goal with |- (_ + ?b = _)%R => replace b with 0%R end.
    2:{ symmetry. do 3 (apply sum_zero; intros). unfold fubond_inc.
        repeat (destruct Hf as [<-|Hf]; [reflexivity|]). destruct Hf. }
    rewrite Rplus_0_r. do 2 (apply sum_ext; intros). unfold fucorr_inc.
    replace (existsb _ _) with true; [reflexivity|].
    repeat (destruct Hf as [<-|Hf]; [reflexivity|]). destruct Hf.
  - now rewrite (collapse_pair_time N L (fun l i j => sign * u_two_point f (uconfig N L l c) i j)%R) by auto.
Qed.

Lemma fuinc_bond sign c f l o i j : In f fu_bond_fields ->
  0 <= l < L -> 0 <= o < Norb -> 0 <= i < Ncell -> 0 <= j < Ncell ->
  fuinc sign c f (i + Ncell * j + Ncell * Ncell * (o + Norb * l)) =
    (sign * ubond_code f (uconfig N L l c) (site Ncell i o) (site Ncell j o)
        (fun d => site Ncell (step d i) o) (fun d => site Ncell (step d j) o))%R.
Proof.
  intros Hf Hl Ho Hi Hj. unfold fuinc.
  rewrite fgreens_nil by (intros B; repeat (destruct Hf as [<-|Hf]; [cbn in B; intuition discriminate|]); destruct Hf).
  rewrite Rmult_0_r, Rplus_0_l.
  transitivity (sum 0 L (fun l' => sum 0 Norb (fun o' => sum 0 Ncell (fun i' => sum 0 Ncell (fun j' =>
    if i' + Ncell * j' + Ncell * Ncell * (o' + Norb * l') =? i + Ncell * j + Ncell * Ncell * (o + Norb * l)
    then (sign * ubond_code f (uconfig N L l' c) (site Ncell i' o') (site Ncell j' o')
        (fun d => site Ncell (step d i') o') (fun d => site Ncell (step d j') o'))%R else 0%R))))).
  - apply sum_ext. intros l' _.
    match goal with |- (?a + _ = _)%R => replace a with 0%R end.
    2:{ symmetry. do 2 (apply sum_zero; intros). unfold fucorr_inc.
        repeat (destruct Hf as [<-|Hf]; [reflexivity|]). destruct Hf. }
    rewrite Rplus_0_l. do 3 (apply sum_ext; intros). unfold fubond_inc.
    replace (existsb _ _) with true; [reflexivity|].
    repeat (destruct Hf as [<-|Hf]; [reflexivity|]). destruct Hf.
  - now rewrite (collapse_cells_time Norb Ncell L (fun l o i j => (sign * ubond_code f (uconfig N L l c) (site Ncell i o) (site Ncell j o)
        (fun d => site Ncell (step d i) o) (fun d => site Ncell (step d j) o))%R)) by auto.
Qed.

Lemma fu_b1g c l o i j : 0 <= l < L -> 0 <= i < Ncell -> 0 <= j < Ncell -> (Nx = 1 <-> Ny = 1) ->
  let nb x d := site Ncell (step d x) o in
  ubond_code ram_b1g (uconfig N L l c) (site Ncell i o) (site Ncell j o) (nb i) (nb j)
  = u_bond ram_b1g (uconfig N L l c) (site Ncell i o) (site Ncell j o) (nb i) (nb j).
Proof.
  intros Hl Hi Hj Hxy.
  destruct (displacement_unique Nx Ny 0 HNx HNy i j Hi Hj) as (k & Hk & <- & _).
  exact (b1g_code Norb Nx Ny 0 L HNx HNy c l o i k Hl Hi Hk Hxy).
Qed.
End Full.
