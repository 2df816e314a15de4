(** Proofs about the equal time measurements. *)
From Coq Require Import ZArith List Reals Lia Lra Bool.
From Verif Require Import Base BaseFacts Sums SumsFacts RealOps Blas BlasFacts Lattice LatticeSpec LatticeFacts
  GreenConstruct Accum AccumFacts WickSpec Measure MeasureSpec.
Import ListNotations.
Local Open Scope Z_scope.

Lemma mfield_eqbP f g : mfield_eqb f g = true <-> f = g.
Proof. unfold mfield_eqb. destruct (mfield_eq_dec f g); split; congruence. Qed.

Lemma aget_at l k : 0 <= k < Z.of_nat (length l) -> aget l k = Some (at_ l k).
Proof. intros. unfold at_. now apply aget_nth. Qed.

(** collapse of the sums over the entries *)
Lemma two_idx Ncell a b a' b' : 0 <= a < Ncell -> 0 <= a' < Ncell ->
  a + Ncell * b = a' + Ncell * b' -> a = a' /\ b = b'.
Proof. intros. assert (b = b') by nia. subst. split; auto. lia. Qed.

Lemma collapse1 Ncell (v : Z -> Z -> R) n o0 k0 : 0 <= o0 < n -> 0 <= k0 < Ncell ->
  sum 0 n (fun o => sum 0 Ncell (fun k => if k + Ncell * o =? k0 + Ncell * o0 then v o k else 0%R)) = v o0 k0.
Proof.
  intros Ho Hk. rewrite (@sum_single _ _ _ o0); auto.
  - rewrite (@sum_single _ _ _ k0); auto.
    + now rewrite Z.eqb_refl.
    + intros k Hk' Hn. destruct (Z.eqb_spec (k + Ncell * o0) (k0 + Ncell * o0)); auto. lia.
  - intros o Ho' Hn. apply sum_zero. intros k Hk'.
    destruct (Z.eqb_spec (k + Ncell * o) (k0 + Ncell * o0)) as [E|]; auto.
    apply two_idx in E; auto. lia.
Qed.

Lemma collapse2 Norb Ncell (v : Z -> Z -> Z -> Z -> R) o0 p0 k0 :
  0 <= o0 < Norb -> 0 <= p0 < Norb -> 0 <= k0 < Ncell ->
  sum 0 Norb (fun o => sum 0 Norb (fun p => sum 0 Ncell (fun i => sum 0 Ncell (fun k =>
     if k + Ncell * (o + Norb * p) =? entry Norb Ncell o0 p0 k0 then v o p i k else 0%R))))
  = sum 0 Ncell (fun i => v o0 p0 i k0).
Proof.
  intros Ho Hp Hk. unfold entry. rewrite (@sum_single _ _ _ o0); auto.
  - rewrite (@sum_single _ _ _ p0); auto.
    + apply sum_ext. intros i Hi. rewrite (@sum_single _ _ _ k0); auto.
      * now rewrite Z.eqb_refl.
      * intros k Hk' Hn. destruct (Z.eqb_spec (k + Ncell * (o0 + Norb * p0)) (k0 + Ncell * (o0 + Norb * p0))); auto. lia.
    + intros p Hp' Hn. apply sum_zero. intros i Hi. apply sum_zero. intros k Hk'.
      destruct (Z.eqb_spec (k + Ncell * (o0 + Norb * p)) (k0 + Ncell * (o0 + Norb * p0))) as [E|]; auto.
      apply two_idx in E; auto. nia.
  - intros o Ho' Hn. apply sum_zero. intros p Hp'. apply sum_zero. intros i Hi. apply sum_zero. intros k Hk'.
    destruct (Z.eqb_spec (k + Ncell * (o + Norb * p)) (k0 + Ncell * (o0 + Norb * p0))) as [E|]; auto.
    apply two_idx in E; auto. destruct E as [_ E]. apply two_idx in E; auto. lia.
Qed.

Section Acc.
Variables (Norb Nx Ny sh : Z).
Hypotheses (HNorb : 0 < Norb) (HNx : 0 < Nx) (HNy : 0 < Ny) (Hsh : 0 <= sh).
Notation Ncell := (Nx * Ny).
Notation N := (Nx * Ny * Norb).
Notation size := (mfield_len Norb Ncell).
Notation Accs := (accs mfield size).
Notation Adds := (adds mfield size).
Notation plus := (cell_plus Nx Ny sh).
Notation step := (cell_step Nx Ny 0).

(** the maps of the structure *)
Definition maps_ok (sm : list Z) (nn : nn_maps) : Prop :=
  (forall k i, 0 <= k < Ncell -> 0 <= i < Ncell -> aget sm (k + Ncell * i) = Some (plus k i)) /\
  (forall c, 0 <= c < Ncell ->
    neighbours nn c = Some (step (1, 0) c, step (-1, 0) c, step (0, 1) c, step (0, -1) c)).

Lemma Ncell_pos : 0 < Ncell. Proof. nia. Qed.
Lemma plus_range a b : 0 <= plus a b < Ncell. Proof. apply wrap_range; auto. Qed.
Lemma step_range d c : 0 <= step d c < Ncell. Proof. apply wrap_range; auto. Qed.

Lemma site_range i o : 0 <= i < Ncell -> 0 <= o < Norb -> 0 <= site Ncell i o < N.
Proof. unfold site. nia. Qed.
Lemma mat_range r c : 0 <= r < N -> 0 <= c < N -> 0 <= r + N * c < N * N.
Proof. nia. Qed.
Lemma entry_range o p k : 0 <= o < Norb -> 0 <= p < Norb -> 0 <= k < Ncell ->
  0 <= k + Ncell * (o + Norb * p) < Ncell * Norb * Norb.
Proof. intros. split; [nia|]. assert (o + Norb * p <= Norb * Norb - 1) by nia. nia. Qed.

Lemma plus_zero k i : 0 <= k < Ncell -> 0 <= i < Ncell -> (plus k i = i <-> k = 0).
Proof.
  intros Hk Hi. pose proof (cplus_group Nx Ny sh HNx HNy) as [G1 G2 G3 [G4 G5] G6].
  change plus with (cplus Nx Ny sh). split.
  - intros E. destruct (G6 i Hi) as (j & Hj & Ej).
    assert (cplus Nx Ny sh (cplus Nx Ny sh k i) j = cplus Nx Ny sh i j) as E' by now rewrite E.
    rewrite <- G2, Ej in E' by auto. rewrite G3, G5 in E'; auto.
  - intros ->. auto.
Qed.

Lemma site_inj i o j p : 0 <= i < Ncell -> 0 <= j < Ncell -> site Ncell i o = site Ncell j p -> i = j /\ o = p.
Proof. unfold site. intros. eapply two_idx; eauto. Qed.

Variables (signfac : R) (Gu Gd : list R).
Hypotheses (HGu : lenZ Gu = N * N) (HGd : lenZ Gd = N * N).
Let G (s : spin) (i j : Z) : R := val (match s with up => Gu | dn => Gd end) (i + N * j).
Notation w := (equal_time G).

Lemma Gu_get r c : 0 <= r < N -> 0 <= c < N -> aget Gu (r + N * c) = Some (G up r c).
Proof. intros. rewrite aget_rat; [reflexivity|]. rewrite HGu. now apply mat_range. Qed.
Lemma Gd_get r c : 0 <= r < N -> 0 <= c < N -> aget Gd (r + N * c) = Some (G dn r c).
Proof. intros. rewrite aget_rat; [reflexivity|]. rewrite HGd. now apply mat_range. Qed.

(** densities *)
Definition dens_val (f : mfield) (i : Z) : R :=
  match f with
  | density_u => 1 - G up i i
  | density_d => 1 - G dn i i
  | doubleocc => (1 - G up i i) * (1 - G dn i i)
  | _ => 0
  end%R.

Lemma density_sums_ok o : 0 <= o < Norb ->
  density_sums Gu Gd N Ncell o =
    Some (sum 0 Ncell (fun i => dens_val density_u (site Ncell i o)),
          sum 0 Ncell (fun i => dens_val density_d (site Ncell i o)),
          sum 0 Ncell (fun i => dens_val doubleocc (site Ncell i o))).
Proof.
  intros Ho. unfold density_sums.
  match goal with |- for_range _ _ ?body ?s0 = _ =>
    destruct (@for_range_inv _ (fun h st => st = (sum 0 h (fun i => dens_val density_u (site Ncell i o)),
          sum 0 h (fun i => dens_val density_d (site Ncell i o)),
          sum 0 h (fun i => dens_val doubleocc (site Ncell i o)))) 0 Ncell body s0) as (s' & E & H) end.
  - pose proof Ncell_pos; lia.
  - intros i st Hi ->. change (i + Ncell * o) with (site Ncell i o).
    rewrite Gu_get, Gd_get by now apply site_range. cbn [obind].
    eexists; split; [reflexivity|]. rewrite !sum_last by lia. reflexivity.
  - now rewrite !sum_nil.
  - now rewrite E, H.
Qed.

Lemma acc_density_ok : Adds (acc_density signfac Gu Gd N Norb Ncell)
  (fun f idx => match f with
     | density_u | density_d | doubleocc =>
         (signfac * sum 0 Ncell (fun i => dens_val f (site Ncell i idx)))%R
     | _ => 0%R end).
Proof.
  unfold acc_density.
  eapply adds_ext; [|apply adds_loop; [lia|]].
  2:{ intros o Ho s g H. rewrite density_sums_ok by auto. cbn [obind].
      assert (forall f v, In f [density_u; density_d; doubleocc] ->
            Adds (m_add f o v) (fun f' k' => if mfield_eqb f' f && (o =? k') then v else 0%R)) as A.
      { intros f v Hf. apply adds_add_to; [exact mfield_eqbP|].
        repeat (destruct Hf as [<-|Hf]; [exact Ho|]). destruct Hf. }
      revert s g H.
      refine (adds_seq _ _ _ _ _ _ (A density_u _ _) (adds_seq _ _ _ _ _ _ (A density_d _ _) (A doubleocc _ _)));
        cbn; tauto. }
  cbn beta. intros f k Hk.
  destruct f; cbn in Hk |- *;
    try (apply sum_zero; intros; ring);
    (rewrite (@sum_single _ _ _ k); [rewrite Z.eqb_refl; ring | lia |
      intros o Ho Hn; destruct (Z.eqb_spec o k); [lia|ring]]).
Qed.

(** correlations *)
Lemma two_point_same f i :
  two_point f w i i =
    match f with
    | uu_corr => 1 - G up i i
    | dd_corr => 1 - G dn i i
    | ff_corr => G up i i * (1 - G up i i) + G dn i i * (1 - G dn i i)
    | zz_corr | xx_corr => G up i i - 2 * G up i i * G dn i i + G dn i i
    | ud_corr => (1 - G up i i) * (1 - G dn i i) + (1 - G dn i i) * (1 - G up i i)
    | _ => 0
    end%R.
Proof.
  destruct f; try reflexivity; cbn -[G delta]; unfold delta; rewrite Z.eqb_refl; ring.
Qed.
Lemma two_point_diff f i j : i <> j ->
  two_point f w i j =
    match f with
    | uu_corr => (1 - G up i i) * (1 - G up j j) - G up i j * G up j i
    | dd_corr => (1 - G dn i i) * (1 - G dn j j) - G dn i j * G dn j i
    | ff_corr => - (G up i j * G up j i + G dn i j * G dn j i)
    | zz_corr => (G up i i - G dn i i) * (G up j j - G dn j j) - (G up i j * G up j i + G dn i j * G dn j i)
    | xx_corr => - (G up i j * G dn j i + G dn i j * G up j i)
    | ud_corr => (1 - G up i i) * (1 - G dn j j) + (1 - G dn i i) * (1 - G up j j)
    | _ => 0
    end%R.
Proof.
  intros Hn. apply Z.eqb_neq in Hn.
  destruct f; try reflexivity; cbn -[G delta]; unfold delta; rewrite ?Z.eqb_refl, ?Hn; ring.
Qed.

Definition corr_inc (o p i k : Z) (f : mfield) (idx : Z) : R :=
  if k + Ncell * (o + Norb * p) =? idx
  then (signfac * two_point f w (site Ncell i o) (site Ncell (plus k i) p))%R else 0%R.

Lemma acc_corr_site_ok sm nn o p i k : maps_ok sm nn ->
  0 <= o < Norb -> 0 <= p < Norb -> 0 <= i < Ncell -> 0 <= k < Ncell ->
  Adds (acc_corr_site signfac Gu Gd N Norb Ncell sm o p i (G up (site Ncell i o) (site Ncell i o))
          (G dn (site Ncell i o) (site Ncell i o)) k) (corr_inc o p i k).
Proof.
  intros [Hsm _] Ho Hp Hi Hk s g H. unfold acc_corr_site.
  rewrite Hsm by auto. cbn [obind].
  replace (plus k i + p * Ncell) with (site Ncell (plus k i) p) by (unfold site; ring).
  change (i + Ncell * o) with (site Ncell i o).
  pose proof (plus_range k i) as Hj.
  rewrite !Gu_get, !Gd_get by (apply site_range; auto). cbn [obind].
  pose proof (entry_range o p k Ho Hp Hk) as He.
  assert (forall f v, In f two_point_fields ->
            Adds (m_add f (k + Ncell * (o + Norb * p)) v)
              (fun f' k' => if mfield_eqb f' f && (k + Ncell * (o + Norb * p) =? k') then v else 0%R)) as A.
  { intros f v Hf. apply adds_add_to; [exact mfield_eqbP|].
    repeat (destruct Hf as [<-|Hf]; [exact He|]). destruct Hf. }
  destruct ((k =? 0) && (o =? p)) eqn:Ekp.
  - apply andb_prop in Ekp as [Ek Ep]. apply Z.eqb_eq in Ek, Ep. subst k p.
    assert (plus 0 i = i) as Epl by (apply plus_zero; auto). rewrite Epl in *.
    set (ii := site Ncell i o) in *.
    revert s g H. eapply adds_ext.
    2:{ refine (adds_seq _ _ _ _ _ _ (adds_seq _ _ _ _ _ _ (A uu_corr _ _)
          (adds_seq _ _ _ _ _ _ (A dd_corr _ _) (adds_seq _ _ _ _ _ _ (A ff_corr _ _)
          (adds_seq _ _ _ _ _ _ (A zz_corr _ _) (A xx_corr _ _))))) (A ud_corr _ _)); cbn; tauto. }
    intros f idx _. unfold corr_inc. rewrite Epl. fold ii. rewrite two_point_same.
    destruct f; cbn -[G]; destruct (_ =? idx); ring.
  - assert (site Ncell i o <> site Ncell (plus k i) p) as Hne.
    { intros E. apply site_inj in E as [E1 E2]; auto. symmetry in E1. apply plus_zero in E1; auto.
      subst. now rewrite !Z.eqb_refl in Ekp. }
    set (ii := site Ncell i o) in *. set (jj := site Ncell (plus k i) p) in *.
    revert s g H. eapply adds_ext.
    2:{ refine (adds_seq _ _ _ _ _ _ (adds_seq _ _ _ _ _ _ (A uu_corr _ _)
          (adds_seq _ _ _ _ _ _ (A dd_corr _ _) (adds_seq _ _ _ _ _ _ (A ff_corr _ _)
          (adds_seq _ _ _ _ _ _ (A zz_corr _ _) (A xx_corr _ _))))) (A ud_corr _ _)); cbn; tauto. }
    intros f idx _. unfold corr_inc. fold ii jj. rewrite two_point_diff by auto.
    destruct f; cbn -[G]; destruct (_ =? idx); ring.
Qed.

Lemma acc_corr_ok sm nn : maps_ok sm nn ->
  Adds (acc_corr signfac Gu Gd N Norb Ncell sm)
    (fun f idx => sum 0 Norb (fun o => sum 0 Norb (fun p => sum 0 Ncell (fun i => sum 0 Ncell (fun k =>
        corr_inc o p i k f idx))))).
Proof.
  intros Hm. unfold acc_corr.
  apply (adds_loop _ _ 0 Norb _ (fun o f idx => sum 0 Norb (fun p => sum 0 Ncell (fun i => sum 0 Ncell (fun k =>
        corr_inc o p i k f idx))))); [lia|]. intros o Ho.
  apply (adds_loop _ _ 0 Norb _ (fun p f idx => sum 0 Ncell (fun i => sum 0 Ncell (fun k =>
        corr_inc o p i k f idx)))); [lia|]. intros p Hp.
  pose proof Ncell_pos.
  apply (adds_loop _ _ 0 Ncell _ (fun i f idx => sum 0 Ncell (fun k =>
        corr_inc o p i k f idx))); [lia|]. intros i Hi s g H'. unfold acc_corr_row.
  change (i + Ncell * o) with (site Ncell i o).
  rewrite Gu_get, Gd_get by now apply site_range. cbn [obind]. revert s g H'.
  apply (adds_loop _ _ 0 Ncell _ (fun k => corr_inc o p i k)); [lia|]. intros k Hk.
  now apply acc_corr_site_ok with nn.
Qed.

(** pairs *)
Definition pair_val (f : mfield) (o i j : Z) : R :=
  pair_correlation w
    (pair_op (site Ncell i o) (pair_shape f (fun d => site Ncell (step d i) o)))
    (pair_op (site Ncell j o) (pair_shape f (fun d => site Ncell (step d j) o))).

Lemma step_zero c : 0 <= c < Ncell -> step (0, 0) c = c.
Proof.
  intros Hc. unfold cell_step. replace (vplus (coords Nx c) (0, 0)) with (coords Nx c).
  - apply wrap_coords; auto.
  - unfold vplus; cbn [fst snd]. rewrite !Z.add_0_r. now destruct (coords Nx c).
Qed.

Definition pair_inc (o i k : Z) (f : mfield) (idx : Z) : R :=
  if k + Ncell * o =? idx then (signfac * pair_val f o i (plus k i))%R else 0%R.

Lemma orb_range o a b : 0 <= o < Norb -> 0 <= a < Ncell -> 0 <= b < Ncell ->
  0 <= Ncell * o + N * (Ncell * o) + (a + N * b) < N * N.
Proof.
  intros. replace (Ncell * o + N * (Ncell * o) + (a + N * b)) with (site Ncell a o + N * site Ncell b o)
    by (unfold site; ring). apply mat_range; apply site_range; auto.
Qed.
Lemma orbE s o a b :
  rat (match s with up => Gu | dn => Gd end) (Ncell * o + N * (Ncell * o) + (a + N * b))
  = G s (site Ncell a o) (site Ncell b o).
Proof. unfold G, val, rat. do 2 f_equal. unfold site; ring. Qed.

Lemma acc_sc_site_ok sm nn o i k : maps_ok sm nn ->
  0 <= o < Norb -> 0 <= i < Ncell -> 0 <= k < Ncell ->
  Adds (acc_sc_site signfac (Gu, Ncell * o + N * (Ncell * o)) (Gd, Ncell * o + N * (Ncell * o)) N Ncell sm nn o i
          (step (1, 0) i) (step (-1, 0) i) (step (0, 1) i) (step (0, -1) i) k) (pair_inc o i k).
Proof.
  intros [Hsm Hnn] Ho Hi Hk s g H. unfold acc_sc_site.
  rewrite Hsm by auto. cbn [obind].
  pose proof (plus_range k i) as Hj. rewrite Hnn by auto. cbn [obind].
  pose proof (fun d => step_range d i) as Ri. pose proof (fun d => step_range d (plus k i)) as Rj.
  set (off := Ncell * o + N * (Ncell * o)).
  assert (forall a b, 0 <= a < Ncell -> 0 <= b < Ncell -> 0 <= off + (a + N * b) < lenZ Gu) as BU.
  { intros. rewrite HGu. now apply orb_range. }
  assert (forall a b, 0 <= a < Ncell -> 0 <= b < Ncell -> 0 <= off + (a + N * b) < lenZ Gd) as BD.
  { intros. rewrite HGd. now apply orb_range. }
  assert (forall a b, rat Gu (off + (a + N * b)) = G up (site Ncell a o) (site Ncell b o)) as EU.
  { intros. apply (orbE up). }
  assert (forall a b, rat Gd (off + (a + N * b)) = G dn (site Ncell a o) (site Ncell b o)) as ED.
  { intros. apply (orbE dn). }
  assert (0 <= k + Ncell * o < N) as He by nia.
  assert (forall f v, In f pair_fields ->
            Adds (m_add f (k + Ncell * o) v)
              (fun f' k' => if mfield_eqb f' f && (k + Ncell * o =? k') then v else 0%R)) as A.
  { intros f v Hf. apply adds_add_to; [exact mfield_eqbP|].
    repeat (destruct Hf as [<-|Hf]; [exact He|]). destruct Hf. }
  rewrite !eval_ok by (cbn [reads_ok fst snd]; repeat split; (apply BU || apply BD); auto).
  cbn [obind].
  rewrite !eval_ok by (cbn [reads_ok fst snd]; repeat split; (apply BU || apply BD); auto).
  cbn [obind value fst snd]. rewrite !EU, !ED.
  revert s g H. eapply adds_ext.
  2:{ refine (adds_seq _ _ _ _ _ _ (A sc_c_sw _ _) (adds_seq _ _ _ _ _ _ (A sc_c_dw _ _) (A sc_c_sx _ _))); cbn; tauto. }
  intros f idx _. unfold pair_inc.
  destruct f; cbn -[G cell_step cell_plus site Z.mul Z.add]; try (destruct (_ =? idx); reflexivity || ring).
  all: destruct (_ =? idx); [|ring].
  - unfold pair_val. cbn -[G cell_step cell_plus site Z.mul Z.add]. rewrite !step_zero by auto. ring.
  - unfold pair_val. cbn -[G cell_step cell_plus site Z.mul Z.add]. replace 0.25%R with (/2 * /2)%R by lra. ring.
  - unfold pair_val. cbn -[G cell_step cell_plus site Z.mul Z.add]. replace 0.25%R with (/2 * /2)%R by lra. ring.
Qed.

Lemma acc_sc_ok sm nn : maps_ok sm nn ->
  Adds (acc_sc signfac Gu Gd N Norb Ncell sm nn)
    (fun f idx => sum 0 Norb (fun o => sum 0 Ncell (fun i => sum 0 Ncell (fun k => pair_inc o i k f idx)))).
Proof.
  intros Hm. unfold acc_sc.
  apply (adds_loop _ _ 0 Norb _ (fun o f idx => sum 0 Ncell (fun i => sum 0 Ncell (fun k =>
        pair_inc o i k f idx)))); [lia|]. intros o Ho. pose proof Ncell_pos. cbv zeta.
  apply (adds_loop _ _ 0 Ncell _ (fun i f idx => sum 0 Ncell (fun k =>
        pair_inc o i k f idx))); [lia|]. intros i Hi s g H'. unfold acc_sc_row.
  rewrite (proj2 Hm) by auto. cbn [obind]. revert s g H'.
  apply (adds_loop _ _ 0 Ncell _ (fun k => pair_inc o i k)); [lia|]. intros k Hk.
  now apply acc_sc_site_ok.
Qed.
End Acc.
