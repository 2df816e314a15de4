(** Proofs about Kinetic.v. *)
From Coq Require Import ZArith List Reals Lia Lra Bool.
From Verif Require Import Base BaseFacts Sums SumsFacts ParamParser SimParams ParamSpec
  Lattice LatticeSpec LatticeFacts Kinetic KineticSpec.
Import ListNotations.
Local Open Scope Z_scope.

Lemma dscal1_ok n alpha x g : 0 <= n -> arr n x g ->
  exists x', dscal1 n alpha x = Some x' /\ arr n x' (fun k => alpha * g k)%R.
Proof.
  intros Hn Hx. unfold dscal1.
  destruct (@for_range_inv (list R)
    (fun h x => arr n x (fun k => if k <? h then (alpha * g k)%R else g k)) 0 n
    (fun i x => let* v := aget x i in aset x i (alpha * v)%R) x) as (x' & E & H); [auto| | |].
  - intros i s Hi HI. pose proof HI as [_ G]. rewrite (G i Hi). cbn [obind].
    rewrite Z.ltb_irrefl.
    destruct (@arr_set _ _ _ i (alpha * g i)%R HI Hi) as (s' & E & H).
    exists s'; split; auto. eapply arr_ext; [|exact H]. cbn; intros k Hk.
    destruct (Z.eqb_spec i k); destruct (Z.ltb_spec k i); destruct (Z.ltb_spec k (i + 1)); subst; auto; lia.
  - eapply arr_ext; [|exact Hx]. cbn; intros. destruct (Z.ltb_spec k 0); auto; lia.
  - exists x'; split; auto. eapply arr_ext; [|exact H]. cbn; intros. destruct (Z.ltb_spec k n); auto; lia.
Qed.

Definition D (N r c : Z) (v : R) (x : Z) : R :=
  ((if x =? (r + c * N)%Z then v else 0) + (if x =? (r * N + c)%Z then v else 0))%R.

Lemma asub_ok n a g i v : arr n a g -> 0 <= i < n ->
  exists a', asub a i v = Some a' /\ arr n a' (fun x => g x - (if x =? i then v else 0))%R.
Proof.
  intros Ha Hi. unfold asub. pose proof Ha as [_ G]. rewrite (G i Hi). cbn [obind].
  destruct (@arr_set _ _ _ i (g i - v)%R Ha Hi) as (a' & E & H). exists a'; split; auto.
  eapply arr_ext; [|exact H]. cbn; intros k Hk. rewrite (Z.eqb_sym k i).
  destruct (Z.eqb_spec i k); subst; lra.
Qed.

Lemma sub_bond_ok N r c t k v T g : aget t k = Some v ->
  0 <= r < N -> 0 <= c < N -> arr (N * N) T g ->
  exists T', sub_bond N r c t k T = Some T' /\ arr (N * N) T' (fun x => g x + - D N r c v x)%R.
Proof.
  intros Hv Hr Hc HT. unfold sub_bond. rewrite Hv. cbn [obind].
  destruct (@asub_ok _ _ _ (r + c * N) v HT) as (T1 & E1 & H1); [nia|].
  rewrite E1. cbn [obind].
  destruct (@asub_ok _ _ _ (r * N + c) v H1) as (T2 & E2 & H2); [nia|].
  rewrite E2. exists T2; split; auto. eapply arr_ext; [|exact H2]. cbn; intros. unfold D. lra.
Qed.

Section Hop.
Variable p : sim_params.
Hypothesis WF : well_formed p.
Notation Norb := (sp_Norb p).
Notation Nx := (sp_Nx p).
Notation Ny := (sp_Ny p).
Notation sh := (sp_pbc_shift p).
Notation Ncell := (sp_Nx p * sp_Ny p).
Notation N := (sp_Norb p * (sp_Nx p * sp_Ny p)).
Notation mv := (moved p).

Let HNorb : 0 < Norb := proj1 WF.
Let HNx : 0 < Nx := proj1 (proj2 WF).
Let HNy : 0 < Ny := proj1 (proj2 (proj2 WF)).
Let Hsh : 0 <= sh := proj1 (proj2 (proj2 (proj2 WF))).
Lemma HNcell : 0 < Ncell.
Proof. pose proof HNx; pose proof HNy; nia. Qed.

Lemma site_range a o : 0 <= a < Ncell -> 0 <= o < Norb -> 0 <= a + o * Ncell < N.
Proof. intros. nia. Qed.

Lemma mv_range a v : 0 <= mv a v < Ncell.
Proof. apply wrap_range; auto. Qed.

Lemma table_get t k o q : In t (map fst (bond_kinds (sp_t p))) -> 0 <= o < Norb -> 0 <= q < Norb ->
  k = o + q * Norb -> aget t k = Some (hop t Norb o q).
Proof.
  intros Hin Ho Hq ->. pose proof WF as (_ & _ & _ & _ & HF & _).
  rewrite Forall_forall in HF. assert (Z.of_nat (length t) = Norb * Norb) as HL.
  { apply HF. simpl in Hin |- *. exact Hin. }
  unfold hop. apply aget_nth. rewrite HL. nia.
Qed.

(** what the code computes as the neighbours of cell i + j*Nx *)
Lemma neighbours i j : 0 <= i < Nx -> 0 <= j < Ny ->
  let j_next := if j <? Ny - 1 then j + 1 else 0 in
  let i_next := if i <? Nx - 1 then i + 1 else 0 in
  exists is_, cmod (i + (if j_next =? 0 then sh else 0)) Nx = Some is_ /\
  let is_next := if is_ <? Nx - 1 then is_ + 1 else 0 in
  let c := i + Nx * j in
  i + j * Nx = mv c (0, 0) /\ i_next + j * Nx = mv c (1, 0) /\
  is_ + j_next * Nx = mv c (0, 1) /\ is_next + j_next * Nx = mv c (1, 1).
Proof.
  intros Hi Hj jn inx. unfold jn, inx. rewrite !next_mod by auto. clear jn inx.
  assert ((j + 1) / Ny = if (j + 1) mod Ny =? 0 then 1 else 0) as Ediv.
  { destruct (Z.eq_dec (j + 1) Ny) as [E|E].
    - rewrite E, Z_mod_same_full, Z_div_same_full by lia. auto.
    - rewrite Z.mod_small, Z.div_small by lia. destruct (Z.eqb_spec (j + 1) 0); auto; lia. }
  eexists. split. { apply cmod_pos; auto. destruct (_ =? 0); lia. }
  cbv zeta. rewrite next_mod by (apply Z.mod_pos_bound; auto).
  unfold moved, coords. rewrite idx_mod, idx_div by auto.
  unfold vplus, wrap; cbn [fst snd]. rewrite !Z.add_0_r.
  rewrite (Z.mod_small j Ny), (Z.div_small j Ny) by auto. rewrite Z.mul_0_r, !Z.add_0_r.
  rewrite (Z.mod_small i Nx) by auto. rewrite Ediv.
  repeat split; try lia.
  - f_equal; [|lia]. f_equal. destruct (_ =? 0); lia.
  - f_equal; [|lia]. rewrite Zplus_mod_idemp_l. f_equal. destruct (_ =? 0); lia.
Qed.

(** contribution of cell c and orbitals o, q *)
Definition cellD (o q c x : Z) : R :=
  (D N (mv c (0,0)%Z + o * Ncell) (mv c (0,0)%Z + q * Ncell) (hop (t_aa (sp_t p)) Norb o q) x +
   D N (mv c (0,0)%Z + o * Ncell) (mv c (1,0)%Z + q * Ncell) (hop (t_ab (sp_t p)) Norb o q) x +
   D N (mv c (0,0)%Z + o * Ncell) (mv c (0,1)%Z + q * Ncell) (hop (t_ac (sp_t p)) Norb o q) x +
   D N (mv c (0,0)%Z + o * Ncell) (mv c (1,1)%Z + q * Ncell) (hop (t_ad (sp_t p)) Norb o q) x +
   D N (mv c (1,0)%Z + o * Ncell) (mv c (0,1)%Z + q * Ncell) (hop (t_bc (sp_t p)) Norb o q) x)%R.

Lemma hop_cell_ok o q j i T g :
  0 <= o < Norb -> 0 <= q < Norb -> 0 <= j < Ny -> 0 <= i < Nx -> arr (N * N) T g ->
  exists T', hop_cell p o q j i T = Some T' /\
    arr (N * N) T' (fun x => g x + - cellD o q (i + Nx * j) x)%R.
Proof.
  intros Ho Hq Hj Hi HT. unfold hop_cell.
  destruct (neighbours i j Hi Hj) as (is_ & E & Ea & Eb & Ec & Ed).
  rewrite E. cbn [obind]. rewrite Ea, Eb, Ec, Ed.
  set (c := i + Nx * j) in *.
  assert (forall v o, 0 <= o < Norb -> 0 <= mv c v + o * Ncell < N) as R
    by (intros; apply site_range; auto; apply mv_range).
  destruct (sub_bond_ok N _ _ _ _ _ _ _
    (table_get (t_aa (sp_t p)) (o + q * Norb) o q ltac:(simpl; auto 10) Ho Hq eq_refl)
    (R (0,0) o Ho) (R (0,0) q Hq) HT) as (T1 & E1 & H1).
  rewrite E1; cbn [obind].
  destruct (sub_bond_ok N _ _ _ _ _ _ _
    (table_get (t_ab (sp_t p)) (o + q * Norb) o q ltac:(simpl; auto 10) Ho Hq eq_refl)
    (R (0,0) o Ho) (R (1,0) q Hq) H1) as (T2 & E2 & H2).
  rewrite E2; cbn [obind].
  destruct (sub_bond_ok N _ _ _ _ _ _ _
    (table_get (t_ac (sp_t p)) (o + q * Norb) o q ltac:(simpl; auto 10) Ho Hq eq_refl)
    (R (0,0) o Ho) (R (0,1) q Hq) H2) as (T3 & E3 & H3).
  rewrite E3; cbn [obind].
  destruct (sub_bond_ok N _ _ _ _ _ _ _
    (table_get (t_ad (sp_t p)) (o + q * Norb) o q ltac:(simpl; auto 10) Ho Hq eq_refl)
    (R (0,0) o Ho) (R (1,1) q Hq) H3) as (T4 & E4 & H4).
  rewrite E4; cbn [obind].
  destruct (sub_bond_ok N _ _ _ _ _ _ _
    (table_get (t_bc (sp_t p)) (o + q * Norb) o q ltac:(simpl; auto 10) Ho Hq eq_refl)
    (R (1,0) o Ho) (R (0,1) q Hq) H4) as (T5 & E5 & H5).
  rewrite E5. exists T5; split; auto. eapply arr_ext; [|exact H5]. intros x Hx. cbv beta. unfold cellD. lra.
Qed.

Lemma hop_loops T g : arr (N * N) T g ->
  exists T', for_range 0 Norb (fun o T =>
    for_range 0 Norb (fun q T =>
    for_range 0 Ny (fun j T =>
    for_range 0 Nx (fun i T => hop_cell p o q j i T) T) T) T) T = Some T' /\
    arr (N * N) T' (fun x => g x + sum 0 Norb (fun o => sum 0 Norb (fun q =>
       sum 0 Ncell (fun c => - cellD o q c x)%R)))%R.
Proof.
  intros HT. apply for_acc; auto; [pose proof HNorb; lia|].
  intros o T1 g1 Ho H1. apply for_acc; auto; [pose proof HNorb; lia|].
  intros q T2 g2 Hq H2.
  destruct (@for_acc (N * N) 0 Ny (fun j T => for_range 0 Nx (fun i T => hop_cell p o q j i T) T) T2 g2
     (fun j x => sum 0 Nx (fun i => - cellD o q (i + Nx * j) x)%R)) as (T3 & E3 & H3); auto.
  - pose proof HNy; lia.
  - intros j T3 g3 Hj H3.
    apply (@for_acc (N * N) 0 Nx (fun i T => hop_cell p o q j i T) T3 g3
      (fun i x => - cellD o q (i + Nx * j) x)%R); auto; [pose proof HNx; lia|].
    intros i T4 g4 Hi H4. apply hop_cell_ok; auto.
  - exists T3; split; auto. eapply arr_ext; [|exact H3]. cbv beta. intros x Hx. f_equal.
    apply (sum_rect (fun c => - cellD o q c x)%R); [pose proof HNx | pose proof HNy]; lia.
Qed.

(** value of the collected sums at entry (A,O),(B,Q) *)
Lemma D_at r c R S v : 0 <= r < N -> 0 <= c < N -> 0 <= R < N -> 0 <= S < N ->
  D N r c v (R + N * S) =
  ((if (r =? R) && (c =? S) then v else 0) + (if (c =? R) && (r =? S) then v else 0))%R.
Proof.
  intros Hr Hc HR HS. unfold D. assert (0 < N) as HN by lia.
  f_equal.
  - destruct (Z.eqb_spec (R + N * S) (r + c * N)) as [E|E].
    + replace (c * N) with (N * c) in E by lia.
      destruct (idx_inj N HN _ _ _ _ HR Hr E) as [-> ->]. now rewrite !Z.eqb_refl.
    + destruct (Z.eqb_spec r R), (Z.eqb_spec c S); subst; auto. exfalso; apply E; lia.
  - destruct (Z.eqb_spec (R + N * S) (r * N + c)) as [E|E].
    + replace (r * N + c) with (c + N * r) in E by lia.
      destruct (idx_inj N HN _ _ _ _ HR Hc E) as [-> ->]. now rewrite !Z.eqb_refl.
    + destruct (Z.eqb_spec c R), (Z.eqb_spec r S); subst; auto. exfalso; apply E; lia.
Qed.

Lemma site_eq a o A O : 0 <= a < Ncell -> 0 <= A < Ncell ->
  (a + o * Ncell =? A + O * Ncell) = (a =? A) && (o =? O).
Proof.
  intros Ha HA. destruct (Z.eqb_spec (a + o * Ncell) (A + O * Ncell)) as [E|E].
  - rewrite !(Z.mul_comm _ Ncell) in E. destruct (idx_inj Ncell HNcell _ _ _ _ Ha HA E) as [-> ->].
    now rewrite !Z.eqb_refl.
  - destruct (Z.eqb_spec a A), (Z.eqb_spec o O); subst; auto.
Qed.

Lemma sum_pick lo hi k (b : Z -> bool) v : lo <= k < hi ->
  sum lo hi (fun i => if (i =? k) && b i then v i else 0%R) = if b k then v k else 0%R.
Proof.
  intros Hk. rewrite (sum_single _ Hk). { now rewrite Z.eqb_refl. }
  intros i Hi Hne. destruct (Z.eqb_spec i k); [congruence|auto].
Qed.

Lemma mv_mv a u v : mv (mv a u) v = mv a (vplus u v).
Proof. unfold moved. rewrite wrap_plus_l by auto. f_equal. unfold vplus; cbn [fst snd]. f_equal; lia. Qed.
Lemma mv_0 a : 0 <= a < Ncell -> mv a (0, 0) = a.
Proof.
  intros Ha. unfold moved. replace (vplus (coords Nx a) (0,0)) with (coords Nx a).
  - now apply wrap_coords.
  - unfold vplus. rewrite (surjective_pairing (coords Nx a)) at 1. cbn [fst snd]. f_equal; lia.
Qed.

(** sum over the cells of the indicator that a bond connects A to B *)
Lemma cells_collapse u w A B v : 0 <= A < Ncell -> 0 <= B < Ncell ->
  sum 0 Ncell (fun c => if (mv c u =? A) && (mv c w =? B) then v else 0%R) =
  if mv A (fst w - fst u, snd w - snd u) =? B then v else 0%R.
Proof.
  intros HA HB.
  assert (forall c, 0 <= c < Ncell -> mv c u = A -> c = mv A (- fst u, - snd u)) as U.
  { intros c Hc <-. rewrite mv_mv. replace (vplus u (- fst u, - snd u)) with (0, 0).
    - now rewrite mv_0. - unfold vplus; cbn [fst snd]; f_equal; lia. }
  rewrite (@sum_single 0 Ncell _ (mv A (- fst u, - snd u))).
  - rewrite !mv_mv.
    replace (vplus (- fst u, - snd u) u) with (0, 0) by (unfold vplus; cbn [fst snd]; f_equal; lia).
    replace (vplus (- fst u, - snd u) w) with (fst w - fst u, snd w - snd u)
      by (unfold vplus; cbn [fst snd]; f_equal; lia).
    rewrite mv_0 by auto. now rewrite Z.eqb_refl.
  - apply mv_range.
  - intros c Hc Hne. destruct (Z.eqb_spec (mv c u) A); auto. exfalso; apply Hne; auto.
Qed.

Lemma kind_collapse u w t A O B Q :
  0 <= A < Ncell -> 0 <= B < Ncell -> 0 <= O < Norb -> 0 <= Q < Norb ->
  sum 0 Norb (fun o => sum 0 Norb (fun q => sum 0 Ncell (fun c =>
    D N (mv c u + o * Ncell) (mv c w + q * Ncell) (hop t Norb o q) ((A + O * Ncell) + N * (B + Q * Ncell))))) =
  (amplitude p (t, (fst w - fst u, snd w - snd u)%Z) A O B Q +
   amplitude p (t, (fst w - fst u, snd w - snd u)%Z) B Q A O)%R.
Proof.
  intros HA HB HO HQ.
  rewrite (@sum_ext 0 Norb _ (fun o => sum 0 Norb (fun q =>
     if (q =? Q) && (o =? O) then
       sum 0 Ncell (fun c => if (mv c u =? A) && (mv c w =? B) then hop t Norb o q else 0%R) else 0) +
     sum 0 Norb (fun q => if (q =? O) && (o =? Q) then
       sum 0 Ncell (fun c => if (mv c u =? B) && (mv c w =? A) then hop t Norb o q else 0%R) else 0))%R).
  - rewrite sum_plus. f_equal.
    + transitivity (sum 0 Norb (fun o => if (o =? O) && true then
          sum 0 Ncell (fun c => if (mv c u =? A) && (mv c w =? B) then hop t Norb o Q else 0%R) else 0%R)).
      { apply sum_ext; intros o Ho. rewrite (sum_pick 0 Norb Q (fun _ => o =? O)) by auto.
        now rewrite andb_true_r. }
      rewrite (sum_pick 0 Norb O (fun _ => true)) by auto. rewrite cells_collapse by auto. reflexivity.
    + transitivity (sum 0 Norb (fun o => if (o =? Q) && true then
          sum 0 Ncell (fun c => if (mv c u =? B) && (mv c w =? A) then hop t Norb o O else 0%R) else 0%R)).
      { apply sum_ext; intros o Ho. rewrite (sum_pick 0 Norb O (fun _ => o =? Q)) by auto.
        now rewrite andb_true_r. }
      rewrite (sum_pick 0 Norb Q (fun _ => true)) by auto. rewrite cells_collapse by auto. reflexivity.
  - intros o Ho. rewrite <- sum_plus. apply sum_ext. intros q Hq.
    rewrite (@sum_ext 0 Ncell _ (fun c =>
       (if (q =? Q) && (o =? O) then (if (mv c u =? A) && (mv c w =? B) then hop t Norb o q else 0) else 0) +
       (if (q =? O) && (o =? Q) then (if (mv c u =? B) && (mv c w =? A) then hop t Norb o q else 0) else 0))%R).
    + rewrite sum_plus. f_equal.
      * destruct ((q =? Q) && (o =? O)); auto. apply sum_zero; auto.
      * destruct ((q =? O) && (o =? Q)); auto. apply sum_zero; auto.
    + intros c Hc. pose proof (mv_range c u). pose proof (mv_range c w).
      rewrite D_at by (apply site_range; auto). rewrite !site_eq by auto.
      f_equal.
      * destruct (mv c u =? A), (o =? O), (mv c w =? B), (q =? Q); auto.
      * destruct (mv c u =? B), (o =? Q), (mv c w =? A), (q =? O); auto.
Qed.

Lemma sum3_opp a b c f :
  sum 0 a (fun o => sum 0 b (fun q => sum 0 c (fun k => - f o q k)))%R =
  (- sum 0 a (fun o => sum 0 b (fun q => sum 0 c (fun k => f o q k))))%R.
Proof.
  rewrite <- sum_opp. apply sum_ext; intros. rewrite <- sum_opp. apply sum_ext; intros.
  now rewrite <- sum_opp.
Qed.
Lemma sum3_plus a b c f g :
  sum 0 a (fun o => sum 0 b (fun q => sum 0 c (fun k => f o q k + g o q k)))%R =
  (sum 0 a (fun o => sum 0 b (fun q => sum 0 c (fun k => f o q k))) +
   sum 0 a (fun o => sum 0 b (fun q => sum 0 c (fun k => g o q k))))%R.
Proof.
  rewrite <- sum_plus. apply sum_ext; intros. rewrite <- sum_plus. apply sum_ext; intros.
  now rewrite <- sum_plus.
Qed.

Lemma cells_total A O B Q :
  0 <= A < Ncell -> 0 <= B < Ncell -> 0 <= O < Norb -> 0 <= Q < Norb ->
  sum 0 Norb (fun o => sum 0 Norb (fun q => sum 0 Ncell (fun c =>
    - cellD o q c ((A + O * Ncell) + N * (B + Q * Ncell)))))%R = (- total_amplitude p A O B Q)%R.
Proof.
  intros HA HB HO HQ. rewrite sum3_opp. f_equal. unfold cellD.
  rewrite !sum3_plus. rewrite !kind_collapse by auto.
  unfold total_amplitude, bond_kinds. cbn [map fold_right fst snd].
  rewrite !Z.sub_0_r. change (0 - 1) with (-1). lra.
Qed.

Lemma div_site a o : 0 <= a < Ncell -> (a + o * Ncell) / Ncell = o.
Proof. intros. rewrite Z.mul_comm. apply idx_div; auto using HNcell. Qed.

(** the diagonal loop *)
Lemma diag_loops T g : arr (N * N) T g ->
  exists T', for_range 0 Norb (fun o T =>
    for_range 0 Ncell (fun i T =>
      let index := i + o * Ncell in
      let* e := aget (sp_eps p) o in
      aset T (index + N * index) (- sp_mu p + e)%R) T) T = Some T' /\
   Z.of_nat (length T') = N * N /\
   forall R S, 0 <= R < N -> 0 <= S < N ->
     rat T' (R + N * S) = if R =? S then (- sp_mu p + rat (sp_eps p) (R / Ncell))%R else g (R + N * S).
Proof.
  intros HT.
  pose (Inv := fun (h : Z) T' => Z.of_nat (length T') = N * N /\
    forall R S, 0 <= R < N -> 0 <= S < N -> rat T' (R + N * S) =
      if (R =? S) && (R <? h) then (- sp_mu p + rat (sp_eps p) (R / Ncell))%R else g (R + N * S)).
  pose proof HNorb. pose proof HNx. pose proof HNy. pose proof HNcell.
  pose proof WF as (_ & _ & _ & _ & _ & Heps).
  match goal with |- exists T', for_range 0 Norb ?b T = _ /\ _ =>
    destruct (@for_range_inv (list R) (fun o T => Inv (o * Ncell) T) 0 Norb b T) as (T' & E & HI);
      [lia| | |] end.
  - intros o T1 Ho H3.
    match goal with |- exists T', for_range 0 _ ?b T1 = _ /\ _ =>
      destruct (@for_range_inv (list R) (fun i T => Inv (o * Ncell + i) T) 0 Ncell b T1) as (T2 & E & HI);
        [lia| | |] end.
    + intros i T2 Hi [HL HI]. cbv zeta.
      rewrite (@aget_nth _ (sp_eps p) o 0%R) by lia. cbn [obind].
      change (nth (Z.to_nat o) (sp_eps p) 0%R) with (rat (sp_eps p) o).
      pose proof (site_range i o Hi Ho) as R1.
      rewrite aset_ok by (rewrite HL; nia). eexists; split; [reflexivity|].
      split; [now rewrite lset_length|]. intros R S HR HS.
      rewrite rat_lset by (rewrite ?HL; nia).
      destruct (Z.eqb_spec (i + o * Ncell + N * (i + o * Ncell)) (R + N * S)) as [E|E].
      * assert (0 < N) as HN by lia. destruct (idx_inj N HN _ _ _ _ R1 HR E) as [E1 E2].
        subst R; subst S. rewrite Z.eqb_refl. destruct (Z.ltb_spec (i + o * Ncell) (o * Ncell + (i + 1))); [|lia].
        cbn [andb]. now rewrite div_site by auto.
      * rewrite HI by auto. destruct (Z.eqb_spec R S); auto. subst S.
        cbn [andb]. assert (R <> i + o * Ncell) by (intros ->; auto).
        destruct (Z.ltb_spec R (o * Ncell + i)), (Z.ltb_spec R (o * Ncell + (i + 1))); auto; lia.
    + rewrite Z.add_0_r. exact H3.
    + rewrite E. exists T2; split; auto. replace ((o + 1) * Ncell) with (o * Ncell + Ncell) by lia. exact HI.
  - destruct HT as [HL HG]. split; auto. intros R S HR HS.
    destruct (Z.ltb_spec R (0 * Ncell)); [lia|]. rewrite andb_false_r.
    apply (@arr_get (N * N)); [split; auto|nia].
  - exists T'; split; auto. destruct HI as [HL HI]. split; auto. intros R S HR HS. rewrite HI by auto.
    destruct (Z.eqb_spec R S); auto. cbn [andb]. destruct (Z.ltb_spec R (Norb * Ncell)); auto; lia.
Qed.

Lemma kinetic_ok : exists M, kinetic_matrix p = Some M /\ Z.of_nat (length M) = N * N /\
  forall A O B Q, 0 <= A < Ncell -> 0 <= B < Ncell -> 0 <= O < Norb -> 0 <= Q < Norb ->
    rat M ((A + O * Ncell) + N * (B + Q * Ncell)) =
    if (A =? B) && (O =? Q) then (- sp_dt p * (rat (sp_eps p) O - sp_mu p))%R
    else (sp_dt p * total_amplitude p A O B Q)%R.
Proof.
  unfold kinetic_matrix. assert (0 <= N * N) as HN2 by nia.
  assert (arr (N * N) (repeat 0%R (Z.to_nat (N * N))) (fun _ => 0%R)) as H0.
  { split. - rewrite repeat_length. lia.
    - intros k Hk. rewrite (@aget_nth _ _ _ 0%R) by (rewrite repeat_length; lia).
      f_equal. apply nth_repeat. }
  destruct (hop_loops _ _ H0) as (T1 & E1 & H1).
  rewrite E1. cbn [obind].
  destruct (diag_loops _ _ H1) as (T2 & E2 & HL & H2).
  cbv zeta in E2 |- *. rewrite E2. cbn [obind].
  destruct (dscal1_ok (N * N) (- sp_dt p)%R T2 (rat T2) HN2 (@arr_rat _ _ HL)) as (M & E & H).
  exists M. split; auto. split; [apply H|].
  intros A O B Q HA HB HO HQ.
  pose proof (site_range A O HA HO) as R1. pose proof (site_range B Q HB HQ) as R2.
  rewrite (@arr_get _ _ _ _ H) by nia. rewrite H2 by auto.
  rewrite (site_eq A O B Q) by auto.
  destruct ((A =? B) && (O =? Q)).
  - rewrite div_site by auto. lra.
  - rewrite cells_total by auto. lra.
Qed.

(** symmetry and translation invariance of the amplitudes *)
Lemma total_sym A O B Q : total_amplitude p A O B Q = total_amplitude p B Q A O.
Proof. unfold total_amplitude, bond_kinds. cbn [map fold_right]. lra. Qed.

Lemma mv_comm a u v : mv (mv a u) v = mv (mv a v) u.
Proof. rewrite !mv_mv. f_equal. unfold vplus. f_equal; lia. Qed.

Lemma mv_inj a b v : 0 <= a < Ncell -> 0 <= b < Ncell -> mv a v = mv b v -> a = b.
Proof.
  intros Ha Hb E. rewrite <- (mv_0 a), <- (mv_0 b) by auto.
  replace (0, 0) with (vplus v (- fst v, - snd v)) by (unfold vplus; cbn [fst snd]; f_equal; lia).
  rewrite <- !mv_mv. now rewrite E.
Qed.

Lemma amplitude_moved kind A O B Q v : 0 <= A < Ncell -> 0 <= B < Ncell ->
  amplitude p kind (mv A v) O (mv B v) Q = amplitude p kind A O B Q.
Proof.
  intros HA HB. unfold amplitude. fold (mv (mv A v) (snd kind)). rewrite mv_comm.
  destruct (Z.eqb_spec (mv (mv A (snd kind)) v) (mv B v)) as [E|E];
    destruct (Z.eqb_spec (mv A (snd kind)) B) as [E'|E']; auto.
  - apply mv_inj in E; auto. congruence. apply mv_range.
  - congruence.
Qed.

Lemma total_moved A O B Q v : 0 <= A < Ncell -> 0 <= B < Ncell ->
  total_amplitude p (mv A v) O (mv B v) Q = total_amplitude p A O B Q.
Proof.
  intros. unfold total_amplitude. f_equal. apply map_ext. intros kind.
  now rewrite !amplitude_moved by auto.
Qed.
End Hop.
