(** Proofs about Lattice.v. *)
From Coq Require Import ZArith List Lia Bool.
From Verif Require Import Base BaseFacts ParamParser Lattice LatticeSpec.
Import ListNotations.
Local Open Scope Z_scope.

Lemma cmod_pos a b : 0 <= a -> 0 < b -> cmod a b = Some (a mod b).
Proof.
  intros. unfold cmod. destruct (Z.eqb_spec b 0); [lia|]. now rewrite Z.rem_mod_nonneg by lia.
Qed.

Section Cells.
Variables Nx Ny sh : Z.
Hypotheses (HNx : 0 < Nx) (HNy : 0 < Ny).
Notation wrap := (wrap Nx Ny sh).
Notation same := (same_cell Nx Ny sh).

Lemma wrap_range p : 0 <= wrap p < Nx * Ny.
Proof.
  unfold wrap. pose proof (Z.mod_pos_bound (fst p + sh * (snd p / Ny)) Nx HNx).
  pose proof (Z.mod_pos_bound (snd p) Ny HNy). nia.
Qed.

Lemma idx_mod i j : 0 <= i < Nx -> (i + Nx * j) mod Nx = i.
Proof. intros. rewrite Z.mul_comm, Z_mod_plus_full. now apply Z.mod_small. Qed.
Lemma idx_div i j : 0 <= i < Nx -> (i + Nx * j) / Nx = j.
Proof. intros. rewrite Z.mul_comm, Z.div_add by lia. rewrite Z.div_small; lia. Qed.

Lemma idx_inj i j i' j' : 0 <= i < Nx -> 0 <= i' < Nx -> i + Nx * j = i' + Nx * j' ->
  i = i' /\ j = j'.
Proof.
  intros Hi Hi' E. split.
  - rewrite <- (idx_mod i j), <- (idx_mod i' j'), E; auto.
  - rewrite <- (idx_div i j), <- (idx_div i' j'), E; auto.
Qed.

Lemma wrap_same p : same p (coords Nx (wrap p)).
Proof.
  destruct p as [x y]. unfold coords, LatticeSpec.wrap; cbn [fst snd].
  pose proof (Z.mod_pos_bound (x + sh * (y / Ny)) Nx HNx).
  rewrite idx_mod, idx_div by auto.
  exists (- ((x + sh * (y / Ny)) / Nx)), (- (y / Ny)). cbn [fst snd].
  pose proof (Z.div_mod (x + sh * (y / Ny)) Nx). pose proof (Z.div_mod y Ny). split; nia.
Qed.

Lemma same_wrap p q : same p q -> wrap p = wrap q.
Proof.
  intros (a & b & E1 & E2). unfold LatticeSpec.wrap. rewrite E1, E2.
  rewrite Z_mod_plus_full, Z_div_plus_full by lia.
  f_equal. replace (fst p + a * Nx - b * sh + sh * (snd p / Ny + b))
    with (fst p + sh * (snd p / Ny) + a * Nx) by lia. now rewrite Z_mod_plus_full.
Qed.

Lemma same_refl p : same p p.
Proof. exists 0, 0. lia. Qed.
Lemma same_sym p q : same p q -> same q p.
Proof. intros (a & b & E1 & E2). exists (-a), (-b). lia. Qed.
Lemma same_trans p q r : same p q -> same q r -> same p r.
Proof. intros (a & b & E1 & E2) (c & d & E3 & E4). exists (a + c), (b + d). lia. Qed.
Lemma same_plus p q r s : same p q -> same r s -> same (vplus p r) (vplus q s).
Proof.
  intros (a & b & E1 & E2) (c & d & E3 & E4). exists (a + c), (b + d).
  unfold vplus; cbn [fst snd]. lia.
Qed.

Lemma coords_range c : 0 <= c < Nx * Ny ->
  0 <= fst (coords Nx c) < Nx /\ 0 <= snd (coords Nx c) < Ny.
Proof.
  intros H. unfold coords; cbn [fst snd]. split.
  - apply Z.mod_pos_bound; auto.
  - split. apply Z.div_pos; lia. apply Z.div_lt_upper_bound; lia.
Qed.

Lemma wrap_coords c : 0 <= c < Nx * Ny -> wrap (coords Nx c) = c.
Proof.
  intros H. destruct (coords_range c H) as [H1 H2]. unfold LatticeSpec.wrap.
  rewrite (Z.div_small (snd _)) by auto. rewrite (Z.mod_small (snd _)) by auto.
  rewrite Z.mul_0_r, Z.add_0_r. rewrite (Z.mod_small (fst _)) by auto.
  unfold coords; cbn [fst snd]. pose proof (Z.div_mod c Nx). lia.
Qed.

Lemma wrap_same_iff p q : wrap p = wrap q <-> same p q.
Proof.
  split; [|apply same_wrap]. intros E.
  apply same_trans with (coords Nx (wrap p)); [apply wrap_same|].
  rewrite E. apply same_sym, wrap_same.
Qed.

Lemma wrap_small i j : 0 <= i < Nx -> 0 <= j < Ny -> wrap (i, j) = i + Nx * j.
Proof.
  intros. unfold LatticeSpec.wrap; cbn [fst snd].
  rewrite (Z.div_small j), (Z.mod_small j) by lia. rewrite Z.mod_small by lia. lia.
Qed.

Lemma wrap_plus_l p q : wrap (vplus (coords Nx (wrap p)) q) = wrap (vplus p q).
Proof. apply same_wrap, same_plus; [apply same_sym, wrap_same | apply same_refl]. Qed.

Lemma vplus_comm p q : vplus p q = vplus q p.
Proof. unfold vplus. f_equal; lia. Qed.
Lemma vplus_assoc p q r : vplus p (vplus q r) = vplus (vplus p q) r.
Proof. unfold vplus; cbn [fst snd]. f_equal; lia. Qed.
Lemma wrap_plus_r p q : wrap (vplus p (coords Nx (wrap q))) = wrap (vplus p q).
Proof. rewrite vplus_comm, wrap_plus_l, vplus_comm. reflexivity. Qed.

Definition cplus (a b : Z) : Z := wrap (vplus (coords Nx a) (coords Nx b)).

Lemma cplus_group : abelian_group (Nx * Ny) cplus.
Proof.
  split; unfold cplus.
  - intros. apply wrap_range.
  - intros. rewrite wrap_plus_l, wrap_plus_r. now rewrite vplus_assoc.
  - intros. now rewrite vplus_comm.
  - split; [nia|]. intros a Ha.
    replace (coords Nx 0) with (0, 0) by (unfold coords; now rewrite Z.mod_0_l, Z.div_0_l by lia).
    replace (vplus (0,0) (coords Nx a)) with (coords Nx a)
      by (unfold vplus; cbn [fst snd]; destruct (coords Nx a); f_equal; cbn; lia).
    apply wrap_coords; auto.
  - intros a Ha. exists (wrap (- fst (coords Nx a), - snd (coords Nx a))).
    split; [apply wrap_range|]. rewrite wrap_plus_r. unfold vplus; cbn [fst snd].
    rewrite !Z.add_opp_diag_r. rewrite wrap_small; lia.
Qed.
End Cells.


Section SumMap.
Variables Nx Ny sh : Z.
Hypotheses (HNx : 0 < Nx) (HNy : 0 < Ny) (Hsh : 0 <= sh).
Notation wrap := (LatticeSpec.wrap Nx Ny sh).
Let Nc := Nx * Ny.

Lemma sum_entry i j k l : 0 <= i < Nx -> 0 <= j < Ny -> 0 <= k < Nx -> 0 <= l < Ny ->
  (let* u := cmod (i + k + (if j + l <? Ny then 0 else sh)) Nx in
   let* v := cmod (j + l) Ny in Some (u + Nx * v)) = Some (wrap (i + k, j + l)).
Proof.
  intros. destruct (Z.ltb_spec (j + l) Ny); rewrite !cmod_pos by lia; cbn [obind];
    unfold LatticeSpec.wrap; cbn [fst snd]; do 2 f_equal.
  - rewrite Z.div_small by lia. f_equal; lia.
  - replace ((j + l) / Ny) with 1; [f_equal; lia|].
    apply Z.div_unique with (j + l - Ny); lia.
Qed.

(** order in which the loops fill the table *)
Definition filled (m : list Z) (P : Z -> Z -> Z -> Z -> Prop) : Prop :=
  Z.of_nat (length m) = Nc * Nc /\
  forall i j k l, 0 <= i < Nx -> 0 <= j < Ny -> 0 <= k < Nx -> 0 <= l < Ny -> P i j k l ->
    at_ m ((i + Nx * j) + Nc * (k + Nx * l)) = wrap (i + k, j + l).

Lemma pair_range i j : 0 <= i < Nx -> 0 <= j < Ny -> 0 <= i + Nx * j < Nc.
Proof. unfold Nc. nia. Qed.

Lemma fill_step m P i j k l v :
  0 <= i < Nx -> 0 <= j < Ny -> 0 <= k < Nx -> 0 <= l < Ny ->
  v = wrap (i + k, j + l) -> filled m P ->
  exists m', aset m ((i + Nx * j) + Nc * (k + Nx * l)) v = Some m' /\
    filled m' (fun i' j' k' l' => P i' j' k' l' \/ (i' = i /\ j' = j /\ k' = k /\ l' = l)).
Proof.
  intros Hi Hj Hk Hl -> [Hlen H].
  pose proof (pair_range i j Hi Hj) as R1. pose proof (pair_range k l Hk Hl) as R2.
  assert (0 <= (i + Nx * j) + Nc * (k + Nx * l) < Z.of_nat (length m)) as R by nia.
  rewrite aset_ok by exact R. eexists; split; [reflexivity|]. split.
  { now rewrite lset_length. }
  intros i' j' k' l' Hi' Hj' Hk' Hl' HP.
  pose proof (pair_range i' j' Hi' Hj') as R1'. pose proof (pair_range k' l' Hk' Hl') as R2'.
  unfold at_. rewrite lset_nth_d by lia.
  destruct (Nat.eqb_spec (Z.to_nat (i + Nx * j + Nc * (k + Nx * l)))
                         (Z.to_nat (i' + Nx * j' + Nc * (k' + Nx * l')))) as [E|E].
  - apply Z2Nat.inj in E; [|lia|nia].
    destruct (idx_inj Nc ltac:(unfold Nc; nia) _ _ _ _ R1 R1' E) as [E1 E2].
    destruct (idx_inj Nx HNx _ _ _ _ Hi Hi' E1) as [-> ->].
    destruct (idx_inj Nx HNx _ _ _ _ Hk Hk' E2) as [-> ->]. reflexivity.
  - destruct HP as [HP|(-> & -> & -> & ->)]; [|congruence]. apply H; auto.
Qed.

Lemma filled_ext m (P Q : Z -> Z -> Z -> Z -> Prop) :
  (forall i j k l, 0 <= i < Nx -> 0 <= j < Ny -> 0 <= k < Nx -> 0 <= l < Ny ->
     Q i j k l -> P i j k l) ->
  filled m P -> filled m Q.
Proof. intros HPQ [H1 H2]; split; auto. Qed.

Lemma sum_map_ok m0 : Z.of_nat (length m0) = Nc * Nc ->
  exists m, lattice_sum_map Nx Ny sh m0 = Some m /\
    Z.of_nat (length m) = Nc * Nc /\
    forall a b, 0 <= a < Nc -> 0 <= b < Nc ->
      at_ m (a + Nc * b) = cplus Nx Ny sh a b.
Proof.
  intros Hlen. unfold lattice_sum_map.
  destruct (@for_range_inv (list Z) (fun J m => filled m (fun i j k l => j < J)) 0 Ny
     (fun j m =>
  for_range 0 Nx (fun i m =>
    for_range 0 Ny (fun l m =>
    for_range 0 Nx (fun k m =>
      let* u := cmod (i + k + (if j + l <? Ny then 0 else sh)) Nx in
      let* v := cmod (j + l) Ny in
      aset m (i + Nx * j + Nx * Ny * (k + Nx * l)) (u + Nx * v)) m) m) m) m0) as (m & E & Hm);
    [lia| | |].
  - intros j m Hj HI.
    destruct (@for_range_inv (list Z)
      (fun I m => filled m (fun i' j' k' l' => j' < j \/ (j' = j /\ i' < I))) 0 Nx
      (fun i m =>
         for_range 0 Ny (fun l m =>
         for_range 0 Nx (fun k m =>
           let* u := cmod (i + k + (if j + l <? Ny then 0 else sh)) Nx in
           let* v := cmod (j + l) Ny in
           aset m (i + Nx * j + Nx * Ny * (k + Nx * l)) (u + Nx * v)) m) m) m) as (m' & E' & Hm');
      [lia| | |].
    + intros i m1 Hi HI1.
      destruct (@for_range_inv (list Z)
        (fun L m => filled m (fun i' j' k' l' => j' < j \/ (j' = j /\ (i' < i \/ (i' = i /\ l' < L))))) 0 Ny
        (fun l m =>
         for_range 0 Nx (fun k m =>
           let* u := cmod (i + k + (if j + l <? Ny then 0 else sh)) Nx in
           let* v := cmod (j + l) Ny in
           aset m (i + Nx * j + Nx * Ny * (k + Nx * l)) (u + Nx * v)) m) m1) as (m'' & E'' & Hm'');
        [lia| | |].
      * intros l m2 Hl HI2.
        destruct (@for_range_inv (list Z)
          (fun K m => filled m (fun i' j' k' l' => j' < j \/ (j' = j /\ (i' < i \/ (i' = i /\
                         (l' < l \/ (l' = l /\ k' < K))))))) 0 Nx
          (fun k m =>
           let* u := cmod (i + k + (if j + l <? Ny then 0 else sh)) Nx in
           let* v := cmod (j + l) Ny in
           aset m (i + Nx * j + Nx * Ny * (k + Nx * l)) (u + Nx * v)) m2) as (m3 & E3 & Hm3);
          [lia| | |].
        -- intros k m4 Hk HI4.
           pose proof (sum_entry i j k l Hi Hj Hk Hl) as SE.
           apply obind_Some in SE as (u & Eu & SE). apply obind_Some in SE as (v & Ev & SE).
           rewrite Eu. cbn [obind]. rewrite Ev. cbn [obind].
           destruct (fill_step m4 _ i j k l (u + Nx * v) Hi Hj Hk Hl ltac:(congruence) HI4)
             as (m5 & E5 & H5).
           fold Nc. rewrite E5. eexists; split; [reflexivity|].
           eapply filled_ext; [|exact H5]. cbn. intros. lia.
        -- eapply filled_ext; [|exact HI2]. cbn; intros; lia.
        -- rewrite E3. eexists; split; [reflexivity|].
           eapply filled_ext; [|exact Hm3]. cbn; intros; lia.
      * eapply filled_ext; [|exact HI1]. cbn; intros; lia.
      * rewrite E''. eexists; split; [reflexivity|].
        eapply filled_ext; [|exact Hm'']. cbn; intros; lia.
    + eapply filled_ext; [|exact HI]. cbn; intros; lia.
    + rewrite E'. eexists; split; [reflexivity|].
      eapply filled_ext; [|exact Hm']. cbn; intros; lia.
  - split; auto. intros; lia.
  - exists m. split; [exact E|]. destruct Hm as [Hm1 Hm2]. split; [exact Hm1|].
    intros a b Ha Hb. destruct (coords_range Nx Ny HNx a Ha) as [Ha1 Ha2].
    destruct (coords_range Nx Ny HNx b Hb) as [Hb1 Hb2].
    specialize (Hm2 _ _ _ _ Ha1 Ha2 Hb1 Hb2 (proj2 Ha2)).
    unfold cplus, vplus. rewrite <- Hm2. f_equal.
    unfold coords; cbn [fst snd]. pose proof (Z.div_mod a Nx). pose proof (Z.div_mod b Nx). nia.
Qed.
End SumMap.

Lemma next_mod n i : 0 <= i < n -> (if i <? n - 1 then i + 1 else 0) = (i + 1) mod n.
Proof.
  intros H. destruct (Z.ltb_spec i (n - 1)).
  - symmetry; apply Z.mod_small; lia.
  - replace (i + 1) with n by lia. now rewrite Z_mod_same_full.
Qed.
Lemma prev_mod n i : 0 <= i < n -> (if 0 <? i then i - 1 else n - 1) = (i - 1) mod n.
Proof.
  intros H. destruct (Z.ltb_spec 0 i).
  - symmetry; apply Z.mod_small; lia.
  - replace i with 0 by lia. apply Z.mod_unique with (-1); lia.
Qed.

Lemma at_lset l a b v : 0 <= a < Z.of_nat (length l) -> 0 <= b ->
  at_ (lset l (Z.to_nat a) v) b = if a =? b then v else at_ l b.
Proof.
  intros Ha Hb. unfold at_. rewrite lset_nth_d by lia.
  destruct (Nat.eqb_spec (Z.to_nat a) (Z.to_nat b)), (Z.eqb_spec a b); auto; lia.
Qed.

Section NNMap.
Variables Nx Ny : Z.
Hypotheses (HNx : 0 < Nx) (HNy : 0 < Ny).
Let Nc := Nx * Ny.

Definition nn_filled (m : nn_maps) (P : Z -> Z -> Prop) : Prop :=
  (Z.of_nat (length (xp1 m)) = Nc /\ Z.of_nat (length (xm1 m)) = Nc /\
   Z.of_nat (length (yp1 m)) = Nc /\ Z.of_nat (length (ym1 m)) = Nc) /\
  forall i j, 0 <= i < Nx -> 0 <= j < Ny -> P i j ->
    at_ (xp1 m) (i + Nx * j) = wrap Nx Ny 0 (i + 1, j) /\
    at_ (xm1 m) (i + Nx * j) = wrap Nx Ny 0 (i - 1, j) /\
    at_ (yp1 m) (i + Nx * j) = wrap Nx Ny 0 (i, j + 1) /\
    at_ (ym1 m) (i + Nx * j) = wrap Nx Ny 0 (i, j - 1).

Lemma nn_filled_ext m (P Q : Z -> Z -> Prop) :
  (forall i j, 0 <= i < Nx -> 0 <= j < Ny -> Q i j -> P i j) -> nn_filled m P -> nn_filled m Q.
Proof. intros HPQ [H1 H2]; split; auto. Qed.

Lemma nn_map_ok m0 :
  Z.of_nat (length (xp1 m0)) = Nc -> Z.of_nat (length (xm1 m0)) = Nc ->
  Z.of_nat (length (yp1 m0)) = Nc -> Z.of_nat (length (ym1 m0)) = Nc ->
  exists m, lattice_nn_map Nx Ny m0 = Some m /\ nn_filled m (fun _ _ => True).
Proof.
  intros L1 L2 L3 L4. unfold lattice_nn_map.
  match goal with |- exists m, for_range 0 Ny ?body m0 = _ /\ _ =>
    destruct (@for_range_inv nn_maps (fun J m => nn_filled m (fun i j => j < J)) 0 Ny body m0)
      as (m & E & Hm); [lia| | |] end.
  - intros j m Hj HI.
    match goal with |- exists s', for_range 0 Nx ?body _ = _ /\ _ =>
      destruct (@for_range_inv nn_maps (fun I m => nn_filled m (fun i' j' => j' < j \/ (j' = j /\ i' < I)))
         0 Nx body m) as (m' & E & Hm); [lia| | |] end.
    + intros i m1 Hi [(M1 & M2 & M3 & M4) H].
      rewrite (next_mod Nx), (prev_mod Nx), (next_mod Ny), (prev_mod Ny) by auto.
      assert (0 <= i + Nx * j < Nc) as R by (unfold Nc; nia).
      rewrite !aset_ok by lia. cbn [obind]. eexists; split; [reflexivity|].
      split; cbn [xp1 xm1 yp1 ym1]; [rewrite !lset_length; auto|].
      intros i' j' Hi' Hj' HP.
      assert (0 <= i' + Nx * j' < Nc) as R' by (unfold Nc; nia).
      rewrite !at_lset by lia.
      destruct (Z.eqb_spec (i + Nx * j) (i' + Nx * j')) as [E|E].
      * destruct (idx_inj Nx HNx _ _ _ _ Hi Hi' E) as [-> ->].
        unfold wrap; cbn [fst snd]. rewrite !Z.mul_0_l, !Z.add_0_r.
        rewrite (Z.mod_small j' Ny), (Z.mod_small i' Nx) by lia. auto.
      * apply H; auto. destruct HP as [HP|[-> HP]]; [auto|right; split; auto].
        assert (i' <> i) by congruence. lia.
    + eapply nn_filled_ext; [|exact HI]; cbn; intros; lia.
    + rewrite E. eexists; split; [reflexivity|]. eapply nn_filled_ext; [|exact Hm]; cbn; intros; lia.
  - split; auto. intros; lia.
  - exists m; split; [exact E|]. eapply nn_filled_ext; [|exact Hm]; cbn; intros; lia.
Qed.

(** translation by one cell in x direction does not notice the shift *)
Lemma wrap_x sh i j v : 0 <= j < Ny -> wrap Nx Ny sh (i + v, j) = wrap Nx Ny 0 (i + v, j).
Proof.
  intros. unfold wrap; cbn [fst snd]. rewrite (Z.div_small j) by lia. now rewrite !Z.mul_0_r.
Qed.

Lemma wrap_shift_mult k p : wrap Nx Ny (k * Nx) p = wrap Nx Ny 0 p.
Proof.
  unfold wrap. f_equal. rewrite Z.mul_0_l, Z.add_0_r.
  replace (k * Nx * (snd p / Ny)) with (k * (snd p / Ny) * Nx) by lia. apply Z_mod_plus_full.
Qed.

Lemma wrap_y_shift sh i : 0 <= i < Nx ->
  wrap Nx Ny sh (i, Ny - 1 + 1) = wrap Nx Ny 0 (i, Ny - 1 + 1) -> (Nx | sh).
Proof.
  intros Hi. unfold wrap; cbn [fst snd]. replace (Ny - 1 + 1) with Ny by lia.
  rewrite Z_mod_same_full, Z_div_same_full by lia.
  rewrite Z.mul_1_r, Z.mul_0_l, Z.mul_0_r, !Z.add_0_r. rewrite (Z.mod_small i) by lia.
  intros E. exists ((i + sh) / Nx). pose proof (Z.div_mod (i + sh) Nx). nia.
Qed.
End NNMap.

(** [wrap] by displacement 1 and -1 are inverse *)
Lemma wrap_inverse Nx Ny sh v c : 0 < Nx -> 0 < Ny -> 0 <= c < Nx * Ny ->
  wrap Nx Ny sh (vplus (coords Nx (wrap Nx Ny sh (vplus (coords Nx c) v))) (- fst v, - snd v)) = c.
Proof.
  intros HNx HNy Hc. rewrite wrap_plus_l by auto.
  replace (vplus (vplus (coords Nx c) v) (- fst v, - snd v)) with (coords Nx c).
  - now apply wrap_coords.
  - unfold vplus; cbn [fst snd]. rewrite (surjective_pairing (coords Nx c)); cbn [fst snd]. f_equal; lia.
Qed.

Lemma nn_at Nx Ny m : 0 < Nx -> 0 < Ny -> nn_filled Nx Ny m (fun _ _ => True) ->
  forall c, 0 <= c < Nx * Ny ->
    at_ (xp1 m) c = wrap Nx Ny 0 (vplus (coords Nx c) (1, 0)) /\
    at_ (xm1 m) c = wrap Nx Ny 0 (vplus (coords Nx c) (-1, 0)) /\
    at_ (yp1 m) c = wrap Nx Ny 0 (vplus (coords Nx c) (0, 1)) /\
    at_ (ym1 m) c = wrap Nx Ny 0 (vplus (coords Nx c) (0, -1)).
Proof.
  intros HNx HNy [_ H] c Hc. destruct (coords_range Nx Ny HNx c Hc) as [R1 R2].
  specialize (H _ _ R1 R2 I).
  replace (fst (coords Nx c) + Nx * snd (coords Nx c)) with c in H.
  2:{ unfold coords; cbn [fst snd]. pose proof (Z.div_mod c Nx). lia. }
  unfold vplus; cbn [fst snd]. rewrite !Z.add_0_r. exact H.
Qed.
