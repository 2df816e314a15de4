(** C20-C22: the lattice index maps. *)
From Coq Require Import ZArith NArith List Lia Reals.
From Verif Require Import Base BaseFacts SimParams ParamSpec Lattice LatticeSpec LatticeFacts.
Import ListNotations.
Local Open Scope Z_scope.

(** C21: the coordinate sum map is completely filled, each entry is the cell at the sum of the
    coordinates of the two cells on the (shifted) periodic lattice, and this operation is an
    Abelian group with neutral element 0. *)
Theorem C21_sum_map_is_translation_group : forall Nx Ny shift m0,
  0 < Nx -> 0 < Ny -> 0 <= shift ->
  Z.of_nat (length m0) = (Nx * Ny) * (Nx * Ny) ->
  exists m, lattice_sum_map Nx Ny shift m0 = Some m /\
    let plus a b := at_ m (a + Nx * Ny * b) in
    abelian_group (Nx * Ny) plus /\
    (forall a b, 0 <= a < Nx * Ny -> 0 <= b < Nx * Ny ->
       same_cell Nx Ny shift (vplus (coords Nx a) (coords Nx b)) (coords Nx (plus a b))).
Proof.
  intros Nx Ny sh m0 H1 H2 H3 HL.
  destruct (sum_map_ok Nx Ny sh H1 H2 H3 m0 HL) as (m & E & _ & Hm).
  exists m; split; [exact E|]; cbv zeta. pose proof (cplus_group Nx Ny sh H1 H2) as [G1 G2 G3 [G4 G5] G6].
  split; [split|].
  - intros; rewrite Hm by auto; auto.
  - intros a b c Ha Hb Hc. rewrite (Hm b c), (Hm a b) by auto. rewrite !Hm by auto. auto.
  - intros; rewrite !Hm by auto; auto.
  - split; [exact G4|]. intros. rewrite Hm by auto. auto.
  - intros a Ha. destruct (G6 a Ha) as (b & Hb & E'). exists b; split; auto. rewrite Hm by auto. auto.
  - intros a b Ha Hb. rewrite Hm by auto. apply wrap_same; auto.
Qed.
Print Assumptions C21_sum_map_is_translation_group.

(** a 3 x 2 lattice with shift 1: cell 4 + cell 5 = (1,1) + (2,1) = (3,2) ~ (3+1,0) ~ (1,0) *)
Example C21_case :
  option_map (fun m => at_ m (4 + 6 * 5)) (lattice_sum_map 3 2 1 (repeat 0 36)) = Some 1.
Proof. vm_compute. reflexivity. Qed.

(** C22, what holds: the maps are mutually inverse permutations of the cells; the x maps are
    the translation by one cell for every shift, the y maps are if and only if the shift is a
    multiple of Nx.  Missing: agreement of the y maps with the shifted lattice. *)
Theorem C22_nearest_neighbour_maps_partial : forall Nx Ny m0,
  0 < Nx -> 0 < Ny ->
  Z.of_nat (length (xp1 m0)) = Nx * Ny -> Z.of_nat (length (xm1 m0)) = Nx * Ny ->
  Z.of_nat (length (yp1 m0)) = Nx * Ny -> Z.of_nat (length (ym1 m0)) = Nx * Ny ->
  exists m, lattice_nn_map Nx Ny m0 = Some m /\
    (forall c, 0 <= c < Nx * Ny ->
       (0 <= at_ (xp1 m) c < Nx * Ny /\ at_ (xm1 m) (at_ (xp1 m) c) = c) /\
       (0 <= at_ (xm1 m) c < Nx * Ny /\ at_ (xp1 m) (at_ (xm1 m) c) = c) /\
       (0 <= at_ (yp1 m) c < Nx * Ny /\ at_ (ym1 m) (at_ (yp1 m) c) = c) /\
       (0 <= at_ (ym1 m) c < Nx * Ny /\ at_ (yp1 m) (at_ (ym1 m) c) = c)) /\
    (forall shift c, 0 <= c < Nx * Ny ->
       same_cell Nx Ny shift (vplus (coords Nx c) (1, 0)) (coords Nx (at_ (xp1 m) c)) /\
       same_cell Nx Ny shift (vplus (coords Nx c) (-1, 0)) (coords Nx (at_ (xm1 m) c))) /\
    (forall shift,
       (forall c, 0 <= c < Nx * Ny ->
          same_cell Nx Ny shift (vplus (coords Nx c) (0, 1)) (coords Nx (at_ (yp1 m) c)) /\
          same_cell Nx Ny shift (vplus (coords Nx c) (0, -1)) (coords Nx (at_ (ym1 m) c)))
       <-> (Nx | shift)).
Proof.
  intros Nx Ny m0 HNx HNy L1 L2 L3 L4.
  destruct (nn_map_ok Nx Ny HNx HNy m0 L1 L2 L3 L4) as (m & E & Hm).
  exists m; split; [exact E|]. pose proof (nn_at Nx Ny m HNx HNy Hm) as A.
  assert (forall p, 0 <= wrap Nx Ny 0 p < Nx * Ny) as R by (intros; apply wrap_range; auto).
  split; [|split].
  - intros c Hc. destruct (A c Hc) as (A1 & A2 & A3 & A4). rewrite A1, A2, A3, A4.
    destruct (A _ (R (vplus (coords Nx c) (1, 0)))) as (_ & B1 & _ & _). rewrite B1.
    destruct (A _ (R (vplus (coords Nx c) (-1, 0)))) as (B2 & _ & _ & _). rewrite B2.
    destruct (A _ (R (vplus (coords Nx c) (0, 1)))) as (_ & _ & _ & B3). rewrite B3.
    destruct (A _ (R (vplus (coords Nx c) (0, -1)))) as (_ & _ & B4 & _). rewrite B4.
    pose proof (wrap_inverse Nx Ny 0 (1, 0) c HNx HNy Hc). pose proof (wrap_inverse Nx Ny 0 (-1, 0) c HNx HNy Hc).
    pose proof (wrap_inverse Nx Ny 0 (0, 1) c HNx HNy Hc). pose proof (wrap_inverse Nx Ny 0 (0, -1) c HNx HNy Hc).
    auto 10.
  - intros sh c Hc. destruct (A c Hc) as (A1 & A2 & _). destruct (coords_range Nx Ny HNx c Hc) as [_ R2].
    rewrite A1, A2. unfold vplus; cbn [fst snd]. rewrite Z.add_0_r.
    rewrite <- !(wrap_x Nx Ny sh) by auto. split; apply wrap_same; auto.
  - intros sh. split.
    + intros H. assert (0 <= Nx * (Ny - 1) < Nx * Ny) as Hc by nia.
      destruct (A _ Hc) as (_ & _ & A3 & _). destruct (H _ Hc) as [H3 _]. rewrite A3 in H3.
      apply same_wrap in H3; auto. rewrite wrap_coords in H3 by auto.
      apply (wrap_y_shift Nx Ny HNx HNy sh 0); [lia|].
      replace (vplus (coords Nx (Nx * (Ny - 1))) (0, 1)) with (0, Ny - 1 + 1) in H3; [exact H3|].
      unfold vplus, coords; cbn [fst snd]. rewrite Z.mul_comm, Z_mod_mult, Z_div_mult by lia. reflexivity.
    + intros [k ->] c Hc. destruct (A c Hc) as (_ & _ & A3 & A4). rewrite A3, A4.
      rewrite <- !(wrap_shift_mult Nx Ny k). split; apply wrap_same; auto.
Qed.
Print Assumptions C22_nearest_neighbour_maps_partial.

Example C22_case :
  option_map (fun m => (xp1 m, yp1 m)) (lattice_nn_map 3 2 (mk_nn_maps (repeat 0 6) (repeat 0 6) (repeat 0 6) (repeat 0 6)))
  = Some ([1; 2; 0; 4; 5; 3], [3; 4; 5; 0; 1; 2]).
Proof. vm_compute. reflexivity. Qed.

(** C22 as stated is false: with a shift, y+1 from the last row is the wrong cell. *)
Theorem C22_nearest_neighbour_maps_refuted : exists Nx Ny shift m0 m c,
  0 < Nx /\ 0 < Ny /\ 0 <= shift /\
  lattice_nn_map Nx Ny m0 = Some m /\ 0 <= c < Nx * Ny /\
  ~ same_cell Nx Ny shift (vplus (coords Nx c) (0, 1)) (coords Nx (at_ (yp1 m) c)).
Proof.
  exists 3, 2, 1, (mk_nn_maps (repeat 0 6) (repeat 0 6) (repeat 0 6) (repeat 0 6)).
  exists (mk_nn_maps [1; 2; 0; 4; 5; 3] [2; 0; 1; 5; 3; 4] [3; 4; 5; 0; 1; 2] [3; 4; 5; 0; 1; 2]), 3.
  do 3 (split; [lia|]). split; [vm_compute; reflexivity|]. split; [lia|].
  intros H. apply same_wrap in H; try lia. vm_compute in H. discriminate.
Qed.
Print Assumptions C22_nearest_neighbour_maps_refuted.
