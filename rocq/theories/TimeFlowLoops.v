(** The array loops of the time flow map. *)
From Coq Require Import ZArith List Reals Lia Lra Bool.
From Verif Require Import Base BaseFacts Sums SumsFacts RealOps Blas BlasFacts Prepivot TimeFlow.
Import ListNotations.
Local Open Scope Z_scope.

Lemma ent_set n A v i j i' j' : lenZ A = n * n -> 0 <= i < n -> 0 <= j < n -> 0 <= i' < n -> 0 <= j' < n ->
  ent (lset A (Z.to_nat (i + j * n)) v) 0 n i' j' = if (i =? i') && (j =? j') then v else ent A 0 n i' j'.
Proof.
  intros HA Hi Hj Hi' Hj'. unfold ent. rewrite rat_lset by (unfold lenZ in HA; nia).
  destruct (Z.eqb_spec (i + j * n) (0 + i' + j' * n)) as [E|E].
  - destruct (@blk_inj n n i j i' j') as [-> ->]; try lia. now rewrite !Z.eqb_refl.
  - destruct (Z.eqb_spec i i'), (Z.eqb_spec j j'); auto. subst. lia.
Qed.

Lemma len_lset A (a : list A) k v : lenZ (lset a k v) = lenZ a.
Proof. unfold lenZ. now rewrite lset_length. Qed.

Lemma aset_lenZ A (a : list A) k v : 0 <= k < lenZ a -> aset a k v = Some (lset a (Z.to_nat k) v).
Proof. intros. apply aset_ok. auto. Qed.

Definition dg (x : R) : R := if Req_EM_T x 0 then 1%R else x.
Lemma dg_nz x : dg x <> 0%R.
Proof. unfold dg. destruct (Req_EM_T x 0); [lra|auto]. Qed.

Lemma extract_diag_ok n Q d v : 0 <= n -> lenZ Q = n * n -> lenZ d = n -> lenZ v = n ->
  exists d' v', extract_diag n Q (d, v) = Some (d', v') /\ lenZ d' = n /\ lenZ v' = n /\
    forall i, 0 <= i < n -> rat d' i = dg (ent Q 0 n i i) /\ rat v' i = (/ rat d' i)%R.
Proof.
  intros Hn HQ Hd Hv. unfold extract_diag.
  match goal with |- context [for_range 0 n ?b _] => set (body := b) end.
  destruct (@for_range_inv _ (fun h dv => lenZ (fst dv) = n /\ lenZ (snd dv) = n /\
    forall i, 0 <= i < h -> rat (fst dv) i = dg (ent Q 0 n i i) /\ rat (snd dv) i = (/ rat (fst dv) i)%R)
    0 n body (d, v)) as ([d' v'] & E & H1 & H2 & H3).
  - lia.
  - intros i [d1 v1] Hi (H1 & H2 & H3). cbn [fst snd] in *. unfold body.
    rewrite aget_rat by nia. cbn [obind]. change (if Req_EM_T (rat Q (i + i * n)) 0 then 1%R else rat Q (i + i * n)) with (dg (rat Q (i + i * n))).
    rewrite aset_lenZ by lia. cbn [obind]. unfold rdiv at 1.
    destruct (Req_EM_T (dg (rat Q (i + i * n))) 0) as [E|E]; [exfalso; revert E; apply dg_nz|]. cbn [obind].
    rewrite aset_lenZ by lia. cbn [obind]. eexists; split; [reflexivity|]. cbn [fst snd]. rewrite !len_lset. split; auto. split; auto.
    intros i' Hi'. rewrite !rat_lset by (unfold lenZ in *; lia).
    destruct (Z.eqb_spec i i').
    + subst. split; [reflexivity|]. unfold Rdiv. now rewrite Rmult_1_l.
    + apply H3. lia.
  - cbn. split; auto. split; auto. intros; lia.
  - exists d', v'. cbn [fst snd] in *. auto.
Qed.

(** a permutation of 0, ..., n-1 *)
Definition inj_on (n : Z) (s : Z -> Z) : Prop :=
  (forall j, 0 <= j < n -> 0 <= s j < n) /\ (forall i j, 0 <= i < n -> 0 <= j < n -> s i = s j -> i = j).

Lemma first_T_ok n Q v s jp T : 0 <= n -> lenZ Q = n * n -> lenZ v = n -> lenZ T = n * n -> lenZ jp = n ->
  inj_on n s -> (forall j, 0 <= j < n -> nth (Z.to_nat j) jp 0 = s j + 1) ->
  exists jp' T', first_T n Q v jp T = Some (jp', T') /\ lenZ jp' = n /\ lenZ T' = n * n /\
    forall i j, 0 <= i < n -> 0 <= j < n -> ent T' 0 n i (s j) = if i <=? j then (rat v i * ent Q 0 n i j)%R else 0%R.
Proof.
  intros Hn HQ Hv HT Hjp [Hs1 Hs2] Hs. unfold first_T.
  destruct (@zero_fill_ok (n * n) T 0) as (T0 & -> & HT0 & HZ & _); try nia. cbn [obind].
  match goal with |- context [for_range 0 n ?b _] => set (body := b) end.
  pose (want := fun J i j => if (j <? J) && (i <=? j) then (rat v i * ent Q 0 n i j)%R else 0%R).
  destruct (@for_range_inv _ (fun J st => lenZ (fst st) = n /\ lenZ (snd st) = n * n /\
    (forall j, J <= j < n -> nth (Z.to_nat j) (fst st) 0 = s j + 1) /\
    forall i j, 0 <= i < n -> 0 <= j < n -> ent (snd st) 0 n i (s j) = want J i j) 0 n body (jp, T0))
    as ([jp' T'] & E & H1 & H2 & H3 & H4).
  - lia.
  - intros j [jp1 T1] Hj (H1 & H2 & H3 & H4). cbn [fst snd] in *. unfold body.
    rewrite (@aget_nth _ _ _ 0) by (unfold lenZ in H1; lia). cbn [obind]. rewrite H3 by lia.
    rewrite aset_lenZ by lia. cbn [obind]. replace (s j + 1 - 1) with (s j) by lia.
    pose proof (Hs1 j Hj) as Hsj.
    destruct (@for_range_inv _ (fun I T2 => lenZ T2 = n * n /\
      forall i j', 0 <= i < n -> 0 <= j' < n -> ent T2 0 n i (s j') =
        if (j' =? j) && (i <? I) then (rat v i * ent Q 0 n i j)%R else want j i j') 0 (j + 1)
      (fun i T => let* vi := aget v i in let* q := aget Q (i + j * n) in aset T (i + s j * n) (vi * q)%R) T1)
      as (T2 & E2 & HL2 & HE2).
    + lia.
    + intros i T2 Hi (HL2 & HE2). rewrite !aget_rat by nia. cbn [obind]. rewrite aset_lenZ by nia.
      eexists; split; [reflexivity|]. rewrite len_lset. split; auto.
      intros i' j' Hi' Hj'. rewrite ent_set by (auto; lia). rewrite HE2 by auto.
      destruct (Z.eqb_spec (s j) (s j')) as [Es|Es].
      * apply Hs2 in Es; auto. subst j'. rewrite Z.eqb_refl.
        destruct (Z.eqb_spec i i'); cbn [andb].
        -- subst i'. destruct (Z.ltb_spec i (i + 1)); [|lia]. unfold ent. now rewrite Z.add_0_l.
        -- destruct (Z.ltb_spec i' i), (Z.ltb_spec i' (i + 1)); auto; lia.
      * rewrite andb_false_r. destruct (Z.eqb_spec j' j); [congruence|]. reflexivity.
    + split; auto. intros i j' Hi Hj'. destruct (Z.ltb_spec i 0); [lia|]. rewrite andb_false_r. auto.
    + rewrite E2. cbn [obind]. eexists; split; [reflexivity|]. cbn [fst snd]. rewrite len_lset.
      split; auto. split; auto. split.
      * intros j' Hj'. rewrite lset_nth_d by (unfold lenZ in H1; lia). destruct (Nat.eq_dec (Z.to_nat j) (Z.to_nat j')) as [e|e].
        -- lia.
        -- rewrite (proj2 (Nat.eqb_neq _ _)) by auto. apply H3. lia.
      * intros i j' Hi Hj'. rewrite HE2 by auto. unfold want.
        destruct (Z.eqb_spec j' j).
        -- subst j'. destruct (Z.ltb_spec j j), (Z.ltb_spec j (j + 1)); try lia. cbn [andb].
           destruct (Z.ltb_spec i (j + 1)), (Z.leb_spec i j); auto; lia.
        -- cbn [andb]. destruct (Z.ltb_spec j' j), (Z.ltb_spec j' (j + 1)); auto; lia.
  - cbn [fst snd]. split; auto. split; [lia|]. split; [intros; apply Hs; lia|].
    intros i j Hi Hj. unfold want. destruct (Z.ltb_spec j 0); [lia|]. cbn [andb]. unfold ent. apply HZ.
    specialize (Hs1 j Hj). nia.
  - exists jp', T'. split; auto. cbn [fst snd] in *. split; auto. split; auto. intros i j Hi Hj. rewrite H4 by auto.
    unfold want. destruct (Z.ltb_spec j n); [reflexivity|lia].
Qed.

Lemma permute_cols_ok n s jp W Q : 0 <= n -> lenZ W = n * n -> lenZ Q = n * n -> lenZ jp = n ->
  inj_on n s -> (forall j, 0 <= j < n -> nth (Z.to_nat j) jp 0 = s j) ->
  exists Q', permute_cols n jp W Q = Some Q' /\ lenZ Q' = n * n /\
    forall i j, 0 <= i < n -> 0 <= j < n -> ent Q' 0 n i j = ent W 0 n i (s j).
Proof.
  intros Hn HW HQ Hjp [Hs1 _] Hs. unfold permute_cols.
  match goal with |- context [for_range 0 n ?b _] => set (body := b) end.
  destruct (@for_range_inv _ (fun J Q' => lenZ Q' = n * n /\
    forall i j, 0 <= i < n -> 0 <= j < J -> ent Q' 0 n i j = ent W 0 n i (s j)) 0 n body Q) as (Q' & E & H1 & H2).
  - lia.
  - intros j Q1 Hj (H1 & H2). unfold body. rewrite (@aget_nth _ _ _ 0) by (unfold lenZ in Hjp; lia). cbn [obind].
    rewrite Hs by lia. pose proof (Hs1 j Hj).
    destruct (@copy_ok n W (s j * n) Q1 (j * n)) as (Q2 & -> & HL & HE & HF); try nia.
    eexists; split; [reflexivity|]. split; [lia|]. intros i j' Hi Hj'.
    destruct (Z.eq_dec j j').
    + subst j'. unfold ent. replace (0 + i + j * n) with (j * n + i) by lia. rewrite HE by auto. f_equal; lia.
    + unfold ent at 1. rewrite HF by nia. rewrite <- H2 by lia. reflexivity.
  - split; auto. intros; lia.
  - exists Q'. auto.
Qed.

Lemma scale_upper_ok n v Q : 0 <= n -> lenZ Q = n * n -> lenZ v = n ->
  exists Q', scale_upper n v Q = Some Q' /\ lenZ Q' = n * n /\
    forall i j, 0 <= i < n -> 0 <= j < n -> ent Q' 0 n i j = if i <=? j then (ent Q 0 n i j * rat v i)%R else ent Q 0 n i j.
Proof.
  intros Hn HQ Hv. unfold scale_upper.
  match goal with |- context [for_range 0 n ?b _] => set (body := b) end.
  pose (want := fun J i j => if (j <? J) && (i <=? j) then (ent Q 0 n i j * rat v i)%R else ent Q 0 n i j).
  destruct (@for_range_inv _ (fun J Q' => lenZ Q' = n * n /\
    forall i j, 0 <= i < n -> 0 <= j < n -> ent Q' 0 n i j = want J i j) 0 n body Q) as (Q' & E & H1 & H2).
  - lia.
  - intros j Q1 Hj (H1 & H2). unfold body.
    match goal with |- context [for_range 0 (j + 1) ?b _] => set (body2 := b) end.
    destruct (@for_range_inv _ (fun I Q' => lenZ Q' = n * n /\
      forall i j', 0 <= i < n -> 0 <= j' < n -> ent Q' 0 n i j' =
        if (j' =? j) && (i <? I) then (ent Q 0 n i j * rat v i)%R else want j i j') 0 (j + 1) body2 Q1) as (Q2 & E & HL & HE).
    + lia.
    + intros i Q2 Hi (HL & HE). unfold body2. rewrite !aget_rat by nia. cbn [obind]. rewrite aset_lenZ by nia.
      eexists; split; [reflexivity|]. rewrite len_lset. split; auto. intros i' j' Hi' Hj'.
      rewrite ent_set by (auto; lia). rewrite HE by auto.
      destruct (Z.eqb_spec j j').
      * subst j'. rewrite Z.eqb_refl, andb_true_r. destruct (Z.eqb_spec i i'); cbn [andb].
        -- subst i'. destruct (Z.ltb_spec i (i + 1)); [|lia].
           replace (rat Q2 (i + j * n)) with (ent Q2 0 n i j) by (unfold ent; f_equal; lia).
           rewrite HE by lia. rewrite Z.eqb_refl. destruct (Z.ltb_spec i i); [lia|]. cbn [andb]. unfold want.
           destruct (Z.ltb_spec j j); [lia|]. reflexivity.
        -- destruct (Z.ltb_spec i' i), (Z.ltb_spec i' (i + 1)); auto; lia.
      * rewrite andb_false_r. destruct (Z.eqb_spec j' j); [congruence|]. reflexivity.
    + split; auto. intros i j' Hi Hj'. destruct (Z.ltb_spec i 0); [lia|]. rewrite andb_false_r. auto.
    + exists Q2. split; auto. split; auto. intros i j' Hi Hj'. rewrite HE by auto. unfold want.
      destruct (Z.eqb_spec j' j).
      * subst j'. destruct (Z.ltb_spec j j), (Z.ltb_spec j (j + 1)); try lia. cbn [andb].
        destruct (Z.ltb_spec i (j + 1)), (Z.leb_spec i j); auto; lia.
      * cbn [andb]. destruct (Z.ltb_spec j' j), (Z.ltb_spec j' (j + 1)); auto; lia.
  - split; auto. intros i j Hi Hj. unfold want. destruct (Z.ltb_spec j 0); [lia|]. reflexivity.
  - exists Q'. split; auto. split; auto. intros i j Hi Hj. rewrite H2 by auto. unfold want.
    destruct (Z.ltb_spec j n); [reflexivity|lia].
Qed.

Lemma permute_rows_ok n s jp v T : 0 <= n -> lenZ T = n * n -> lenZ v = n -> lenZ jp = n ->
  inj_on n s -> (forall j, 0 <= j < n -> nth (Z.to_nat j) jp 0 = s j) ->
  exists v' T', permute_rows n jp (v, T) = Some (v', T') /\ lenZ v' = n /\ lenZ T' = n * n /\
    forall i j, 0 <= i < n -> 0 <= j < n -> ent T' 0 n i j = ent T 0 n (s i) j.
Proof.
  intros Hn HT Hv Hjp [Hs1 _] Hs. unfold permute_rows.
  match goal with |- context [for_range 0 n ?b _] => set (body := b) end.
  destruct (@for_range_inv _ (fun J vT => lenZ (fst vT) = n /\ lenZ (snd vT) = n * n /\
    forall i j, 0 <= i < n -> 0 <= j < n -> ent (snd vT) 0 n i j = if j <? J then ent T 0 n (s i) j else ent T 0 n i j) 0 n body (v, T))
    as ([v' T'] & E & H1 & H2 & H3).
  - lia.
  - intros j [v1 T1] Hj (H1 & H2 & H3). cbn [fst snd] in *. unfold body.
    destruct (@for_range_inv _ (fun I v' => lenZ v' = n /\ forall i, 0 <= i < I -> rat v' i = ent T 0 n (s i) j) 0 n
      (fun i v => let* p := aget jp i in let* x := aget T1 (p + j * n) in aset v i x) v1) as (v2 & E & HL & HE).
    + lia.
    + intros i v2 Hi (HL & HE). rewrite (@aget_nth _ _ _ 0) by (unfold lenZ in Hjp; lia). cbn [obind].
      rewrite Hs by lia. pose proof (Hs1 i Hi). rewrite aget_rat by nia. cbn [obind]. rewrite aset_lenZ by lia.
      eexists; split; [reflexivity|]. rewrite len_lset. split; auto. intros i' Hi'.
      rewrite rat_lset by (unfold lenZ in *; lia). destruct (Z.eqb_spec i i').
      * subst i'. replace (rat T1 (s i + j * n)) with (ent T1 0 n (s i) j) by (unfold ent; f_equal; lia).
        rewrite H3 by lia. destruct (Z.ltb_spec j j); [lia|reflexivity].
      * apply HE; lia.
    + split; auto. intros; lia.
    + rewrite E. cbn [obind].
      destruct (@copy_ok n v2 0 T1 (j * n)) as (T2 & -> & HL2 & HE2 & HF2); try nia. cbn [obind].
      eexists; split; [reflexivity|]. cbn [fst snd]. split; auto. split; [lia|]. intros i j' Hi Hj'.
      destruct (Z.eq_dec j j').
      * subst j'. destruct (Z.ltb_spec j (j + 1)); [|lia]. unfold ent at 1.
        replace (0 + i + j * n) with (j * n + i) by lia. rewrite HE2 by auto. rewrite Z.add_0_l. auto.
      * unfold ent at 1. rewrite HF2 by nia. fold (ent T1 0 n i j'). rewrite H3 by auto.
        destruct (Z.ltb_spec j' j), (Z.ltb_spec j' (j + 1)); auto; lia.
  - cbn. split; auto. split; auto. intros i j Hi Hj. destruct (Z.ltb_spec j 0); [lia|reflexivity].
  - exists v', T'. cbn [fst snd] in *. split; auto. split; auto. split; auto. intros i j Hi Hj. rewrite H3 by auto.
    destruct (Z.ltb_spec j n); [reflexivity|lia].
Qed.

Lemma norms_ok n W norms : 0 <= n -> lenZ W = n * n -> lenZ norms = n ->
  exists norms', for_range 0 n (fun j norms => let* x := dnrm2 n W (j * n) in aset norms j x) norms = Some norms' /\ lenZ norms' = n.
Proof.
  intros Hn HW HN.
  destruct (@for_range_inv _ (fun _ norms' => lenZ norms' = n) 0 n
    (fun j norms => let* x := dnrm2 n W (j * n) in aset norms j x) norms) as (x & E & H); auto; try lia.
  intros j x Hj Hx. rewrite dnrm2_ok by nia. cbn [obind]. rewrite aset_lenZ by lia. eexists; split; [reflexivity|].
  now rewrite len_lset.
  eauto.
Qed.
