(** Lemmas about finite sums and about loops that accumulate into an array. *)
From Coq Require Import ZArith List Reals Lia Lra.
From Verif Require Import Base BaseFacts Sums.
Import ListNotations.
Local Open Scope Z_scope.

Set Implicit Arguments.

Lemma sum_from_ext n lo f g :
  (forall i, lo <= i < lo + Z.of_nat n -> f i = g i) -> sum_from n lo f = sum_from n lo g.
Proof.
  revert lo. induction n; intros lo H; simpl; auto.
  rewrite H by lia. f_equal. apply IHn. intros; apply H; lia.
Qed.
Lemma sum_ext lo hi f g : (forall i, lo <= i < hi -> f i = g i) -> sum lo hi f = sum lo hi g.
Proof. intros H. apply sum_from_ext. intros; apply H. lia. Qed.

Lemma sum_from_zero n lo f : (forall i, lo <= i < lo + Z.of_nat n -> f i = 0%R) -> sum_from n lo f = 0%R.
Proof.
  revert lo. induction n; intros lo H; simpl; auto.
  rewrite H by lia. rewrite IHn; [lra|]. intros; apply H; lia.
Qed.
Lemma sum_zero lo hi f : (forall i, lo <= i < hi -> f i = 0%R) -> sum lo hi f = 0%R.
Proof. intros H. apply sum_from_zero. intros; apply H. lia. Qed.

Lemma sum_empty lo hi f : hi <= lo -> sum lo hi f = 0%R.
Proof. intros. apply sum_zero. intros; lia. Qed.

Lemma sum_from_S n lo f : sum_from (S n) lo f = (sum_from n lo f + f (lo + Z.of_nat n)%Z)%R.
Proof.
  revert lo. induction n; intros lo.
  - simpl. rewrite Z.add_0_r. lra.
  - change (sum_from (S (S n)) lo f) with (f lo + sum_from (S n) (lo + 1) f)%R.
    rewrite IHn. cbn [sum_from].
    replace (lo + 1 + Z.of_nat n) with (lo + Z.of_nat (S n)) by lia. lra.
Qed.

(** last term split off *)
Lemma sum_last lo hi f : lo <= hi -> sum lo (hi + 1) f = (sum lo hi f + f hi)%R.
Proof.
  intros. unfold sum. replace (Z.to_nat (hi + 1 - lo)) with (S (Z.to_nat (hi - lo))) by lia.
  rewrite sum_from_S. do 2 f_equal. lia.
Qed.
(** first term split off *)
Lemma sum_first lo hi f : lo < hi -> sum lo hi f = (f lo + sum (lo + 1) hi f)%R.
Proof.
  intros. unfold sum. replace (Z.to_nat (hi - lo)) with (S (Z.to_nat (hi - (lo + 1)))) by lia.
  reflexivity.
Qed.

(** induction over the upper bound *)
Lemma range_ind (P : Z -> Prop) lo :
  P lo -> (forall i, lo <= i -> P i -> P (i + 1)) -> forall hi, lo <= hi -> P hi.
Proof.
  intros H0 HS hi H. replace hi with (lo + Z.of_nat (Z.to_nat (hi - lo))) by lia.
  induction (Z.to_nat (hi - lo)).
  - now rewrite Z.add_0_r.
  - replace (lo + Z.of_nat (S n)) with (lo + Z.of_nat n + 1) by lia. apply HS; auto. lia.
Qed.

Lemma sum_nil lo f : sum lo lo f = 0%R.
Proof. apply sum_empty; lia. Qed.

Lemma sum_plus lo hi f g : sum lo hi (fun i => f i + g i)%R = (sum lo hi f + sum lo hi g)%R.
Proof.
  destruct (Z.le_gt_cases lo hi).
  - revert hi H. apply range_ind; [rewrite !sum_nil; lra|].
    intros. rewrite !sum_last by lia. rewrite H0. lra.
  - rewrite !sum_empty by lia. lra.
Qed.
Lemma sum_scal lo hi c f : sum lo hi (fun i => c * f i)%R = (c * sum lo hi f)%R.
Proof.
  destruct (Z.le_gt_cases lo hi).
  - revert hi H. apply range_ind; [rewrite !sum_nil; lra|].
    intros. rewrite !sum_last by lia. rewrite H0. lra.
  - rewrite !sum_empty by lia. lra.
Qed.
Lemma sum_opp lo hi f : sum lo hi (fun i => - f i)%R = (- sum lo hi f)%R.
Proof.
  rewrite <- (Rmult_1_l (sum lo hi f)), Ropp_mult_distr_l, <- sum_scal.
  apply sum_ext; intros; lra.
Qed.
Lemma sum_const lo hi c : lo <= hi -> sum lo hi (fun _ => c) = (IZR (hi - lo) * c)%R.
Proof.
  revert hi. apply range_ind.
  - rewrite sum_nil, Z.sub_diag. lra.
  - intros. rewrite sum_last by lia. rewrite H0. replace (i + 1 - lo) with (i - lo + 1) by lia.
    rewrite plus_IZR. lra.
Qed.

(** all terms but one vanish *)
Lemma sum_single lo hi f k : lo <= k < hi ->
  (forall i, lo <= i < hi -> i <> k -> f i = 0%R) -> sum lo hi f = f k.
Proof.
  intros Hk. assert (forall h, lo <= h -> h <= hi ->
    (forall i, lo <= i < hi -> i <> k -> f i = 0%R) ->
    sum lo h f = (if k <? h then f k else 0)%R) as A.
  { intros h0 Hh0. pattern h0. revert h0 Hh0. apply range_ind.
    - intros. rewrite sum_nil. destruct (Z.ltb_spec k lo); auto; lia.
    - intros i Hi IH Hle Hz. rewrite sum_last by lia. rewrite IH by (auto; lia).
      destruct (Z.ltb_spec k i), (Z.ltb_spec k (i + 1)); try lia.
      + rewrite (Hz i) by lia. lra.
      + replace i with k by lia. lra.
      + rewrite (Hz i) by lia. lra. }
  intros H. rewrite A by (auto; lia). destruct (Z.ltb_spec k hi); auto; lia.
Qed.

Lemma sum_swap a b c d f :
  sum a b (fun i => sum c d (fun j => f i j)) = sum c d (fun j => sum a b (fun i => f i j)).
Proof.
  destruct (Z.le_gt_cases a b).
  - revert b H. apply range_ind.
    + rewrite sum_nil. symmetry; apply sum_zero. intros; apply sum_nil.
    + intros. rewrite sum_last by lia. rewrite H0, <- sum_plus. apply sum_ext.
      intros. now rewrite sum_last by lia.
  - rewrite sum_empty by lia. symmetry; apply sum_zero; intros; apply sum_empty; lia.
Qed.

Lemma sum_split a b c f : a <= b <= c -> sum a c f = (sum a b f + sum b c f)%R.
Proof.
  intros [H1 H2]. revert c H2. apply range_ind.
  - rewrite sum_nil; lra.
  - intros. rewrite !sum_last by lia. rewrite H0. lra.
Qed.

Lemma sum_shift a b k f : sum a b (fun i => f (i + k)) = sum (a + k) (b + k) f.
Proof.
  destruct (Z.le_gt_cases a b).
  - revert b H. apply range_ind; [rewrite !sum_nil; auto|].
    intros. rewrite sum_last by lia. replace (i + 1 + k) with (i + k + 1) by lia.
    rewrite (@sum_last (a + k) (i + k)) by lia. now rewrite H0.
  - rewrite !sum_empty by lia. auto.
Qed.

(** a double sum over a rectangle is a sum over the linear index *)
Lemma sum_rect Nx Ny f : 0 <= Nx -> 0 <= Ny ->
  sum 0 Ny (fun j => sum 0 Nx (fun i => f (i + Nx * j))) = sum 0 (Nx * Ny) f.
Proof.
  intros Hx Hy. revert Ny Hy. apply range_ind.
  - rewrite Z.mul_0_r, !sum_nil. auto.
  - intros j Hj IH. rewrite sum_last by lia. rewrite IH.
    replace (Nx * (j + 1)) with (Nx * j + Nx) by lia.
    rewrite (@sum_split 0 (Nx * j) (Nx * j + Nx)) by nia. f_equal.
    rewrite (sum_shift 0 Nx (Nx * j) f). f_equal; lia.
Qed.

(** Arrays of reals as functions. *)
Definition rat (a : list R) (k : Z) : R := nth (Z.to_nat k) a 0%R.

Definition arr (n : Z) (a : list R) (g : Z -> R) : Prop :=
  Z.of_nat (length a) = n /\ forall k, 0 <= k < n -> aget a k = Some (g k).

Lemma arr_rat n a : Z.of_nat (length a) = n -> arr n a (rat a).
Proof. intros H; split; auto. intros. apply aget_nth. lia. Qed.
Lemma arr_get n a g k : arr n a g -> 0 <= k < n -> rat a k = g k.
Proof.
  intros [H1 H2] Hk. specialize (H2 k Hk). rewrite (@aget_nth _ _ _ 0%R) in H2 by lia. unfold rat. congruence.
Qed.
Lemma arr_ext n a g h : (forall k, 0 <= k < n -> g k = h k) -> arr n a g -> arr n a h.
Proof. intros E [H1 H2]; split; auto. intros. rewrite H2 by auto. now rewrite E. Qed.

Lemma arr_set n a g k v : arr n a g -> 0 <= k < n ->
  exists a', aset a k v = Some a' /\ arr n a' (fun k' => if k =? k' then v else g k').
Proof.
  intros [H1 H2] Hk. rewrite aset_ok by lia. eexists; split; [reflexivity|].
  split; [now rewrite lset_length|]. intros k' Hk'. rewrite aget_lset by lia.
  destruct (k =? k'); auto.
Qed.

Lemma rat_lset a k k' v : 0 <= k < Z.of_nat (length a) -> 0 <= k' ->
  rat (lset a (Z.to_nat k) v) k' = if k =? k' then v else rat a k'.
Proof.
  intros. unfold rat. rewrite lset_nth_d by lia.
  destruct (Nat.eqb_spec (Z.to_nat k) (Z.to_nat k')), (Z.eqb_spec k k'); auto; lia.
Qed.

Lemma arr_eq n a b : Z.of_nat (length a) = n -> Z.of_nat (length b) = n ->
  (forall k, 0 <= k < n -> rat a k = rat b k) -> a = b.
Proof.
  intros Ha Hb H. apply nth_ext with 0%R 0%R; [lia|].
  intros k Hk. specialize (H (Z.of_nat k) ltac:(lia)). unfold rat in H. now rewrite Nat2Z.id in H.
Qed.

(** a loop whose body adds [F i] to the array *)
Lemma for_acc n lo hi body a g (F : Z -> Z -> R) :
  lo <= hi ->
  (forall i a g, lo <= i < hi -> arr n a g ->
     exists a', body i a = Some a' /\ arr n a' (fun k => g k + F i k)%R) ->
  arr n a g ->
  exists a', for_range lo hi body a = Some a' /\ arr n a' (fun k => g k + sum lo hi (fun i => F i k))%R.
Proof.
  intros Hle Hb Ha.
  apply (@for_range_inv (list R) (fun h a => arr n a (fun k => g k + sum lo h (fun i => F i k))%R)); auto.
  - intros i s Hi HI. destruct (Hb _ _ _ Hi HI) as (a' & E & H). exists a'; split; auto.
    eapply arr_ext; [|exact H]. cbn. intros. rewrite sum_last by lia. lra.
  - eapply arr_ext; [|exact Ha]. cbn; intros. rewrite sum_nil. lra.
Qed.
