(** Proofs about the insertion sort. *)
From Coq Require Import ZArith List Reals Lia Lra Permutation Sorted.
From Verif Require Import Base BaseFacts Prepivot.
Import ListNotations.
Local Open Scope Z_scope.

Definition zrange (n : nat) : list Z := map Z.of_nat (seq 0 n).

Lemma lset_app A (l1 l2 : list A) x v : lset (l1 ++ x :: l2) (length l1) v = l1 ++ v :: l2.
Proof. induction l1; simpl; auto. now rewrite IHl1. Qed.

Lemma aset_app A (l1 l2 : list A) x v k : k = Z.of_nat (length l1) -> aset (l1 ++ x :: l2) k v = Some (l1 ++ v :: l2).
Proof.
  intros ->. rewrite aset_ok.
  - now rewrite Nat2Z.id, lset_app.
  - rewrite app_length. simpl. lia.
Qed.

Lemma aget_app A (l1 l2 : list A) x k : k = Z.of_nat (length l1) -> aget (l1 ++ x :: l2) k = Some x.
Proof.
  intros ->. rewrite (@aget_nth _ _ _ x).
  - rewrite Nat2Z.id, app_nth2, Nat.sub_diag; auto.
  - rewrite app_length. simpl. lia.
Qed.

Section Sort.
Context {A : Type} (lt : A -> A -> bool) (norms : list A) (d : A).
Let nm p := nth (Z.to_nat p) norms d.
Let ok p := 0 <= p < Z.of_nat (length norms).

Lemma shift_in_ok i : ok i -> forall pre x suf, Forall ok pre ->
  exists p1 p2, pre = p1 ++ p2 /\
    shift_in lt norms i (length pre) (pre ++ x :: suf) = Some (p1 ++ i :: p2 ++ suf) /\
    Forall (fun p => lt (nm p) (nm i) = true) p2 /\
    (forall q p1', p1 = p1' ++ [q] -> lt (nm q) (nm i) = false).
Proof.
  intros Hi pre. induction pre as [|p pre IH] using rev_ind; intros x suf Hok.
  - exists [], []. repeat split; auto.
    intros q p1' E. destruct p1'; discriminate.
  - apply Forall_app in Hok as [Hpre Hp]. inversion Hp as [|? ? Hp' _]; subst.
    replace (length (pre ++ [p])) with (S (length pre)) by (rewrite app_length; simpl; lia).
    cbn [shift_in]. rewrite <- app_assoc. cbn [app].
    rewrite aget_app by auto. cbn [obind].
    rewrite (@aget_nth _ norms p d) by auto. cbn [obind].
    rewrite (@aget_nth _ norms i d) by auto. cbn [obind].
    fold (nm p) (nm i). destruct (lt (nm p) (nm i)) eqn:E.
    + replace (pre ++ p :: x :: suf) with ((pre ++ [p]) ++ x :: suf) by (now rewrite <- app_assoc).
      rewrite aset_app by (rewrite app_length; simpl; lia). cbn [obind].
      rewrite <- app_assoc. cbn [app].
      destruct (IH p (p :: suf) Hpre) as (p1 & p2 & -> & Es & H1 & H2).
      exists p1, (p2 ++ [p]). split; [now rewrite app_assoc|]. split; [|split; auto].
      * rewrite Es. now rewrite <- app_assoc.
      * apply Forall_app. auto.
    + exists (pre ++ [p]), []. split; [now rewrite app_nil_r|]. split; [|split; auto].
      * replace (pre ++ p :: x :: suf) with ((pre ++ [p]) ++ x :: suf) by (now rewrite <- app_assoc).
        apply aset_app. rewrite app_length; simpl; lia.
      * intros q p1' Eq. apply app_inj_tail in Eq as [_ <-]. auto.
Qed.

Lemma zrange_S n : zrange (S n) = zrange n ++ [Z.of_nat n].
Proof. unfold zrange. now rewrite seq_S, map_app. Qed.
Lemma zrange_len n : length (zrange n) = n.
Proof. unfold zrange. now rewrite map_length, seq_length. Qed.
Lemma in_zrange p n : In p (zrange n) <-> 0 <= p < Z.of_nat n.
Proof.
  unfold zrange. rewrite in_map_iff. setoid_rewrite in_seq. split.
  - intros (k & <- & H). lia.
  - intros H. exists (Z.to_nat p). lia.
Qed.

Section Inv.
(** a property of the sorted prefix preserved by every insertion *)
Variable Q : list Z -> Prop.
Hypothesis Q0 : Q [0].
Hypothesis QS : forall i p1 p2, Q (p1 ++ p2) -> Forall (fun p => lt (nm p) (nm i) = true) p2 ->
  (forall q p1', p1 = p1' ++ [q] -> lt (nm q) (nm i) = false) -> Q (p1 ++ i :: p2).

Lemma prepivot_inv N jpvt : 0 < N -> Z.of_nat (length norms) = N -> Z.of_nat (length jpvt) = N ->
  exists r, prepivot lt N norms jpvt = Some r /\ Permutation r (zrange (Z.to_nat N)) /\ Q r.
Proof.
  intros HN Hn Hj. unfold prepivot. destruct jpvt as [|j0 jr]; [simpl in Hj; lia|].
  change (j0 :: jr) with ([] ++ j0 :: jr). rewrite aset_app by reflexivity. cbn [obind app].
  destruct (@for_range_inv (list Z) (fun i r => exists pre suf, r = pre ++ suf /\ Z.of_nat (length r) = N /\
      Permutation pre (zrange (Z.to_nat i)) /\ Q pre) 1 N (fun i jpvt => shift_in lt norms i (Z.to_nat i) jpvt) (0 :: jr))
    as (r & E & pre & suf & -> & HL & HP & HQ).
  - lia.
  - intros i r Hi (pre & suf & -> & HL & HP & HQ).
    pose proof (Permutation_length HP) as Hlen. rewrite zrange_len in Hlen.
    destruct suf as [|x suf]; [rewrite app_length in HL; simpl in HL; lia|].
    destruct (shift_in_ok i ltac:(unfold ok; lia) pre x suf) as (p1 & p2 & Ep & Es & H1 & H2).
    + apply Forall_forall. intros p Hp. apply (Permutation_in _ HP) in Hp. apply in_zrange in Hp. unfold ok; lia.
    + rewrite <- Hlen, Es. eexists; split; [reflexivity|].
      exists (p1 ++ i :: p2), suf. split; [now rewrite <- app_assoc|]. split; [|split].
      * revert HL. rewrite Ep, !app_length. simpl. rewrite app_length. lia.
      * replace (Z.to_nat (i + 1)) with (S (Z.to_nat i)) by lia. rewrite zrange_S, Z2Nat.id by lia.
        rewrite <- Permutation_middle, <- Permutation_cons_append. constructor. now rewrite <- Ep.
      * apply QS; auto. now rewrite <- Ep.
  - exists [0], jr. split; [reflexivity|]. split; [simpl in *; lia|]. split; auto.
  - exists (pre ++ suf). split; auto.
    pose proof (Permutation_length HP) as Hlen. rewrite zrange_len in Hlen.
    rewrite app_length in HL. assert (suf = []) as -> by (destruct suf; auto; simpl in HL; lia).
    rewrite app_nil_r. auto.
Qed.
End Inv.
End Sort.

Lemma StronglySorted_app_inv A (P : A -> A -> Prop) l1 l2 : StronglySorted P (l1 ++ l2) ->
  StronglySorted P l1 /\ StronglySorted P l2 /\ Forall (fun x => Forall (P x) l2) l1.
Proof.
  induction l1; simpl; intros H; [repeat split; auto; constructor|].
  apply StronglySorted_inv in H as [H1 H2]. apply Forall_app in H2 as [H2 H3].
  destruct (IHl1 H1) as (I1 & I2 & I3). repeat split; auto. constructor; auto.
Qed.

Lemma StronglySorted_app A (P : A -> A -> Prop) l1 l2 : StronglySorted P l1 -> StronglySorted P l2 ->
  Forall (fun x => Forall (P x) l2) l1 -> StronglySorted P (l1 ++ l2).
Proof.
  induction l1; simpl; intros H1 H2 H3; auto.
  apply StronglySorted_inv in H1 as [H1 H1']. inversion H3; subst. constructor; auto. apply Forall_app; auto.
Qed.

Lemma Rltb_true x y : Rltb x y = true <-> (x < y)%R.
Proof. unfold Rltb. destruct (Rlt_dec x y); split; intros; auto; discriminate || contradiction. Qed.
Lemma Rltb_false x y : Rltb x y = false <-> (y <= x)%R.
Proof. unfold Rltb. destruct (Rlt_dec x y); split; intros; auto; try discriminate; lra. Qed.

Lemma nth_StronglySorted A (P : A -> A -> Prop) l d : StronglySorted P l ->
  forall a b, (a < b < length l)%nat -> P (nth a l d) (nth b l d).
Proof.
  induction 1 as [|x l H IH HF]; intros a b Hab; simpl in *; [lia|].
  destruct b as [|b]; [lia|]. destruct a as [|a].
  - rewrite Forall_forall in HF. apply HF, nth_In. lia.
  - apply IH. lia.
Qed.

Lemma prepivot_sorted N norms jpvt : 0 < N -> Z.of_nat (length norms) = N -> Z.of_nat (length jpvt) = N ->
  exists r, prepivot Rltb N norms jpvt = Some r /\ Permutation r (zrange (Z.to_nat N)) /\
    StronglySorted (fun p q => (nth (Z.to_nat q) norms 0 <= nth (Z.to_nat p) norms 0)%R) r.
Proof.
  intros HN Hn Hj. apply (prepivot_inv Rltb norms 0%R); auto.
  - repeat constructor.
  - intros i p1 p2 HS H2 H1. apply StronglySorted_app_inv in HS as (S1 & S2 & S3).
    assert (Forall (fun p => (nth (Z.to_nat i) norms 0 <= nth (Z.to_nat p) norms 0)%R) p1) as F1.
    { clear S2 S3 H2. induction p1 as [|q p1 _] using rev_ind; [constructor|].
      apply StronglySorted_app_inv in S1 as (S1 & _ & S3). specialize (H1 q p1 eq_refl). apply Rltb_false in H1.
      apply Forall_app. split; [|constructor; auto].
      rewrite Forall_forall in S3 |- *. intros p Hp. specialize (S3 p Hp). inversion S3; subst. lra. }
    apply StronglySorted_app; auto.
    + constructor; auto. rewrite Forall_forall in H2 |- *. intros p Hp. apply Rlt_le, Rltb_true, H2, Hp.
    + rewrite Forall_forall in F1, S3 |- *. intros p Hp. constructor; auto. 
Qed.

Lemma prepivot_perm A (lt : A -> A -> bool) N norms jpvt : 0 < N -> Z.of_nat (length norms) = N -> Z.of_nat (length jpvt) = N ->
  exists r, prepivot lt N norms jpvt = Some r /\ Permutation r (zrange (Z.to_nat N)).
Proof.
  intros HN Hn Hj. destruct norms as [|d norms]; [simpl in Hn; lia|].
  destruct (prepivot_inv lt (d :: norms) d (fun _ => True) I ltac:(auto) N jpvt HN Hn Hj) as (r & E & HP & _). eauto.
Qed.
