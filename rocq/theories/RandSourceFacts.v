(** Proofs about the generator of random.c as a source of random numbers. *)
From Coq Require Import ZArith NArith List Reals Lia Permutation.
From Verif Require Import Base BaseFacts Random RandomSpec RandomFacts ShuffleFacts Uniform UniformFacts RandSource.
Import ListNotations.
Local Open Scope Z_scope.

Lemma bounded_wait_ok fuel st bound : valid_seed st -> bound <> 0%N ->
  bounded_wait fuel st bound = Some (get_bounded fuel st bound).
Proof.
  intros V Hb. unfold bounded_wait, get_bounded. destruct (N.eqb_spec bound 0); [contradiction|].
  revert st V. induction fuel; intros st V; cbn [bounded_wait_loop get_bounded_loop]; auto.
  rewrite get_uint_ok by auto. cbn [obind]. destruct (bounded_accept _ _); auto.
  apply IHfuel. now apply step_state_valid.
Qed.

Lemma shuffle_step_defined i j seq : 0 <= j <= i -> i < Z.of_nat (length seq) ->
  exists seq', shuffle_step i j seq = Some seq' /\ length seq' = length seq.
Proof.
  intros Hj Hi. unfold shuffle_step. destruct (Z.eqb_spec j i).
  - cbn [obind]. rewrite aset_ok by lia. eexists; split; [reflexivity|]. apply lset_length.
  - rewrite (aget_nth _ 0) by lia. cbn [obind]. rewrite aset_ok by lia. cbn [obind].
    rewrite aset_ok by (rewrite lset_length; lia). eexists; split; [reflexivity|]. now rewrite !lset_length.
Qed.

Lemma shuffle_wait_ok fuel st n seq : valid_seed st -> 0 <= n <= Z.of_nat (length seq) ->
  shuffle_wait fuel st n seq = Some (shuffle fuel st n seq).
Proof.
  intros V Hn. unfold shuffle_wait, shuffle, for_range.
  match goal with |- for_from _ _ ?f _ = Some (for_from _ _ ?g _) => set (F := f); set (G := g) end.
  enough (forall c i st seq, valid_seed st -> 0 <= i -> i + Z.of_nat c <= Z.of_nat (length seq) ->
    for_from c i F (Some (st, seq)) = Some (for_from c i G (st, seq))) as H by (apply H; auto; lia).
  clear. induction c; intros i st seq V Hi Hc; cbn [for_from]; auto.
  unfold F at 1, G at 1. cbn [may_hang]. rewrite bounded_wait_ok by (auto; lia). cbn [obind].
  destruct (get_bounded fuel st (Z.to_N (i + 1))) as [[j st']|] eqn:E; cbn [obind].
  - destruct (get_bounded_ok _ _ _ _ _ V E) as (Hj & V' & _).
    destruct (shuffle_step_defined i (Z.of_N j) seq) as (seq' & -> & Hl); [lia|lia|]. cbn [obind].
    apply IHc; auto; lia.
  - clear. generalize (i + 1). induction c; intros; cbn [for_from]; auto. apply IHc.
Qed.

Lemma shuffle_length fuel st n seq st' seq' : valid_seed st -> n = Z.of_nat (length seq) ->
  shuffle fuel st n seq = Some (st', seq') ->
  valid_seed st' /\ Permutation seq' (map Z.of_nat (List.seq 0 (length seq))).
Proof.
  intros V Hn E. destruct (shuffle_spec fuel st n seq st' seq' V ltac:(lia) ltac:(lia) E) as (V' & P & Hs & _).
  split; auto. rewrite <- (firstn_skipn (Z.to_nat n) seq'), Hs.
  rewrite skipn_all2 by lia. rewrite app_nil_r. unfold iota_Z in P. now replace (length seq) with (Z.to_nat n) by lia.
Qed.
