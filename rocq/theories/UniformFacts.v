(** Proofs about Uniform.v *)
From Coq Require Import ZArith NArith Reals Lia Lra Psatz.
From Flocq Require Import Core.
From Verif Require Import Base RealOps Random RandomSpec RandomFacts Uniform.
Local Open Scope R_scope.

Notation fexp64 := (FLT_exp (-1074) 53).

Local Instance prec53 : Prec_gt_0 53 := eq_refl.

Lemma rnd64_mono x y : x <= y -> rnd64 x <= rnd64 y.
Proof. apply round_le; typeclasses eauto. Qed.

Lemma rnd64_bpow e : (-1074 <= e)%Z -> rnd64 (bpow radix2 e) = bpow radix2 e.
Proof.
  intros H. apply round_generic; [typeclasses eauto|].
  apply generic_format_bpow. unfold FLT_exp. lia.
Qed.

(** rounding a number close to a power of two *)
Lemma rnd64_near x m e : (-1074 <= e)%Z -> mag radix2 x = (e + 53)%Z :> Z ->
  Rabs (x * bpow radix2 (- e) - IZR m) < / 2 -> rnd64 x = IZR m * bpow radix2 e.
Proof.
  intros He Hm Hx. unfold rnd64, round.
  assert (cexp radix2 fexp64 x = e) as Hc.
  { unfold cexp. rewrite Hm. unfold FLT_exp. lia. }
  unfold scaled_mantissa. rewrite Hc.
  rewrite (Znearest_imp _ _ m) by exact Hx. reflexivity.
Qed.

Lemma literal_exact : rnd64 uniform_literal = bpow radix2 (-64).
Proof.
  rewrite (rnd64_near uniform_literal (2^53) (-117)); [|lia| |].
  - change (IZR (2^53)) with (IZR (Zpower radix2 53)).
    rewrite IZR_Zpower by lia. rewrite <- bpow_plus. reflexivity.
  - apply mag_unique. unfold uniform_literal.
    rewrite Rabs_pos_eq by lra.
    change (-117 + 53 - 1)%Z with (-65)%Z. change (-117 + 53)%Z with (-64)%Z.
    unfold bpow. simpl Z.pow_pos. split; lra.
  - unfold uniform_literal. change (- -117)%Z with 117%Z. unfold bpow. simpl Z.pow_pos.
    change (2^53)%Z with 9007199254740992%Z.
    apply Rabs_def1; lra.
Qed.

Lemma rnd_two64_plus1 : rnd64 (bpow radix2 64 + 1) = bpow radix2 64.
Proof.
  rewrite (rnd64_near _ (2^52) 12); [|lia| |].
  - change (IZR (2^52)) with (IZR (Zpower radix2 52)).
    rewrite IZR_Zpower by lia. rewrite <- bpow_plus. reflexivity.
  - apply mag_unique. change (12 + 53 - 1)%Z with 64%Z. change (12 + 53)%Z with 65%Z.
    unfold bpow. simpl Z.pow_pos. rewrite Rabs_pos_eq by lra. split; lra.
  - change (-(12))%Z with (-12)%Z. unfold bpow. simpl Z.pow_pos.
    change (2^52)%Z with 4503599627370496%Z. apply Rabs_def1; lra.
Qed.

Lemma uniform_of_word_range u : (u < 2^64)%N ->
  bpow radix2 (-64) <= uniform_of_word u <= 1.
Proof.
  intros Hu. unfold uniform_of_word. rewrite literal_exact.
  assert (0 <= IZR (Z.of_N u) <= bpow radix2 64) as [H0 H1].
  { split; [apply IZR_le; lia|].
    change (bpow radix2 64) with (IZR (2^64)). apply IZR_le.
    change (2^64)%Z with (Z.of_N (2^64)). lia. }
  assert (0 <= rnd64 (IZR (Z.of_N u)) <= bpow radix2 64) as [H2 H3].
  { split.
    - apply rnd64_mono in H0. unfold rnd64 in H0 at 1. rewrite round_0 in H0; auto.
      typeclasses eauto.
    - apply rnd64_mono in H1. rewrite rnd64_bpow in H1 by lia. auto. }
  assert (1 <= rnd64 (rnd64 (IZR (Z.of_N u)) + 1) <= bpow radix2 64) as [H4 H5].
  { split.
    - change 1 with (bpow radix2 0) at 1. rewrite <- (rnd64_bpow 0) by lia.
      apply rnd64_mono. change (bpow radix2 0) with 1. lra.
    - rewrite <- rnd_two64_plus1. apply rnd64_mono. lra. }
  pose proof (bpow_gt_0 radix2 (-64)) as Hb.
  split.
  - rewrite <- (rnd64_bpow (-64)) at 1 by lia. apply rnd64_mono. nra.
  - apply Rle_trans with (rnd64 (bpow radix2 0));
      [|rewrite rnd64_bpow by lia; apply Rle_refl]. apply rnd64_mono.
    replace (bpow radix2 0) with (bpow radix2 64 * bpow radix2 (-64))
      by (rewrite <- bpow_plus; reflexivity).
    apply Rmult_le_compat_r; lra.
Qed.

Lemma uniform_pos u : (u < 2^64)%N -> 0 < uniform_of_word u <= 1.
Proof.
  intros H. destruct (uniform_of_word_range u H). pose proof (bpow_gt_0 radix2 (-64)). lra.
Qed.

Lemma get_uniform_ok st : valid_seed st ->
  exists x st', get_uniform st = Some (x, st') /\ 0 < x <= 1 /\ valid_seed st'.
Proof.
  intros V. unfold get_uniform. rewrite get_uint_ok by auto. cbn [obind].
  do 2 eexists. split; [reflexivity|]. split.
  - apply uniform_pos. apply mul_lt64.
  - now apply step_state_valid.
Qed.

Lemma get_normal_ok st : valid_seed st ->
  exists x st', get_normal st = Some (x, st') /\ valid_seed st'.
Proof.
  intros V. unfold get_normal.
  destruct (get_uniform_ok st V) as (u1 & st1 & E1 & H1 & V1). rewrite E1. cbn [obind].
  destruct (get_uniform_ok st1 V1) as (u2 & st2 & E2 & H2 & V2). rewrite E2. cbn [obind].
  unfold rlog. destruct (Rlt_dec 0 u1); [|lra]. cbn [obind].
  assert (ln u1 <= 0).
  { rewrite <- ln_1. destruct (Req_dec u1 1) as [->|]; [lra|]. apply Rlt_le, ln_increasing; lra. }
  unfold rsqrt. destruct (Rlt_dec (-2 * ln u1) 0); [lra|]. cbn [obind].
  do 2 eexists. split; [reflexivity|auto].
Qed.

(** the bound 1 is attained *)
Lemma uniform_attains_1 : uniform_of_word (2^64 - 1) = 1.
Proof.
  apply Rle_antisym; [apply uniform_of_word_range; reflexivity|].
  unfold uniform_of_word. rewrite literal_exact.
  assert (rnd64 (IZR (Z.of_N (2^64 - 1))) = bpow radix2 64) as ->.
  { change (Z.of_N (2^64 - 1)) with (18446744073709551615)%Z.
    rewrite (rnd64_near _ (2^53) 11); [|lia| |].
    - change (IZR (2^53)) with (IZR (Zpower radix2 53)).
      rewrite IZR_Zpower by lia. rewrite <- bpow_plus. reflexivity.
    - apply mag_unique. change (11 + 53 - 1)%Z with 63%Z. change (11 + 53)%Z with 64%Z.
      unfold bpow. simpl Z.pow_pos. rewrite Rabs_pos_eq by lra. split; lra.
    - change (-(11))%Z with (-11)%Z. unfold bpow. simpl Z.pow_pos.
      change (2^53)%Z with 9007199254740992%Z. apply Rabs_def1; lra. }
  rewrite rnd_two64_plus1, <- bpow_plus. change (64 + -64)%Z with 0%Z.
  rewrite rnd64_bpow by lia. apply Rle_refl.
Qed.
