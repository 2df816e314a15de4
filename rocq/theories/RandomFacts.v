(** Proofs about Random.v *)
From Coq Require Import ZArith NArith List Lia Bool Znumtheory Permutation.
From Verif Require Import Base BaseFacts Random RandomSpec.
Import ListNotations.
Local Open Scope N_scope.

Lemma mod64_testbit x i : N.testbit (x mod two64) i = (N.testbit x i && (i <? 64))%bool.
Proof.
  unfold two64. destruct (N.ltb_spec i 64).
  - rewrite N.mod_pow2_bits_low by auto. now rewrite andb_true_r.
  - rewrite N.mod_pow2_bits_high by auto. now rewrite andb_false_r.
Qed.

Lemma mod64_lxor x y : (N.lxor x y) mod two64 = N.lxor (x mod two64) (y mod two64).
Proof.
  apply N.bits_inj; intros i. rewrite N.lxor_spec, !mod64_testbit, N.lxor_spec.
  now destruct (N.testbit x i), (N.testbit y i), (i <? 64).
Qed.

Lemma lt_mod64 x : x < two64 -> x mod two64 = x.
Proof. apply N.mod_small. Qed.

Lemma lxor_lt64 x y : x < two64 -> y < two64 -> N.lxor x y < two64.
Proof.
  intros Hx Hy. rewrite <- (lt_mod64 _ Hx), <- (lt_mod64 _ Hy), <- mod64_lxor.
  apply N.mod_lt. discriminate.
Qed.

Lemma shr_lt64 x k : x < two64 -> shr64 x k < two64.
Proof.
  intros Hx. unfold shr64. rewrite N.shiftr_div_pow2.
  eapply N.le_lt_trans; [apply N.div_le_upper_bound with (q := x)|auto].
  - apply N.pow_nonzero; discriminate.
  - assert (1 <= 2 ^ k) by (assert (2^k <> 0) by (apply N.pow_nonzero; discriminate); lia). nia.
Qed.

Lemma shl_lt64 x k : shl64 x k < two64.
Proof. apply N.mod_lt. discriminate. Qed.

Lemma mul_lt64 x y : mul64 x y < two64.
Proof. apply N.mod_lt. discriminate. Qed.

Lemma lxor_eq_0 x y : N.lxor x y = 0 -> x = y.
Proof. apply N.lxor_eq. Qed.

Lemma lxor4 a b c d : N.lxor (N.lxor a b) (N.lxor c d) = N.lxor (N.lxor a c) (N.lxor b d).
Proof.
  apply N.bits_inj; intros i. rewrite !N.lxor_spec.
  now destruct (N.testbit a i), (N.testbit b i), (N.testbit c i), (N.testbit d i).
Qed.

Lemma lxor_cancel_l a b c : N.lxor a b = N.lxor a c -> b = c.
Proof.
  intros H. apply (f_equal (N.lxor a)) in H.
  rewrite <- !N.lxor_assoc, N.lxor_nilpotent, !N.lxor_0_l in H. auto.
Qed.

Lemma xs_right_inj k x y : 0 < k ->
  N.lxor x (shr64 x k) = N.lxor y (shr64 y k) -> x = y.
Proof.
  intros Hk H. apply lxor_eq_0.
  assert (N.lxor x y = N.shiftr (N.lxor x y) k) as E.
  { rewrite N.shiftr_lxor. unfold shr64 in H.
    apply lxor_eq_0. rewrite lxor4, H, N.lxor_nilpotent. auto. }
  destruct (N.eq_dec (N.lxor x y) 0) as [|Hne]; auto. exfalso.
  rewrite N.shiftr_div_pow2 in E.
  assert (N.lxor x y / 2^k < N.lxor x y).
  { apply N.div_lt; [lia|]. apply N.pow_gt_1; lia. }
  lia.
Qed.

Lemma odd_mul_inj m x y : N.gcd m two64 = 1 -> x < two64 -> y < two64 ->
  mul64 x m = mul64 y m -> x = y.
Proof.
  intros Hg Hx Hy H. unfold mul64 in H.
  assert (forall a b, a <= b -> b < two64 -> (a * m) mod two64 = (b * m) mod two64 -> a = b) as Hw.
  { intros a b Hab Hb E.
    assert (N.divide two64 ((b - a) * m)) as Hd.
    { exists (b * m / two64 - a * m / two64).
      pose proof (N.div_mod' (a * m) two64). pose proof (N.div_mod' (b * m) two64).
      rewrite N.mul_sub_distr_r, N.mul_sub_distr_r.
      assert (a * m <= b * m) by (apply N.mul_le_mono_r; auto).
      nia. }
    rewrite N.mul_comm in Hd. apply N.gauss in Hd; [|now rewrite N.gcd_comm].
    destruct Hd as [q Hq]. assert (q = 0) by nia. nia. }
  destruct (N.le_ge_cases x y); [apply Hw|symmetry; apply Hw]; auto.
Qed.

Lemma shl64_lxor x y k : shl64 (N.lxor x y) k = N.lxor (shl64 x k) (shl64 y k).
Proof. unfold shl64. rewrite N.shiftl_lxor. apply mod64_lxor. Qed.

Lemma shl_fix0 k d : N.gcd (2^k - 1) two64 = 1 -> d < two64 -> d = shl64 d k -> d = 0.
Proof.
  intros Hg Hd E. apply (odd_mul_inj (2^k - 1)); auto; [reflexivity|].
  unfold mul64, shl64 in *. rewrite N.shiftl_mul_pow2 in E. rewrite N.mul_0_l.
  assert (2^k <> 0) by (apply N.pow_nonzero; discriminate).
  pose proof (N.div_mod' (d * 2^k) two64) as HH.
  replace (d * (2^k - 1)) with ((d * 2^k / two64) * two64) by nia.
  rewrite N.mod_mul by discriminate. reflexivity.
Qed.

Lemma xs_left_inj k x y : N.gcd (2^k - 1) two64 = 1 -> x < two64 -> y < two64 ->
  N.lxor x (shl64 x k) = N.lxor y (shl64 y k) -> x = y.
Proof.
  intros Hg Hx Hy H. apply lxor_eq_0. apply (shl_fix0 k); auto.
  - apply lxor_lt64; auto.
  - rewrite shl64_lxor. apply lxor_eq_0. rewrite lxor4, H, N.lxor_nilpotent. auto.
Qed.

(** The seeding step *)
Lemma xorshift64_lt n : n < two64 -> xorshift64 n < two64.
Proof.
  intros H. unfold xorshift64.
  repeat first [apply lxor_lt64 | apply shr_lt64 | apply shl_lt64 | assumption].
Qed.

Lemma xorshift64_inj x y : x < two64 -> y < two64 -> xorshift64 x = xorshift64 y -> x = y.
Proof.
  intros Hx Hy H. unfold xorshift64 in H.
  apply xs_right_inj in H; [|reflexivity].
  apply xs_left_inj in H; [apply xs_right_inj in H; auto; reflexivity| reflexivity | |];
    repeat first [apply lxor_lt64 | apply shr_lt64 | apply shl_lt64 | assumption].
Qed.

Lemma xorshift64_nz n : n < two64 -> n <> 0 -> xorshift64 n <> 0.
Proof. intros H Hn E. apply Hn. apply xorshift64_inj; auto; reflexivity. Qed.

Lemma mul_odd_nz m x : N.gcd m two64 = 1 -> x < two64 -> x <> 0 -> mul64 x m <> 0.
Proof. intros Hg Hx Hn E. apply Hn. apply (odd_mul_inj m); auto; reflexivity. Qed.

Lemma seed_words_spec k n : n < two64 -> n <> 0 ->
  length (seed_words k n) = k /\ Forall (fun w => w < 2^64 /\ w <> 0) (seed_words k n).
Proof.
  revert n; induction k; intros n Hn Hz; cbn [seed_words length].
  - auto.
  - destruct (IHk (xorshift64 n)) as [H1 H2].
    + now apply xorshift64_lt.
    + now apply xorshift64_nz.
    + split; [congruence|]. constructor; auto. split; [apply mul_lt64|].
      apply mul_odd_nz; [reflexivity|apply xorshift64_lt|apply xorshift64_nz]; auto.
Qed.

Lemma seed_init_inj n n' : n < two64 -> n' < two64 -> seed_init n = seed_init n' -> n = n'.
Proof.
  intros H H' E.
  assert (forall m, rs_s (seed_init m) =
     mul64 (xorshift64 m) 2685821657736338717 :: seed_words 15 (xorshift64 m)) as Hs by reflexivity.
  apply (f_equal (fun st => hd 0 (rs_s st))) in E. rewrite !Hs in E. unfold hd in E.
  apply odd_mul_inj in E; try reflexivity; try (apply xorshift64_lt; auto).
  apply xorshift64_inj in E; auto.
Qed.

Lemma main_seed_number_nz itime : itime < two64 -> itime <> 0 ->
  main_seed_number itime < two64 /\ main_seed_number itime <> 0.
Proof.
  intros H Hn. split; [apply mul_lt64|]. unfold main_seed_number.
  unfold mul64. rewrite N.mul_comm. apply (mul_odd_nz 1865811235122147685); auto.
Qed.

(** The main generator *)
Definition fmix (s0 : N) := N.lxor s0 (shr64 s0 30).
Definition gmix (s1 : N) := let t := N.lxor s1 (shl64 s1 31) in N.lxor t (shr64 t 11).

Lemma gmix_inj x y : x < two64 -> y < two64 -> gmix x = gmix y -> x = y.
Proof.
  intros Hx Hy H. unfold gmix in H. apply xs_right_inj in H; [|reflexivity].
  apply xs_left_inj in H; auto.
Qed.

Lemma fmix_lt x : x < two64 -> fmix x < two64.
Proof. intros; apply lxor_lt64; auto using shr_lt64. Qed.
Lemma gmix_lt x : x < two64 -> gmix x < two64.
Proof. intros; unfold gmix. repeat first [apply lxor_lt64 | apply shr_lt64 | apply shl_lt64 | assumption]. Qed.

Lemma land15 p : (0 <= p < 16 -> Z.land (p + 1) 15 = (p + 1) mod 16)%Z.
Proof. intros H. change 15%Z with (Z.ones 4). rewrite Z.land_ones by lia. reflexivity. Qed.

Definition nextp (p : Z) : Z := ((p + 1) mod 16)%Z.
Definition getw (st : randseed) (i : Z) : N := nth (Z.to_nat i) (rs_s st) 0.

Definition step_word (st : randseed) : N :=
  N.lxor (fmix (getw st (rs_p st))) (gmix (getw st (nextp (rs_p st)))).
Definition step_state (st : randseed) : randseed :=
  mk_seed (lset (rs_s st) (Z.to_nat (nextp (rs_p st))) (step_word st)) (nextp (rs_p st)).

Lemma nextp_range p : (0 <= nextp p < 16)%Z.
Proof. apply Z.mod_pos_bound; lia. Qed.

Lemma get_uint_ok st : valid_seed st ->
  get_uint st = Some (mul64 (step_word st) 1181783497276652981, step_state st).
Proof.
  intros (Hl & Hw & Hp). unfold get_uint.
  rewrite (aget_nth _ 0) by lia. cbn [obind]. rewrite land15 by auto.
  fold (nextp (rs_p st)). pose proof (nextp_range (rs_p st)).
  rewrite (aget_nth _ 0) by lia. cbn [obind].
  rewrite aset_ok by lia. cbn [obind]. reflexivity.
Qed.

Lemma getw_lt st i : valid_seed st -> getw st i < two64.
Proof.
  intros (Hl & Hw & Hp). unfold getw.
  destruct (nth_in_or_default (Z.to_nat i) (rs_s st) 0) as [H|H].
  - rewrite Forall_forall in Hw. apply Hw in H. exact H.
  - rewrite H. reflexivity.
Qed.

Lemma step_word_lt st : valid_seed st -> step_word st < two64.
Proof. intros H. apply lxor_lt64; [apply fmix_lt|apply gmix_lt]; apply getw_lt; auto. Qed.

Lemma Forall_lset A (P : A -> Prop) l i v : Forall P l -> P v -> Forall P (lset l i v).
Proof.
  intros H Hv; revert i; induction H; intros [|i]; simpl; constructor; auto.
Qed.

Lemma step_state_valid st : valid_seed st -> valid_seed (step_state st).
Proof.
  intros H. pose proof (step_word_lt st H). destruct H as (Hl & Hw & Hp).
  split; [|split]; simpl.
  - now rewrite lset_length.
  - now apply Forall_lset.
  - apply nextp_range.
Qed.

Lemma nextp_inj p q : (0 <= p < 16 -> 0 <= q < 16 -> nextp p = nextp q -> p = q)%Z.
Proof. unfold nextp. intros Hp Hq H. 
  assert (p = (nextp p - 1) mod 16)%Z.
  { unfold nextp. rewrite Zminus_mod_idemp_l. rewrite Z.mod_small; lia. }
  assert (q = (nextp q - 1) mod 16)%Z.
  { unfold nextp. rewrite Zminus_mod_idemp_l. rewrite Z.mod_small; lia. }
  unfold nextp in *. congruence.
Qed.

Lemma nextp_neq p : (0 <= p < 16 -> nextp p <> p)%Z.
Proof.
  unfold nextp. intros H E.
  assert (p = 0 \/ p = 1 \/ p = 2 \/ p = 3 \/ p = 4 \/ p = 5 \/ p = 6 \/ p = 7 \/ p = 8 \/ p = 9 \/
    p = 10 \/ p = 11 \/ p = 12 \/ p = 13 \/ p = 14 \/ p = 15)%Z as HH by lia.
  repeat destruct HH as [HH|HH]; subst; discriminate.
Qed.

Lemma step_state_inj st st' : valid_seed st -> valid_seed st' ->
  step_state st = step_state st' -> st = st'.
Proof.
  intros V V' E. pose proof V as (Hl & Hw & Hp). pose proof V' as (Hl' & Hw' & Hp').
  assert (Ep : rs_p st = rs_p st').
  { apply nextp_inj; auto. now injection E. }
  assert (forall i, (i < 16)%nat -> nth i (rs_s (step_state st)) 0 = nth i (rs_s (step_state st')) 0) as Hn
    by (rewrite E; auto).
  pose proof (nextp_range (rs_p st)) as Hnr. pose proof (nextp_neq _ Hp) as Hne.
  assert (forall i, (i < 16)%nat -> i <> Z.to_nat (nextp (rs_p st)) ->
     nth i (rs_s st) 0 = nth i (rs_s st') 0) as Hoth.
  { intros i Hi Hi'. specialize (Hn i Hi). unfold step_state in Hn; simpl in Hn.
    rewrite <- Ep in Hn.
    rewrite !lset_nth_d in Hn by lia.
    destruct (Nat.eqb_spec (Z.to_nat (nextp (rs_p st))) i); [congruence|auto]. }
  assert (step_word st = step_word st') as Hsw.
  { specialize (Hn (Z.to_nat (nextp (rs_p st)))). unfold step_state in Hn; simpl in Hn.
    rewrite <- Ep in Hn. rewrite !lset_nth_d, !Nat.eqb_refl in Hn by lia. apply Hn. lia. }
  unfold step_word in Hsw. rewrite <- Ep in Hsw.
  assert (getw st (rs_p st) = getw st' (rs_p st)) as H0.
  { unfold getw. apply Hoth; lia. }
  rewrite H0 in Hsw. apply lxor_cancel_l in Hsw. apply gmix_inj in Hsw; try (apply getw_lt; auto).
  destruct st as [s p], st' as [s' p']; simpl in *. subst p'. f_equal.
  apply (nth_ext s s' 0 0); [congruence|].
  intros i Hi. destruct (Nat.eq_dec i (Z.to_nat (nextp p))) as [->|]; [exact Hsw|].
  apply Hoth; auto; lia.
Qed.

Fixpoint steps (k : nat) (st : randseed) : randseed :=
  match k with O => st | S k' => steps k' (step_state st) end.

Fixpoint outs (k : nat) (st : randseed) : list N :=
  match k with
  | O => []
  | S k' => mul64 (step_word st) 1181783497276652981 :: outs k' (step_state st)
  end.

Lemma draws_ok k : forall st, valid_seed st -> draws k st = Some (outs k st, steps k st).
Proof.
  induction k; intros st V; cbn [draws outs steps]; auto.
  rewrite get_uint_ok by auto. cbn [obind]. rewrite IHk by (now apply step_state_valid). reflexivity.
Qed.

Lemma steps_valid k : forall st, valid_seed st -> valid_seed (steps k st).
Proof. induction k; intros; cbn [steps]; auto using step_state_valid. Qed.

Lemma steps_inj k : forall st st', valid_seed st -> valid_seed st' ->
  steps k st = steps k st' -> st = st'.
Proof.
  induction k; intros st st' V V' E; cbn [steps] in E; auto.
  apply IHk in E; auto using step_state_valid. apply step_state_inj; auto.
Qed.

Lemma outs_lt k : forall st, Forall (fun r => r < 2^64) (outs k st).
Proof. induction k; intros; cbn [outs]; constructor; auto. apply mul_lt64. Qed.

(** the all-zero state with position p *)
Definition zero_seed (p : Z) := mk_seed (repeat 0 16) p.

Lemma lset_repeat A (x : A) n i : lset (repeat x n) i x = repeat x n.
Proof. revert i; induction n; intros [|i]; simpl; congruence. Qed.

Lemma zero_step p : step_state (zero_seed p) = zero_seed (nextp p).
Proof.
  assert (forall i, getw (zero_seed p) i = 0) as H.
  { intros i. unfold getw. apply nth_repeat. }
  unfold step_state, step_word, zero_seed. cbn [rs_s rs_p].
  fold (zero_seed p). rewrite !H. f_equal.
  change (N.lxor (fmix 0) (gmix 0)) with 0. apply lset_repeat.
Qed.

Lemma nextp_surj q : (0 <= q < 16 -> exists p, 0 <= p < 16 /\ nextp p = q)%Z.
Proof.
  intros H. exists ((q - 1) mod 16)%Z. split; [apply Z.mod_pos_bound; lia|].
  unfold nextp. rewrite Zplus_mod_idemp_l. rewrite Z.mod_small; lia.
Qed.

Lemma zero_valid p : (0 <= p < 16)%Z -> valid_seed (zero_seed p).
Proof.
  intros. split; [reflexivity|split; auto]. simpl. repeat constructor.
Qed.

Lemma Forall0_repeat (l : list N) : Forall (fun w => w = 0) l -> l = repeat 0 (length l).
Proof. induction 1; simpl; congruence. Qed.

Lemma step_state_nz st : valid_seed st ->
  ~ Forall (fun w => w = 0) (rs_s st) -> ~ Forall (fun w => w = 0) (rs_s (step_state st)).
Proof.
  intros V Hn Hz. pose proof (step_state_valid st V) as V1. destruct V1 as (Hl1 & _ & Hp1).
  apply Forall0_repeat in Hz. rewrite Hl1 in Hz.
  destruct (nextp_surj _ Hp1) as (p & Hp & Ep).
  assert (step_state (zero_seed p) = step_state st) as E.
  { rewrite zero_step, Ep. unfold zero_seed. rewrite <- Hz. now destruct (step_state st). }
  apply step_state_inj in E; auto using zero_valid. apply Hn. rewrite <- E.
  apply Forall_forall. intros x Hx. now apply repeat_spec in Hx.
Qed.

Lemma steps_nz k : forall st, valid_seed st ->
  ~ Forall (fun w => w = 0) (rs_s st) -> ~ Forall (fun w => w = 0) (rs_s (steps k st)).
Proof.
  induction k; intros; cbn [steps]; auto.
  apply IHk; auto using step_state_valid. now apply step_state_nz.
Qed.

(** 16 consecutive outputs determine the state *)
Fixpoint words (k : nat) (st : randseed) : list N :=
  match k with O => [] | S k' => step_word st :: words k' (step_state st) end.

Lemma words_lt k : forall st, valid_seed st -> Forall (fun w => w < two64) (words k st).
Proof.
  induction k; intros; cbn [words]; constructor; auto using step_word_lt, step_state_valid.
Qed.

Lemma outs_words k : forall st st', valid_seed st -> valid_seed st' ->
  outs k st = outs k st' -> words k st = words k st'.
Proof.
  induction k; intros st st' V V' E; cbn [outs words] in *; auto.
  injection E as E1 E2. f_equal.
  - apply odd_mul_inj in E1; auto using step_word_lt; reflexivity.
  - apply IHk; auto using step_state_valid.
Qed.

Lemma steps_p k : forall st, (0 <= rs_p st < 16)%Z ->
  rs_p (steps k st) = ((rs_p st + Z.of_nat k) mod 16)%Z.
Proof.
  induction k; intros st Hp; cbn [steps].
  - rewrite Z.add_0_r, Z.mod_small; auto.
  - rewrite IHk by apply nextp_range. cbn [step_state rs_p]. unfold nextp.
    rewrite Zplus_mod_idemp_l. f_equal. lia.
Qed.

Lemma steps_keep k q : forall st, valid_seed st -> (0 <= q < 16)%Z ->
  (forall i, (i < k)%nat -> (rs_p st + 1 + Z.of_nat i) mod 16 <> q)%Z ->
  getw (steps k st) q = getw st q.
Proof.
  induction k; intros st V Hq H; cbn [steps]; auto.
  rewrite IHk; auto using step_state_valid.
  - unfold getw at 1. cbn [step_state rs_s]. destruct V as (Hl & _ & _).
    pose proof (nextp_range (rs_p st)).
    rewrite lset_nth_d by lia.
    destruct (Nat.eqb_spec (Z.to_nat (nextp (rs_p st))) (Z.to_nat q)); auto.
    exfalso. apply (H 0%nat); [lia|]. rewrite Z.add_0_r. unfold nextp in *. lia.
  - intros i Hi. cbn [step_state rs_p]. unfold nextp.
    replace (((rs_p st + 1) mod 16 + 1 + Z.of_nat i))%Z
      with ((rs_p st + 1) mod 16 + (1 + Z.of_nat i))%Z by lia.
    rewrite Zplus_mod_idemp_l. specialize (H (S i)).
    replace (rs_p st + 1 + (1 + Z.of_nat i))%Z with (rs_p st + 1 + Z.of_nat (S i))%Z by lia.
    apply H. lia.
Qed.

Lemma steps_words k : forall st j, valid_seed st -> (k <= 16)%nat -> (j < k)%nat ->
  getw (steps k st) ((rs_p st + 1 + Z.of_nat j) mod 16)%Z = nth j (words k st) 0.
Proof.
  induction k; intros st j V Hk Hj; [lia|]. cbn [steps words].
  destruct j; cbn [nth].
  - rewrite Z.add_0_r. fold (nextp (rs_p st)). rewrite steps_keep; auto using step_state_valid.
    + unfold getw. cbn [step_state rs_s]. destruct V as (Hl & _ & _).
      pose proof (nextp_range (rs_p st)). rewrite lset_nth_d by lia.
      now rewrite Nat.eqb_refl.
    + apply nextp_range.
    + intros i Hi. cbn [step_state rs_p]. intros E.
      pose proof (nextp_range (rs_p st)). set (a := nextp (rs_p st)) in *.
      assert ((a + 1 + Z.of_nat i) mod 16 = a mod 16)%Z as E'
        by (rewrite E, Z.mod_small; lia).
      pose proof (Z.div_mod (a + 1 + Z.of_nat i) 16). pose proof (Z.div_mod a 16).
      lia.
  - rewrite <- (IHk (step_state st) j); auto using step_state_valid; try lia.
    f_equal. cbn [step_state rs_p]. unfold nextp.
    replace (((rs_p st + 1) mod 16 + 1 + Z.of_nat j))%Z
      with ((rs_p st + 1) mod 16 + (1 + Z.of_nat j))%Z by lia.
    rewrite Zplus_mod_idemp_l. f_equal. lia.
Qed.

Lemma outs_16_inj k st st' : k = 16%nat -> valid_seed st -> valid_seed st' -> rs_p st = rs_p st' ->
  outs k st = outs k st' -> st = st'.
Proof.
  intros Hk V V' Ep E. apply (steps_inj k); auto.
  apply outs_words in E; auto.
  pose proof (steps_valid k st V) as (Hl & _ & Hp).
  pose proof (steps_valid k st' V') as (Hl' & _ & Hp').
  pose proof V as (_ & _ & Hp0). pose proof V' as (_ & _ & Hp0').
  assert (rs_p (steps k st) = rs_p (steps k st')) as Epp by (rewrite !steps_p, Ep by auto; auto).
  assert (rs_s (steps k st) = rs_s (steps k st')) as Es.
  { apply (nth_ext _ _ 0 0); [congruence|]. intros i Hi. rewrite Hl in Hi.
    pose (j := Z.to_nat ((Z.of_nat i - rs_p st - 1) mod 16)).
    pose proof (Z.mod_pos_bound (Z.of_nat i - rs_p st - 1) 16 ltac:(lia)) as Hb.
    assert ((rs_p st + 1 + Z.of_nat j) mod 16 = Z.of_nat i)%Z as Ej.
    { unfold j. rewrite Z2Nat.id by lia. rewrite Zplus_mod_idemp_r.
      replace (rs_p st + 1 + (Z.of_nat i - rs_p st - 1))%Z with (Z.of_nat i) by lia.
      apply Z.mod_small. lia. }
    pose proof (steps_words k st j V ltac:(lia) ltac:(lia)) as W.
    pose proof (steps_words k st' j V' ltac:(lia) ltac:(lia)) as W'.
    rewrite <- Ep in W'. rewrite Ej in W, W'. unfold getw in W, W'. rewrite Nat2Z.id in W, W'.
    now rewrite W, W', E. }
  revert Epp Es. clear. generalize (steps k st) (steps k st').
  intros [a b] [c d]; cbn [rs_p rs_s]; intros; subst; auto.
Qed.
