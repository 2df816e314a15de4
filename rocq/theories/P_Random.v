(** Properties C03-C06: the integer random number functions of random.c. *)
From Coq Require Import ZArith NArith List Permutation Lia.
From Verif Require Import Base Random RandomSpec RandomFacts ShuffleFacts.
Import ListNotations.
Local Open Scope N_scope.

(** C03. From every representable state any number [k] of draws is defined,
    delivers 64-bit words, and ends in a representable state; the [k]-step map
    is injective, and a state that is not all zero never becomes all zero. *)
Theorem C03_generator_reversible_and_never_stuck :
  (forall st k, valid_seed st ->
     exists rs st', draws k st = Some (rs, st') /\ valid_seed st' /\
       length rs = k /\ Forall (fun r => r < 2^64) rs /\
       (~ Forall (fun w => w = 0) (rs_s st) -> ~ Forall (fun w => w = 0) (rs_s st'))) /\
  (forall st1 st2 k rs1 rs2 st', valid_seed st1 -> valid_seed st2 ->
     draws k st1 = Some (rs1, st') -> draws k st2 = Some (rs2, st') -> st1 = st2).
Proof.
  split.
  - intros st k V. exists (outs k st), (steps k st). rewrite draws_ok by auto.
    split; [reflexivity|]. split; [now apply steps_valid|]. split.
    { clear V. revert st; induction k; intros; cbn [outs length]; auto. }
    split; [apply outs_lt|]. now apply steps_nz.
  - intros st1 st2 k rs1 rs2 st' V1 V2 E1 E2. rewrite draws_ok in E1, E2 by auto.
    apply (steps_inj k); congruence.
Qed.
Print Assumptions C03_generator_reversible_and_never_stuck.

(** C03 (second part). Sixteen consecutive outputs together with the position
    identify the state: the 16-tuples of outputs are equidistributed over the
    2^1024 states. *)
Theorem C03_sixteen_outputs_determine_state :
  forall st1 st2 rs st1' st2', valid_seed st1 -> valid_seed st2 -> rs_p st1 = rs_p st2 ->
    draws 16 st1 = Some (rs, st1') -> draws 16 st2 = Some (rs, st2') -> st1 = st2.
Proof.
  intros st1 st2 rs st1' st2' V1 V2 Ep.
  rewrite (draws_ok 16 st1) by auto. rewrite (draws_ok 16 st2) by auto.
  intros E1 E2. apply (outs_16_inj 16); auto.
  apply (f_equal (fun o => match o with Some (a, _) => a | None => [] end)) in E1, E2.
  rewrite E1, E2. reflexivity.
Qed.
Print Assumptions C03_sixteen_outputs_determine_state.

(** C04. Seeding with any non-zero number gives a representable state without
    zero words; the number main() uses is non-zero for every non-zero itime;
    different numbers give different states. *)
Theorem C04_every_nonzero_seed_is_usable :
  (forall n, 0 < n < 2^64 ->
     valid_seed (seed_init n) /\ Forall (fun w => w <> 0) (rs_s (seed_init n)) /\
     rs_p (seed_init n) = 0%Z) /\
  (forall itime, 0 < itime < 2^64 -> 0 < main_seed_number itime < 2^64) /\
  (forall n n', n < 2^64 -> n' < 2^64 -> seed_init n = seed_init n' -> n = n').
Proof.
  split; [|split].
  - intros n [H0 H1]. destruct (seed_words_spec 16 n) as [Hl Hf]; [exact H1|lia|].
    repeat split; auto; try (simpl; lia).
    + eapply Forall_impl; [|exact Hf]. intros a [? _]; auto.
    + eapply Forall_impl; [|exact Hf]. intros a [_ ?]; auto.
  - intros itime [H0 H1]. destruct (main_seed_number_nz itime); [exact H1|lia|].
    split; [lia|auto].
  - exact seed_init_inj.
Qed.
Print Assumptions C04_every_nonzero_seed_is_usable.

(** C05. A returned bounded number is below the bound, and is the value of the
    first accepted word of the stream (all earlier ones being rejected). *)
Theorem C05_bounded_in_range :
  forall fuel st bound v st', valid_seed st ->
    get_bounded fuel st bound = Some (v, st') ->
    v < bound /\ valid_seed st' /\
    exists k rs r, draws (S k) st = Some (rs ++ [r], st') /\
      Forall (fun w => bounded_accept bound w = None) rs /\ bounded_accept bound r = Some v.
Proof.
  intros fuel st bound v st' V E. apply get_bounded_ok in E; auto.
  destruct E as (H1 & H2 & k & Hk & Es & Hf & Hl). split; [auto|]. split; [auto|].
  exists k, (outs k st), (nth k (outs (S k) st) 0). rewrite draws_ok by auto. subst st'.
  split; [|auto]. now rewrite <- outs_snoc.
Qed.
Print Assumptions C05_bounded_in_range.

(** C05 (unbiasedness). Of the 2^64 possible words the same number [q] of
    words is accepted for each result; more than half of all words are accepted. *)
Theorem C05_bounded_exactly_uniform :
  forall bound, 0 < bound < 2^64 ->
    exists q, 2^64 < 2 * (q * bound) /\ q * bound <= 2^64 /\
      forall v, v < bound ->
        has_card (fun r => r < 2^64 /\ bounded_accept bound r = Some v) q.
Proof. intros bound [H0 H1]. exact (bounded_unbiased bound H0 H1). Qed.
Print Assumptions C05_bounded_exactly_uniform.

(** C05 (definedness). For a non-zero bound the only way not to return within
    [fuel] draws is that all these draws are rejected. *)
Theorem C05_bounded_only_waits_for_acceptance :
  forall fuel st bound, valid_seed st -> 0 < bound ->
    get_bounded fuel st bound = None ->
    exists rs st', draws fuel st = Some (rs, st') /\
      Forall (fun r => bounded_accept bound r = None) rs.
Proof.
  intros fuel st bound V Hb E. apply get_bounded_none in E; [|auto|lia].
  exists (outs fuel st), (steps fuel st). split; [now apply draws_ok|exact E].
Qed.
Print Assumptions C05_bounded_only_waits_for_acceptance.

(** C06. Whenever the shuffle returns, the first [n] entries are a permutation
    of 0..n-1, the others are untouched, and the result is the one determined
    by choices 0 <= j_i <= i. *)
Theorem C06_shuffle_is_permutation :
  forall fuel st n sq st' sq', valid_seed st -> (0 <= n <= Z.of_nat (length sq))%Z ->
    shuffle fuel st n sq = Some (st', sq') ->
    valid_seed st' /\
    Permutation (firstn (Z.to_nat n) sq') (iota_Z (Z.to_nat n)) /\
    skipn (Z.to_nat n) sq' = skipn (Z.to_nat n) sq /\
    exists js, Z.of_nat (length js) = n /\ valid_choices js /\ shuffle_choices 0 js sq = Some sq'.
Proof. intros fuel st n sq st' sq' V [H1 H2]. exact (shuffle_spec fuel st n sq st' sq' V H1 H2). Qed.
Print Assumptions C06_shuffle_is_permutation.

(** C06 (uniformity). Every permutation is produced by exactly one sequence of choices. *)
Theorem C06_choices_biject_with_permutations :
  forall n pi sq, Permutation pi (iota_Z n) -> length sq = n ->
    exists! js, length js = n /\ valid_choices js /\ shuffle_choices 0 js sq = Some pi.
Proof. exact shuffle_bijective. Qed.
Print Assumptions C06_choices_biject_with_permutations.

(** Concrete cases. *)
Example C03_example :
  valid_seed (seed_init 1) /\ ~ Forall (fun w => w = 0) (rs_s (seed_init 1)) /\
  exists st', draws 2 (seed_init 1) = Some ([10781847739248173418; 112741579301017755], st').
Proof.
  split; [|split].
  - apply C04_every_nonzero_seed_is_usable. split; reflexivity.
  - intros H. vm_compute in H. inversion H. discriminate.
  - eexists. vm_compute. reflexivity.
Qed.

Example C05_example : exists st', get_bounded 5 (seed_init 7) 10 = Some (5, st').
Proof. eexists. vm_compute. reflexivity. Qed.

(** a bound for which a word is rejected, and a word for each result otherwise *)
Example C05_example_reject :
  bounded_accept 10 5 = None /\ bounded_accept 10 6 = Some 6 /\
  bounded_accept 10 (2^64 - 1) = Some 5.
Proof. repeat split. Qed.

Example C06_example :
  exists st', shuffle 3 (seed_init 5) 6 (repeat (-1)%Z 7) = Some (st', [5; 3; 2; 1; 0; 4; -1]%Z).
Proof. eexists. vm_compute. reflexivity. Qed.
