(** Property C07: uniform and normal deviates of random.c. *)
From Coq Require Import ZArith NArith Reals Lra.
From Flocq Require Import Core.
From Verif Require Import Base Random RandomSpec RandomFacts Uniform UniformFacts P_Random.
Local Open Scope R_scope.

(** C07. For every generator state the double computed by Random_GetUniform,
    with all roundings, is in (0,1]. *)
Theorem C07_uniform_in_unit_interval :
  forall st, valid_seed st ->
    exists x st', get_uniform st = Some (x, st') /\ 0 < x <= 1 /\ valid_seed st'.
Proof. exact get_uniform_ok. Qed.
Print Assumptions C07_uniform_in_unit_interval.

(** C07 (word level). Every 64-bit word gives a double between 2^-64 and 1. *)
Theorem C07_uniform_of_every_word :
  forall u, (u < 2^64)%N -> bpow radix2 (-64) <= uniform_of_word u <= 1.
Proof. exact uniform_of_word_range. Qed.
Print Assumptions C07_uniform_of_every_word.

(** C07 (consequence). Random_GetNormal never takes the logarithm of zero nor
    the square root of a negative number. *)
Theorem C07_normal_is_defined :
  forall st, valid_seed st -> exists x st', get_normal st = Some (x, st') /\ valid_seed st'.
Proof. exact get_normal_ok. Qed.
Print Assumptions C07_normal_is_defined.

(** The upper bound is attained (by rounding), so the interval is closed at 1. *)
Example C07_example_upper : uniform_of_word (2^64 - 1) = 1.
Proof. exact uniform_attains_1. Qed.

Example C07_example_state : exists x st', get_normal (seed_init 1) = Some (x, st') /\ valid_seed st'.
Proof. apply C07_normal_is_defined. apply C03_example. Qed.
