From Coq Require Import ZArith NArith Lia.
From Verif Require Import Progress ProgressSpec.
Local Open Scope Z_scope.

Lemma progress_inv n : forall i0 nequil nsampl t,
  0 <= i0 -> 0 <= nequil -> 0 < nsampl -> i0 < nequil + nsampl ->
  i0 + Z.of_nat n <= nequil + nsampl ->
  let p := progress_after n i0 nequil nsampl t in
  let done := i0 + Z.of_nat n in
  pg_state p = phase_at nequil nsampl done /\ pg_niter p = in_phase nequil i0 done /\
  pg_nequil p = nequil /\ pg_nsampl p = nsampl.
Proof.
  induction n as [|n IH]; intros i0 nequil nsampl t H1 H2 H3 H4 H5.
  - simpl. rewrite Z.add_0_r. unfold phase_at, in_phase.
    destruct (Z.ltb_spec i0 nequil); destruct (Z.ltb_spec i0 (nequil + nsampl)); repeat split; lia.
  - cbn zeta. destruct (IH i0 nequil nsampl t) as (A & B & C & D); try lia.
    cbn [progress_after]. unfold update_progress. rewrite A, B, C, D.
    unfold phase_at, in_phase.
    replace (i0 + Z.of_nat (S n)) with (i0 + Z.of_nat n + 1) by lia.
    set (d := i0 + Z.of_nat n) in *.
    repeat match goal with
           | |- context [Z.ltb ?a ?b] => destruct (Z.ltb_spec a b); try lia
           | |- context [Z.eqb ?a ?b] => destruct (Z.eqb_spec a b); try lia
           end; cbn; repeat split; lia.
Qed.

Lemma print_sensible n i0 nequil nsampl t :
  0 <= i0 -> 0 <= nequil -> 0 < nsampl -> i0 < nequil + nsampl ->
  i0 + Z.of_nat n <= nequil + nsampl ->
  sensible (print_progress (progress_after n i0 nequil nsampl t) (i0 + Z.of_nat n)).
Proof.
  intros H1 H2 H3 H4 H5.
  destruct (progress_inv n i0 nequil nsampl t) as (A & B & C & D); try lia.
  unfold print_progress. rewrite A, B, C, D. unfold phase_at.
  destruct (Z.ltb_spec (i0 + Z.of_nat n) nequil); [|destruct (Z.ltb_spec (i0 + Z.of_nat n) (nequil + nsampl))];
   cbn; auto; destruct (Z.ltb_spec 0 (in_phase nequil i0 (i0 + Z.of_nat n))); split; lia.
Qed.

(** in the window between UpdateProgress and the increment of the counter *)
Lemma print_window n i0 nequil nsampl t :
  0 <= i0 -> 0 <= nequil -> 0 < nsampl -> i0 < nequil + nsampl ->
  i0 + Z.of_nat (S n) <= nequil + nsampl -> i0 + Z.of_nat (S n) <> nequil ->
  sensible (print_progress (progress_after (S n) i0 nequil nsampl t) (i0 + Z.of_nat n)).
Proof.
  intros H1 H2 H3 H4 H5 H6.
  destruct (progress_inv (S n) i0 nequil nsampl t) as (A & B & C & D); try lia.
  unfold print_progress. rewrite A, B, C, D. unfold phase_at.
  set (k := in_phase nequil i0 (i0 + Z.of_nat (S n))) in *. clearbody k.
  destruct (Z.ltb_spec (i0 + Z.of_nat (S n)) nequil); [|destruct (Z.ltb_spec (i0 + Z.of_nat (S n)) (nequil + nsampl))];
   cbn; auto; destruct (Z.ltb_spec 0 k); split; lia.
Qed.
