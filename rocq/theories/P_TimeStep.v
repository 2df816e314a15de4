(** C28, C29: matrix products and time step matrices. *)
From Coq Require Import ZArith List Reals Lia Lra.
From mathcomp Require Import all_ssreflect ssralg matrix.
From Verif Require Import Base RField Blas MatProd MatSpec MatFacts TimeStep TimeStepSpec TimeStepFacts.
Set Implicit Arguments.
Unset Strict Implicit.
Unset Printing Implicit Defensive.
Local Open Scope ring_scope.
Import GRing.Theory.

(** C28: the product A[num-1] ... A[0] ends up in the result buffer, for every number of factors,
    whatever the temporary buffer contained. *)
Theorem C28_matrix_product_sequence : forall junk (n : nat) (num : Z) (A : list (list R)) (ret : list R),
  (0 < num <= Z.of_nat (List.length A))%Z ->
  List.Forall (fun M => List.length M = (n * n)%N) A -> List.length ret = (n * n)%N ->
  exists r, product_sequence junk (Z.of_nat n) num A ret = Some r /\ List.length r = (n * n)%N /\
    mat n r = mprod (List.map (mat n) (List.firstn (Z.to_nat num) A)).
Proof.
  move=> junk n num A ret Hn /Forall_square HA /square_len HR.
  have [r [E [Hr HM]]] := product_sequence_ok junk Hn HA HR.
  exists r. split => //. split => //. exact: len_square.
Qed.
Print Assumptions C28_matrix_product_sequence.

Example C28_case : exists r, product_sequence (fun _ => R1) 2 2 [:: [:: 1; 1; 0; 1]; [:: 0; 1; 1; 0] ]%coqR [:: 9; 9; 9; 9]%coqR = Some r
  /\ r = [:: 1; 1; 1; 0]%coqR.
Proof.
  have [r [E [Hr HM]]] := @C28_matrix_product_sequence (fun _ => R1) 2 2 [:: [:: 1; 1; 0; 1]; [:: 0; 1; 1; 0] ]%coqR [:: 9; 9; 9; 9]%coqR
    ltac:(simpl; lia) ltac:(repeat constructor) erefl.
  exists r. split => //. apply: (@square_eq 2); try exact: square_len. rewrite HM /= mul1mx.
  apply/matrixP => i j. rewrite !mxE !big_ord_recl big_ord0 !mxE /=.
  case: i => [[|[|//]] Hi]; case: j => [[|[|//]] Hj]; cbn; rewrite -?RplusE -?RmultE -?R0E; lra.
Qed.

(** C29, initialisation *)
Theorem C29_init_time_step_matrices : forall junk n L b k expV s t,
  kinetic_ok n k -> expV_ok (k_Norb k) expV -> field_ok n L s -> tsm_shape n L b t ->
  exists t', init_tsm junk k expV s t = Some t' /\ tsm_holds L b (step_mx n k expV s) t'.
Proof. exact: init_tsm_ok. Qed.
Print Assumptions C29_init_time_step_matrices.

(** C29, initialisation with phonons *)
Theorem C29_init_phonon_time_step_matrices : forall junk n L b k expV s expX t,
  kinetic_ok n k -> expV_ok (k_Norb k) expV -> field_ok n L s ->
  List.length expX = (L * n)%N -> List.Forall (fun x => x <> R0) expX -> tsm_shape n L b t ->
  exists t', init_phonon_tsm junk k expV s expX t = Some t' /\
    tsm_holds L b (phonon_step_mx n k expV s expX) t'.
Proof. exact: init_phonon_tsm_ok. Qed.
Print Assumptions C29_init_phonon_time_step_matrices.

(** C29, update of one slice *)
Theorem C29_update_time_step_matrices : forall junk n L b k expV s l t,
  kinetic_ok n k -> expV_ok (k_Norb k) expV -> field_ok n L s -> tsm_shape n L b t -> (l < L)%N ->
  exists t', update_tsm junk k expV s (Z.of_nat l) t = Some t' /\
    updated L b l (step_mx n k expV s l) t t'.
Proof. exact: update_tsm_ok. Qed.
Print Assumptions C29_update_time_step_matrices.

(** C29, update of one slice with phonons *)
Theorem C29_update_phonon_time_step_matrices : forall junk n L b k expV s expX l t,
  kinetic_ok n k -> expV_ok (k_Norb k) expV -> field_ok n L s ->
  List.length expX = (L * n)%N -> List.Forall (fun x => x <> R0) expX -> tsm_shape n L b t -> (l < L)%N ->
  exists t', update_phonon_tsm junk k expV s expX (Z.of_nat l) t = Some t' /\
    updated L b l (phonon_step_mx n k expV s expX l) t t'.
Proof. exact: update_phonon_tsm_ok. Qed.
Print Assumptions C29_update_phonon_time_step_matrices.

(** C29: allocation gives a structure of the right shape, and copying reproduces the source *)
Theorem C29_allocate_and_copy : forall n L b,
  (forall junk q, L = (q * b)%N -> (0 < L)%N ->
     exists t, allocate_tsm junk (Z.of_nat n) (Z.of_nat L) (Z.of_nat b) = Some t /\ tsm_shape n L b t) /\
  (forall src dst, tsm_shape n L b src -> tsm_shape n L b dst -> copy_tsm src dst = Some src).
Proof. by move=> n L b; split => *; [apply: allocate_ok | apply: copy_tsm_ok]; eassumption. Qed.
Print Assumptions C29_allocate_and_copy.

(** two sites (one cell, two orbitals), four slices, products of two *)
Definition demo_kinetic : kinetic := mk_kinetic [:: 1; 1; 0; 1]%coqR [:: 1; -1; 0; 1]%coqR 2 1.
Example C29_case_kinetic : kinetic_ok 2 demo_kinetic.
Proof.
  constructor => //. apply/matrixP => i j. rewrite !mxE !big_ord_recl big_ord0 !mxE /=.
  case: i => [[|[|//]] Hi]; case: j => [[|[|//]] Hj]; cbn; rewrite -?RplusE -?RmultE -?R0E -?R1E; lra.
Qed.
Example C29_case_expV : expV_ok 2 [:: [:: 1/2; 1/4]; [:: 2; 4] ]%coqR.
Proof.
  constructor => //; first by repeat constructor.
  move=> [|[|o]] Ho; cbn; rewrite -?RmultE -?R1E; try lra. lia.
Qed.
Example C29_case_field : field_ok 2 4 [:: 0; 1; 1; 0; 1; 1; 0; 0]%Z.
Proof. split => //. by repeat (apply: List.Forall_cons; first by [left|right]). Qed.
Example C29_case_shape : exists t, tsm_shape 2 4 2 t.
Proof. have [t [_ H]] := (@C29_allocate_and_copy 2 4 2).1 (fun _ => R0) 2%N erefl isT. by exists t. Qed.
