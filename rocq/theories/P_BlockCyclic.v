(** C38: inversion of block p-cyclic matrices. *)
From Coq Require Import ZArith List Reals Lia Lra.
From mathcomp Require Import all_ssreflect ssralg matrix.
From Verif Require Import Base RField BlasFacts MatSpec MatFacts TimeStepFacts Lapack LapackSpec LapackFacts LapackExists
  SimParams ParamParser ParamSpec BlockCyclic BlockCyclicSpec CyclicRotFacts.
Set Implicit Arguments.
Unset Strict Implicit.
Unset Printing Implicit Defensive.
Local Open Scope ring_scope.
Import GRing.Theory.

(** C38: for every LAPACK that meets its contracts, every block size n >= 1, every number of blocks
    p >= 2, every nonsingular block p-cyclic matrix and every initial contents of the allocated
    memory, the call is defined (no access outside of an array), returns 0 and overwrites the matrix
    by its inverse.  Missing: p = 1, which the program accepts, see below. *)
Theorem C38_block_cyclic_inverse_partial : forall la junk n p (H : list R),
  lapack_ok la -> (0 < n)%N -> (2 <= p)%N -> List.length H = (n * p * (n * p))%N ->
  block_cyclic (mat (n * p) H) -> mat (n * p) H \in unitmx ->
  exists H', cyclic_inverse la junk (Z.of_nat n) (Z.of_nat p) H = Some (H', 0%Z) /\
    List.length H' = (n * p * (n * p))%N /\ mat (n * p) H' = invmx (mat (n * p) H).
Proof.
  move=> la junk n p H LA Hn Hp /square_len HS HC HU.
  have [H' [E [S' I']]] := cyclic_inverse_ok junk LA Hn Hp HS HC HU.
  exists H'. split => //. split; first exact: len_square. by rewrite -[LHS]mulmx1 -(mulmxV HU) mulmxA I' mul1mx.
Qed.
Print Assumptions C38_block_cyclic_inverse_partial.

(** one row and column in each of four blocks *)
Definition demo_cyclic : list R := [:: 1; 1; 0; 0;  0; 1; 1; 0;  0; 0; 1; 1;  2; 0; 0; 1]%coqR.
Example C38_case : (exists la, lapack_ok la) /\ List.length demo_cyclic = (1 * 4 * (1 * 4))%N /\
  block_cyclic (mat (1 * 4) demo_cyclic) /\ mat (1 * 4) demo_cyclic \in unitmx.
Proof.
  split; first exact: lapack_exists. split; first by []. split.
  - move=> [[|[|[|[|//]]]] Hi] [[|[|[|[|//]]]] Hj] /=; rewrite ?divn1 /= ?mxE /=; try (by left); by right.
  - have : mat (1 * 4) [:: -1; 1; -1; 1;  2; -1; 1; -1;  -2; 2; -1; 1;  2; -2; 2; -1]%coqR *m mat (1 * 4) demo_cyclic = 1%:M.
    { apply/matrixP => i j. rewrite !mxE !big_ord_recl big_ord0 !mxE /=.
      case: i => [[|[|[|[|//]]]] Hi]; case: j => [[|[|[|[|//]]]] Hj]; cbn; rewrite -?RplusE -?RmultE -?R0E -?R1E; lra. }
    by case/mulmx1_unit.
Qed.

(** C38, p = 1: the parameters of a simulation with L = prodBlen and unequal time measurements
    pass the validation; the matrix to be inverted then consists of L / prodBlen = 1 block, and
    the inversion accesses memory in front of the array, for every input. *)
Theorem C38_one_block_refuted : exists p, validate p = Some 0%Z /\ (0 < sp_nuneqlt p)%Z /\
  forall la junk H, cyclic_inverse la junk (sp_Norb p * (sp_Nx p * sp_Ny p)) (sp_L p / sp_prodBlen p) H = None.
Proof.
  exists (mk_sim_params 1 4 4 0 (mk_bonds [:: 0]%coqR [:: 1]%coqR [:: 1]%coqR [:: 0]%coqR [:: 0]%coqR) [:: 4]%coqR [:: 0]%coqR 0%coqR false
  (mk_phonon_params [::] [::] 0 0 0 0)%coqR (1/8)%coqR 8 8 8 10 20 2 1 7 0).
  split; last by [].
  rewrite /validate /= /check_taa /for_range /= /is_zero. by case: Req_EM_T.
Qed.
Print Assumptions C38_one_block_refuted.
