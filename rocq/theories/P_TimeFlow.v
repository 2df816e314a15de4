(** C30: the time flow map. *)
From Coq Require Import ZArith List Reals Lia Lra.
From mathcomp Require Import all_ssreflect ssralg matrix.
From Verif Require Import Base Sums SumsFacts RField BlasFacts MatProd MatSpec MatFacts TimeStep TimeStepSpec TimeStepFacts GreenSpec
  Lapack LapackSpec LapackFacts LapackExists TimeFlow TimeFlowSpec TimeFlowLoops TimeFlowFacts.
Set Implicit Arguments.
Unset Strict Implicit.
Unset Printing Implicit Defensive.
Local Open Scope ring_scope.
Import GRing.Theory.

(** C30: for every library which meets its contract, every content of the output and work arrays
    and every slice shift k * prodBlen the call is defined; the matrix Q stored by its reflectors
    (factors [tau]) is orthogonal, no entry of d is zero, and Q diag(d) T is the product of all
    time step matrices in cyclic order, beginning with the slice (k * prodBlen) mod L.  The matrices
    may be singular. *)
Theorem C30_time_flow_map : forall la junk n L b (M : nat -> 'M[R]_n) t k (Q tau d T : list R),
  lapack_ok la -> (0 < n)%N -> tsm_products L b M t ->
  List.length Q = (n * n)%N -> List.length tau = n -> List.length d = n -> List.length T = (n * n)%N ->
  exists Q' tau' d' T',
    time_flow_map la junk t (Z.of_nat (k * b)) Q tau d T = Some (Q', tau', d', T') /\
    (List.length Q' = (n * n)%N /\ List.length tau' = n /\ List.length d' = n /\ List.length T' = (n * n)%N) /\
    let Qm := qmx n (pk Q' n) (vk tau') n in
    Qm *m Qm^T = 1%:M /\ Qm^T *m Qm = 1%:M /\
    (forall i, (i < n)%N -> List.nth i d' R0 <> 0) /\
    Qm *m dmx n d' *m mat n T' = cyclic_flow M L ((k * b) %% L).
Proof.
  move=> la junk n L b M t k Q tau d T LA Hn Ht /square_len HQ Htau Hd /square_len HT.
  have Htau' : lenZ tau = Zn n by rewrite /lenZ Htau. have Hd' : lenZ d = Zn n by rewrite /lenZ Hd.
  have [Q' [tau' [d' [T' [E [H1 [H2 [H3 [H4 [H5 [H6 H7]]]]]]]]]]] := time_flow_map_ok LA junk k Hn Ht HQ Htau' Hd' HT.
  exists Q', tau', d', T'. split => //. split.
  - rewrite /lenZ in H2 H3. split; first exact: len_square. split; first lia. split; first lia. exact: len_square.
  - split; first exact: qmx_orth. split; first exact: qmx_orth'. split => //.
    move=> i /ltP Hi. have := H6 (Zn i). rewrite /rat Nat2Z.id. apply. lia.
Qed.
Print Assumptions C30_time_flow_map.

(** a library meeting the contract exists (QR and LU decomposition of every real matrix) *)
Example C30_case_library : exists la, lapack_ok la.
Proof. exact: lapack_exists. Qed.

(** two sites, two slices with singular matrices, one product of two *)
Example C30_case_products : exists t, tsm_products 2 2 (fun l => mat 2 [:: 1; 0; INR l; 0]%coqR) t.
Proof.
  exists (mk_tsm (List.repeat (List.repeat R0 4) 2) (List.repeat (List.repeat R0 4) 2) [:: [:: 1; 0; 0; 0]%coqR ] 2 2 2 1).
  split; first by constructor => //=; repeat constructor.
  case => [|q] //. rewrite /mat_at /oprod /= => _. rewrite mul1mx. apply/matrixP => i j. rewrite !mxE !big_ord_recl big_ord0 !mxE /=.
  case: i => [[|[|//]] Hi]; case: j => [[|[|//]] Hj]; cbn; rewrite -?RplusE -?RmultE -?R0E -?R1E; lra.
Qed.
