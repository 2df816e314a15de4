(** C32: construction of the Green's function from the time step matrices. *)
From Coq Require Import ZArith List Reals Lia Lra.
From mathcomp Require Import all_ssreflect ssralg matrix.
From Verif Require Import Base RField BlasFacts MatProd MatSpec MatFacts TimeStep TimeStepSpec TimeStepFacts GreenSpec
  Lapack LapackSpec LapackFacts LapackExists TimeFlow TimeFlowSpec GreenConstruct GreenConstructFacts.
Set Implicit Arguments.
Unset Strict Implicit.
Unset Printing Implicit Defensive.
Local Open Scope ring_scope.
Import GRing.Theory.

(** C32: let A be the product of all time step matrices in cyclic order beginning with slice
    (k * prodBlen) mod L.  If I + A is invertible the construction is defined (no access outside
    of an array, no division by zero, no logarithm of zero), the matrix stored is (I + A)^-1, and
    sgndet * exp(logdet) is its determinant with sgndet = 1 or -1.  If I + A is singular the
    construction leaves the real numbers. *)
Theorem C32_green_construct : forall la junk n L b (M : nat -> 'M[R]_n) t k (G : greens_func),
  lapack_ok la -> (0 < n)%N -> tsm_products L b M t -> List.length (gf_mat G) = (n * n)%N ->
  let A := cyclic_flow M L ((k * b) %% L) in
  (\det (1%:M + A) <> 0 ->
     exists G', green_construct la junk t (Z.of_nat (k * b)) G = Some G' /\
       List.length (gf_mat G') = (n * n)%N /\ gf_N G' = gf_N G /\
       is_green (mat n (gf_mat G')) A /\
       (gf_sgndet G' = 1%Z \/ gf_sgndet G' = (-1)%Z) /\
       (IZR (gf_sgndet G') * exp (gf_logdet G'))%coqR = \det (mat n (gf_mat G'))) /\
  (\det (1%:M + A) = 0 -> green_construct la junk t (Z.of_nat (k * b)) G = None).
Proof.
  move=> la junk n L b M t k G LA Hn Ht /square_len HG A. split; last exact: (green_construct_none LA).
  move=> HA. have [G' [E [H1 [H2 [H3 [H4 H5]]]]]] := green_construct_ok LA junk Hn Ht HG HA.
  exists G'. split => //. split; first exact: len_square. by [].
Qed.
Print Assumptions C32_green_construct.

(** copying reproduces matrix, determinant and sign *)
Theorem C32_copy : forall n src dst, List.length (gf_mat src) = (n * n)%N -> List.length (gf_mat dst) = (n * n)%N ->
  gf_N src = Z.of_nat n -> gf_N dst = Z.of_nat n -> copy_greens src dst = Some src.
Proof.
  move=> n [ms ls ss Ns] [md ld sd Nd] /square_len /= H1 /square_len /= H2 -> ->. rewrite /copy_greens /=.
  by have [B [-> [_ ->]]] := copy_square H1 H2.
Qed.
Print Assumptions C32_copy.

(** two sites, two slices with the singular matrices [[1, l], [0, 0]], one product of two *)
Definition demo_M (l : nat) : 'M[R]_2 := mat 2 [:: 1; 0; INR l; 0]%coqR.
Example C32_case : (exists t, tsm_products 2 2 demo_M t) /\ \det (1%:M + cyclic_flow demo_M 2 0) <> 0.
Proof.
  have E : demo_M 1 *m demo_M 0 = mat 2 [:: 1; 0; 0; 0]%coqR.
  { apply/matrixP => i j. rewrite !mxE !big_ord_recl big_ord0 !mxE /=.
    case: i => [[|[|//]] Hi]; case: j => [[|[|//]] Hj]; cbn; rewrite -?RplusE -?RmultE -?R0E -?R1E; lra. }
  split.
  - exists (mk_tsm (List.repeat (List.repeat R0 4) 2) (List.repeat (List.repeat R0 4) 2) [:: [:: 1; 0; 0; 0]%coqR ] 2 2 2 1).
    split; first by constructor => //=; repeat constructor.
    case => [|q] //. rewrite /mat_at /oprod /= => _. by rewrite mul1mx E.
  - rewrite /cyclic_flow /oprod /= !mul1mx E (expand_det_row _ ord0) !big_ord_recl big_ord0 !mxE /= /cofactor.
    rewrite !det_mx11 !mxE /=. cbn. rewrite -?RplusE -?RmultE -?RoppE -?R0E -?R1E. lra.
Qed.
