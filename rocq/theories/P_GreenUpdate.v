(** C33, C34: rank-1 update and wrapping of the Green's function. *)
From Coq Require Import ZArith List Reals Lia Lra.
From mathcomp Require Import all_ssreflect ssralg matrix.
From Verif Require Import Base RField MatProd MatSpec MatFacts TimeStepSpec TimeStepFacts GreenUpdate GreenSpec GreenFacts.
Set Implicit Arguments.
Unset Strict Implicit.
Unset Printing Implicit Defensive.
Local Open Scope ring_scope.
Import GRing.Theory.

(** C33: if G is the Green's function of the flow map A, the update with [delta] at site [i] gives
    the Green's function of the flow map whose row [i] is scaled by 1 + delta.  The determinant
    ratio is 1 + delta (1 - G_ii); the update divides by this number and is undefined exactly
    if it is zero. *)
Theorem C33_sherman_morrison_update : forall junk n (i : 'I_n) delta (G : list R) (A : 'M[R]_n),
  List.length G = (n * n)%N -> is_green (mat n G) A ->
  let ratio := 1 + delta * (1 - mat n G i i) in
  let A' := scale_row i (1 + delta) A in
  \det (1%:M + A') = ratio * \det (1%:M + A) /\
  (ratio <> 0 -> exists G', sherman_morrison junk delta (Z.of_nat n) (Z.of_nat i) G = Some G' /\
     List.length G' = (n * n)%N /\ is_green (mat n G') A') /\
  (ratio = 0 -> sherman_morrison junk delta (Z.of_nat n) (Z.of_nat i) G = None).
Proof.
  move=> junk n i delta G A /square_len HG GA ratio A'. split; first exact: det_ratio. split.
  - move=> Hr. have [G' [E [HG' EG']]] := sherman_morrison_ok junk HG Hr.
    exists G'. split => //. split; first exact: len_square. rewrite EG'. exact: rank1_green.
  - exact: sherman_morrison_none.
Qed.
Print Assumptions C33_sherman_morrison_update.

(** the flow map [[0,1],[1,0]] + [[1,0],[0,0]] on two sites *)
Example C33_case : is_green (mat 2 [:: 1; -1; -1; 2]%coqR) (mat 2 [:: 1; 1; 1; 0]%coqR) /\
  1 + 2%coqR * (1 - mat 2 [:: 1; -1; -1; 2]%coqR (inord 1) (inord 1)) <> 0 :> R.
Proof.
  split.
  - rewrite /is_green. apply/matrixP => i j. rewrite !mxE !big_ord_recl big_ord0 !mxE /=.
    case: i => [[|[|//]] Hi]; case: j => [[|[|//]] Hj]; cbn; rewrite -?RplusE -?RmultE -?R0E -?R1E; lra.
  - rewrite !mxE /= inordK //= -?RplusE -?RmultE -?RoppE -?R0E -?R1E. lra.
Qed.

(** C34: wrapping maps the Green's function at slice [l] to the one at slice [l+1] (slice L is
    slice 0); the determinant does not change. *)
Theorem C34_time_slice_wrap : forall junk n L l (M : nat -> 'M[R]_n) (B invB G : list R),
  (l < L)%N -> List.length B = (n * n)%N -> List.length invB = (n * n)%N -> List.length G = (n * n)%N ->
  mat n B = M l -> mat n invB *m M l = 1%:M ->
  is_green (mat n G) (cyclic_flow M L l) ->
  exists G', slice_wrap junk (Z.of_nat n) B invB G = Some G' /\ List.length G' = (n * n)%N /\
    is_green (mat n G') (cyclic_flow M L l.+1) /\
    (l.+1 = L -> is_green (mat n G') (cyclic_flow M L 0)) /\
    \det (1%:M + cyclic_flow M L l.+1) = \det (1%:M + cyclic_flow M L l).
Proof.
  move=> junk n L l M B invB G Hl /square_len HB /square_len HI /square_len HG EB EI HGr.
  have [E1 E2] := cyclic_next M Hl.
  have [G' [E [HG' EG']]] := slice_wrap_ok junk HB HI HG.
  rewrite E1 in HGr. have [W1 W2] := wrap_green EI HGr.
  exists G'. split => //. split; first exact: len_square. rewrite E2 E1. split; first by rewrite EG' EB.
  split => // EL. by rewrite -(cyclic_end M L) -{2}EL E2 EG' EB.
Qed.
Print Assumptions C34_time_slice_wrap.

(** one slice with matrix [[1,1],[1,0]] *)
Example C34_case : is_green (mat 2 [:: 1; -1; -1; 2]%coqR) (cyclic_flow (fun _ => mat 2 [:: 1; 1; 1; 0]%coqR) 1 0) /\
  mat 2 [:: 0; 1; 1; -1]%coqR *m mat 2 [:: 1; 1; 1; 0]%coqR = 1%:M.
Proof.
  split; first by rewrite /cyclic_flow /oprod /= !mul1mx; exact: (proj1 C33_case).
  apply/matrixP => i j. rewrite !mxE !big_ord_recl big_ord0 !mxE /=.
  case: i => [[|[|//]] Hi]; case: j => [[|[|//]] Hj]; cbn; rewrite -?RplusE -?RmultE -?R0E -?R1E; lra.
Qed.
