(** The contracts of LapackSpec.v can be met by a library whose eigensolver never fails. *)
From Coq Require Import ZArith List Reals Lia Lra ClassicalEpsilon.
From mathcomp Require Import all_ssreflect ssralg matrix.
From Verif Require Import RField MatSpec MatFacts Lapack LapackSpec LapackFacts LapackExists RClosed Spectral KineticExpSpec.
Set Implicit Arguments.
Unset Strict Implicit.
Unset Printing Implicit Defensive.
Local Open Scope ring_scope.
Import GRing.Theory.

Lemma syev_exists n A : (mat n A)^T = mat n A -> exists res, syev_post n A res /\ snd res = 0%Z.
Proof.
  move=> HS. have [U [d [HU HD]]] := @spectral R_rcfType n (mat n A) HS.
  exists (pack n n (zfun U), pack n 1 (fun i _ => zfun d 0 i), 0%Z). split => //. split; first exact: pack_len.
  split; first by rewrite pack_len muln1. move=> _. rewrite mat_pack. split => //.
  rewrite {1}HD. congr (_ *m diag_mx _ *m _). apply/rowP => i. rewrite mxE /vk.
  have := @pack_pk n 1 (fun i _ => zfun d 0 i) (Zn i) 0%Z. rewrite /pk Z.mul_0_l Z.add_0_r => ->.
  - by rewrite -{1}(zfunE d ord0 i).
  - have /ltP := ltn_ord i. lia.
  - lia.
Qed.

Theorem lapack_converges : exists la, lapack_ok la /\ syev_converges la.
Proof.
  have [la Hla] := lapack_exists.
  pose ev (n : Z) (A : list R) := epsilon (inhabits ([::], [::], 0%Z)) (fun res => syev_post (Z.to_nat n) A res /\ snd res = 0%Z).
  have Hev : forall n A, (mat n A)^T = mat n A -> syev_post n A (ev (Zn n) A) /\ snd (ev (Zn n) A) = 0%Z.
  { move=> n A HS. rewrite /ev Nat2Z.id. apply: (@epsilon_spec _ (inhabits ([::], [::], 0%Z)) (fun res => syev_post n A res /\ snd res = 0%Z)). exact: syev_exists. }
  exists (mk_lapack (la_geqp3 la) (la_geqrf la) (la_getrf la) (la_getrs la) (la_trtri la) ev). split.
  - case: Hla => h1 h2 h3 h4 h5 _. split => //= n A _ HS. by case: (Hev n A HS).
  - move=> n A _ HS /=. by case: (Hev n A HS).
Qed.

(** a library that meets the contracts although its eigensolver always fails *)
Theorem lapack_syev_fails : exists la, lapack_ok la /\ forall n A, snd (la_syev la n A) = 1%Z.
Proof.
  have [la Hla] := lapack_exists.
  exists (mk_lapack (la_geqp3 la) (la_geqrf la) (la_getrf la) (la_getrs la) (la_trtri la)
    (fun n _ => (List.repeat R0 (Z.to_nat n * Z.to_nat n)%N, List.repeat R0 (Z.to_nat n), 1%Z))). split => //.
  case: Hla => h1 h2 h3 h4 h5 _. split => //= n A _ HS. rewrite Nat2Z.id. by split; rewrite List.repeat_length.
Qed.
