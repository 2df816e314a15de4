(** Exponentials of one body operators are second quantised exponentials. *)
From Coq Require Import Reals Lra.
From mathcomp Require Import all_ssreflect fingroup perm ssralg matrix.
From Verif Require Import RField RClosed Spectral MatSpec MatFacts KineticExpSpec KineticExpFacts FockSpec FockFacts.
Set Implicit Arguments.
Unset Strict Implicit.
Unset Printing Implicit Defensive.
Local Open Scope ring_scope.
Import GRing.Theory.

Section OneBody.
Variables (K : comRingType) (m : nat).
Notation op := 'M[K]_(fdim m).
Notation cr := (@create K m).
Notation an := (@annihilate K m).

Definition on_states (f : {set 'I_m} -> K) : op := diag_mx (\row_a f (enum_val a)).

Lemma on_states_ket f S : on_states f *m ket K S = f S *: ket K S.
Proof.
  apply/matrixP => a b. rewrite op_ket /on_states !mxE. case: (a =P enum_rank S) => [->|_]; by rewrite ?enum_rankK ?ord1 ?eqxx ?mulr1n ?mulr0n ?andbT ?mulr1 ?mulr0.
Qed.

Lemma num_states j : cr j *m an j = on_states (fun S => (j \in S)%:R).
Proof.
  apply: ket_inj => S. rewrite -mulmxA an_ket on_states_ket. case: (boolP (j \in S)) => H; last by rewrite mulmx0 scale0r.
  rewrite -scalemxAr cr_ket setD11 scalerA scale1r setD1K //. by rewrite (belowD j H) ltnn add0n sqr_sign scale1r.
Qed.

Lemma on_statesD f g : on_states f + on_states g = on_states (fun S => f S + g S).
Proof. apply: ket_inj => S. by rewrite mulmxDl !on_states_ket scalerDl. Qed.
Lemma on_statesZ c f : c *: on_states f = on_states (fun S => c * f S).
Proof. apply: ket_inj => S. by rewrite -scalemxAl !on_states_ket scalerA. Qed.
Lemma on_statesM f g : on_states f *m on_states g = on_states (fun S => f S * g S).
Proof. apply: ket_inj => S. by rewrite -mulmxA !on_states_ket -scalemxAr on_states_ket scalerA mulrC. Qed.
Lemma on_states_c c : c%:M = on_states (fun _ => c).
Proof. apply: ket_inj => S. by rewrite mul_scalar_mx on_states_ket. Qed.
Lemma on_states_sum (I : finType) (f : I -> {set 'I_m} -> K) : \sum_i on_states (f i) = on_states (fun S => \sum_i f i S).
Proof. apply: ket_inj => S. rewrite mulmx_suml on_states_ket scaler_suml. apply: eq_bigr => i _. by rewrite on_states_ket. Qed.
Lemma on_states_ext f g : f =1 g -> on_states f = on_states g.
Proof. move=> H. apply: ket_inj => S. by rewrite !on_states_ket H. Qed.
Lemma occ_states (d : 'I_m -> K) : occupied_prod d = on_states (fun S => \prod_(j in S) d j).
Proof. apply: ket_inj => S. by rewrite occ_ket on_states_ket. Qed.

Lemma one_body_diag d : one_body (diag_mx d) = on_states (fun S => \sum_(j in S) d ord0 j).
Proof.
  rewrite /one_body. transitivity (\sum_i d ord0 i *: (cr i *m an i)).
  - apply: eq_bigr => i _. rewrite (bigD1 i) //= mxE eqxx mulr1n big1 ?addr0 // => j. rewrite eq_sym => /negbTE H.
    by rewrite mxE H mulr0n scale0r.
  - under eq_bigr do rewrite num_states on_statesZ. rewrite on_states_sum. apply: on_states_ext => S. rewrite [RHS]big_mkcond /=.
    apply: eq_bigr => i _. by case: ifP; rewrite ?mulr1 ?mulr0.
Qed.

Lemma one_body_conj (U : 'M[K]_m) d : U^T *m U = 1%:M ->
  one_body (U *m diag_mx d *m U^T) = second U *m one_body (diag_mx d) *m second U^T.
Proof.
  move=> HU. have HS : second U *m second U^T = 1%:M by rewrite -second_mul (mulmx1C HU) second1.
  have E k : second U *m (cr k *m an k) *m second U^T = cra U k *m (cra U k)^T.
  { rewrite mulmxA second_cr -!mulmxA. congr (_ *m _). rewrite (_ : second U *m _ = (second U *m cr k *m second U^T)^T).
    - by rewrite second_cr -mulmxA HS mulmx1.
    - by rewrite !trmx_mul !second_tr trmxK mulmxA. }
  have -> : one_body (diag_mx d) = \sum_i d ord0 i *: (cr i *m an i).
  { apply: eq_bigr => i _. rewrite (bigD1 i) //= mxE eqxx mulr1n big1 ?addr0 // => j. rewrite eq_sym => /negbTE H.
    by rewrite mxE H mulr0n scale0r. }
  rewrite mulmx_sumr mulmx_suml. under [RHS]eq_bigr do rewrite -scalemxAr -scalemxAl E.
  rewrite /one_body. under eq_bigr => i _ do under eq_bigr => j _ do rewrite mxE scaler_suml.
  under eq_bigr => i _ do rewrite exchange_big /=. rewrite exchange_big /=. apply: eq_bigr => k _.
  rewrite /cra linear_sum mulmx_suml scaler_sumr. apply: eq_bigr => i _.
  rewrite mulmx_sumr scaler_sumr. apply: eq_bigr => j _.
  rewrite mul_mx_diag !mxE. rewrite linearZ /= -scalemxAl -scalemxAr !scalerA. congr (_ *: _). by rewrite [U i k * _]mulrC ?mulrA.
Qed.
End OneBody.

Lemma is_exp_conj_states m (U V : 'M[R]_(fdim m)) (f : {set 'I_m} -> R) : V *m U = 1%:M ->
  is_exp (U *m on_states f *m V) (U *m on_states (fun S => exp (f S)) *m V).
Proof.
  move=> H. have := @is_exp_expd (fdim m) U V (\row_a f (enum_val a)) H. rewrite /expd /on_states.
  congr is_exp. congr (_ *m diag_mx _ *m _). apply/rowP => a. by rewrite !mxE.
Qed.
Lemma is_exp_on_states m (f : {set 'I_m} -> R) : is_exp (on_states f : 'M[R]_(fdim m)) (on_states (fun S => exp (f S))).
Proof. have := @is_exp_conj_states m 1%:M 1%:M f (mulmx1 _). by rewrite !mul1mx !mulmx1. Qed.

Lemma exp_bigsum (I : finType) (P : pred I) (f : I -> R) : \prod_(j | P j) exp (f j) = exp (\sum_(j | P j) f j).
Proof.
  apply: (big_ind2 (fun a b : R => a = exp b)) => //; first by rewrite exp_0.
  by move=> a b c d -> ->; rewrite -RmultE -exp_plus.
Qed.

(** the exponential of a symmetric one body operator *)
Theorem is_exp_second m (A E : 'M[R]_m) : A^T = A -> is_exp A E -> is_exp (one_body A) (second E : 'M[R]_(fdim m)).
Proof.
  move=> HA HE. have [U [d [HU HD]]] := @spectral R_rcfType _ _ HA.
  have HD' : A = U *m diag_mx d *m U^T by exact: HD.
  have EE : E = expd U d U^T by apply: (is_exp_uniq HE); rewrite {1}HD'; exact: is_exp_expd.
  rewrite EE HD' one_body_conj // one_body_diag /expd 2!second_mul second_diag occ_states.
  have HS : second U^T *m second U = 1%:M :> 'M[R]_(fdim m) by rewrite -second_mul HU second1.
  have := is_exp_conj_states (fun S : {set 'I_m} => \sum_(j in S) d ord0 j) HS.
  congr is_exp. congr (_ *m _ *m _). apply: on_states_ext => S. rewrite -exp_bigsum.
  apply: eq_bigr => j _. by rewrite mxE.
Qed.
