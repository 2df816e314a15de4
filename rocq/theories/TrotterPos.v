(** The trace of a Trotter product of exponentials of symmetric matrices is positive. *)
From Coq Require Import ZArith List Reals Lia Lra.
From mathcomp Require Import all_ssreflect fingroup perm ssralg matrix.
From Verif Require Import Base RField RClosed Spectral MatSpec MatFacts SimParams KineticSpec KineticExpSpec KineticExpFacts FockSpec FockFacts FockExp WickSpec HubbardSpec HubbardFacts.
Set Implicit Arguments.
Unset Strict Implicit.
Unset Printing Implicit Defensive.
Local Open Scope ring_scope.
Import GRing.Theory.

Lemma mpowS n (A : 'M[R]_n) k : mpow A k.+1 = A *m mpow A k.
Proof. by rewrite /mpow iterS. Qed.
Lemma mpowD n (A : 'M[R]_n) j k : mpow A (j + k) = mpow A j *m mpow A k.
Proof. elim: j => [|j IH]; first by rewrite add0n /mpow /= mul1mx. by rewrite addSn !mpowS IH mulmxA. Qed.
Lemma mpow1 n (A : 'M[R]_n) : mpow A 1 = A.
Proof. by rewrite mpowS /mpow /= mulmx1. Qed.
Lemma mpow0 n (A : 'M[R]_n) : mpow A 0 = 1%:M.
Proof. by []. Qed.

(** square root of the exponential of a symmetric matrix *)
Lemma exp_sqrt n (A E : 'M[R]_n) : A^T = A -> is_exp A E -> exists H, H^T = H /\ H \in unitmx /\ E = H *m H.
Proof.
  move=> HA HE. have [U [d [HU EA]]] := @spectral R_rcfType n A HA. rewrite EA in HE.
  rewrite (is_exp_uniq HE (is_exp_expd _ HU)).
  pose h : 'rV[R]_n := \row_j Rdiv (d ord0 j) 2. pose H := expd U h U^T. exists H. split; last split.
  - by rewrite /H /expd !trmx_mul trmxK tr_diag_mx mulmxA.
  - by have [] := mulmx1_unit (expd_inv h HU).
  - rewrite /H /expd -!mulmxA (mulmxA U^T) HU mul1mx (mulmxA (diag_mx _) (diag_mx _)) mulmx_diag. congr (_ *m (diag_mx _ *m _)).
    apply/rowP => j. rewrite !mxE -RmultE -exp_plus. congr exp. exact: double_var.
Qed.

Lemma sum_nonneg (I : finType) (f : I -> R) : (forall i, Rle R0 (f i)) -> Rle R0 (\sum_i f i).
Proof. move=> H. apply: (big_ind (fun x => Rle R0 x)) => [|x y Hx Hy|i _]; [exact: Rle_refl|rewrite -RplusE; lra|exact: H]. Qed.
Lemma gram_pos n (Y : 'M[R]_n) : (0 < n)%N -> Y \in unitmx -> Rlt R0 (\tr (Y^T *m Y)).
Proof.
  move=> Hn HY. have E : \tr (Y^T *m Y) = \sum_i \sum_j Y j i * Y j i.
  { apply: eq_bigr => i _. rewrite mxE. apply: eq_bigr => j _. by rewrite mxE. }
  have P i j : Rle R0 (Y j i * Y j i) by exact: Rle_0_sqr.
  have P' i : Rle R0 (\sum_j Y j i * Y j i) by apply: sum_nonneg.
  rewrite E. case: (Rle_lt_or_eq_dec R0 (\sum_i \sum_j Y j i * Y j i)) => //; first exact: sum_nonneg.
  have Z0 (I : finType) (f : I -> R) : (forall i, Rle R0 (f i)) -> R0 = \sum_i f i -> forall i, f i = R0.
  { move=> Hf HS i. move: HS. rewrite (bigD1 i) //=. set r := (\sum_(j | _) _). move=> HS.
    have Hr : Rle R0 r.
    { apply: (big_ind (fun x => Rle R0 x)) => [|x y Hx Hy|j _]; [exact: Rle_refl|rewrite -RplusE; lra|exact: Hf]. }
    move: HS Hr (Hf i). rewrite -RplusE. move: (f i) r => a b. lra. }
  move=> HS. exfalso. have Y0 : Y = 0.
  { apply/matrixP => j i. rewrite mxE. have := Z0 _ _ (P i) (esym (Z0 _ _ P' HS i)) j => /Rmult_integral. by case. }
  move: HY. rewrite Y0 unitmxE. case: n Hn Y {E P P' HS Y0} => // n _ Y. by rewrite det0 // unitr0.
Qed.

Lemma gram_power n (X : 'M[R]_n) L : X \in unitmx -> exists Y, Y \in unitmx /\ mpow (X^T *m X) L = Y^T *m Y.
Proof.
  move=> HX. set S := X^T *m X. have HS : S \in unitmx by rewrite /S unitmx_mul unitmx_tr HX.
  have TS : S^T = S by rewrite /S trmx_mul trmxK.
  have G : (exists Y, Y \in unitmx /\ mpow S L = Y^T *m Y) /\ (exists Y, Y \in unitmx /\ mpow S L.+1 = Y^T *m Y); last by case: G.
  elim: L => [|L [[Y [HY EY]] G]].
  - split; first by exists 1%:M; rewrite unitmx1 trmx1 mulmx1 mpow0. exists X. by rewrite mpow1.
  - split=> //. exists (Y *m S). rewrite unitmx_mul HY HS. split=> //.
    by rewrite mpowS -addn1 mpowD mpow1 EY trmx_mul TS !mulmxA.
Qed.

(** a product of two exponentials of symmetric matrices *)
Lemma trotter_pos n (A B EA EB : 'M[R]_n) L : (0 < n)%N -> A^T = A -> B^T = B -> is_exp A EA -> is_exp B EB ->
  Rlt R0 (\tr (mpow (EA *m EB) L)).
Proof.
  move=> Hn HA HB HEA HEB. have [D [TD [UD ->]]] := exp_sqrt HA HEA. have [K [TK [UK ->]]] := exp_sqrt HB HEB.
  have [Y [UY EY]] := @gram_power n (D *m K) L ltac:(by rewrite unitmx_mul UD).
  have -> : \tr (mpow (D *m D *m (K *m K)) L) = \tr (mpow ((D *m K)^T *m (D *m K)) L).
  { have -> : D *m D *m (K *m K) = invmx K *m ((D *m K)^T *m (D *m K)) *m K.
    { by rewrite trmx_mul TK TD !mulmxA mulVmx // mul1mx. }
    rewrite mpow_conj ?mulmxV // mxtrace_mulC (mulmxA K (invmx K)) mulmxV // mul1mx. by []. }
  rewrite EY. exact: gram_pos.
Qed.

Lemma fdim_pos m : (0 < fdim m)%N.
Proof. apply/card_gt0P. by exists set0. Qed.

Section Hubbard.
Variable p : sim_params.
Hypothesis WF : well_formed p.
Lemma interaction_sym : (interaction p)^T = interaction p.
Proof. rewrite interaction_states. apply/matrixP => a b. rewrite !mxE. by case: eqP => [->|H]; case: eqP => // H'; rewrite H' in H. Qed.
Lemma kinetic_sym : (kinetic_energy p)^T = kinetic_energy p.
Proof.
  rewrite /kinetic_energy linear_sum /= exchange_big /=. apply: eq_bigr => i _. rewrite linear_sum /=. apply: eq_bigr => j _.
  rewrite linearZ /= linearD /= !trmx_mul. congr (_ *: _); first by rewrite -[in LHS](ham_sym WF) mxE.
  by rewrite /cann /annihilate !trmxK.
Qed.
Lemma hubbard_pos EV EK L : is_exp (- sp_dt p *: interaction p) EV -> is_exp (- sp_dt p *: kinetic_energy p) EK -> Rlt R0 (\tr (mpow (EV *m EK) L)).
Proof.
  apply: trotter_pos; first exact: fdim_pos.
  - by rewrite linearZ /= interaction_sym.
  - by rewrite linearZ /= kinetic_sym.
Qed.
End Hubbard.
