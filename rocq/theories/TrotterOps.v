(** Bounds of the operators that are measured. *)
From Coq Require Import ZArith List Reals Lra Lia.
From mathcomp Require Import all_ssreflect ssralg matrix.
From Verif Require Import Base RField MatSpec MatFacts SimParams KineticExpSpec LatticeSpec WickSpec Measure MeasureSpec UMeasure UMeasureSpec
  FockSpec FockFacts FockExp HubbardSpec HubbardFacts ThermalSpec TrotterSpec TrotterNorm.
Set Implicit Arguments.
Unset Strict Implicit.
Unset Printing Implicit Defensive.
Local Open Scope ring_scope.
Import GRing.Theory.

(** a matrix with one entry plus or minus one in a row *)
Lemma abs_sign (k : nat) : Rabs ((-1) ^+ k : R) = R1.
Proof.
  elim: k => [|k IH]; first by rewrite expr0 -R1E Rabs_R1. by rewrite exprS -RmultE Rabs_mult IH -RoppE -R1E Rabs_Ropp Rabs_R1 Rmult_1_l.
Qed.
Lemma single_row n (A : 'M[R]_n) i j0 : (forall j, j != j0 -> A i j = 0) -> Rle (Rabs (A i j0)) 1 -> Rle (row_sum A i) 1.
Proof.
  move=> H0 H1. rewrite /row_sum (bigD1 j0) //= big1; first by rewrite addr0.
  move=> j Hj. rewrite H0 //. exact: Rabs_R0.
Qed.
Section Ops.
Variable m : nat.
Lemma create_rows j : rows_le (create R_comRingType j : 'M[R]_(fdim m)) 1.
Proof.
  move=> a. apply: (single_row (j0 := enum_rank (enum_val a :\ j))) => [b Hb|].
  - rewrite mxE. case: andP => // -[Hj /eqP E]. case/eqP: Hb. by rewrite E setU1K // enum_valK.
  - rewrite mxE. case: ifP => _; [right; exact: abs_sign|rewrite Rabs_R0; exact: Rle_0_1].
Qed.
Lemma annihilate_rows j : rows_le (annihilate R_comRingType j : 'M[R]_(fdim m)) 1.
Proof.
  move=> a. apply: (single_row (j0 := enum_rank (j |: enum_val a))) => [b Hb|].
  - rewrite !mxE. case: andP => // -[Hj /eqP E]. case/eqP: Hb. by rewrite -E enum_valK.
  - rewrite !mxE. case: ifP => _; [right; exact: abs_sign|rewrite Rabs_R0; exact: Rle_0_1].
Qed.
End Ops.

Lemma zero_rows n a : Rle 0 a -> rows_le (0 : 'M[R]_n) a.
Proof. move=> Ha i. rewrite /row_sum big1 // => j _. rewrite mxE. exact: Rabs_R0. Qed.

Section Lattice.
Variable n : nat.
Lemma cdag_rows a : rows_le (cdag_at n a) 1.
Proof. rewrite /cdag_at. case: insub => [i|]; [exact: create_rows|exact: zero_rows Rle_0_1]. Qed.
Lemma cann_rows a : rows_le (cann_at n a) 1.
Proof. rewrite /cann_at. case: insub => [i|]; [exact: annihilate_rows|exact: zero_rows Rle_0_1]. Qed.
Lemma cann_tr a : (cann_at n a)^T = cdag_at n a.
Proof. rewrite /cann_at /cdag_at. case: insub => [i|]; [by rewrite /cann /annihilate trmxK|by rewrite trmx0]. Qed.
Lemma cdag_tr a : (cdag_at n a)^T = cann_at n a.
Proof. by rewrite -cann_tr trmxK. Qed.

(** sum of the absolute values of the coefficients *)
Definition coeff (A : list (R * mode * mode)) : R := List.fold_right (fun t s => Rplus (Rabs t.1.1) s) R0 A.
Lemma coeff_pos A : Rle 0 (coeff A).
Proof. elim: A => [|t A IH] /=; first exact: Rle_refl. have := Rabs_pos t.1.1. lra. Qed.
Lemma sum_rows (F : mode -> mode -> fock n) A : (forall a b, rows_le (F a b) 1) -> rows_le (\sum_(t <- A) t.1.1 *: F t.1.2 t.2) (coeff A).
Proof.
  move=> H. elim: A => [|t A IH]; first by rewrite big_nil; apply: zero_rows; exact: Rle_refl.
  rewrite big_cons. apply: bnd_add => //. have := bnd_scale t.1.1 (H t.1.2 t.2). by rewrite Rmult_1_r.
Qed.
Lemma bilinear_rows A : rows_le (bilinear_op n A) (coeff A).
Proof. apply: (@sum_rows (fun a b => cdag_at n a *m cann_at n b)) => a b. have := bnd_mul Rle_0_1 (cdag_rows a) (cann_rows b). by rewrite Rmult_1_r. Qed.
Lemma pairing_rows A : rows_le (pairing_op n A) (coeff A).
Proof. apply: (@sum_rows (fun a b => cann_at n a *m cann_at n b)) => a b. have := bnd_mul Rle_0_1 (cann_rows a) (cann_rows b). by rewrite Rmult_1_r. Qed.
Lemma pairing_tr_rows A : rows_le (pairing_op n A)^T (coeff A).
Proof.
  rewrite /pairing_op linear_sum /=. under eq_bigr do rewrite linearZ /= trmx_mul !cann_tr.
  apply: (@sum_rows (fun a b => cdag_at n b *m cdag_at n a)) => a b. have := bnd_mul Rle_0_1 (cdag_rows b) (cdag_rows a). by rewrite Rmult_1_r.
Qed.

Lemma coeff_number s i : Rle (coeff (number s i)) 4.
Proof. rewrite /coeff /= Rabs_R1. lra. Qed.
Lemma coeff_charge i : Rle (coeff (charge i)) 4.
Proof. rewrite /coeff /= Rabs_R1. lra. Qed.
Lemma coeff_z i : Rle (coeff (spin_z i)) 4.
Proof. rewrite /coeff /= Rabs_Ropp !Rabs_R1. lra. Qed.
Lemma coeff_x i : Rle (coeff (spin_x i)) 4.
Proof. rewrite /coeff /= Rabs_R1. lra. Qed.
Lemma coeff_current i j : Rle (coeff (current i j)) 4.
Proof. rewrite /coeff /= Rabs_Ropp !Rabs_R1. lra. Qed.
Ltac absn := repeat match goal with |- context [Rabs ?x] => first [rewrite (Rabs_right x); [|lra] | rewrite (Rabs_left x); [|lra]] end.
Lemma coeff_pair f i nb : Rle (coeff (pair_op i (pair_shape f nb))) 4.
Proof. rewrite /coeff. case: f => /=; absn; lra. Qed.
Lemma coeff_b1g i nb : Rle (coeff (hop_op i (b1g_shape nb))) 4.
Proof. rewrite /coeff /=. absn; lra. Qed.
Lemma coeff_b2g i nb : Rle (coeff (hop_op i (b2g_shape nb))) 4.
Proof. rewrite /coeff /=. absn; lra. Qed.
End Lattice.
