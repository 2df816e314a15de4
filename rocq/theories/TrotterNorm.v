(** Bounds of matrices by the largest sum of absolute values in a row, and of exponentials. *)
From Coq Require Import Reals Lra Lia Psatz.
From mathcomp Require Import all_ssreflect ssralg matrix.
From Verif Require Import RField MatSpec MatFacts KineticExpSpec KineticExpFacts TrotterSpec.
Set Implicit Arguments.
Unset Strict Implicit.
Unset Printing Implicit Defensive.
Local Open Scope ring_scope.
Import GRing.Theory.

(** finite sums *)
Lemma sum_le (I : finType) (f g : I -> R) : (forall i, Rle (f i) (g i)) -> Rle (\sum_i f i) (\sum_i g i).
Proof.
  move=> H. apply: (big_ind2 (fun x y => Rle x y)) => //; first by right.
  move=> a b c d H1 H2. rewrite -!RplusE. lra.
Qed.
Lemma sum_abs (I : finType) (f : I -> R) : Rle (Rabs (\sum_i f i)) (\sum_i Rabs (f i)).
Proof.
  apply: (big_ind2 (fun x y => Rle (Rabs x) y)) => //; first by rewrite -R0E Rabs_R0; lra.
  - move=> a b c d H1 H2. rewrite -!RplusE. have := Rabs_triang a c. lra.
  - move=> i _. lra.
Qed.
Lemma sum_nonneg (I : finType) (f : I -> R) : (forall i, Rle 0 (f i)) -> Rle 0 (\sum_i f i).
Proof.
  move=> H. apply: (big_ind (fun x => Rle 0 x)) => [|a b H1 H2|i _]; last exact: H.
  - by right.
  - rewrite -RplusE. exact: Rplus_le_le_0_compat.
Qed.
Lemma sum_term (I : finType) (f : I -> R) i : (forall i, Rle 0 (f i)) -> Rle (f i) (\sum_i f i).
Proof.
  move=> H. rewrite (bigD1 i) //= -RplusE. have HS : Rle 0 (\sum_(j | j != i) f j); last by rewrite -{1}[f i]Rplus_0_r; apply: Rplus_le_compat_l; exact: HS.
  apply: (big_ind (fun x => Rle 0 x)) => [|a b H1 H2|j _]; last exact: H.
  - by right.
  - rewrite -RplusE. exact: Rplus_le_le_0_compat.
Qed.

Section Bounds.
Variable n : nat.
Implicit Types A B : 'M[R]_n.

Lemma bnd_mono A a b : rows_le A a -> Rle a b -> rows_le A b.
Proof. move=> H Hab i. have := H i. lra. Qed.
Lemma bnd_add A B a b : rows_le A a -> rows_le B b -> rows_le (A + B) (Rplus a b).
Proof.
  move=> HA HB i. have h1 := HA i. have h2 := HB i.
  suff : Rle (row_sum (A + B) i) (Rplus (row_sum A i) (row_sum B i)) by lra.
  rewrite /row_sum RplusE -big_split /=. apply: sum_le => j. rewrite mxE. exact: Rabs_triang.
Qed.
Lemma bnd_opp A a : rows_le A a -> rows_le (- A) a.
Proof. move=> H i. have := H i. congr Rle. apply: eq_bigr => j _. by rewrite mxE -RoppE Rabs_Ropp. Qed.
Lemma bnd_sub A B a b : rows_le A a -> rows_le B b -> rows_le (A - B) (Rplus a b).
Proof. move=> HA HB. apply: bnd_add => //. exact: bnd_opp. Qed.
Lemma bnd_scale c A a : rows_le A a -> rows_le (c *: A) (Rmult (Rabs c) a).
Proof.
  move=> H i. have -> : row_sum (c *: A) i = Rmult (Rabs c) (row_sum A i).
  { rewrite /row_sum RmultE big_distrr /=. apply: eq_bigr => j _. by rewrite mxE -!RmultE Rabs_mult. }
  apply: Rmult_le_compat_l => //. exact: Rabs_pos.
Qed.
Lemma row_sum_pos A i : Rle 0 (row_sum A i).
Proof. apply: sum_nonneg => j. exact: Rabs_pos. Qed.
Lemma bnd_mul A B a b : Rle 0 b -> rows_le A a -> rows_le B b -> rows_le (A *m B) (Rmult a b).
Proof.
  move=> Hb HA HB i.
  have H1 : Rle (row_sum (A *m B) i) (\sum_j \sum_k Rmult (Rabs (A i k)) (Rabs (B k j))).
  { apply: sum_le => j. rewrite mxE. apply: (Rle_trans _ _ _ (sum_abs _)). right. apply: eq_bigr => k _. by rewrite -RmultE Rabs_mult. }
  rewrite exchange_big /= in H1. apply: (Rle_trans _ _ _ H1).
  apply: (Rle_trans _ (\sum_k Rmult (Rabs (A i k)) b)).
  - apply: sum_le => k. rewrite (_ : \sum_j _ = Rmult (Rabs (A i k)) (row_sum B k)); last by rewrite RmultE big_distrr.
    apply: Rmult_le_compat_l; [exact: Rabs_pos|exact: HB].
  - rewrite (_ : \sum_k _ = Rmult (row_sum A i) b); last by rewrite RmultE big_distrl.
    apply: Rmult_le_compat_r; [exact: Hb|exact: HA].
Qed.
Lemma bnd_1 : rows_le (1%:M : 'M[R]_n) 1.
Proof.
  move=> i. rewrite /row_sum (bigD1 i) //= big1; first by rewrite mxE eqxx mulr1n -R1E Rabs_R1 addr0; right.
  move=> j Hj. by rewrite mxE eq_sym (negbTE Hj) mulr0n -R0E Rabs_R0.
Qed.
Lemma bnd_pow A a k : Rle 0 a -> rows_le A a -> rows_le (mpow A k) (pow a k).
Proof.
  move=> Ha HA. elim: k => [|k IH]; first exact: bnd_1.
  apply: bnd_mul => //. exact: pow_le.
Qed.
Lemma bnd_ex A : exists a, Rle 0 a /\ rows_le A a.
Proof.
  exists (\sum_i row_sum A i). split.
  - apply: sum_nonneg => i. exact: row_sum_pos.
  - move=> i. apply: (@sum_term _ (row_sum A)) => k. exact: row_sum_pos.
Qed.
Lemma bnd_tr A a : rows_le A a -> Rle (Rabs (\tr A)) (Rmult (INR n) a).
Proof.
  move=> H. rewrite /mxtrace. apply: (Rle_trans _ _ _ (sum_abs _)).
  apply: (Rle_trans _ (\sum_(i < n) a)).
  - apply: sum_le => i. apply: Rle_trans (H i). apply: (@sum_term _ (fun j => Rabs (A i j))) => j. exact: Rabs_pos.
  - right. rewrite sumr_const card_ord. elim: (n) => [|k IH]; first by rewrite mulr0n Rmult_0_l.
    rewrite mulrS IH S_INR -RplusE. ring.
Qed.
End Bounds.

(** comparison of series *)
Lemma series_le f g a b : (forall k, Rle (f k) (g k)) -> infinite_sum f a -> infinite_sum g b -> Rle a b.
Proof.
  move=> H Hf Hg. case: (Rle_dec a b) => // /Rnot_le_lt Hn. exfalso.
  have He : ((a - b) / 2 > 0)%coqR by lra.
  have [N1 H1] := Hf _ He. have [N2 H2] := Hg _ He.
  have h1 := H1 (N1 + N2)%coq_nat ltac:(lia). have h2 := H2 (N1 + N2)%coq_nat ltac:(lia).
  have hs := PartSum.sum_Rle f g (N1 + N2)%coq_nat (fun k _ => H k).
  move: h1 h2. rewrite /R_dist => /Rabs_def2 [h1 h1'] /Rabs_def2 [h2 h2']. lra.
Qed.
Lemma infinite_sum_one m c : infinite_sum (fun k => if k == m then c else R0) c.
Proof.
  move=> eps He. exists m => k Hk. rewrite (_ : sum_f_R0 _ k = c); first by rewrite R_dist_eq.
  have Z : forall k, (k < m)%coq_nat -> sum_f_R0 (fun k => if k == m then c else R0) k = R0.
  { elim=> [|j IH] Hj /=; first by case: m Hj {Hk} => // /Nat.lt_irrefl. rewrite IH; last by lia.
    case: eqP => [E|_]; [lia|lra]. }
  elim: k Hk => [|k IH] Hk.
  - have -> : m = 0%N by lia. by [].
  - case: (Nat.eq_dec m k.+1) => [E|E]; rewrite [sum_f_R0 _ _]/=.
    + rewrite -E in Z *. case: m E Z {IH Hk} => // m [<-] Z. rewrite Z; last by lia. rewrite eqxx. lra.
    + rewrite IH; last by lia. case: eqP => [E'|_]; [congruence|lra].
Qed.

(** the sum of the first m terms of the exponential series, and the rest *)
Definition exp_start (m : nat) (a : R) : R := \sum_(k < m) Rmult (Rinv (INR (Factorial.fact k))) (pow a k).
Definition mexp_start n (m : nat) (A : 'M[R]_n) : 'M[R]_n := \sum_(k < m) Rinv (INR (Factorial.fact k)) *: mpow A k.

Definition head_sum (f : nat -> R) (m : nat) : R := \sum_(k < m) f k.
Lemma head_sumS f m : head_sum f m.+1 = Rplus (head_sum f m) (f m).
Proof. by rewrite /head_sum big_ord_recr. Qed.
Lemma infinite_sum_rest f l m : infinite_sum f l -> infinite_sum (fun k => if (k < m)%N then R0 else f k) (Rminus l (head_sum f m)).
Proof.
  move=> H. elim: m => [|m IH].
  - rewrite /head_sum big_ord0 -R0E Rminus_0_r. exact: (infinite_sum_ext _ H).
  - rewrite head_sumS (_ : Rminus l _ = Rplus (Rminus l (head_sum f m)) (Ropp (f m))); last by lra.
    apply: (infinite_sum_ext _ (infinite_sum_plus IH (infinite_sum_one m (Ropp (f m))))) => k.
    rewrite ltnS. case: (ltngtP k m) => [Hk|Hk|->] /=; rewrite ?ltnn ?eqxx; lra.
Qed.

Lemma exp_series a : infinite_sum (fun k => Rmult (Rinv (INR (Factorial.fact k))) (pow a k)) (exp a).
Proof. rewrite /exp. case: (exist_exp _) => x. exact. Qed.

Definition sg1 (x : R) : R := if Rle_dec 0 x then R1 else Ropp R1.
Lemma sg1_abs x : Rabs x = Rmult (sg1 x) x.
Proof. rewrite /sg1. case: Rle_dec => H /=; [rewrite Rabs_right; lra|rewrite Rabs_left; lra]. Qed.
Lemma sg1_1 x : Rabs (sg1 x) = R1.
Proof. rewrite /sg1. case: Rle_dec => H /=; by rewrite ?Rabs_Ropp Rabs_R1. Qed.
Lemma fact_pos k : Rlt 0 (Rinv (INR (Factorial.fact k))).
Proof. apply: Rinv_0_lt_compat. exact: INR_fact_lt_0. Qed.
Lemma bnd_exp n (A E : 'M[R]_n) a m : Rle 0 a -> rows_le A a -> is_exp A E -> rows_le (E - mexp_start m A) (Rminus (exp a) (exp_start m a)).
Proof.
  move=> Ha HA HE i. set D := E - mexp_start m A.
  rewrite /row_sum (eq_bigr _ (fun j _ => sg1_abs (D i j))).
  have S1 j := infinite_sum_mult (sg1 (D i j)) (infinite_sum_rest m (HE i j)).
  have S2 := infinite_sum_big S1.
  have S3 := infinite_sum_rest m (exp_series a).
  have -> : \sum_j Rmult (sg1 (D i j)) (D i j) = \sum_j Rmult (sg1 (D i j)) (Rminus (E i j) (head_sum (fun k => Rmult (Rinv (INR (Factorial.fact k))) (mpow A k i j)) m)).
  { apply: eq_bigr => j _. congr Rmult. rewrite /D /mexp_start !mxE /head_sum summxE. congr (_ - _). apply: eq_bigr => k _. by rewrite mxE. }
  apply: (series_le _ S2 S3) => k /=. case: ifP => Hk.
  - rewrite big1; first by right. move=> j _. exact: Rmult_0_r.
  - apply: (Rle_trans _ (Rmult (Rinv (INR (Factorial.fact k))) (row_sum (mpow A k) i))).
    + rewrite /row_sum RmultE big_distrr /=. apply: sum_le => j. rewrite -RmultE. apply: (Rle_trans _ _ _ (Rle_abs _)).
      rewrite !Rabs_mult sg1_1 Rmult_1_l. rewrite (Rabs_right (Rinv _)); first by right. apply: Rle_ge. left. exact: fact_pos.
    + apply: Rmult_le_compat_l; last exact: bnd_pow. left. exact: fact_pos.
Qed.
