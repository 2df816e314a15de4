(** Blocks of a matrix and block p-cyclic matrices. *)
From Coq Require Import ZArith List Reals Lia Lra.
From mathcomp Require Import all_ssreflect fingroup perm ssralg matrix mxalgebra.
From Verif Require Import Base BaseFacts Sums SumsFacts RealOps Blas BlasFacts RField MatSpec MatFacts TimeStepSpec TimeStepFacts
  GreenSpec GreenFacts  LapackFacts WindowFacts BlockCyclicSpec CyclicQRFacts CyclicTriFacts.
Set Implicit Arguments.
Unset Strict Implicit.
Unset Printing Implicit Defensive.
Local Open Scope ring_scope.
Import GRing.Theory.

Lemma unit_of_inj n (A : 'M[R]_n) : (forall v : 'M[R]_n, A *m v = 0 -> v = 0) -> A \in unitmx.
Proof.
  move=> H. rewrite -unitmx_tr -row_free_unit -kermx_eq0. apply/eqP.
  have E : A *m (kermx A^T)^T = 0 by apply: trmx_inj; rewrite trmx_mul trmxK mulmx_ker trmx0.
  by apply: trmx_inj; rewrite trmx0; apply: H.
Qed.

Section Blocks.
Variables (n p : nat).
Hypothesis Hn : (0 < n)%N.
Notation N := (n * p)%N.
Notation NZ := (Zn (n * p)%N).
Notation bo := (bo n).
Notation P a := (sel N n (bo a)).

Definition bk (A : 'M[R]_N) (a b : nat) : 'M[R]_n := P a *m A *m (P b)^T.

Lemma bk_mxf g a b : (a < p)%N -> (b < p)%N -> bk (mxf N N g) a b = blk n g a b.
Proof.
  move=> Ha Hb. have Wa := win1 (n := n) Ha. have Wb := win1 (n := n) Hb.
  rewrite /bk sel_mul //; last exact: bo_ge0. by rewrite mul_selT //; exact: bo_ge0.
Qed.

Lemma sel_sum : \sum_(a < p) ((P a)^T *m P a) = 1%:M.
Proof.
  apply/matrixP => r c. rewrite summxE.
  have E : forall a : 'I_p, ((P a)^T *m P a) r c = if inwin (bo a) (Zn n) (Zn r) then (r == c)%:R else 0.
  { move=> a. have Wa := win1 (n := n) (ltn_ord a). rewrite {2}/sel selT_mul // mxE.
    case: inwinP => // H. have -> : (bo a + (Zn r - bo a) = Zn r)%Z by lia.
    case: Z.eqb_spec => h; case: eqP => h' //.
    - exfalso. apply: h'. apply: val_inj => /=. lia.
    - exfalso. apply: h. by rewrite h'. }
  have [|a [Ha Hra]] := block_of Hn (r := Zn r) (p := p); first by have := ltn_ord r => /ltP; lia.
  rewrite (bigD1 (Ordinal Ha)) // E big1.
  - rewrite /= addr0 mxE. by case: inwinP.
  - move=> j Hj. rewrite E. case: inwinP => // H. exfalso. move/eqP: Hj. apply. apply: val_inj => /=. apply/eqP. rewrite eqn_leq.
    apply/andP; split; apply: (bo_inv (n := n)); lia.
Qed.

Lemma bk_mul A B a b : bk (A *m B) a b = \sum_(c < p) bk A a c *m bk B c b.
Proof.
  rewrite /bk -[in LHS](mulmx1 A) -sel_sum mulmx_sumr mulmx_suml !mulmx_sumr mulmx_suml.
  apply: eq_bigr => c _. by rewrite !mulmxA.
Qed.

Lemma bk_1 a b : (a < p)%N -> (b < p)%N -> bk 1%:M a b = if a == b then 1%:M else 0.
Proof.
  move=> Ha Hb. have Wa := win1 (n := n) Ha. have Wb := win1 (n := n) Hb. rewrite mxf_1 bk_mxf // /blk.
  case: eqP => [->|Hab].
  - rewrite mxf_1. apply: mxf_ext => i j Hi Hj. case: Z.eqb_spec => h; case: Z.eqb_spec => h' //; lia.
  - apply: mxf_zero => i j Hi Hj. case: Z.eqb_spec => h //. exfalso. apply: Hab. apply/eqP. rewrite eqn_leq.
    apply/andP; split; apply: (bo_inv (n := n)); lia.
Qed.

Lemma bk_ext A B : (forall a b, (a < p)%N -> (b < p)%N -> bk A a b = bk B a b) -> A = B.
Proof.
  move=> H. rewrite -[A]mul1mx -[A in LHS]mulmx1 -[B]mul1mx -[B in RHS]mulmx1 -sel_sum !mulmx_suml. apply: eq_bigr => a _.
  rewrite !mulmx_sumr. apply: eq_bigr => b _. have := H a b (ltn_ord a) (ltn_ord b). rewrite /bk => E.
  by rewrite -!mulmxA ![P a *m (_ *m _)]mulmxA ![P a *m _ *m (_ *m _)]mulmxA E.
Qed.

(** block p-cyclic matrix with identities on the diagonal, -F below and F in the upper right corner *)
Definition cyclic_mx (F : nat -> 'M[R]_n) (a b : nat) : 'M[R]_n :=
  if a == b then 1%:M else if a == b.+1 then - F b else if (a == 0%N) && (b == p.-1) then F b else 0.

Hypothesis Hp : (2 <= p)%N.
Variables (F : nat -> 'M[R]_n) (A : 'M[R]_N).
Hypothesis HA : forall a b, (a < p)%N -> (b < p)%N -> bk A a b = cyclic_mx F a b.

Lemma p1_lt : (p.-1 < p)%N. Proof. by rewrite prednK // (leq_trans _ Hp). Qed.
Lemma p1_S : p.-1.+1 = p. Proof. by rewrite prednK // (leq_trans _ Hp). Qed.

(** product with the matrix from the right *)
Lemma cyc_right (X : 'M[R]_N) a b : (a < p)%N -> (b.+1 < p)%N -> bk (X *m A) a b = bk X a b - bk X a b.+1 *m F b.
Proof.
  move=> Ha Hb. have Hb0 : (b < p)%N by exact: ltnW.
  rewrite bk_mul (bigD1 (Ordinal Hb0)) //= (bigD1 (Ordinal Hb)) /=; last by apply/eqP => /(congr1 val) /= /eqP; rewrite gtn_eqF.
  rewrite big1 ?addr0.
  - rewrite !HA // /cyclic_mx !eqxx mulmx1 gtn_eqF //. by rewrite mulmxN.
  - move=> c /andP [Hc1 Hc2]. rewrite HA //. rewrite /cyclic_mx.
    case: eqP => E1; first by case/eqP: Hc1; apply: val_inj. case: eqP => E2; first by case/eqP: Hc2; apply: val_inj.
    rewrite [b == _]ltn_eqF ?andbF ?mulmx0 //. by rewrite -ltnS p1_S.
Qed.
Lemma cyc_right_last (X : 'M[R]_N) a : (a < p)%N -> bk (X *m A) a p.-1 = bk X a p.-1 + bk X a 0 *m F p.-1.
Proof.
  move=> Ha. have H0 : (0 < p)%N by exact: ltnW.
  rewrite bk_mul (bigD1 (Ordinal p1_lt)) //= (bigD1 (Ordinal H0)) /=; last by apply/eqP => /(congr1 val) /= /eqP; rewrite ltn_eqF // -ltnS p1_S.
  rewrite big1 ?addr0.
  - rewrite !HA ?p1_lt // /cyclic_mx !eqxx mulmx1 ltn_eqF // -ltnS p1_S //.
  - move=> c /andP [Hc1 Hc2]. rewrite HA // ?p1_lt //. rewrite /cyclic_mx.
    case: eqP => E1; first by case/eqP: Hc1; apply: val_inj. rewrite p1_S [_ == p]ltn_eqF //.
    case: eqP => E2; first by case/eqP: Hc2; apply: val_inj. by rewrite mulmx0.
Qed.
(** and from the left *)
Lemma cyc_left (X : 'M[R]_N) a b : (a.+1 < p)%N -> (b < p)%N -> bk (A *m X) a.+1 b = bk X a.+1 b - F a *m bk X a b.
Proof.
  move=> Ha Hb. have Ha0 : (a < p)%N by exact: ltnW.
  rewrite bk_mul (bigD1 (Ordinal Ha)) //= (bigD1 (Ordinal Ha0)) /=; last by apply/eqP => /(congr1 val) /= /eqP; rewrite ltn_eqF.
  rewrite big1 ?addr0.
  - rewrite !HA // /cyclic_mx !eqxx mul1mx gtn_eqF //. by rewrite mulNmx.
  - move=> c /andP [Hc1 Hc2]. rewrite HA //. rewrite /cyclic_mx.
    case: eqP => E1; first by case/eqP: Hc1; apply: val_inj. case: eqP => [[E2]|_]; first by case/eqP: Hc2; apply: val_inj.
    by rewrite mul0mx.
Qed.
Lemma cyc_left_first (X : 'M[R]_N) b : (b < p)%N -> bk (A *m X) 0 b = bk X 0 b + F p.-1 *m bk X p.-1 b.
Proof.
  move=> Hb. have H0 : (0 < p)%N by exact: ltnW. have Hp1 : (0 < p.-1)%N by rewrite -ltnS p1_S.
  rewrite bk_mul (bigD1 (Ordinal H0)) //= (bigD1 (Ordinal p1_lt)) /=; last by apply/eqP => /(congr1 val) /= /eqP; rewrite gtn_eqF.
  rewrite big1 ?addr0.
  - rewrite !HA ?p1_lt // /cyclic_mx !eqxx mul1mx ltn_eqF //.
  - move=> c /andP [Hc1 Hc2]. rewrite HA //. rewrite /cyclic_mx.
    case: eqP => E1; first by case/eqP: Hc1; apply: val_inj. case: (nat_of_ord c =P p.-1) => E2; first by case/eqP: Hc2; apply: val_inj.
    by rewrite /= mul0mx.
Qed.

Lemma bk_0 a b : bk (0 : 'M[R]_N) a b = 0. Proof. by rewrite /bk mulmx0 mul0mx. Qed.

Section Prod.
Variables (M : nat -> 'M[R]_n) (L b : nat).
Hypothesis HF : forall a, (a < p)%N -> F a = oprod M (a * b) b.
Hypothesis HL : L = (p * b)%N.

Lemma oprod_block a : (a < p)%N -> F a *m oprod M 0 (a * b) = oprod M 0 (a.+1 * b).
Proof. move=> Ha. by rewrite HF // mulSn addnC oprod_cat add0n. Qed.
Lemma ab_le a : (a < p)%N -> (a * b + b <= L)%N.
Proof. move=> Ha. by rewrite HL addnC -mulSn leq_mul2r Ha orbT. Qed.

(** column [c] of a matrix whose product with A is zero away from the diagonal *)
Lemma col_down (X : 'M[R]_N) c a k : (c < p)%N -> (a + k < p)%N ->
  (forall d, (a < d <= a + k)%N -> bk (A *m X) d c = 0) -> bk X (a + k) c = oprod M (a * b) (k * b) *m bk X a c.
Proof.
  move=> Hc. elim: k => [|k IH] Hk HZ; first by rewrite addn0 mul0n oprod0 mul1mx.
  rewrite addnS. have Hk' : (a + k < p)%N by rewrite addnS in Hk; exact: ltnW.
  have HZ1 : bk (A *m X) (a + k).+1 c = 0 by apply: HZ; rewrite addnS leqnn andbT ltnS leq_addr.
  have Hk1 : ((a + k).+1 < p)%N by rewrite -addnS.
  move: HZ1. rewrite cyc_left // => /eqP. rewrite subr_eq0 => /eqP ->.
  rewrite IH //; last by move=> d /andP [H1 H2]; apply: HZ; rewrite H1 addnS ltnW.
  by rewrite mulmxA HF // mulSn [(b + _)%N]addnC oprod_cat mulnDl.
Qed.

Lemma cyc_unit : \det (1%:M + oprod M 0 L) != 0 -> A \in unitmx.
Proof.
  rewrite -unitfE -unitmxE => HU. apply: unit_of_inj => v Hv. apply: bk_ext => a c Ha Hc. rewrite bk_0.
  have HC : forall d, (d < p)%N -> bk v d c = oprod M 0 (d * b) *m bk v 0 c.
  { move=> d Hd. have := @col_down v c 0 d Hc. rewrite add0n mul0n. apply => // e _. by rewrite Hv bk_0. }
  have E : (1%:M + oprod M 0 L) *m bk v 0 c = 0.
  { have := cyc_left_first v Hc. rewrite Hv bk_0 (HC _ p1_lt) mulmxA oprod_block ?p1_lt // p1_S -HL => ->. by rewrite mulmxDl mul1mx. }
  rewrite HC //. have -> : bk v 0 c = invmx (1%:M + oprod M 0 L) *m ((1%:M + oprod M 0 L) *m bk v 0 c) by rewrite mulmxA mulVmx // mul1mx.
  by rewrite E !mulmx0.
Qed.

Variable X : 'M[R]_N.
Hypothesis HX : X *m A = 1%:M.

Lemma HX' : A *m X = 1%:M. Proof. exact: mulmx1C. Qed.
Lemma p_gt0 : (0 < p)%N. Proof. exact: ltnW. Qed.

Lemma inv_col a : (a < p)%N -> bk X a 0 = oprod M 0 (a * b) *m bk X 0 0.
Proof.
  move=> Ha. have := @col_down X 0 0 a p_gt0. rewrite add0n mul0n. apply => // d /andP [H1 H2].
  rewrite HX' bk_1 ?p_gt0 //; last exact: leq_ltn_trans Ha. by rewrite gtn_eqF.
Qed.
Lemma inv_00 : (1%:M + oprod M 0 L) *m bk X 0 0 = 1%:M.
Proof.
  have := cyc_left_first X p_gt0. rewrite HX' bk_1 ?p_gt0 // eqxx (inv_col p1_lt) mulmxA oprod_block ?p1_lt // p1_S -HL => /esym.
  by rewrite mulmxDl mul1mx.
Qed.
Lemma inv_row k : (0 < k < p)%N -> bk X 0 (p - k) = - (bk X 0 0 *m oprod M ((p - k) * b) (k * b)).
Proof.
  elim: k => [//|k IH] /andP [_ Hk]. case: (posnP k) => [->|Hk0].
  - rewrite mul1n subn1. have := cyc_right_last X p_gt0. rewrite HX bk_1 ?p_gt0 ?p1_lt // [0%N == _]ltn_eqF; last by rewrite -ltnS p1_S.
    move/esym/eqP. rewrite addr_eq0 => /eqP ->. by rewrite HF ?p1_lt.
  - have Hs : (p - k = (p - k.+1).+1)%N by rewrite subnSK // ltnW.
    have Hlt : ((p - k.+1).+1 < p)%N by rewrite -Hs ltn_subrL Hk0 p_gt0.
    have := cyc_right X p_gt0 Hlt. rewrite HX bk_1 ?p_gt0 //; last exact: ltnW. rewrite [0%N == _]ltn_eqF; last by rewrite subn_gt0.
    move/esym/eqP. rewrite subr_eq0 => /eqP ->. rewrite -Hs IH; last by rewrite Hk0 ltnW.
    rewrite mulNmx -mulmxA HF; last exact: ltnW. by rewrite mulSn oprod_cat Hs mulSn [(b + _ * b)%N]addnC.
Qed.
Lemma inv_row' a : (0 < a < p)%N -> bk X 0 a = - (bk X 0 0 *m oprod M (a * b) (L - a * b)).
Proof.
  move=> /andP [H1 H2]. have := @inv_row (p - a). rewrite subKn; last exact: ltnW. rewrite mulnBl -HL => -> //.
  by rewrite subn_gt0 H2 ltn_subrL H1 p_gt0.
Qed.
Lemma inv_diag a : (a < p)%N -> (1%:M + cyclic_flow M L (a * b)) *m bk X a a = 1%:M.
Proof.
  move=> Ha. case: (posnP a) => [->|H0].
  - by rewrite /cyclic_flow mul0n subn0 oprod0 mul1mx inv_00.
  - have Ha1 : (a.-1.+1 = a)%N by rewrite prednK. have Ha2 : (a.-1 < p)%N by rewrite (leq_trans _ Ha) // Ha1.
    have Hz : forall d, (d < p)%N -> d != a -> bk (A *m X) d a = 0 by move=> d Hd Hda; rewrite HX' bk_1 // (negbTE Hda).
    have E1 : bk X p.-1 a = oprod M (a * b) ((p.-1 - a) * b) *m bk X a a.
    { have Hpa : (a <= p.-1)%N by rewrite -ltnS p1_S. have := @col_down X a a (p.-1 - a) Ha. rewrite subnKC //. apply; first exact: p1_lt.
      move=> d /andP [h1 h2]. apply: Hz; first exact: leq_ltn_trans p1_lt. by rewrite gtn_eqF. }
    have E2 : bk X a.-1 a = oprod M 0 (a.-1 * b) *m bk X 0 a.
    { have := @col_down X a 0 a.-1 Ha. rewrite add0n mul0n. apply => // d /andP [h1 h2]. apply: Hz; first exact: leq_ltn_trans Ha2.
      by rewrite ltn_eqF // -Ha1 ltnS. }
    have E3 : bk X 0 a = - (oprod M (a * b) (L - a * b) *m bk X a a).
    { have := cyc_left_first X Ha. rewrite Hz ?p_gt0 //; last by rewrite ltn_eqF. move/esym/eqP. rewrite addr_eq0 => /eqP ->.
      rewrite E1 mulmxA HF ?p1_lt //. congr (- (_ *m _)).
      have -> : (L - a * b = (p.-1 - a) * b + b)%N.
      { rewrite HL -{1}p1_S mulSn [(b + _)%N]addnC mulnBl addnBAC // leq_mul2r. by rewrite -ltnS p1_S Ha orbT. }
      rewrite oprod_cat. congr (oprod M _ _ *m _). rewrite -mulnDl subnKC // -ltnS p1_S //. }
    have := @cyc_left X a.-1 a. rewrite Ha1 => /(_ Ha Ha). rewrite HX' bk_1 // eqxx E2 mulmxA oprod_block // Ha1 E3 mulmxN opprK.
    move/esym. by rewrite mulmxDl mul1mx /cyclic_flow mulmxA.
Qed.
End Prod.
End Blocks.
