(** The error of a product of exponentials. *)
From Coq Require Import Reals Lra Lia Psatz.
From mathcomp Require Import all_ssreflect ssralg matrix.
From Coquelicot Require Import Coquelicot.
From Verif Require Import RField RClosed Spectral MatSpec MatFacts KineticExpSpec KineticExpFacts TrotterPos TrotterSpec TrotterNorm.
Set Implicit Arguments.
Unset Strict Implicit.
Unset Printing Implicit Defensive.
Local Open Scope ring_scope.
Import GRing.Theory.

Ltac eqR := match goal with |- @eq _ ?a ?b => change (@eq R a b) end.

(** elementary estimates *)
Lemma exp_rest2 c : Rle 0 c -> Rle (exp c - 1 - c)%coqR (c * c * exp c)%coqR.
Proof.
  move=> Hc. have H1 : Rle (1 - c)%coqR (exp (- c)) by have := exp_ineq1_le (- c); lra.
  have H2 : (exp c * exp (- c) = 1)%coqR by rewrite -exp_plus Rplus_opp_r exp_0.
  have H3 := exp_pos c. have H4 : Rle (exp c * (1 - c))%coqR 1 by rewrite -H2; apply: Rmult_le_compat_l; lra.
  nra.
Qed.
Lemma exp_rest3 c : Rle 0 c -> Rle (exp c - 1 - c - c * c / 2)%coqR (c * c * c * exp c)%coqR.
Proof.
  move=> Hc.
  pose h x := ((1 + x + x * x / 2) * exp (- x) + x * x * x - 1)%coqR.
  have Hh : Rle 0 (h c).
  { have E0 : h 0%coqR = 0%coqR by rewrite /h Ropp_0 exp_0; lra.
    case: (MVT_gen h 0 c (fun x => (- (x * x / 2) * exp (- x) + 3 * (x * x))%coqR)).
    - move=> x _. rewrite /h. auto_derive => //. field.
    - move=> x _. apply (proj2 (continuity_pt_filterlim _ _)). apply: (ex_derive_continuous (V := R_NormedModule)). rewrite /h. by auto_derive.
    - move=> x []. rewrite E0 Rmin_left // Rmax_right // => Hx. rewrite !Rminus_0_r => ->. apply: Rmult_le_pos => //.
      have : Rle (exp (- x)) 1. { rewrite -exp_0. case: (Req_dec x 0) => [->|Hn]; first by rewrite Ropp_0; right. left. apply: exp_increasing. lra. }
      have := exp_pos (- x). nra. }
  have H2 : (exp c * exp (- c) = 1)%coqR by rewrite -exp_plus Rplus_opp_r exp_0.
  have H3 := exp_pos c. have : Rle 0 (exp c * h c)%coqR by apply: Rmult_le_pos; lra.
  have -> : (exp c * h c = (1 + c + c * c / 2) * (exp c * exp (- c)) + exp c * (c * c * c) - exp c)%coqR by rewrite /h; ring.
  rewrite H2. lra.
Qed.

(** first terms of the exponential *)
Lemma mpow2 n (A : 'M[R]_n) : mpow A 2 = A *m A.
Proof. by rewrite mpowS mpow1. Qed.
Section Terms.
Variables (n : nat) (A E : 'M[R]_n) (a : R).
Hypotheses (Ha : Rle 0 a) (HA : rows_le A a) (HE : is_exp A E).
Lemma exp_b0 : rows_le E (exp a).
Proof.
  have := bnd_exp 0 Ha HA HE. rewrite /mexp_start /exp_start !big_ord0 subr0. by rewrite (_ : Rminus (exp a) _ = exp a) //; exact: Rminus_0_r.
Qed.
Lemma fact01 : Rinv (INR (Factorial.fact 0)) = R1 /\ Rinv (INR (Factorial.fact 1)) = R1 /\ Rinv (INR (Factorial.fact 2)) = Rdiv 1 2.
Proof. split; [|split]; rewrite /=; lra. Qed.
Lemma exp_b1 : rows_le (E - 1%:M) (exp a - 1)%coqR.
Proof.
  have := bnd_exp 1 Ha HA HE. rewrite /mexp_start /exp_start !big_ord_recr !big_ord0 /= !add0r Rinv_1 scale1r.
  congr rows_le. congr Rminus. exact: Rmult_1_l.
Qed.
Lemma exp_b2 : rows_le (E - 1%:M - A) (exp a - 1 - a)%coqR.
Proof.
  have := bnd_exp 2 Ha HA HE. rewrite /mexp_start /exp_start !big_ord_recr !big_ord0 /= !add0r !Rinv_1 ?mpow0 ?mpow1 ?mulmx1 !scale1r opprD addrA.
  congr rows_le. rewrite -!RplusE. ring.
Qed.
Lemma exp_b3 : rows_le (E - 1%:M - A - Rdiv 1 2 *: (A *m A)) (exp a - 1 - a - a * a / 2)%coqR.
Proof.
  have := bnd_exp 3 Ha HA HE. rewrite /mexp_start /exp_start !big_ord_recr !big_ord0 /= !add0r !Rinv_1 ?mpow0 ?mpow1 ?mpow2 ?mulmx1 !scale1r !opprD !addrA.
  have -> : Rinv (1 + 1)%coqR = Rdiv 1 2 by lra.
  congr rows_le. rewrite -!RplusE. field.
Qed.
End Terms.

Section Product.
Variables (n : nat) (A B EA EB E : 'M[R]_n) (a b : R).
Hypotheses (Ha : Rle 0 a) (Hb : Rle 0 b) (HA : rows_le A a) (HB : rows_le B b).
Hypotheses (XA : is_exp A EA) (XB : is_exp B EB) (XE : is_exp (A + B) E).
Let c := Rplus a b.
Lemma c_pos : Rle 0 c. Proof. rewrite /c. lra. Qed.
Lemma c_bound : rows_le (A + B) c. Proof. exact: bnd_add. Qed.
Lemma exp1_pos x : Rle 0 x -> Rle 0 (exp x - 1)%coqR.
Proof. move=> H. have := exp_ineq1_le x. lra. Qed.
Lemma exp2_pos x : Rle 0 x -> Rle 0 (exp x - 1 - x)%coqR.
Proof. move=> H. have := exp_ineq1_le x. lra. Qed.

Lemma product_bound : rows_le (EA *m EB) (exp c).
Proof. rewrite /c exp_plus. apply: bnd_mul; [left; exact: exp_pos|exact: exp_b0|exact: exp_b0]. Qed.

Lemma product_error : rows_le (EA *m EB - E) (2 * (c * c * exp c))%coqR.
Proof.
  have -> : EA *m EB - E = (EA - 1%:M) *m (EB - 1%:M) + (EA - 1%:M - A) + (EB - 1%:M - B) - (E - 1%:M - (A + B)).
  { rewrite mulmxBl !mulmxBr !mul1mx !mulmx1 !opprD !opprK !addrA.
    apply/matrixP => i j. rewrite !mxE. set x := \sum_k _. move: x (EA i j) (EB i j) (E i j) (A i j) (B i j) ((i == j)%:R : R) => x x1 x2 x3 x4 x5 x6.
    rewrite -!RplusE -!RoppE. eqR. ring. }
  apply: bnd_mono (bnd_sub (bnd_add (bnd_add (bnd_mul _ (exp_b1 Ha HA XA) (exp_b1 Hb HB XB)) (exp_b2 Ha HA XA)) (exp_b2 Hb HB XB)) (exp_b2 c_pos c_bound XE)) _.
  - exact: exp1_pos.
  - have := exp_rest2 c_pos. have : exp c = Rmult (exp a) (exp b) by rewrite /c exp_plus.
    move: (exp a) (exp b) (exp c) (c * c * exp c)%coqR => x y z w -> H.
    rewrite (_ : Rplus _ _ = (2 * (x * y - 1 - c))%coqR); first lra. rewrite /c. ring.
Qed.

(** the product in both orders *)
Lemma product_rest : rows_le (EA *m EB - (1%:M + A + B + Rdiv 1 2 *: (A *m A) + Rdiv 1 2 *: (B *m B) + A *m B)) (exp c - 1 - c - c * c / 2)%coqR.
Proof.
  have -> : EA *m EB - (1%:M + A + B + Rdiv 1 2 *: (A *m A) + Rdiv 1 2 *: (B *m B) + A *m B) =
     (EA - 1%:M - A - Rdiv 1 2 *: (A *m A)) + (EB - 1%:M - B - Rdiv 1 2 *: (B *m B)) + (EA - 1%:M - A) *m (EB - 1%:M) + A *m (EB - 1%:M - B).
  { rewrite !mulmxBl !mulmxBr !mul1mx !mulmx1.
    move: (EA *m EB) (A *m EB) (A *m A) (B *m B) (A *m B) => W1 W2 W3 W4 W5. apply/matrixP => i j. rewrite !mxE.
    move: (W1 i j) (W2 i j) (W3 i j) (W4 i j) (W5 i j) (EA i j) (EB i j) (A i j) (B i j) ((i == j)%:R : R) => y1 y2 y3 y4 y5 x1 x2 x4 x5 x6.
    rewrite -!RplusE -!RoppE -!RmultE. eqR. ring. }
  apply: bnd_mono (bnd_add (bnd_add (bnd_add (exp_b3 Ha HA XA) (exp_b3 Hb HB XB)) (bnd_mul _ (exp_b2 Ha HA XA) (exp_b1 Hb HB XB))) (bnd_mul _ HA (exp_b2 Hb HB XB))) _.
  - exact: exp1_pos.
  - exact: exp2_pos.
  - right. rewrite /c exp_plus. field.
Qed.
End Product.

Lemma symmetric_error n (A B EA EB E : 'M[R]_n) a b : Rle 0 a -> Rle 0 b -> rows_le A a -> rows_le B b ->
  is_exp A EA -> is_exp B EB -> is_exp (A + B) E -> let c := Rplus a b in
  rows_le (EA *m EB + EB *m EA - 2%:R *: E) (4 * (c * c * c * exp c))%coqR.
Proof.
  move=> Ha Hb HA HB XA XB XE c.
  have P1 := product_rest Ha Hb HA HB XA XB. have P2 := product_rest Hb Ha HB HA XB XA.
  have Hc : Rle 0 c by rewrite /c; lra. have P3 := exp_b3 Hc (bnd_add HA HB) XE. have P4 := bnd_scale 2%:R P3.
  have H := bnd_sub (bnd_add P1 P2) P4.
  have -> : EA *m EB + EB *m EA - 2%:R *: E =
    EA *m EB - (1%:M + A + B + Rdiv 1 2 *: (A *m A) + Rdiv 1 2 *: (B *m B) + A *m B) +
    (EB *m EA - (1%:M + B + A + Rdiv 1 2 *: (B *m B) + Rdiv 1 2 *: (A *m A) + B *m A)) -
    2%:R *: (E - 1%:M - (A + B) - Rdiv 1 2 *: ((A + B) *m (A + B))).
  { rewrite mulmxDl !mulmxDr. move: (EA *m EB) (EB *m EA) (A *m A) (B *m B) (A *m B) (B *m A) => W1 W2 W3 W4 W5 W6. apply/matrixP => i j. rewrite !mxE.
    move: (W1 i j) (W2 i j) (W3 i j) (W4 i j) (W5 i j) (W6 i j) (E i j) (A i j) (B i j) ((i == j)%:R : R) => y1 y2 y3 y4 y5 y6 z1 z2 z3 z4.
    rewrite (_ : 2%:R = 2%coqR :> R); last by rewrite mulr2n -RplusE -R1E; lra.
    rewrite -!RplusE -!RoppE -!RmultE. eqR. field. }
  apply: bnd_mono H _. rewrite (_ : 2%:R = 2%coqR :> R); last by rewrite mulr2n -RplusE -R1E; lra.
  rewrite Rabs_right; last by lra. have := exp_rest3 Hc. rewrite (Rplus_comm b a) -/c. lra.
Qed.
