(** Wick's theorem for traces with a second quantised map. *)
From mathcomp Require Import all_ssreflect fingroup perm ssralg matrix.
From Verif Require Import FockSpec FockFacts.
Set Implicit Arguments.
Unset Strict Implicit.
Unset Printing Implicit Defensive.
Local Open Scope ring_scope.
Import GRing.Theory.

Section Wick.
Variables (K : comRingType) (m : nat).
Notation op := 'M[K]_(fdim m).
Notation cr := (@create K m).
Notation an := (@annihilate K m).
Variables (A G : 'M[K]_m).
Hypothesis HG : G *m (1%:M + A) = 1%:M.
Notation rho := (second A).
Notation Z := (\tr rho).

Lemma tr_sum (I : finType) n (F : I -> 'M[K]_n) : \tr (\sum_i F i) = \sum_i \tr (F i).
Proof. by rewrite raddf_sum. Qed.

Lemma tr_move (Y : op) a : \tr (rho *m (cr a *m Y)) = \sum_x \tr (rho *m (Y *m cr x)) * A x a.
Proof.
  rewrite mulmxA second_cr -mulmxA mxtrace_mulC -mulmxA /cra mulmx_sumr mulmx_sumr tr_sum. apply: eq_bigr => x _.
  by rewrite -!scalemxAr mxtraceZ mulrC.
Qed.

Definition anti (x : 'I_m) (Y : op) : op := cr x *m Y + Y *m cr x.

Lemma wick_right (Y : op) a : \tr (rho *m (Y *m cr a)) = \sum_x \tr (rho *m anti x Y) * G x a.
Proof.
  set V := \row_x \tr (rho *m (Y *m cr x)). set E := \row_x \tr (rho *m anti x Y).
  have H : V *m (1%:M + A) = E.
  { apply/rowP => x. rewrite mulmxDr mulmx1 !mxE /anti mulmxDr mxtraceD addrC tr_move. congr (_ + _).
    apply: eq_bigr => y _. by rewrite !mxE. }
  have -> : \tr (rho *m (Y *m cr a)) = (E *m G) ord0 a.
  { rewrite -H -mulmxA (mulmx1C HG) mulmx1 mxE. by []. }
  rewrite mxE. apply: eq_bigr => x _. by rewrite mxE.
Qed.

Lemma wick_left (Y : op) a : \tr (rho *m (cr a *m Y)) = \sum_x \tr (rho *m anti x Y) * (1%:M - G) x a.
Proof.
  have -> : cr a *m Y = anti a Y - Y *m cr a by rewrite /anti addrK.
  rewrite mulmxBr raddfB /= wick_right. under [RHS]eq_bigr do rewrite !mxE mulrBr. rewrite sumrB. congr (_ - _).
  rewrite (bigD1 a) //= eqxx mulr1 big1 ?addr0 // => x /negbTE ->. by rewrite mulr0.
Qed.

Lemma sum_delta (b : 'I_m) (f : 'I_m -> K) : \sum_x (x == b)%:R * f x = f b.
Proof. rewrite (bigD1 b) //= eqxx mul1r big1 ?addr0 // => x /negbTE ->. by rewrite mul0r. Qed.

Lemma two_point a b : \tr (rho *m (an a *m cr b)) = Z * G a b.
Proof.
  rewrite wick_right -(sum_delta a (fun x => Z * G x b)). apply: eq_bigr => x _.
  rewrite /anti car_ca mul_mx_scalar mxtraceZ mulrA. by [].
Qed.

Lemma two_point' a b : \tr (rho *m (cr a *m an b)) = Z * (1%:M - G) b a.
Proof.
  rewrite wick_left -(sum_delta b (fun x => Z * (1%:M - G) x a)). apply: eq_bigr => x _.
  rewrite /anti car_ca mul_mx_scalar mxtraceZ mulrA. by [].
Qed.

Lemma cr_an x b : cr x *m an b = (x == b)%:R%:M - an b *m cr x.
Proof. by rewrite -car_ca addrK. Qed.

Lemma anti_acd x b c d : anti x (an b *m (cr c *m an d)) = (x == b)%:R *: (cr c *m an d) + (x == d)%:R *: (an b *m cr c).
Proof.
  rewrite /anti mulmxA cr_an mulmxBl mul_scalar_mx -!mulmxA -addrA. congr (_ + _).
  rewrite [an d *m cr x](_ : _ = (x == d)%:R%:M - cr x *m an d); last by rewrite -car_ca addrAC subrr add0r.
  rewrite !mulmxBr mul_mx_scalar -scalemxAr. rewrite addrC -addrA.
  rewrite (mulmxA (cr x)) car_cc mulNmx mulmxN opprK -!mulmxA. by rewrite addNr addr0.
Qed.

Lemma four_point a b c d : \tr (rho *m (cr a *m (an b *m (cr c *m an d)))) =
  Z * ((1%:M - G) b a * (1%:M - G) d c + (1%:M - G) d a * G b c).
Proof.
  rewrite wick_left. under eq_bigr do rewrite anti_acd mulmxDr mxtraceD -!scalemxAr !mxtraceZ two_point two_point' mulrDl -!mulrA.
  rewrite big_split /= !sum_delta. rewrite mulrDr. congr (_ + _); congr (_ * _); by rewrite mulrC.
Qed.

Lemma an_an a b : an a *m an b = - (an b *m an a).
Proof. apply: trmx_inj. by rewrite linearN /= !trmx_mul !trmxK car_cc. Qed.

Lemma anti_aac x a b d : anti x (an a *m (an b *m cr d)) = (x == a)%:R *: (an b *m cr d) - (x == b)%:R *: (an a *m cr d).
Proof.
  rewrite /anti mulmxA cr_an mulmxBl mul_scalar_mx -!mulmxA -addrA. congr (_ + _).
  rewrite (mulmxA (cr x)) cr_an mulmxBl mulmxBr mul_scalar_mx -scalemxAr opprB.
  rewrite -!mulmxA (car_cc _ x d) !mulmxN. rewrite addrC addrA subrr add0r. by [].
Qed.

Lemma pair_point a b c d : \tr (rho *m (an a *m (an b *m (cr d *m cr c)))) =
  Z * (G a c * G b d - G a d * G b c).
Proof.
  rewrite (_ : an a *m _ = an a *m (an b *m cr d) *m cr c); last by rewrite !mulmxA.
  rewrite wick_right. under eq_bigr do rewrite anti_aac mulmxBr raddfB /= -!scalemxAr !mxtraceZ !two_point mulrBl -!mulrA.
  rewrite sumrB !sum_delta mulrBr. congr (_ - _); congr (_ * _). by rewrite mulrC.
Qed.
End Wick.

(** ** operators at different times *)
Section Times.
Variables (K : comRingType) (m : nat).
Notation op := 'M[K]_(fdim m).
Notation cr := (@create K m).
Notation an := (@annihilate K m).
Variables (M1 M2 N1 G : 'M[K]_m).
Hypothesis HN : N1 *m M1 = 1%:M.
Hypothesis HG : G *m (1%:M + M2 *m M1) = 1%:M.
Notation Z := (\tr (second (M2 *m M1))).

Lemma cr_second a : cr a *m second M1 = second M1 *m cra N1 a.
Proof.
  rewrite /cra mulmx_sumr. under eq_bigr do rewrite -scalemxAr second_cr scalemxAl.
  by rewrite -mulmx_suml -cra_mul (mulmx1C HN) cra1.
Qed.

Lemma GM2 : (1%:M - G) *m N1 = G *m M2.
Proof.
  have -> : 1%:M - G = G *m M2 *m M1 by rewrite -HG mulmxDr mulmx1 addrC addKr mulmxA.
  by rewrite -mulmxA (mulmx1C HN) mulmx1.
Qed.

Lemma sum2 (I J : finType) (f : I -> J -> op) (X : op) : \tr (X *m \sum_i \sum_j f i j) = \sum_i \sum_j \tr (X *m f i j).
Proof. rewrite mulmx_sumr tr_sum. apply: eq_bigr => i _. by rewrite mulmx_sumr tr_sum. Qed.

Lemma bil_second a b : cr a *m an b *m second M1 = second M1 *m (\sum_x \sum_y (N1 x a * M1 b y) *: (cr x *m an y)).
Proof.
  rewrite -mulmxA an_second mulmxA cr_second -mulmxA. congr (_ *m _). rewrite /cra /ana mulmx_suml. apply: eq_bigr => x _.
  rewrite mulmx_sumr. apply: eq_bigr => y _. by rewrite -scalemxAl -scalemxAr scalerA.
Qed.
Lemma pair_second a b : an a *m an b *m second M1 = second M1 *m (\sum_x \sum_y (M1 a x * M1 b y) *: (an x *m an y)).
Proof.
  rewrite -mulmxA an_second mulmxA an_second -mulmxA. congr (_ *m _). rewrite /ana mulmx_suml. apply: eq_bigr => x _.
  rewrite mulmx_sumr. apply: eq_bigr => y _. by rewrite -scalemxAl -scalemxAr scalerA.
Qed.

Lemma conj_entry (B : 'M[K]_m) a b : (M1 *m B *m N1) b a = \sum_x \sum_y N1 x a * M1 b y * B y x.
Proof.
  rewrite mxE. apply: eq_bigr => x _. rewrite mxE mulr_suml. apply: eq_bigr => y _. by rewrite mulrC mulrA.
Qed.

Lemma tau_expect a b : \tr (second M2 *m (cr a *m an b) *m second M1) = Z * (1%:M - M1 *m G *m N1) b a.
Proof.
  rewrite -mulmxA bil_second mulmxA -second_mul sum2.
  have -> : 1%:M - M1 *m G *m N1 = M1 *m (1%:M - G) *m N1 by rewrite mulmxBr mulmxBl mulmx1 (mulmx1C HN).
  rewrite conj_entry mulr_sumr. apply: eq_bigr => x _. rewrite mulr_sumr. apply: eq_bigr => y _.
  by rewrite -scalemxAr mxtraceZ (two_point' HG) mulrCA.
Qed.

Lemma tau_corr a b c d : \tr (second M2 *m (cr a *m an b) *m second M1 *m (cr c *m an d)) =
  Z * ((1%:M - M1 *m G *m N1) b a * (1%:M - G) d c + (G *m M2) d a * (M1 *m G) b c).
Proof.
  rewrite -(mulmxA (second M2)) bil_second (mulmxA (second M2)) -second_mul -mulmxA mulmx_suml.
  under eq_bigr do rewrite mulmx_suml. rewrite sum2.
  have -> : 1%:M - M1 *m G *m N1 = M1 *m (1%:M - G) *m N1 by rewrite mulmxBr mulmxBl mulmx1 (mulmx1C HN).
  rewrite conj_entry -GM2 [((1%:M - G) *m N1) d a]mxE [(M1 *m G) b c]mxE.
  rewrite [X in _ * (X + _)]mulr_suml [X in _ * (_ + X)]mulr_suml -big_split mulr_sumr /=. apply: eq_bigr => x _.
  rewrite [X in _ * (X + _)]mulr_suml [X in _ * (_ + X)]mulr_sumr -big_split mulr_sumr /=. apply: eq_bigr => y _.
  rewrite -scalemxAl -scalemxAr mxtraceZ -!mulmxA (four_point HG) mulrCA. congr (_ * _).
  rewrite mulrDr mulrA. congr (_ + _). rewrite [(1%:M - G) d x * N1 x a]mulrC -!mulrA. congr (_ * _). by rewrite mulrCA.
Qed.

Lemma tau_pair a b c d : \tr (second M2 *m (an a *m an b) *m second M1 *m (cr d *m cr c)) =
  Z * ((M1 *m G) a c * (M1 *m G) b d - (M1 *m G) a d * (M1 *m G) b c).
Proof.
  rewrite -(mulmxA (second M2)) pair_second (mulmxA (second M2)) -second_mul -mulmxA mulmx_suml.
  under eq_bigr do rewrite mulmx_suml. rewrite sum2.
  rewrite ![(M1 *m G) _ _]mxE [X in _ * (X - _)]mulr_suml [X in _ * (_ - X)]mulr_suml -sumrB mulr_sumr /=. apply: eq_bigr => x _.
  rewrite [X in _ * (X - _)]mulr_sumr [X in _ * (_ - X)]mulr_sumr -sumrB mulr_sumr /=. apply: eq_bigr => y _.
  rewrite -scalemxAl -scalemxAr mxtraceZ -!mulmxA (pair_point HG) mulrCA. congr (_ * _).
  rewrite mulrBr -!mulrA. congr (_ - _); congr (_ * _); by rewrite mulrCA.
Qed.
Lemma tau_green a b : \tr (second M2 *m an a *m second M1 *m cr b) = Z * (M1 *m G) a b.
Proof.
  rewrite -(mulmxA (second M2)) an_second (mulmxA (second M2)) -second_mul -mulmxA /ana mulmx_suml mulmx_sumr tr_sum mxE mulr_sumr.
  apply: eq_bigr => x _. by rewrite -scalemxAl -scalemxAr mxtraceZ (two_point HG) mulrCA.
Qed.
Lemma tau_green' a b : \tr (second M2 *m cr a *m second M1 *m an b) = Z * (G *m M2) b a.
Proof.
  rewrite -(mulmxA (second M2)) cr_second (mulmxA (second M2)) -second_mul -mulmxA /cra mulmx_suml mulmx_sumr tr_sum -GM2 mxE mulr_sumr.
  apply: eq_bigr => x _. by rewrite -scalemxAl -scalemxAr mxtraceZ (two_point' HG) mulrCA [N1 x a * _]mulrC.
Qed.
End Times.
