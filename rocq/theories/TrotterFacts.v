(** The error of expectation values with the Trotter product. *)
From Coq Require Import ZArith Reals Lra Lia Psatz.
From mathcomp Require Import all_ssreflect ssralg matrix.
From Verif Require Import RField RClosed Spectral MatSpec MatFacts KineticExpSpec KineticExpFacts TrotterPos TrotterSpec TrotterNorm TrotterBound.
Set Implicit Arguments.
Unset Strict Implicit.
Unset Printing Implicit Defensive.
Local Open Scope ring_scope.
Import GRing.Theory.

(** powers *)
Section Powers.
Variables (n : nat) (Y : 'M[R]_n) (e d : R).
Hypotheses (He : Rle 1 e) (Hd : Rle 0 d) (BY : rows_le Y e).
Lemma e_pos k : Rle 1 (pow e k). Proof. exact: pow_R1_Rle. Qed.
Lemma bnd_powe (X : 'M[R]_n) k : rows_le X e -> rows_le (mpow X k) (pow e k).
Proof. apply: bnd_pow. lra. Qed.
Lemma pow_diff (X : 'M[R]_n) k : rows_le X e -> rows_le (X - Y) d -> rows_le (mpow X k - mpow Y k) (INR k * d * pow e k)%coqR.
Proof.
  move=> BX BD. elim: k => [|k IH].
  - rewrite !mpow0 subrr. move=> i. rewrite /row_sum big1; first by rewrite Rmult_0_l Rmult_0_l; right. move=> j _. rewrite mxE. exact: Rabs_R0.
  - have -> : mpow X k.+1 - mpow Y k.+1 = X *m (mpow X k - mpow Y k) + (X - Y) *m mpow Y k.
    { by rewrite !mpowS mulmxBr mulmxBl addrA subrK. }
    apply: bnd_mono (bnd_add (bnd_mul _ BX IH) (bnd_mul _ BD (bnd_powe k BY))) _.
    + apply: Rmult_le_pos; [apply: Rmult_le_pos => //; exact: pos_INR|have := e_pos k; lra].
    + have := e_pos k. lra.
    + rewrite S_INR [pow e k.+1]/=. have := e_pos k. have := pos_INR k. move: (INR k) (pow e k) => x y H1 H2.
      have : Rle 0 (d * y * (e - 1))%coqR by apply: Rmult_le_pos; [apply: Rmult_le_pos|]; lra. lra.
Qed.
Lemma pow_diff2 (X1 X2 : 'M[R]_n) d3 k : Rle 0 d3 -> rows_le X1 e -> rows_le X2 e -> rows_le (X1 - Y) d -> rows_le (X2 - Y) d -> rows_le (X1 + X2 - 2%:R *: Y) d3 ->
  rows_le (mpow X1 k + mpow X2 k - 2%:R *: mpow Y k) ((INR k * d3 + INR k * INR k * (d * d)) * pow e k)%coqR.
Proof.
  move=> H3 B1 B2 D1 D2 D3. elim: k => [|k IH].
  - rewrite !mpow0 scaler_nat mulr2n subrr. move=> i. rewrite /row_sum big1; first by rewrite !Rmult_0_l Rplus_0_l Rmult_0_l; right. move=> j _. rewrite mxE. exact: Rabs_R0.
  - have -> : mpow X1 k.+1 + mpow X2 k.+1 - 2%:R *: mpow Y k.+1 =
      Y *m (mpow X1 k + mpow X2 k - 2%:R *: mpow Y k) + (X1 + X2 - 2%:R *: Y) *m mpow Y k + (X1 - Y) *m (mpow X1 k - mpow Y k) + (X2 - Y) *m (mpow X2 k - mpow Y k).
    { rewrite !mpowS. move: (mpow X1 k) (mpow X2 k) (mpow Y k) => P1 P2 P.
      rewrite !mulmxBr !mulmxBl !mulmxDr !mulmxDl ?mulmxBr -?scalemxAl -?scalemxAr.
      move: (Y *m P1) (Y *m P2) (Y *m P) (X1 *m P) (X2 *m P) (X1 *m P1) (X2 *m P2) => W1 W2 W3 W4 W5 W6 W7.
      apply/matrixP => i j. rewrite !mxE. move: (W1 i j) (W2 i j) (W3 i j) (W4 i j) (W5 i j) (W6 i j) (W7 i j) => w1 w2 w3 w4 w5 w6 w7.
      rewrite (_ : 2%:R = 2%coqR :> R); last by rewrite mulr2n -RplusE -R1E; lra.
      rewrite -!RplusE -!RoppE -!RmultE. eqR. ring. }
    have Pe := e_pos k. have Pk := pos_INR k.
    have P1 : Rle 0 (INR k * d * pow e k)%coqR by apply: Rmult_le_pos; [apply: Rmult_le_pos|lra].
    have P2 : Rle 0 (d * d)%coqR by apply: Rmult_le_pos.
    have P3 : Rle 0 (INR k * d3 + INR k * INR k * (d * d))%coqR.
    { apply: Rplus_le_le_0_compat; apply: Rmult_le_pos => //. exact: Rmult_le_pos. }
    apply: bnd_mono (bnd_add (bnd_add (bnd_add (bnd_mul _ BY IH) (bnd_mul _ D3 (bnd_powe k BY))) (bnd_mul P1 D1 (pow_diff k B1 D1))) (bnd_mul P1 D2 (pow_diff k B2 D2))) _.
    + apply: Rmult_le_pos => //. lra.
    + lra.
    + rewrite S_INR [pow e k.+1]/=. move: (INR k) (pow e k) Pe Pk {IH P1} P3 => x y H1 H2 P3.
      have : Rle 0 ((d3 + (2 * x + 1) * (d * d)) * y * (e - 1))%coqR.
      { apply: Rmult_le_pos; last lra. apply: Rmult_le_pos; last lra. apply: Rplus_le_le_0_compat => //. apply: Rmult_le_pos => //. lra. }
      have : Rle 0 (d * d * y)%coqR by apply: Rmult_le_pos => //; lra. lra.
Qed.
End Powers.

(** exponentials of symmetric matrices *)
Lemma sym_exp_ex n (A : 'M[R]_n) : A^T = A -> exists E, is_exp A E.
Proof. move=> HA. have [U [d [HU ->]]] := @spectral R_rcfType n A HA. exists (expd U d U^T). exact: is_exp_expd. Qed.
Lemma sym_exp_sym n (A E : 'M[R]_n) : A^T = A -> is_exp A E -> E^T = E.
Proof.
  move=> HA HE. have [H [TH [_ ->]]] := exp_sqrt HA HE. by rewrite trmx_mul TH.
Qed.
Lemma sym_exp_pow n (A E F : 'M[R]_n) x k : A^T = A -> is_exp (x *: A) E -> is_exp ((INR k * x)%coqR *: A) F -> F = mpow E k.
Proof.
  move=> HA. have [U [d [HU ->]]] := @spectral R_rcfType n A HA.
  have S y : y *: (U *m diag_mx d *m U^T) = U *m diag_mx (y *: d) *m U^T.
  { rewrite (_ : diag_mx (y *: d) = y *: diag_mx d); first by rewrite -scalemxAr -scalemxAl. apply/matrixP => i j. by rewrite !mxE mulrnAr. }
  rewrite !S => HE HF. rewrite (is_exp_uniq HE (is_exp_expd _ HU)) (is_exp_uniq HF (is_exp_expd _ HU)).
  rewrite /expd mpow_conj // mpow_diag. congr (_ *m diag_mx _ *m _). apply/rowP => j. rewrite !mxE.
  rewrite -!RmultE Rmult_assoc. move: (Rmult x _) => y {HE HF S}. elim: k => [|k IH]; first by rewrite Rmult_0_l exp_0.
  by rewrite S_INR Rmult_plus_distr_r Rmult_1_l exp_plus IH /= Rmult_comm.
Qed.

Lemma large_nat r : exists m, Rlt r (INR m).
Proof.
  have [H _] := archimed r. exists (Z.abs_nat (up r)). rewrite INR_IZR_INZ Zabs2Nat.id_abs. have : Rle (IZR (up r)) (IZR (Z.abs (up r))) by apply: IZR_le; lia. lra.
Qed.

(** ** thermal expectation values *)
Section Limit.
Variables (n : nat) (V K : 'M[R]_n) (beta v k : R) (expH : R -> 'M[R]_n).
Hypotheses (Hn : (0 < n)%N) (SV : V^T = V) (SK : K^T = K) (Hb : Rlt 0 beta).
Hypotheses (Hv : Rle 0 v) (Hk : Rle 0 k) (BV : rows_le V v) (BK : rows_le K k).
Hypothesis XH : forall t, is_exp (- t *: (K + V)) (expH t).
Let g := (beta * (v + k))%coqR.
Lemma g_pos : Rle 0 g. Proof. rewrite /g. apply: Rmult_le_pos; lra. Qed.
Let G := exp g.
Lemma G_1 : Rle 1 G. Proof. have := exp_ineq1_le g. have := g_pos. rewrite /G. lra. Qed.

Section Slices.
Variables (L : nat) (EV EK : 'M[R]_n).
Hypothesis HL : (0 < L)%N.
Let x := (beta / INR L)%coqR.
Hypotheses (XV : is_exp (- x *: V) EV) (XK : is_exp (- x *: K) EK).
Lemma L_pos : Rlt 0 (INR L). Proof. apply: lt_0_INR. exact/ltP. Qed.
Lemma L_1 : Rle 1 (INR L). Proof. have -> : 1%coqR = INR 1 by []. apply: le_INR. exact/leP. Qed.
Lemma x_pos : Rlt 0 x. Proof. apply: Rdiv_lt_0_compat => //. exact: L_pos. Qed.
Let c := (x * v + x * k)%coqR.
Lemma c_eq : c = (g / INR L)%coqR. Proof. rewrite /c /g /x. field. have := L_pos. lra. Qed.
Lemma cL : (INR L * c = g)%coqR. Proof. rewrite c_eq. field. have := L_pos. lra. Qed.
Lemma c_pos' : Rle 0 c. Proof. rewrite c_eq. apply: Rmult_le_pos; first exact: g_pos. left. apply: Rinv_0_lt_compat. exact: L_pos. Qed.
Lemma c_le : Rle c g. Proof. have := cL. have := c_pos'. have := L_1. nra. Qed.
Let e := exp c.
Lemma e_1 : Rle 1 e. Proof. have := exp_ineq1_le c. have := c_pos'. rewrite /e. lra. Qed.
Lemma e_G : Rle e G. Proof. rewrite /e /G. case: (Req_dec c g) => [->|H]; first by right. left. apply: exp_increasing. have := c_le. lra. Qed.
Lemma e_pow m : pow e m = exp (INR m * c)%coqR.
Proof. elim: m => [|m IH]; first by rewrite Rmult_0_l exp_0. by rewrite [pow _ _]/= IH S_INR Rmult_plus_distr_r Rmult_1_l exp_plus /e Rmult_comm. Qed.
Lemma e_L : pow e L = G. Proof. by rewrite e_pow cL. Qed.
Lemma e_leG m : (m <= L)%N -> Rle (pow e m) G.
Proof. move=> H. rewrite -e_L. apply: Rle_pow; [exact: e_1|exact/leP]. Qed.

Let X := EV *m EK.
Let Y := expH x.
Lemma BxV : rows_le (- x *: V) (x * v)%coqR.
Proof. have := bnd_scale (- x) BV. congr rows_le. rewrite -RoppE Rabs_Ropp Rabs_right //. have := x_pos. lra. Qed.
Lemma BxK : rows_le (- x *: K) (x * k)%coqR.
Proof. have := bnd_scale (- x) BK. congr rows_le. rewrite -RoppE Rabs_Ropp Rabs_right //. have := x_pos. lra. Qed.
Lemma xv_pos : Rle 0 (x * v)%coqR. Proof. apply: Rmult_le_pos => //. have := x_pos. lra. Qed.
Lemma xk_pos : Rle 0 (x * k)%coqR. Proof. apply: Rmult_le_pos => //. have := x_pos. lra. Qed.
Lemma XY : is_exp (- x *: V + - x *: K) Y.
Proof. rewrite -scalerDr addrC. exact: XH. Qed.
Lemma X_bound : rows_le X e.
Proof. exact: (product_bound xv_pos xk_pos BxV BxK XV XK). Qed.
Lemma X'_bound : rows_le (EK *m EV) e.
Proof. have := product_bound xk_pos xv_pos BxK BxV XK XV. by rewrite Rplus_comm. Qed.
Lemma Y_bound : rows_le Y e.
Proof. exact: (exp_b0 c_pos' (bnd_add BxV BxK) XY). Qed.
Let d := (2 * (c * c * e))%coqR.
Lemma d_pos : Rle 0 d. Proof. rewrite /d. have := c_pos'. have := e_1. move: c e => a b H1 H2. nra. Qed.
Lemma XY_error : rows_le (X - Y) d.
Proof. exact: (product_error xv_pos xk_pos BxV BxK XV XK XY). Qed.
Lemma X'Y_error : rows_le (EK *m EV - Y) d.
Proof.
  have XY' : is_exp (- x *: K + - x *: V) Y by rewrite -scalerDr; exact: XH.
  have := product_error xk_pos xv_pos BxK BxV XK XV XY'. by rewrite (Rplus_comm (x * k)).
Qed.

Lemma expH_pow m : (m <= L)%N -> expH (INR m * x)%coqR = mpow Y m.
Proof.
  move=> _. apply: (@sym_exp_pow _ (K + V) Y _ (- x)); first by rewrite linearD /= SV SK.
  - exact: XH.
  - have := XH (INR m * x)%coqR. congr is_exp. congr (_ *: _). rewrite -!RoppE. eqR. ring.
Qed.

(** constants *)
Definition M1 : R := (INR n * (2 * (g * g) * (G * G)))%coqR.
Definition M2 : R := (INR n * ((4 * (g * g * g) + 4 * (g * g * (g * g))) * (G * G * G)))%coqR.

Lemma d_L : Rle (INR L * d)%coqR (2 * (g * g) * G / INR L)%coqR.
Proof.
  have -> : (INR L * d = 2 * (g * g) * e / INR L)%coqR. { rewrite /d c_eq. field. have := L_pos. lra. }
  apply: Rmult_le_compat_r; first by left; apply: Rinv_0_lt_compat; exact: L_pos.
  apply: Rmult_le_compat_l; last exact: e_G. have := g_pos. nra.
Qed.

Lemma trace_error l (O O' : 'M[R]_n) o o' : (l <= L)%N -> Rle 0 o -> Rle 0 o' -> rows_le O o -> rows_le O' o' ->
  Rle (Rabs (\tr (mpow X (L - l) *m O *m mpow X l *m O') - \tr (mpow Y (L - l) *m O *m mpow Y l *m O'))%coqR) (M1 * (o * o') / INR L)%coqR.
Proof.
  move=> Hl Ho Ho' BO BO'.
  have Pe m : Rle 1 (pow e m) by apply: pow_R1_Rle; exact: e_1.
  have PI m : Rle 0 (INR m) by exact: pos_INR.
  have E : mpow X (L - l) *m O *m mpow X l *m O' - mpow Y (L - l) *m O *m mpow Y l *m O' =
     (mpow X (L - l) - mpow Y (L - l)) *m (O *m (mpow X l *m O')) + mpow Y (L - l) *m (O *m ((mpow X l - mpow Y l) *m O')).
  { rewrite mulmxBl (mulmxBl (mpow X l)) !mulmxBr !mulmxA. by rewrite addrA subrK. }
  have B1 := pow_diff e_1 d_pos Y_bound (L - l)%N X_bound XY_error. have B2 := pow_diff e_1 d_pos Y_bound l X_bound XY_error.
  have P1 : Rle 0 (INR (L - l) * d * pow e (L - l))%coqR. { apply: Rmult_le_pos; [apply: Rmult_le_pos => //; exact: d_pos|have := Pe (L - l)%N; lra]. }
  have P2 : Rle 0 (INR l * d * pow e l)%coqR. { apply: Rmult_le_pos; [apply: Rmult_le_pos => //; exact: d_pos|have := Pe l; lra]. }
  have Q1 : Rle 0 (o * (pow e l * o'))%coqR. { apply: Rmult_le_pos => //; apply: Rmult_le_pos => //; have := Pe l; lra. }
  have Q2 : Rle 0 (o * (INR l * d * pow e l * o'))%coqR. { apply: Rmult_le_pos => //. exact: Rmult_le_pos. }
  have BX := bnd_powe e_1 l X_bound. have BY := bnd_powe e_1 (L - l)%N Y_bound.
  have B := bnd_add (bnd_mul Q1 B1 (bnd_mul (Rmult_le_pos _ _ (Rle_trans _ _ _ Rle_0_1 (Pe l)) Ho') BO (bnd_mul Ho' BX BO')))
                    (bnd_mul Q2 BY (bnd_mul (Rmult_le_pos _ _ P2 Ho') BO (bnd_mul Ho' B2 BO'))).
  rewrite (_ : Rminus _ _ = \tr (mpow X (L - l) *m O *m mpow X l *m O' - mpow Y (L - l) *m O *m mpow Y l *m O')); last by rewrite linearB.
  rewrite E. apply: Rle_trans (bnd_tr B) _.
  have -> : (INR (L - l) * d * pow e (L - l) * (o * (pow e l * o')) + pow e (L - l) * (o * (INR l * d * pow e l * o')) = (INR (L - l) + INR l) * d * (pow e (L - l) * pow e l) * (o * o'))%coqR by ring.
  rewrite -plus_INR -pow_add (_ : (L - l + l)%coq_nat = L); last exact: (subnK Hl). rewrite e_L /M1.
  have -> : (INR n * (2 * (g * g) * (G * G)) * (o * o') / INR L = INR n * ((2 * (g * g) * G / INR L) * G * (o * o')))%coqR by rewrite /Rdiv; ring.
  apply: Rmult_le_compat_l => //. apply: Rmult_le_compat_r; first exact: Rmult_le_pos. apply: Rmult_le_compat_r; last exact: d_L. have := G_1. lra.
Qed.

Lemma sym_trace_error (O : 'M[R]_n) o : Rle 0 o -> O^T = O -> rows_le O o ->
  Rle (Rabs (\tr (mpow X L *m O) - \tr (mpow Y L *m O))%coqR) (M2 * o / (INR L * INR L))%coqR.
Proof.
  move=> Ho SO BO.
  have d3 : Rle 0 (4 * (c * c * c * e))%coqR. { have := c_pos'. have := e_1. move: c e => a b H1 H2. have : Rle 0 (a * a * a)%coqR by do 2 apply: Rmult_le_pos => //. nra. }
  have B := pow_diff2 e_1 d_pos Y_bound L d3 X_bound X'_bound XY_error X'Y_error (symmetric_error xv_pos xk_pos BxV BxK XV XK XY).
  have T := bnd_tr (bnd_mul Ho B BO).
  have TX : \tr (mpow (EK *m EV) L *m O) = \tr (mpow X L *m O).
  { rewrite -[LHS]mxtrace_tr trmx_mul SO mxtrace_mulC. congr (\tr (_ *m _)).
    have EVT : EV^T = EV by apply: (@sym_exp_sym _ (- x *: V)) => //; rewrite linearZ /= SV.
    have EKT : EK^T = EK by apply: (@sym_exp_sym _ (- x *: K)) => //; rewrite linearZ /= SK.
    elim: (L) => [|m IH]; first by rewrite !mpow0 trmx1. rewrite mpowS trmx_mul IH trmx_mul EVT EKT -/X.
    by rewrite -{2}[X]mpow1 -mpowD addnC mpowD mpow1. }
  have E2 : \tr ((mpow X L + mpow (EK *m EV) L - 2%:R *: mpow Y L) *m O) = (2 * (\tr (mpow X L *m O) - \tr (mpow Y L *m O)))%coqR.
  { rewrite mulmxBl mulmxDl -scalemxAl linearB linearD linearZ /= TX.
    rewrite (_ : 2%:R = 2%coqR :> R); last by rewrite mulr2n -RplusE -R1E; lra. rewrite -!RplusE -!RoppE -!RmultE. eqR. ring. }
  rewrite E2 Rabs_mult (Rabs_right 2) in T; last by lra.
  apply: (Rle_trans _ (INR n * ((INR L * (4 * (c * c * c * e)) + INR L * INR L * (d * d)) * pow e L * o))%coqR).
  { have := Rabs_pos (\tr (mpow X L *m O) - \tr (mpow Y L *m O))%coqR. lra. }
  rewrite e_L /M2 /d. have HLp := L_pos.
  have -> : (INR L * (4 * (c * c * c * e)) + INR L * INR L * (2 * (c * c * e) * (2 * (c * c * e))) = (4 * (g * g * g) * e + 4 * (g * g * (g * g)) * (e * e)) / (INR L * INR L))%coqR.
  { rewrite c_eq. field. lra. }
  have -> : (INR n * ((4 * (g * g * g) + 4 * (g * g * (g * g))) * (G * G * G)) * o / (INR L * INR L) =
     INR n * ((4 * (g * g * g) * (G * G) + 4 * (g * g * (g * g)) * (G * G)) / (INR L * INR L) * G * o))%coqR by field; lra.
  apply: Rmult_le_compat_l; first exact: pos_INR. apply: Rmult_le_compat_r => //.
  have H1 := G_1. have H2 := e_G. have H3 := e_1. have H4 := g_pos.
  apply: Rmult_le_compat_r; first lra. apply: Rmult_le_compat_r; first by left; apply: Rinv_0_lt_compat; exact: Rmult_lt_0_compat.
  have g3 : Rle 0 (g * g * g)%coqR by do 2 apply: Rmult_le_pos => //. have g4 : Rle 0 (g * g * (g * g))%coqR by apply: Rmult_le_pos; exact: Rmult_le_pos.
  have e1 : Rle e (G * G)%coqR by nra. have e2 : Rle (e * e)%coqR (G * G)%coqR by apply: Rmult_le_compat; lra.
  apply: Rplus_le_compat; apply: Rmult_le_compat_l; lra.
Qed.
End Slices.

Definition slices (L : nat) (EV EK : 'M[R]_n) : Prop :=
  (0 < L)%N /\ is_exp (- (beta / INR L)%coqR *: V) EV /\ is_exp (- (beta / INR L)%coqR *: K) EK.
Lemma slices_ex L : (0 < L)%N -> exists EV EK, slices L EV EK.
Proof.
  move=> HL. have [|EV HV] := @sym_exp_ex n (- (beta / INR L)%coqR *: V); first by rewrite linearZ /= SV.
  have [|EK HK] := @sym_exp_ex n (- (beta / INR L)%coqR *: K); first by rewrite linearZ /= SK. by exists EV, EK.
Qed.
Lemma slices_uniq L EV EK EV' EK' : slices L EV EK -> slices L EV' EK' -> EV = EV' /\ EK = EK'.
Proof. move=> [_ [H1 H2]] [_ [H3 H4]]. split; exact: is_exp_uniq. Qed.

Lemma Z0_pos : Rlt 0 (\tr (expH beta)).
Proof.
  have [||H [TH [UH ->]]] := @exp_sqrt n (- beta *: (K + V)) (expH beta); [by rewrite linearZ linearD /= SV SK|exact: XH|].
  rewrite -{1}TH. exact: gram_pos.
Qed.
Lemma expH_L L : (0 < L)%N -> mpow (expH (beta / INR L)%coqR) L = expH beta.
Proof.
  move=> HL. rewrite -(@expH_pow L L) //. congr expH. field. have := L_pos HL. lra.
Qed.
Lemma Z_pos L EV EK : slices L EV EK -> Rlt 0 (\tr (mpow (EV *m EK) L)).
Proof.
  move=> [HL [H1 H2]]. apply: (@trotter_pos n (- (beta / INR L)%coqR *: V) (- (beta / INR L)%coqR *: K)) => //; by rewrite linearZ /= ?SV ?SK.
Qed.
Lemma Z_error L EV EK : slices L EV EK -> Rle (Rabs (\tr (mpow (EV *m EK) L) - \tr (expH beta))%coqR) (M1 / INR L)%coqR.
Proof.
  move=> [HL [H1 H2]]. have := @trace_error L EV EK HL H1 H2 0 1%:M 1%:M 1 1 (leq0n _) Rle_0_1 Rle_0_1 (@bnd_1 n) (@bnd_1 n).
  rewrite subn0 !mpow0 !mulmx1 expH_L // !Rmult_1_r. exact.
Qed.
Lemma M1_pos : Rle 0 M1.
Proof. rewrite /M1. have := G_1. have := g_pos. have := pos_INR n. move: (INR n) G g => a b c H1 H2 H3. apply: Rmult_le_pos => //. nra. Qed.
Lemma M2_pos : Rle 0 M2.
Proof.
  rewrite /M2. have := G_1. have := g_pos. have := pos_INR n. move: (INR n) G g => a b c H1 H2 H3. apply: Rmult_le_pos => //.
  apply: Rmult_le_pos; last by apply: Rmult_le_pos; [apply: Rmult_le_pos|]; lra.
  have : Rle 0 (c * c * c)%coqR by do 2 apply: Rmult_le_pos => //. have : Rle 0 (c * c * (c * c))%coqR by apply: Rmult_le_pos; exact: Rmult_le_pos. lra.
Qed.

Lemma Z_lower : exists z, Rlt 0 z /\ forall L EV EK, slices L EV EK -> Rle z (\tr (mpow (EV *m EK) L)).
Proof.
  have Z0 := Z0_pos. have HM := M1_pos.
  have small m : exists z, Rlt 0 z /\ forall L EV EK, (L < m)%N -> slices L EV EK -> Rle z (\tr (mpow (EV *m EK) L)).
  { elim: m => [|m [z [Hz IH]]]; first by exists 1%coqR; split=> //; exact: Rlt_0_1.
    case: (posnP m) => [Em|Hm].
    - exists z. split=> // L EV EK. rewrite Em ltnS leqn0 => /eqP -> [] //.
    - have [EV0 [EK0 HS0]] := slices_ex Hm. exists (Rmin z (\tr (mpow (EV0 *m EK0) m))). split; first by apply: Rmin_pos => //; exact: Z_pos.
      move=> L EV EK. rewrite ltnS leq_eqVlt => /orP [/eqP E|HL] HS.
      + move: HS. rewrite E => HS. have [-> ->] := slices_uniq HS HS0. exact: Rmin_r.
      + apply: Rle_trans (Rmin_l _ _) _. exact: IH HS. }
  have [m Hm] := large_nat (2 * M1 / \tr (expH beta))%coqR.
  have [z [Hz H]] := small m. exists (Rmin z (\tr (expH beta) / 2)%coqR). split; first by apply: Rmin_pos => //; lra.
  move=> L EV EK HS. case: (ltnP L m) => HL; first by apply: Rle_trans (Rmin_l _ _) _; exact: H HS.
  apply: Rle_trans (Rmin_r _ _) _. have := Z_error HS. have [HL0 _] := HS. have HP := L_pos HL0.
  have HLm : Rle (INR m) (INR L) by apply: le_INR; exact/leP.
  have : Rle (M1 / INR L)%coqR (\tr (expH beta) / 2)%coqR.
  { apply: (Rmult_le_reg_r (INR L)) => //. rewrite /Rdiv Rmult_assoc Rinv_l ?Rmult_1_r; last lra.
    have : Rlt (2 * M1 / \tr (expH beta))%coqR (INR L) by lra. move/(Rmult_lt_compat_r _ _ _ Z0).
    rewrite /Rdiv Rmult_assoc Rinv_l ?Rmult_1_r; last lra. lra. }
  move: (Rdiv M1 _) (\tr (mpow _ _)) (\tr (expH beta)) Z0 => y a b Z0 H1 H2. have := Rle_abs (Ropp (a - b))%coqR. rewrite Rabs_Ropp. lra.
Qed.

Lemma ratio_error (N Z N0 Z0 dN dZ z w : R) : Rlt 0 z -> Rle z Z -> Rlt 0 Z0 -> Rle (Rabs (N - N0)%coqR) dN -> Rle (Rabs (Z - Z0)%coqR) dZ -> Rle (Rabs (N0 / Z0)%coqR) w ->
  Rle (Rabs (N / Z - N0 / Z0)%coqR) ((dN + w * dZ) / z)%coqR.
Proof.
  move=> Hz HZ H0 H1 H2 H3.
  have -> : (N / Z - N0 / Z0 = ((N - N0) + - (N0 / Z0 * (Z - Z0))) * / Z)%coqR by field; lra.
  have HZi : Rle (/ Z)%coqR (/ z)%coqR by apply: Rinv_le_contravar.
  have Zi : Rlt 0 (/ Z)%coqR by apply: Rinv_0_lt_compat; lra.
  rewrite Rabs_mult (Rabs_right (/ Z)%coqR); last lra. rewrite /Rdiv. apply: Rmult_le_compat => //; [exact: Rabs_pos|lra|].
  apply: Rle_trans (Rabs_triang _ _) _. rewrite Rabs_Ropp Rabs_mult. apply: Rplus_le_compat => //. apply: Rmult_le_compat => //; exact: Rabs_pos.
Qed.

Lemma expH_bound t : Rle 0 t -> Rle t beta -> rows_le (expH t) G.
Proof.
  move=> Ht Htb. have B : rows_le (- t *: (K + V)) (t * (k + v))%coqR.
  { have := bnd_scale (- t) (bnd_add BK BV). congr rows_le. rewrite -RoppE Rabs_Ropp Rabs_right //. lra. }
  apply: bnd_mono (exp_b0 _ B (XH t)) _; first by apply: Rmult_le_pos; lra.
  rewrite /G /g. have : Rle (t * (k + v))%coqR (beta * (v + k))%coqR by rewrite (Rplus_comm k); apply: Rmult_le_compat_r; lra.
  case=> [H|->]; [left; exact: exp_increasing|by right].
Qed.

(** first order for all operators *)
Theorem first_order : exists C, Rle 0 C /\ forall L EV EK l (O O' : 'M[R]_n) o o', slices L EV EK -> (l <= L)%N ->
  Rle 0 o -> Rle 0 o' -> rows_le O o -> rows_le O' o' ->
  let tau := (INR l * (beta / INR L))%coqR in
  Rle (Rabs (\tr (mpow (EV *m EK) (L - l) *m O *m mpow (EV *m EK) l *m O') / \tr (mpow (EV *m EK) L) -
             \tr (expH (beta - tau) *m O *m expH tau *m O') / \tr (expH beta))%coqR) (C * (o * o') / INR L)%coqR.
Proof.
  have [z [Hz HZ]] := Z_lower. have Z0 := Z0_pos. have HM := M1_pos. have HG := G_1.
  pose P := (INR n * (G * G) / \tr (expH beta))%coqR.
  have HP : Rle 0 P. { rewrite /P. apply: Rmult_le_pos; last by left; exact: Rinv_0_lt_compat. apply: Rmult_le_pos; [exact: pos_INR|apply: Rmult_le_pos; lra]. }
  exists ((M1 + P * M1) / z)%coqR. split.
  - apply: Rmult_le_pos; last by left; exact: Rinv_0_lt_compat. have : Rle 0 (P * M1)%coqR by exact: Rmult_le_pos. lra.
  - move=> L EV EK l O O' o o' HS Hl Ho Ho' BO BO' tau. have [HL [H1 H2]] := HS. have HLp := L_pos HL.
    have Hlp := pos_INR l. have HlL : Rle (INR l) (INR L) by apply: le_INR; exact/leP.
    have Ht : Rle 0 tau /\ Rle tau beta.
    { rewrite /tau. have -> : (INR l * (beta / INR L) = beta * (INR l / INR L))%coqR by field; lra.
      have h1 : Rle 0 (INR l / INR L)%coqR by apply: Rmult_le_pos => //; left; exact: Rinv_0_lt_compat.
      have h2 : Rle (INR l / INR L)%coqR 1. { apply: (Rmult_le_reg_r (INR L)) => //. rewrite /Rdiv Rmult_assoc Rinv_l; lra. }
      split; nra. }
    have E1 : expH tau = mpow (expH (beta / INR L)%coqR) l by rewrite /tau (@expH_pow L l).
    have E2 : expH (beta - tau)%coqR = mpow (expH (beta / INR L)%coqR) (L - l).
    { rewrite -(@expH_pow L (L - l)) ?leq_subr //. congr expH. rewrite minus_INR; last exact/leP. rewrite /tau. field. lra. }
    have TE := @trace_error L EV EK HL H1 H2 l O O' o o' Hl Ho Ho' BO BO'. rewrite -E1 -E2 in TE.
    have B0 : Rle (Rabs (\tr (expH (beta - tau)%coqR *m O *m expH tau *m O') / \tr (expH beta))%coqR) (P * (o * o'))%coqR.
    { have B1 := @expH_bound tau (proj1 Ht) (proj2 Ht). have B2 : rows_le (expH (beta - tau)%coqR) G by apply: expH_bound; lra.
      have HG0 : Rle 0 G by lra.
      have := bnd_tr (bnd_mul Ho' (bnd_mul HG0 (bnd_mul Ho B2 BO) B1) BO'). rewrite /Rdiv Rabs_mult (Rabs_right (/ \tr (expH beta))%coqR); last by apply: Rle_ge; left; exact: Rinv_0_lt_compat.
      move=> H. rewrite /P. have -> : (INR n * (G * G) / \tr (expH beta) * (o * o') = INR n * (G * o * G * o') * / \tr (expH beta))%coqR by rewrite /Rdiv; ring.
      apply: Rmult_le_compat_r => //. left. exact: Rinv_0_lt_compat. }
    apply: Rle_trans (ratio_error Hz (HZ _ _ _ HS) Z0 TE (Z_error HS) B0) _. right. rewrite /Rdiv. ring.
Qed.

(** second order for symmetric operators at equal times *)
Theorem second_order : exists C, Rle 0 C /\ forall L EV EK (O : 'M[R]_n) o, slices L EV EK ->
  Rle 0 o -> rows_le O o -> O^T = O ->
  Rle (Rabs (\tr (mpow (EV *m EK) L *m O) / \tr (mpow (EV *m EK) L) - \tr (expH beta *m O) / \tr (expH beta))%coqR) (C * o / (INR L * INR L))%coqR.
Proof.
  have [z [Hz HZ]] := Z_lower. have Z0 := Z0_pos. have HM := M2_pos. have HG := G_1.
  pose P := (INR n * G / \tr (expH beta))%coqR.
  have HP : Rle 0 P. { rewrite /P. apply: Rmult_le_pos; last by left; exact: Rinv_0_lt_compat. apply: Rmult_le_pos; [exact: pos_INR|lra]. }
  exists ((M2 + P * M2) / z)%coqR. split.
  - apply: Rmult_le_pos; last by left; exact: Rinv_0_lt_compat. have : Rle 0 (P * M2)%coqR by exact: Rmult_le_pos. lra.
  - move=> L EV EK O o HS Ho BO SO. have [HL [H1 H2]] := HS. have HLp := L_pos HL.
    have TE := @sym_trace_error L EV EK HL H1 H2 O o Ho SO BO. rewrite expH_L // in TE.
    have ZE := @sym_trace_error L EV EK HL H1 H2 1%:M 1 Rle_0_1 (trmx1 _ _) (@bnd_1 n). rewrite expH_L // !mulmx1 in ZE.
    have B0 : Rle (Rabs (\tr (expH beta *m O) / \tr (expH beta))%coqR) (P * o)%coqR.
    { have B2 : rows_le (expH beta) G by apply: expH_bound; lra.
      have := bnd_tr (bnd_mul Ho B2 BO). rewrite /Rdiv Rabs_mult (Rabs_right (/ \tr (expH beta))%coqR); last by apply: Rle_ge; left; exact: Rinv_0_lt_compat.
      move=> H. rewrite /P. have -> : (INR n * G / \tr (expH beta) * o = INR n * (G * o) * / \tr (expH beta))%coqR by rewrite /Rdiv; ring.
      apply: Rmult_le_compat_r => //. left. exact: Rinv_0_lt_compat. }
    apply: Rle_trans (ratio_error Hz (HZ _ _ _ HS) Z0 TE ZE B0) _. right. rewrite /Rdiv. ring.
Qed.
End Limit.
