(** Proofs about the block p-cyclic QR decomposition. *)
From Coq Require Import ZArith List Reals Lia Lra.
From mathcomp Require Import all_ssreflect fingroup perm ssralg matrix.
From Verif Require Import Base BaseFacts Sums SumsFacts RealOps Blas BlasFacts RField MatProd MatSpec MatFacts TimeStepFacts
  Lapack LapackSpec LapackFacts WindowFacts BlockCyclic BlockCyclicSpec.
Set Implicit Arguments.
Unset Strict Implicit.
Unset Printing Implicit Defensive.
Local Open Scope ring_scope.
Import GRing.Theory.

Section QR.
Variables (n p : nat).
Hypotheses (Hn : (0 < n)%N) (Hp : (2 <= p)%N).
Notation N := (n * p)%N.
Notation NZ := (Zn (n * p)%N).
Notation gl := (gl N).

(** first row of a block *)
Definition bo (i : nat) : Z := (Zn i * Zn n)%Z.
Lemma boS i : bo i.+1 = (bo i + Zn n)%Z. Proof. rewrite /bo. lia. Qed.
Lemma bo0 : bo 0 = 0%Z. Proof. by []. Qed.
Lemma bo_p : bo p = NZ. Proof. rewrite /bo -multE. lia. Qed.
Lemma bo_ge0 i : (0 <= bo i)%Z. Proof. rewrite /bo. lia. Qed.
Arguments bo_ge0 : clear implicits.
Lemma bo_lt i j : (i < j)%N -> (bo i + Zn n <= bo j)%Z.
Proof. move/ltP => H. rewrite /bo. nia. Qed.
Lemma bo_le i j : (i <= j)%N -> (bo i <= bo j)%Z.
Proof. move/leP => H. rewrite /bo. nia. Qed.
Lemma n_pos : (0 < Zn n)%Z. Proof. move/ltP: Hn. lia. Qed.
Lemma n2E : (2 * Zn n = Zn (2 * n)%N)%Z. Proof. rewrite -multE. lia. Qed.
Lemma NE : (Zn n * Zn p)%Z = NZ. Proof. rewrite -multE. lia. Qed.

(** zeros far below and far above the diagonal, except in the last block column *)
Definition zlow (g : Z -> Z -> R) : Prop := forall b r c, (b.+1 < p)%N -> (bo b <= c < bo b + Zn n)%Z ->
  (bo b + 2 * Zn n <= r < NZ)%Z -> g r c = 0.
Definition zup (i : nat) (g : Z -> Z -> R) : Prop := forall b r c, (b.+1 < p)%N -> (bo b <= c < bo b + Zn n)%Z ->
  (0 <= r)%Z -> (r < bo b - Zn n)%Z \/ ((i < b)%N /\ (r < bo b)%Z) -> g r c = 0.

(** the entries below the diagonal are ignored in the first k columns *)
Definition masked (k : Z) (g : Z -> Z -> R) (r c : Z) : R := if ((c <? k)%Z && (c <? r)%Z)%bool then 0 else g r c.

(** orthogonal factor of panel j *)
Definition pan (g : Z -> Z -> R) (j : nat) (a b : Z) : R := g (bo j + a)%Z (bo j + b)%Z.
Definition ptau (t : Z -> R) (j : nat) (a : Z) : R := t (bo j + a)%Z.
Definition Qp (g : Z -> Z -> R) (t : Z -> R) (j k : nat) : 'M[R]_(2 * n) := qmx (2 * n) (pan g j) (ptau t j) k.
Notation Emb i := (@emb N (2 * n) (bo i)).
Fixpoint prodE (g : Z -> Z -> R) (t : Z -> R) (i : nat) : 'M[R]_N :=
  match i with O => 1%:M | S i' => prodE g t i' *m Emb i' (Qp g t i' n) end.

Lemma Qp_ext g g' t t' j k : 
  (forall a b, (0 <= b < Zn k)%Z -> (b < a < Zn (2 * n)%N)%Z -> pan g j a b = pan g' j a b) ->
  (forall a, (0 <= a < Zn k)%Z -> ptau t j a = ptau t' j a) -> Qp g t j k = Qp g' t' j k.
Proof.
  move=> H1 H2. apply: qmx_ext.
  - move=> l /ltP Hl i Hi. apply: H1; lia.
  - move=> l /ltP Hl. apply: H2; lia.
Qed.
Lemma prodE_ext g g' t t' i : (forall j, (j < i)%N -> Qp g t j n = Qp g' t' j n) -> prodE g t i = prodE g' t' i.
Proof.
  elim: i => [//|i IH] H /=. rewrite IH; last by move=> j Hj; apply: H; exact: ltnW. by rewrite H.
Qed.

Record qr_inv (H0 : list R) (i : nat) (H tau : list R) : Prop := {
  qi_sq : square N H;
  qi_tau : lenZ tau = NZ;
  qi_low : zlow (gl H);
  qi_up : zup i (gl H);
  qi_refl : forall j k, (j < i)%N -> (k < n)%N -> refl_ok (2 * n) (pan (gl H) j) (ptau (rat tau) j) k;
  qi_prod : mxf N N (gl H0) = prodE (gl H) (rat tau) i *m mxf N N (masked (bo i) (gl H)) }.

Lemma win_off i j : ((Zn i + NZ * Zn j) * Zn n = bo i + NZ * bo j)%Z.
Proof. rewrite /bo. ring. Qed.
Lemma diag_off i : ((1 + NZ) * Zn i * Zn n = bo i + NZ * bo i)%Z.
Proof. rewrite /bo. ring. Qed.

Lemma mxf_zero m k f : (forall i j, (0 <= i < Zn m)%Z -> (0 <= j < Zn k)%Z -> f i j = 0) -> mxf m k f = 0.
Proof. move=> H. apply/matrixP => i j. rewrite !mxE. apply: H; exact: ordZ. Qed.

Lemma win2 i : (i.+1 < p)%N -> (bo i + Zn (2 * n)%N <= NZ)%Z.
Proof. move=> Hi. have := bo_lt Hi. rewrite boS bo_p -n2E. lia. Qed.
Lemma win1 i : (i < p)%N -> (bo i + Zn n <= NZ)%Z.
Proof. move=> Hi. have := bo_lt Hi. rewrite bo_p. lia. Qed.

Lemma qr_step_ok la H0 i H tau : lapack_ok la -> (i.+2 < p)%N -> qr_inv H0 i H tau ->
  exists H' tau', cyclic_qr_step la (Zn n) (Zn p) (Zn i) (H, tau) = Some (H', tau') /\ qr_inv H0 i.+1 H' tau'.
Proof.
  move=> HLA Hi [HS HT HL HU HR HP]. rewrite /cyclic_qr_step NE n2E.
  have Hi1 : (i.+1 < p)%N by exact: ltnW. have Hi0 : (i < p)%N by exact: ltnW.
  have Hp1 : (p.-1 < p)%N by rewrite prednK // (leq_trans _ Hp).
  have Eq1 : (Zn i + NZ * (Zn i + 1))%Z = (Zn i + NZ * Zn i.+1)%Z by lia.
  have Eq2 : (Zn p - 1 = Zn p.-1)%Z by move/leP: Hp; lia.
  rewrite diag_off Eq1 Eq2 !win_off -/(bo i).
  have Hb0 := bo_ge0 i. have HbS := boS i. have Hw2 := win2 Hi1. have Hnp := n_pos.
  have Hw1 := win1 Hi1. have Hwp := win1 Hp1.
  have HF : forall A, square N A -> fits (lenZ A) (Zn (2 * n)%N) (Zn n) (bo i + NZ * bo i) NZ by move=> A HA; apply: fits_win => //; lia.
  have HF1 : forall A, square N A -> fits (lenZ A) (Zn (2 * n)%N) (Zn n) (bo i + NZ * bo i.+1) NZ by move=> A HA; apply: fits_win => //; lia.
  have HFp : forall A, square N A -> fits (lenZ A) (Zn (2 * n)%N) (Zn n) (bo i + NZ * bo p.-1) NZ.
  { move=> A HA; apply: fits_win => //. exact: bo_ge0. }
  have Hnn : (n <= 2 * n)%N by rewrite leq_pmull.
  have [||H1 [t1 [-> [W1 [LT1 [FT1 [R1 E1]]]]]]] := @dgeqrf_ok la (2 * n) n H (bo i + NZ * bo i) NZ tau (bo i) HLA Hnn (HF _ HS); [lia|lia|].
  cbn [obind].
  have S1 : square N H1 by rewrite /square (proj1 W1).
  have [||H2 [-> [W2 E2]]] := @dormqr_LT_ok (2 * n) n n H1 (bo i + NZ * bo i) NZ t1 (bo i) H1 (bo i + NZ * bo i.+1) NZ (HF _ S1) (HF1 _ S1); [lia|lia|].
  cbn [obind].
  have S2 : square N H2 by rewrite /square (proj1 W2).
  have [||H3 [-> [W3 E3]]] := @dormqr_LT_ok (2 * n) n n H2 (bo i + NZ * bo i) NZ t1 (bo i) H2 (bo i + NZ * bo p.-1) NZ (HF _ S2) (HFp _ S2); [lia|lia|].
  cbn [obind]. exists H3, t1. split => //.
  have G1 := writes_gl W1 Hb0 Hb0 Hw2.
  have G2 := writes_gl W2 Hb0 (bo_ge0 _) Hw2.
  have G3 := writes_gl W3 Hb0 (bo_ge0 _) Hw2.
  have Hip : (bo i.+1 + Zn n <= bo p.-1)%Z by apply: bo_lt; rewrite -ltnS prednK // (leq_trans _ Hp).
  (* rows outside of the window *)
  have Fout : forall r c, (0 <= r < NZ)%Z -> (0 <= c)%Z -> ~ (bo i <= r < bo i + Zn (2 * n)%N)%Z -> gl H3 r c = gl H r c.
  { move=> r c Hr Hc Hn'. rewrite G3 // G2 // G1 //. by case: inwinP. }
  (* columns outside *)
  have Fcol : forall r c, (0 <= r < NZ)%Z -> (0 <= c)%Z -> ~ (bo i <= c < bo i.+1 + Zn n)%Z -> ~ (bo p.-1 <= c < bo p.-1 + Zn n)%Z -> gl H3 r c = gl H r c.
  { move=> r c Hr Hc N1 N2. rewrite G3 // G2 // G1 //. 
    case: (inwinP (bo p.-1)) => [//|_]. rewrite andbF. case: (inwinP (bo i.+1)) => [?|_]; first lia. rewrite andbF.
    case: (inwinP (bo i) (Zn n) c) => [?|_]; first lia. by rewrite andbF. }
  have Fpan : forall r c, (0 <= r < NZ)%Z -> (bo i <= c < bo i + Zn n)%Z -> gl H3 r c = gl H1 r c /\ gl H2 r c = gl H1 r c.
  { move=> r c Hr Hc. split; [rewrite G3 // ?G2 // | rewrite G2 //]; try lia.
    - case: (inwinP (bo p.-1)) => [?|_]; first lia. rewrite andbF. case: (inwinP (bo i.+1)) => [?|_]; first lia. by rewrite andbF.
    - case: (inwinP (bo i.+1)) => [?|_]; first lia. by rewrite andbF. }
  (* the panel matrices *)
  set Q := qmx (2 * n) (ent H1 (bo i + NZ * bo i) NZ) (fun k => rat t1 (bo i + k)) n in E1 E2.
  have EQ : Q = Qp (gl H3) (rat t1) i n.
  { apply: qmx_ext => // k /ltP Hk a Ha. rewrite win_ent /pan. symmetry. apply: (proj1 (Fpan _ _ _ _)); lia. }
  have EQ3 : qmx (2 * n) (ent H2 (bo i + NZ * bo i) NZ) (fun k => rat t1 (bo i + k)) n = Q.
  { apply: qmx_ext => // k /ltP Hk a Ha. rewrite !win_ent. apply: (proj2 (Fpan _ _ _ _)); lia. }
  rewrite EQ3 in E3.
  have QQ : Q *m Q^T = 1%:M by apply: qmx_orth.
  have ET : forall k, (0 <= k)%Z -> (k < bo i)%Z -> rat t1 k = rat tau k by move=> k Hk1 Hk2; apply: FT1; lia.
  have EQj : forall j, (j < i)%N -> Qp (gl H3) (rat t1) j n = Qp (gl H) (rat tau) j n.
  { move=> j Hj. have Hjb := bo_lt Hj. have Hj0 := bo_ge0 j. apply: Qp_ext.
    - move=> a b Hb Ha. rewrite /pan. apply: Fcol; lia.
    - move=> a Ha. rewrite /ptau. apply: ET; lia. }
  split => //.
  - by rewrite /square (proj1 W3).
  - by rewrite LT1.
  - move=> b r c Hb Hc Hr. have Hbb := bo_ge0 b.
    have Hbp : (bo b + Zn n <= bo p.-1)%Z by apply: bo_lt; rewrite -ltnS prednK // (leq_trans _ Hp).
    case: (ltngtP b i.+1) => [Hlt|Hgt|Eb].
    + move: Hlt. rewrite ltnS leq_eqVlt => /orP [/eqP E|Hlt].
      * subst b. rewrite Fout; [exact: (HL i)|lia|lia|]. rewrite -?n2E. lia.
      * have := bo_lt Hlt => ?. rewrite Fcol; try lia. exact: (HL b).
    + have := bo_lt Hgt => ?. rewrite Fcol; try lia. exact: (HL b).
    + subst b. rewrite Fout; [exact: (HL i.+1) |lia|lia|]. rewrite -?n2E. lia.
  - move=> b r c Hb Hc Hr Hor. have Hbb := bo_ge0 b.
    have Hbp : (bo b + Zn n <= bo p.-1)%Z by apply: bo_lt; rewrite -ltnS prednK // (leq_trans _ Hp).
    have HrN : (0 <= r < NZ)%Z by case: Hor => [|[_]]; lia.
    case: (ltngtP b i.+1) => [Hlt|Hgt|Eb].
    + have Hbi := bo_le Hlt. rewrite !boS in Hbi. rewrite Fout; try lia.
      apply: (HU b) => //. case: Hor => [|[H']]; [by left|]. move=> _. exfalso. move: (ltn_trans H' Hlt). by rewrite ltnn.
    + have Hbi := bo_lt Hgt. rewrite Fcol; try lia. apply: (HU b) => //. case: Hor => [|[H' ?]]; [by left|right]. split => //. exact: ltnW.
    + subst b. case: Hor => [Hor|[]]; last by rewrite ltnn. rewrite Fout; [|lia|lia|lia]. apply: (HU i.+1) => //. by left.
  - move=> j k Hj Hk. move: (Hj). rewrite ltnS leq_eqVlt => /orP [/eqP -> | Hj'].
    + apply: (refl_ok_ext _ _ (R1 k Hk)) => // a Ha. rewrite win_ent /pan. symmetry. move/ltP: Hk => Hk. apply: (proj1 (Fpan _ _ _ _)); lia.
    + have Hjb := bo_lt Hj'. have Hj0 := bo_ge0 j. apply: (refl_ok_ext _ _ (HR j k Hj' Hk)).
      * move=> a Ha. rewrite /pan. move/ltP: Hk => Hk. symmetry. apply: Fcol; lia.
      * rewrite /ptau. move/ltP: Hk => Hk. symmetry. apply: ET; lia.
  - rewrite HP /= -(prodE_ext EQj) -mulmxA. congr (_ *m _). rewrite -EQ. apply: emb_left; [lia|lia| |].
    + move=> r c Hr Hc Hout. rewrite /masked. rewrite (Fout r c) //; last lia.
      case: Z.ltb_spec => A1; case: Z.ltb_spec => A2; case: Z.ltb_spec => A3 //=; try lia.
      apply: (HL i) => //; rewrite -?n2E in Hout; lia.
    + apply: col_blocks => // b Hb. rewrite -/(bo b). have Hb0' := bo_ge0 b. have Hwb := win1 Hb.
      have Z0 : (forall f g, (forall i j, (0 <= i < Zn (2 * n)%N)%Z -> (0 <= j < Zn n)%Z -> f i j = 0) ->
         (forall i j, (0 <= i < Zn (2 * n)%N)%Z -> (0 <= j < Zn n)%Z -> g i j = 0) -> mxf (2 * n) n f = Q *m mxf (2 * n) n g).
      { move=> f g Hf Hg. by rewrite (mxf_zero Hf) (mxf_zero Hg) mulmx0. }
      case: (ltngtP b i) => [Hlt|Hgt|Eb].
      * have Hbi := bo_lt Hlt. apply: Z0 => a j Ha Hj; rewrite /masked; case: Z.ltb_spec => A1; case: Z.ltb_spec => A2 //=; lia.
      * case: (ltngtP b i.+1) => [Hlt1|Hgt1|Eb]; first by move: Hlt1; rewrite ltnS leqNgt Hgt.
        -- have Hbi := bo_lt Hgt1. case: (ltngtP b p.-1) => [Hlp|Hgp|Ep].
           ++ have Hbp := bo_lt Hlp.
              have HZ : forall a j, (0 <= a < Zn (2 * n)%N)%Z -> (0 <= j < Zn n)%Z -> gl H (bo i + a) (bo b + j) = 0.
              { move=> a j Ha Hj. apply: (HU b); [|lia|lia|].
                - by rewrite -(ltn_predK Hb) ltnS.
                - right. split; first exact: (ltn_trans _ Hgt1). rewrite -n2E in Ha. lia. }
              apply: Z0 => a j Ha Hj; rewrite /masked; (case: andP => _ //); last rewrite Fcol; try lia; exact: HZ.
           ++ exfalso. move/ltP: Hb => Hb. move/ltP: Hgp => Hgp. lia.
           ++ subst b.
              have -> : mxf (2 * n) n (fun a j => masked (bo i) (gl H) (bo i + a) (bo p.-1 + j)) = mxf (2 * n) n (ent H2 (bo i + NZ * bo p.-1) NZ).
              { apply: mxf_ext => a j Ha Hj. rewrite win_ent /masked. case: Z.ltb_spec => [A1|A1] /=; first lia.
                rewrite G2; try lia. rewrite G1; try lia.
                case: (inwinP (bo i.+1)) => [?|_]; first lia. rewrite andbF.
                case: (inwinP (bo i) (Zn n)) => [?|_]; first lia. by rewrite andbF. }
              have -> : mxf (2 * n) n (fun a j => masked (bo i.+1) (gl H3) (bo i + a) (bo p.-1 + j)) = mxf (2 * n) n (ent H3 (bo i + NZ * bo p.-1) NZ).
              { apply: mxf_ext => a j Ha Hj. rewrite win_ent /masked. case: Z.ltb_spec => [A1|A1] //=. lia. }
              by rewrite E3 mulmxA QQ mul1mx.
        -- subst b.
           have -> : mxf (2 * n) n (fun a j => masked (bo i) (gl H) (bo i + a) (bo i.+1 + j)) = mxf (2 * n) n (ent H1 (bo i + NZ * bo i.+1) NZ).
           { apply: mxf_ext => a j Ha Hj. rewrite win_ent /masked. case: Z.ltb_spec => [A1|A1] /=; first lia.
             rewrite G1; try lia. case: (inwinP (bo i) (Zn n)) => [?|_]; first lia. by rewrite andbF. }
           have -> : mxf (2 * n) n (fun a j => masked (bo i.+1) (gl H3) (bo i + a) (bo i.+1 + j)) = mxf (2 * n) n (ent H2 (bo i + NZ * bo i.+1) NZ).
           { apply: mxf_ext => a j Ha Hj. rewrite win_ent /masked. case: Z.ltb_spec => [A1|A1] /=; first lia.
             rewrite G3; try lia. case: (inwinP (bo p.-1)) => [?|_]; first lia. by rewrite andbF. }
           by rewrite E2 mulmxA QQ mul1mx.
      * subst b.
        have -> : mxf (2 * n) n (fun a j => masked (bo i) (gl H) (bo i + a) (bo i + j)) = mxf (2 * n) n (ent H (bo i + NZ * bo i) NZ).
        { apply: mxf_ext => a j Ha Hj. rewrite win_ent /masked. case: Z.ltb_spec => [A1|A1] //=. lia. }
        rewrite E1. congr (_ *m _). apply: mxf_ext => a j Ha Hj. rewrite /upper /masked win_ent.
        rewrite (proj1 (Fpan _ _ _ _)); try lia.
        case: Z.leb_spec => A1; case: Z.ltb_spec => A2; case: Z.ltb_spec => A3 //=; lia.
Qed.

Lemma slice_cols m k f g (Q : 'M[R]_m) o k' : (0 <= o)%Z -> (o + Zn k' <= Zn k)%Z -> mxf m k f = Q *m mxf m k g ->
  mxf m k' (fun i j => f i (o + j)%Z) = Q *m mxf m k' (fun i j => g i (o + j)%Z).
Proof. move=> H1 H2 E. by rewrite -!(@mul_selT k k' o H1 H2) E mulmxA. Qed.

Notation l := (p - 2)%N.
Definition Gm (g : Z -> Z -> R) (t : Z -> R) : 'M[R]_N := prodE g t l *m Emb l (Qp g t l (2 * n)).

Record qr_post (H0 H tau : list R) : Prop := {
  qp_sq : square N H;
  qp_tau : lenZ tau = NZ;
  qp_low : zlow (gl H);
  qp_up : zup l (gl H);
  qp_refl : forall j k, (j < l)%N -> (k < n)%N -> refl_ok (2 * n) (pan (gl H) j) (ptau (rat tau) j) k;
  qp_last : forall k, (k < 2 * n)%N -> refl_ok (2 * n) (pan (gl H) l) (ptau (rat tau) l) k;
  qp_prod : mxf N N (gl H0) = Gm (gl H) (rat tau) *m mxf N N (upper (gl H)) }.

Lemma l2 : (l.+2 = p)%N. Proof. move/leP: Hp. rewrite -minusE. lia. Qed.
Lemma lZ : (Zn p - 2 = Zn l)%Z. Proof. move/leP: Hp. rewrite -minusE. lia. Qed.
Lemma bo_l : (bo l + Zn (2 * n)%N = NZ)%Z. Proof. rewrite -bo_p -[in RHS]l2 !boS -n2E. lia. Qed.

Lemma qr_last_ok la H0 H tau : lapack_ok la -> qr_inv H0 l H tau ->
  exists H' tau', dgeqrf la (2 * Zn n) (2 * Zn n) H ((1 + NZ) * Zn l * Zn n) NZ tau (bo l) = Some (H', tau') /\ qr_post H0 H' tau'.
Proof.
  move=> HLA [HS HT HL HU HR HP]. rewrite diag_off n2E.
  have Hb0 := bo_ge0 l. have Hw2 := bo_l. have Hnp := n_pos.
  have HF : fits (lenZ H) (Zn (2 * n)%N) (Zn (2 * n)%N) (bo l + NZ * bo l) NZ by apply: fits_win => //; lia.
  have [||H1 [t1 [-> [W1 [LT1 [FT1 [R1 E1]]]]]]] := @dgeqrf_ok la (2 * n) (2 * n) H (bo l + NZ * bo l) NZ tau (bo l) HLA (leqnn _) HF; [lia|lia|].
  exists H1, t1. split => //.
  have S1 : square N H1 by rewrite /square (proj1 W1).
  have Hw2' : (bo l + Zn (2 * n)%N <= NZ)%Z by lia.
  have G1 := writes_gl W1 Hb0 Hb0 Hw2'.
  have Fout : forall r c, (0 <= r < NZ)%Z -> (0 <= c < NZ)%Z -> (r < bo l)%Z \/ (c < bo l)%Z -> gl H1 r c = gl H r c.
  { move=> r c Hr Hc Hor. rewrite G1 //; last lia. case: inwinP => I1; case: inwinP => I2 //=. lia. }
  set Q := qmx (2 * n) (ent H1 (bo l + NZ * bo l) NZ) (fun k => rat t1 (bo l + k)) (2 * n) in E1.
  have EQ : Q = Qp (gl H1) (rat t1) l (2 * n).
  { apply: qmx_ext => // k /ltP Hk a Ha. by rewrite win_ent /pan. }
  have ET : forall k, (0 <= k)%Z -> (k < bo l)%Z -> rat t1 k = rat tau k by move=> k Hk1 Hk2; apply: FT1; lia.
  have EQj : forall j, (j < l)%N -> Qp (gl H1) (rat t1) j n = Qp (gl H) (rat tau) j n.
  { move=> j Hj. have Hjb := bo_lt Hj. have Hj0 := bo_ge0 j. apply: Qp_ext.
    - move=> a b Hb Ha. rewrite /pan. apply: Fout; lia.
    - move=> a Ha. rewrite /ptau. apply: ET; lia. }
  split => //.
  - by rewrite LT1.
  - move=> b r c Hb Hc Hr. have Hbb := bo_ge0 b. rewrite Fout; [exact: (HL b)|lia| |].
    + have : (bo b + Zn n <= NZ)%Z by apply: win1; exact: ltnW. lia.
    + case: (ltnP b l) => Hbl; [have := bo_lt Hbl | have := bo_le Hbl]; rewrite -?n2E in Hw2; lia.
  - move=> b r c Hb Hc Hr Hor. have Hbb := bo_ge0 b.
    have Hbl : (bo b <= bo l)%Z by apply: bo_le; rewrite -ltnS -ltnS l2.
    rewrite -n2E in Hw2. rewrite Fout; [exact: (HU b)|lia|lia|].
    case: Hor => [?|[Hc' _]]; first lia. have := bo_lt Hc'. lia.
  - move=> j k Hj Hk. have Hjb := bo_lt Hj. have Hj0 := bo_ge0 j. apply: (refl_ok_ext _ _ (HR j k Hj Hk)).
    + move=> a Ha. rewrite /pan. move/ltP: Hk => Hk. symmetry. apply: Fout; lia.
    + rewrite /ptau. move/ltP: Hk => Hk. symmetry. apply: ET; lia.
  - move=> k Hk. apply: (refl_ok_ext _ _ (R1 k Hk)) => // a Ha. by rewrite win_ent /pan.
  - rewrite HP /Gm -(prodE_ext EQj) -mulmxA. congr (_ *m _). rewrite -EQ. apply: emb_left; [lia|lia| |].
    + move=> r c Hr Hc Hout. rewrite /masked /upper. rewrite (Fout r c); try lia.
      case: Z.ltb_spec => A1; case: Z.ltb_spec => A2; case: Z.leb_spec => A3 //=; lia.
    + apply: col_blocks => // b Hb. rewrite -/(bo b). have Hb0' := bo_ge0 b. have Hwb := win1 Hb.
      case: (ltnP b l) => Hbl.
      * have Hbi := bo_lt Hbl.
        rewrite !mxf_zero ?mulmx0 // => a j Ha Hj; rewrite /masked /upper.
        -- by case: Z.leb_spec => A1 //; lia.
        -- by case: Z.ltb_spec => A1; case: Z.ltb_spec => A2 //=; lia.
      * have Hbi := bo_le Hbl.
        have := @slice_cols (2 * n) (2 * n) _ _ Q (bo b - bo l) n _ _ E1.
        have A0 : (0 <= bo b - bo l)%Z by lia. have A1 : (bo b - bo l + Zn n <= Zn (2 * n))%Z by lia.
        move/(_ A0 A1) => EE.
        transitivity (mxf (2 * n) n (fun i j => ent H (bo l + NZ * bo l) NZ i (bo b - bo l + j))).
        { apply: mxf_ext => a j Ha Hj. rewrite win_ent /masked. case: Z.ltb_spec => A2 /=; first lia. congr gl; lia. }
        rewrite EE. congr (_ *m _). apply: mxf_ext => a j Ha Hj. rewrite /upper win_ent.
        case: Z.leb_spec => B1; case: Z.leb_spec => B2 //=; try lia. congr gl; lia.
Qed.

(** entries of a block p-cyclic matrix *)
Definition cyc (g : Z -> Z -> R) : Prop := forall a b r c, (a < p)%N -> (b < p)%N ->
  (bo a <= r < bo a + Zn n)%Z -> (bo b <= c < bo b + Zn n)%Z -> a <> b -> a <> b.+1 -> ~ (a = 0%N /\ b = p.-1) -> g r c = 0.

Lemma block_of r : (0 <= r < NZ)%Z -> exists a, (a < p)%N /\ (bo a <= r < bo a + Zn n)%Z.
Proof.
  move=> Hr. have Hnp := n_pos. exists (Z.to_nat (r / Zn n)%Z).
  have H1 := Z.mul_div_le r (Zn n) Hnp. have H2 := Z.mul_succ_div_gt r (Zn n) Hnp.
  have H3 : (0 <= r / Zn n)%Z by apply: Z.div_pos; lia.
  have H4 : (r / Zn n < Zn p)%Z by apply: Z.div_lt_upper_bound => //; rewrite NE; lia.
  split; first by apply/ltP; lia. rewrite /bo Z2Nat.id //. lia.
Qed.

Lemma bo_inv i j : (bo i < bo j + Zn n)%Z -> (i <= j)%N.
Proof. move=> H. case: (leqP i j) => // H1. have := bo_lt H1. lia. Qed.

Lemma qr_init H0 tau : square N H0 -> lenZ tau = NZ -> cyc (gl H0) -> qr_inv H0 0 H0 tau.
Proof.
  move=> HS HT HC. have Hnp := n_pos. split => //.
  - move=> b r c Hb Hc Hr. have Hb0 := bo_ge0 b. have [|a [Ha Hra]] := block_of (r := r); first lia.
    have Hba : (b.+1 < a)%N.
    { have : (bo b.+2 < bo a + Zn n)%Z by rewrite !boS; lia. by move/bo_inv. }
    move/ltP: Hba => Hba. apply: (HC a b) => //; try lia. exact: ltnW.
  - move=> b r c Hb Hc Hr Hor. have Hb0 := bo_ge0 b. have Hbp := bo_lt Hb. rewrite bo_p boS in Hbp. have [|a [Ha Hra]] := block_of (r := r); first lia.
    have Hba : (a < b)%N /\ ((a.+1 < b)%N \/ (0 < b)%N).
    { case: Hor => [Hor|[H1 H2]].
      - case: b Hb Hc Hb0 Hbp Hor => [|b] Hb Hc Hb0 Hbp Hor; first by rewrite bo0 in Hor; lia.
        rewrite boS in Hor. have H3 : (a < b)%N. { rewrite ltnNge. apply/negP => H4. have := bo_le H4. lia. }
        split; [exact: ltnW | by left].
      - split; last by right. rewrite ltnNge. apply/negP => H4. have := bo_le H4. lia. }
    case: Hba => /ltP Hba _. apply: (HC a b) => //; try lia; first exact: ltnW. move=> [_ Eb]. move/ltP: Hb. lia.
  - rewrite /= mul1mx. apply: mxf_ext => r c Hr Hc. rewrite /masked bo0. by case: Z.ltb_spec => //=; lia.
Qed.

Lemma cyclic_qr_ok la H0 tau : lapack_ok la -> square N H0 -> lenZ tau = NZ -> cyc (gl H0) ->
  exists H' tau', cyclic_qr la (Zn n) (Zn p) H0 tau = Some (H', tau') /\ qr_post H0 H' tau'.
Proof.
  move=> HLA HS HT HC. rewrite /cyclic_qr NE lZ.
  have [|||[H tau'] [-> HI]] := @for_range_inv _ (fun i st => qr_inv H0 (Z.to_nat i) st.1 st.2) 0%Z (Zn l) (cyclic_qr_step la (Zn n) (Zn p)) (H0, tau).
  - lia.
  - move=> i [H t] Hi /= HI. have Ei : i = Zn (Z.to_nat i) by lia.
    have [|H' [t' [E' HI']]] := qr_step_ok HLA _ HI.
    { rewrite -l2 !ltnS. apply/ltP. lia. }
    rewrite -Ei in E'. exists (H', t'). split; first exact: E'. move=> /=. by have -> : Z.to_nat (i + 1) = (Z.to_nat i).+1 by lia.
  - exact: qr_init.
  - cbn [obind]. rewrite /= Nat2Z.id in HI.
    have -> : (Z.max 0 (Zn l) * Zn n = bo l)%Z by rewrite /bo; lia.
    exact: qr_last_ok.
Qed.
End QR.
Arguments bo_ge0 n i : clear implicits.
