(** Proofs about rank-1 updates and wrapping. *)
From Coq Require Import ZArith List Reals Lia Lra.
From mathcomp Require Import all_ssreflect ssralg matrix.
From Verif Require Import Base BaseFacts Sums SumsFacts RealOps RField Blas BlasFacts MatProd MatSpec MatFacts
  TimeStepSpec TimeStepFacts GreenUpdate GreenSpec.
Set Implicit Arguments.
Unset Strict Implicit.
Unset Printing Implicit Defensive.
Local Open Scope ring_scope.
Import GRing.Theory.

(** determinant of a matrix that differs from the identity in one row *)
Lemma det_one_row (F : comRingType) n (i : 'I_n) (M : 'M[F]_n) :
  (forall a b, a != i -> M a b = (a == b)%:R) -> \det M = M i i.
Proof.
  move=> H. rewrite (expand_det_row _ i).
  have E : forall j, cofactor M i j = cofactor (1%:M : 'M[F]_n) i j.
  { move=> j. rewrite /cofactor. congr (_ * \det _). apply/matrixP => a b. rewrite !mxE. rewrite H //.
    by rewrite eq_sym neq_lift. }
  rewrite (bigD1 i) //= big1 ?addr0.
  - rewrite E. have := mul_mx_adj (1%:M : 'M[F]_n). rewrite mul1mx det1 => /matrixP /(_ i i).
    by rewrite !mxE eqxx => ->; rewrite mulr1.
  - move=> j Hj. rewrite E. have := mul_mx_adj (1%:M : 'M[F]_n). rewrite mul1mx det1 => /matrixP /(_ j i).
    by rewrite !mxE (negbTE Hj) => ->; rewrite mulr0.
Qed.

Section Rank1.
Variables (n : nat) (G A : 'M[R]_n) (i : 'I_n) (delta : R).
Hypothesis GA : is_green G A.

Let e : 'M[R]_n := delta_mx i i.

Lemma scale_row_E : 1%:M + scale_row i (1 + delta) A = 1%:M + A + delta *: (e *m A).
Proof.
  apply/matrixP => a b. rewrite !mxE -addrA. congr (_ + _).
  rewrite (bigD1 i) //= big1 ?addr0 => [|c Hc]; last by rewrite !mxE (negbTE Hc) andbF mul0r.
  rewrite !mxE eqxx andbT. case: eqP => [->|_]; first by rewrite mul1r mulrDl mul1r.
  by rewrite mul0r mulr0 addr0.
Qed.

Lemma AG_E : A *m G = 1%:M - G.
Proof.
  have H := mulmx1C GA. rewrite mulmxDl mul1mx in H. by rewrite -H addrAC subrr add0r.
Qed.

Definition dratio : R := 1 + delta * (1 - G i i).

Lemma det_ratio : \det (1%:M + scale_row i (1 + delta) A) = dratio * \det (1%:M + A).
Proof.
  rewrite scale_row_E.
  have -> : 1%:M + A + delta *: (e *m A) = (1%:M + delta *: (e *m (1%:M - G))) *m (1%:M + A).
  { rewrite mulmxDl mul1mx. congr (_ + _). rewrite -scalemxAl -mulmxA. congr (_ *: (_ *m _)).
    rewrite mulmxBl mul1mx GA. by rewrite addrC addKr. }
  rewrite det_mulmx. congr (_ * _). rewrite (@det_one_row _ _ i).
  - rewrite !mxE eqxx. rewrite (bigD1 i) //= big1 ?addr0 => [|c Hc]; last by rewrite !mxE (negbTE Hc) andbF mul0r.
    by rewrite !mxE !eqxx mul1r.
  - move=> a b Ha. rewrite !mxE big1 ?mulr0 ?addr0 // => c _. by rewrite !mxE (negbTE Ha) mul0r.
Qed.

Lemma rank1_green : dratio <> 0 ->
  is_green (G + (delta / dratio) *: (G *m e *m (G - 1%:M))) (scale_row i (1 + delta) A).
Proof.
  move=> /eqP Hr. rewrite /is_green scale_row_E. set X := 1%:M + A.
  have HX : G *m X = 1%:M by [].
  have HeA : e *m A = e *m (1%:M - G) *m X.
  { rewrite -mulmxA mulmxBl mul1mx HX /X. by rewrite addrC addKr. }
  have He : e *m (1%:M - G) *m e = (1 - G i i) *: e.
  { apply/matrixP => a b. rewrite !mxE.
    rewrite (bigD1 i) //= big1 ?addr0 => [|c Hc]; last by rewrite !mxE (negbTE Hc) /= mulr0.
    rewrite !mxE. rewrite (bigD1 i) //= big1 ?addr0 => [|c Hc]; last by rewrite !mxE (negbTE Hc) andbF mul0r.
    rewrite !mxE !eqxx andbT /=. case: eqP => _ /=; last by rewrite !mul0r mulr0.
    by rewrite mul1r. }
  rewrite HeA. set g := e *m (1%:M - G).
  have -> : X + delta *: (g *m X) = (1%:M + delta *: g) *m X by rewrite mulmxDl mul1mx scalemxAl.
  have -> : G *m e *m (G - 1%:M) = - (G *m g).
  { by rewrite /g -!mulmxA -mulmxN -mulmxN opprB. }
  rewrite mulmxA.
  suff -> : (G + delta / dratio *: - (G *m g)) *m (1%:M + delta *: g) = G by [].
  rewrite mulmxDl !mulmxDr !mulmx1 scalerN mulNmx -scalemxAl -!scalemxAr.
  rewrite -(mulmxA G g g).
  have Hgg : g *m g = (1 - G i i) *: g.
  { by rewrite {1 2}/g mulmxA He -scalemxAl. }
  rewrite Hgg -!scalemxAr !scalerA.
  rewrite -addrA -[RHS]addr0. congr (_ + _). rewrite -!scaleNr -!scalerDl.
  suff -> : delta + (- (delta / dratio) - delta / dratio * (delta * (1 - G i i))) = 0 by rewrite scale0r.
  have -> : - (delta / dratio) - delta / dratio * (delta * (1 - G i i)) = - (delta / dratio * dratio).
  { set q := delta / dratio. rewrite /dratio. set x := delta * _. by rewrite mulrDr mulr1 opprD. }
  by rewrite divfK // subrr.
Qed.
End Rank1.

Lemma mul_delta n (X Y : 'M[R]_n) i a b : (X *m delta_mx i i *m Y) a b = X a i * Y i b.
Proof.
  rewrite mxE (bigD1 i) //= big1 ?addr0 => [|k Hk].
  - rewrite mxE (bigD1 i) //= big1 ?addr0 => [|k Hk]; last by rewrite !mxE (negbTE Hk) mulr0.
    by rewrite [delta_mx _ _ _ _]mxE !eqxx mulr1.
  - rewrite mxE big1 ?mul0r // => j _. by rewrite !mxE (negbTE Hk) andbF mulr0.
Qed.

(** the arrays *)
Lemma sherman_morrison_ok junk n (i : 'I_n) delta G : square n G ->
  dratio (mat n G) i delta <> 0 ->
  exists G', sherman_morrison junk delta (Zn n) (Zn i) G = Some G' /\ square n G' /\
    mat n G' = mat n G + (delta / dratio (mat n G) i delta) *: (mat n G *m delta_mx i i *m (mat n G - 1%:M)).
Proof.
  move=> HG Hr. rewrite /sherman_morrison. have Hi := ordZ i.
  have HF : lenZ (fresh junk (Zn n)) = Zn n by rewrite fresh_len //; lia.
  rewrite /square in HG.
  have [|||c [-> [Hc1 Hc2]]] := @for_range_inv _ (fun h c => lenZ c = Zn n /\ forall j, (0 <= j < h)%Z -> rat c j = rat G (Zn i + j * Zn n)) 0%Z (Zn n)
    (fun j c => let* v := aget G (Zn i + j * Zn n) in aset c j v) (fresh junk (Zn n)).
  - lia.
  - move=> j c Hj [H1 H2]. rewrite (aget_rat G); last nia. cbn [obind]. rewrite aset_ok; last by rewrite /lenZ in H1; lia.
    eexists; split; first reflexivity. split; first by rewrite /lenZ lset_length.
    move=> j' Hj'. rewrite rat_lset; [|by rewrite /lenZ in H1; lia|lia].
    case: Z.eqb_spec => [->//|Hne]. apply: H2. lia.
  - split => // j. lia.
  - cbn [obind]. rewrite (aget_rat c); last lia. cbn [obind]. rewrite aset_ok; last by rewrite /lenZ in Hc1; lia.
    cbn [obind]. set c' := lset _ _ _. have Hc' : lenZ c' = Zn n by rewrite /lenZ lset_length.
    have [|||||d [-> [Hd1 [Hd2 _]]]] := @copy_ok (Zn n) G (Zn n * Zn i) (fresh junk (Zn n)) 0; try nia. cbn [obind].
    rewrite (aget_rat c'); last lia. cbn [obind].
    have Ec : forall j, (0 <= j < Zn n)%Z -> rat c' j = Rminus (rat G (Zn i + j * Zn n)) (if (j =? Zn i)%Z then R1 else R0).
    { move=> j Hj. rewrite /c' rat_lset; [|by rewrite /lenZ in Hc1; lia|lia]. rewrite Z.eqb_sym. case: Z.eqb_spec => [->|Hne].
      - by rewrite Hc2.
      - by rewrite Hc2 //; rewrite Rminus_0_r. }
    have Eii : forall a b : 'I_n, mat n G a b = rat G (Zn a + Zn b * Zn n).
    { move=> a b. rewrite mxE -ratE. congr rat. rewrite -plusE -multE. lia. }
    have Er : Rminus 1%coqR (Rmult delta (rat c' (Zn i))) = dratio (mat n G) i delta.
    { rewrite Ec // Z.eqb_refl /dratio Eii. rewrite -?RplusE -?RminusE -?RmultE -?R1E. lra. }
    rewrite Er rdiv_some //. cbn [obind].
    have HF2 : fits (lenZ G) (Zn n) (Zn n) 0 (Zn n) by apply: fits_square.
    have [||G' [-> [HL [HE _]]]] := @dger_ok (Zn n) (Zn n) (Rdiv delta (dratio (mat n G) i delta)) d c' G (Zn n) HF2; try lia.
    exists G'. split => //. split; first by rewrite /square HL.
    apply/matrixP => a b. have Ha := ordZ a. have Hb := ordZ b.
    have -> : mat n G' a b = ent G' 0 (Zn n) (Zn a) (Zn b).
    { rewrite mxE /ent -ratE. congr rat. rewrite -plusE -multE. lia. }
    rewrite HE //. rewrite RplusE. rewrite [RHS]mxE. congr (_ + _).
    + rewrite mxE /ent -ratE. congr rat. rewrite -plusE -multE. lia.
    + rewrite [RHS]mxE RdivE // !RmultE -mulrA. congr (_ * _).
      rewrite mul_delta.
      have -> : rat d (Zn a) = mat n G a i.
      { have := Hd2 (Zn a) Ha. rewrite Z.add_0_l => ->. rewrite Eii. congr rat. lia. }
      congr (_ * _). rewrite Ec // !mxE -[nth _ _ _]/(nth R0 G (i + b * n)) -ratE of_nat_eqb eq_sym -val_eqE /=.
      have -> : (Zn (i + b * n)%N = Zn i + Zn b * Zn n)%Z by rewrite -plusE -multE; lia.
      by case: (_ == _).
Qed.

Lemma sherman_morrison_none junk n (i : 'I_n) delta G : square n G ->
  dratio (mat n G) i delta = 0 -> sherman_morrison junk delta (Zn n) (Zn i) G = None.
Proof.
  move=> HG Hr. rewrite /sherman_morrison. have Hi := ordZ i.
  have HF : lenZ (fresh junk (Zn n)) = Zn n by rewrite fresh_len //; lia.
  rewrite /square in HG.
  have [|||c [-> [Hc1 Hc2]]] := @for_range_inv _ (fun h c => lenZ c = Zn n /\ forall j, (0 <= j < h)%Z -> rat c j = rat G (Zn i + j * Zn n)) 0%Z (Zn n)
    (fun j c => let* v := aget G (Zn i + j * Zn n) in aset c j v) (fresh junk (Zn n)).
  - lia.
  - move=> j c Hj [H1 H2]. rewrite (aget_rat G); last nia. cbn [obind]. rewrite aset_ok; last by rewrite /lenZ in H1; lia.
    eexists; split; first reflexivity. split; first by rewrite /lenZ lset_length.
    move=> j' Hj'. rewrite rat_lset; [|by rewrite /lenZ in H1; lia|lia].
    case: Z.eqb_spec => [->//|Hne]. apply: H2. lia.
  - split => // j. lia.
  - cbn [obind]. rewrite (aget_rat c); last lia. cbn [obind]. rewrite aset_ok; last by rewrite /lenZ in Hc1; lia.
    cbn [obind]. set c' := lset _ _ _. have Hc' : lenZ c' = Zn n by rewrite /lenZ lset_length.
    have [|||||d [-> [Hd1 [Hd2 _]]]] := @copy_ok (Zn n) G (Zn n * Zn i) (fresh junk (Zn n)) 0; try nia. cbn [obind].
    rewrite (aget_rat c'); last lia. cbn [obind].
    have Er : Rminus 1%coqR (Rmult delta (rat c' (Zn i))) = R0.
    { transitivity (dratio (mat n G) i delta); last exact: Hr. rewrite /dratio /c' rat_lset; [|by rewrite /lenZ in Hc1; lia|lia]. rewrite Z.eqb_refl Hc2 //.
      have -> : mat n G i i = rat G (Zn i + Zn i * Zn n).
      { rewrite mxE -ratE. congr rat. rewrite -plusE -multE. lia. }
      rewrite -?RplusE -?RminusE -?RmultE -?R1E. lra. }
    rewrite Er /rdiv. by case: Req_EM_T.
Qed.

(** wrapping *)
Lemma wrap_green n (G B iB X : 'M[R]_n) : iB *m B = 1%:M -> is_green G (X *m B) ->
  is_green (B *m G *m iB) (B *m X) /\ \det (1%:M + B *m X) = \det (1%:M + X *m B).
Proof.
  move=> HB HG. have HB' := mulmx1C HB.
  have E : (1%:M + B *m X) *m B = B *m (1%:M + X *m B) by rewrite mulmxDl mulmxDr mul1mx mulmx1 mulmxA.
  split.
  - rewrite /is_green.
    have -> : 1%:M + B *m X = B *m (1%:M + X *m B) *m iB by rewrite -E -mulmxA HB' mulmx1.
    rewrite -!mulmxA (mulmxA iB B) HB mul1mx (mulmxA G) HG mul1mx. exact: HB'.
  - have := congr1 (fun M : 'M[R]_n => \det M) E. rewrite !det_mulmx mulrC. apply: mulfI.
    have := congr1 (fun M : 'M[R]_n => \det M) HB. rewrite det_mulmx det1 => H1.
    apply/eqP => H0. move: H1. rewrite H0 mulr0 => /eqP. by rewrite eq_sym oner_eq0.
Qed.

Lemma slice_wrap_ok junk n B iB G : square n B -> square n iB -> square n G ->
  exists G', slice_wrap junk (Zn n) B iB G = Some G' /\ square n G' /\ mat n G' = mat n B *m mat n G *m mat n iB.
Proof.
  move=> HB HI HG. rewrite /slice_wrap.
  have [T [-> [HT ET]]] := dgemm_square HB HG (fresh_square junk n). cbn [obind].
  have [G' [-> [HG' EG']]] := dgemm_square HT HI HG.
  exists G'. split => //. split => //. by rewrite EG' ET.
Qed.

Lemma mprod_app n (As Bs : list 'M[R]_n) : mprod (As ++ Bs) = mprod Bs *m mprod As.
Proof. by elim: As => [|A As IH] /=; rewrite ?mulmx1 // IH mulmxA. Qed.

Lemma oprod_cat n (M : nat -> 'M[R]_n) lo a b : oprod M lo (a + b) = oprod M (lo + a) b *m oprod M lo a.
Proof. by rewrite /oprod iotaD map_cat mprod_app. Qed.

Lemma oprod0 n (M : nat -> 'M[R]_n) lo : oprod M lo 0 = 1%:M. Proof. by []. Qed.
Lemma oprod1 n (M : nat -> 'M[R]_n) lo : oprod M lo 1 = M lo. Proof. by rewrite /oprod /= mul1mx. Qed.
Lemma oprodS n (M : nat -> 'M[R]_n) lo k : oprod M lo k.+1 = M (lo + k)%N *m oprod M lo k.
Proof. by rewrite -addn1 oprod_cat oprod1. Qed.
Lemma oprodSl n (M : nat -> 'M[R]_n) lo k : oprod M lo k.+1 = oprod M lo.+1 k *m M lo.
Proof. by rewrite -add1n oprod_cat oprod1 addn1. Qed.

(** the flow seen from the next slice *)
Lemma cyclic_next n (M : nat -> 'M[R]_n) L l : (l < L)%N ->
  cyclic_flow M L l = (oprod M 0 l *m oprod M l.+1 (L - l.+1)) *m M l /\
  cyclic_flow M L l.+1 = M l *m (oprod M 0 l *m oprod M l.+1 (L - l.+1)).
Proof.
  move=> Hl. rewrite /cyclic_flow. split.
  - have -> : (L - l = (L - l.+1).+1)%N by rewrite subnSK.
    by rewrite oprodSl mulmxA.
  - by rewrite oprodS add0n mulmxA.
Qed.

Lemma cyclic_end n (M : nat -> 'M[R]_n) L : cyclic_flow M L L = cyclic_flow M L 0.
Proof. by rewrite /cyclic_flow subnn subn0 !oprod0 mulmx1 mul1mx. Qed.
