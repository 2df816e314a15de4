(** Proofs about the multiplication by the orthogonal factors, and the complete inverse. *)
From Coq Require Import ZArith List Reals Lia Lra.
From mathcomp Require Import all_ssreflect fingroup perm ssralg matrix.
From Verif Require Import Base BaseFacts Sums SumsFacts RealOps Blas BlasFacts RField MatProd MatSpec MatFacts TimeStepFacts
  Lapack LapackSpec LapackFacts LapackExists WindowFacts BlockCyclic BlockCyclicSpec CyclicQRFacts CyclicTriFacts.
Set Implicit Arguments.
Unset Strict Implicit.
Unset Printing Implicit Defensive.
Local Open Scope ring_scope.
Import GRing.Theory.

(** moved so far: columns before J, and rows before I in column J *)
Definition mvd (J I i j : Z) : bool := ((j <? i) && ((j <? J) || ((j =? J) && (i <? I))))%Z%bool.
Lemma mvdP J I i j : reflect (j < i /\ (j < J \/ (j = J /\ i < I)))%Z (mvd J I i j).
Proof.
  rewrite /mvd. apply: (iffP andP) => [[/Z.ltb_lt H1 /orP [/Z.ltb_lt H2|/andP [/Z.eqb_eq H2 /Z.ltb_lt H3]]]|[H1 H2]].
  - split => //. by left.
  - split => //. by right.
  - split; first by apply/Z.ltb_lt. apply/orP. case: H2 => [H2|[H2 H3]]; [left; exact/Z.ltb_lt|right]. apply/andP. split; [exact/Z.eqb_eq|exact/Z.ltb_lt].
Qed.

Lemma move_lower_ok m k A oa lda B ldb : (k <= m)%Z -> fits (lenZ A) m k oa lda -> fits (lenZ B) m k 0 ldb ->
  exists A' B', move_lower m k A oa lda B ldb = Some (A', B') /\ lenZ A' = lenZ A /\ lenZ B' = lenZ B /\
    (forall i j, (0 <= i < m)%Z -> (0 <= j < k)%Z -> ent A' oa lda i j = if (j <? i)%Z then R0 else ent A oa lda i j) /\
    (forall x, (0 <= x)%Z -> ~ inblk m k oa lda x -> rat A' x = rat A x) /\
    (forall i j, (0 <= i < m)%Z -> (0 <= j < k)%Z -> ent B' 0 ldb i j = if (j <? i)%Z then ent A oa lda i j else ent B 0 ldb i j).
Proof.
  move=> Hkm HA HB. case: (HA) => [a1 [a2 [a3 [a4 a5]]]]. case: (HB) => [b1 [b2 [b3 [b4 b5]]]].
  pose Inv J I (st : list R * list R) := lenZ st.1 = lenZ A /\ lenZ st.2 = lenZ B /\
    (forall i j, (0 <= i < m)%Z -> (0 <= j < k)%Z -> ent st.1 oa lda i j = if mvd J I i j then R0 else ent A oa lda i j) /\
    (forall x, (0 <= x)%Z -> ~ inblk m k oa lda x -> rat st.1 x = rat A x) /\
    (forall i j, (0 <= i < m)%Z -> (0 <= j < k)%Z -> ent st.2 0 ldb i j = if mvd J I i j then ent A oa lda i j else ent B 0 ldb i j).
  have Hext : forall J I J' I' st, (forall i j, (0 <= i < m)%Z -> (0 <= j < k)%Z -> mvd J I i j = mvd J' I' i j) -> Inv J I st -> Inv J' I' st.
  { move=> J I J' I' st He [h1 [h2 [h3 [h4 h5]]]]. split => //. split => //. split; [|split] => //.
    - move=> i j Hi Hj. by rewrite -He // h3.
    - move=> i j Hi Hj. by rewrite -He // h5. }
  have Hb : forall J I J' I' i j, ((j < i /\ (j < J \/ (j = J /\ i < I))) <-> (j < i /\ (j < J' \/ (j = J' /\ i < I'))))%Z -> mvd J I i j = mvd J' I' i j.
  { move=> J I J' I' i j He. case: mvdP => h1; case: mvdP => h2 //; tauto. }
  rewrite /move_lower.
  have [|||[A' B'] [-> [h1 [h2 [h3 [h4 h5]]]]]] := @for_range_inv _ (fun J => Inv J 0%Z) 0%Z k (fun j st =>
    for_range (j + 1) m (fun i st => let '(A, B) := st in
      let* a := aget A (oa + i + j * lda) in let* B := aset B (i + ldb * j) a in let* A := aset A (oa + i + j * lda) 0%coqR in
      Some (A, B)) st) (A, B).
  - lia.
  - move=> J st HJ HI.
    have [|||st' [-> HI']] := @for_range_inv _ (fun I => Inv J I) (J + 1)%Z m (fun i st => let '(A, B) := st in
      let* a := aget A (oa + i + J * lda) in let* B := aset B (i + ldb * J) a in let* A := aset A (oa + i + J * lda) 0%coqR in
      Some (A, B)) st.
    + lia.
    + move=> I [A1 B1] HI1 [/= h1 [h2 [h3 [h4 h5]]]].
      have PA : (0 <= oa + I + J * lda < lenZ A)%Z by apply: (fits_at HA); lia.
      have PB : (0 <= 0 + I + J * ldb < lenZ B)%Z by apply: (fits_at HB); lia.
      rewrite aget_rat; last by rewrite h1. cbn [obind]. 
      have -> : (I + ldb * J = 0 + I + J * ldb)%Z by ring.
      rewrite aset_ok; last by rewrite -/(lenZ B1) h2. cbn [obind].
      rewrite aset_ok; last by rewrite -/(lenZ A1) h1. cbn [obind].
      eexists. split; first reflexivity. rewrite /Inv /=.
      have Enew : forall i j, mvd J (I + 1) i j = (if ((j =? J) && (i =? I))%Z%bool then true else mvd J I i j).
      { move=> i j. case: (Z.eqb_spec j J) => e1; case: (Z.eqb_spec i I) => e2 /=.
        - apply/mvdP. lia.
        - apply: Hb. lia.
        - apply: Hb. lia.
        - apply: Hb. lia. }
      have Ea : forall i j, (0 <= i < m)%Z -> (0 <= j < k)%Z -> ((oa + I + J * lda =? oa + i + j * lda) = ((j =? J) && (i =? I))%bool)%Z.
      { move=> i j Hi Hj. case: Z.eqb_spec => e; case: Z.eqb_spec => e1; case: Z.eqb_spec => e2 //=; try (subst; lia).
        all: have [||||x y] := @blk_inj m lda I J i j; try lia. }
      have Eb : forall i j, (0 <= i < m)%Z -> (0 <= j < k)%Z -> ((0 + I + J * ldb =? 0 + i + j * ldb) = ((j =? J) && (i =? I))%bool)%Z.
      { move=> i j Hi Hj. case: Z.eqb_spec => e; case: Z.eqb_spec => e1; case: Z.eqb_spec => e2 //=; try (subst; lia).
        all: have [||||x y] := @blk_inj m ldb I J i j; try lia. }
      split; first by rewrite /lenZ lset_length. split; first by rewrite /lenZ lset_length. split; [|split].
      * move=> i j Hi Hj. have := fits_at HA Hi Hj => PA'.
        rewrite /ent rat_lset; [|by rewrite -?/(lenZ _) ?h1; lia|lia]. rewrite Ea // Enew. case: andP => // _. exact: h3.
      * move=> x Hx Hnb. rewrite rat_lset; [|by rewrite -?/(lenZ _) ?h1; lia|lia]. case: Z.eqb_spec => e; last exact: h4.
        exfalso. apply: Hnb. exists I, J. lia.
      * move=> i j Hi Hj. have := fits_at HB Hi Hj => PB'.
        rewrite /ent rat_lset; [|by rewrite -?/(lenZ _) ?h2; lia|lia]. rewrite Eb // Enew. case: (Z.eqb_spec j J) => e1; case: (Z.eqb_spec i I) => e2 /=.
        -- subst. have := h3 I J Hi Hj. rewrite /ent => ->. by case: mvdP => //; lia.
        -- exact: h5.
        -- exact: h5.
        -- exact: h5.
    + apply: Hext HI => i j Hi Hj. apply: Hb. lia.
    + exists st'. split => //. apply: Hext HI' => i j Hi Hj. apply: Hb. lia.
  - split => //. split => //. split; [|split] => //= i j Hi Hj; case: mvdP => //; lia.
  - exists A', B'. split => //. split => //. split => //. split; [|split] => //.
    + move=> i j Hi Hj. rewrite (h3 i j Hi Hj). by case: mvdP => e; case: Z.ltb_spec => //; lia.
    + move=> i j Hi Hj. rewrite (h5 i j Hi Hj). by case: mvdP => e; case: Z.ltb_spec => //; lia.
Qed.

Section Rot.
Variables (n p : nat).
Hypotheses (Hn : (0 < n)%N) (Hp : (2 <= p)%N).
Notation N := (n * p)%N.
Notation NZ := (Zn (n * p)%N).
Notation gl := (gl N).
Notation bo := (bo n).
Notation l := (p - 2)%N.
Notation Emb i := (@emb N (2 * n) (bo i)).
Variables H tau : list R.
Hypothesis HTau : lenZ tau = NZ.

Lemma rot_gen i k B Q : (k <= 2 * n)%N -> (bo i + Zn (2 * n)%N <= NZ)%Z -> square N B -> lenZ Q = (Zn (2 * n)%N * Zn (2 * n)%N)%Z ->
  (forall r c, (0 <= r < NZ)%Z -> (bo i <= c < bo i + Zn k)%Z -> (c < r)%Z -> gl B r c = gl H r c) ->
  (forall r c, (bo i + Zn (2 * n)%N <= r < NZ)%Z -> (bo i <= c < bo i + Zn k)%Z -> gl B r c = 0) ->
  exists B1 Q1, move_lower (Zn (2 * n)%N) (Zn k) B (bo i + NZ * bo i) NZ Q (Zn (2 * n)%N) = Some (B1, Q1) /\
  exists B2, dormqr_RT NZ (Zn (2 * n)%N) (Zn k) Q1 0 (Zn (2 * n)%N) tau (bo i) B1 (0 + NZ * bo i) NZ = Some B2 /\
    square N B2 /\ lenZ Q1 = lenZ Q /\ (forall r c, (0 <= r < NZ)%Z -> (0 <= c < bo i)%Z -> gl B2 r c = gl B r c) /\
    mxf N N (masked (bo i) (gl B2)) = mxf N N (masked (bo i + Zn k) (gl B)) *m (Emb i (Qp n (gl H) (rat tau) i k))^T.
Proof.
  move=> /leP Hk Hw HS HQ HLo HZ. have B0 := bo_ge0 n i. have Hnp := n_pos Hn. have Hk' : (Zn k <= Zn (2 * n))%Z by lia.
  set o := bo i in B0 Hw HLo HZ *. set m := (2 * n)%N in Hk Hk' Hw HQ HZ *.
  have HF : fits (lenZ B) (Zn m) (Zn k) (o + NZ * o) NZ by apply: fits_win => //; lia.
  have HFQ : forall Q' : list R, lenZ Q' = lenZ Q -> fits (lenZ Q') (Zn m) (Zn k) 0 (Zn m).
  { move=> Q' ->. rewrite /fits HQ. repeat split; try lia. move=> h1 h2. nia. }
  have [B1 [Q1 [-> [LB [LQ [EB [FB EQ]]]]]]] := @move_lower_ok _ _ B (o + NZ * o) NZ Q (Zn m) Hk' HF (HFQ _ erefl).
  exists B1, Q1. split => //.
  have S1 : square N B1 by rewrite /square LB.
  have W1 : writes B B1 m k (o + NZ * o) NZ (fun i j => if (j <? i)%Z then R0 else ent B (o + NZ * o) NZ i j) by split.
  have G1 := writes_gl W1 B0 B0 Hw.
  have F2 : fits (lenZ B1) NZ (Zn m) (0 + NZ * o) NZ by apply: fits_win => //; lia.
  have [||B2 [-> [W2 E2]]] := @dormqr_RT_ok N m k Q1 0 (Zn m) tau o B1 (0 + NZ * o) NZ (HFQ _ LQ) F2; [lia|rewrite HTau; lia|].
  exists B2. split => //. split; first by rewrite /square (proj1 W2). split => //.
  have G2 := writes_gl W2 (Z.le_refl 0) B0 _. rewrite Z.add_0_l in G2. have {}G2 := G2 (Z.le_refl _).
  split.
  - move=> r c Hr Hc. rewrite G2; try lia. rewrite G1; try lia.
    case: (inwinP o (Zn m) c) => [?|_]; first lia. case: (inwinP o (Zn k) c) => [?|_]; first lia. by rewrite !andbF.
  - have -> : mxf N N (masked (o + Zn k) (gl B)) = mxf N N (masked o (gl B1)).
    { apply: mxf_ext => r c Hr Hc. rewrite /masked G1 //; last lia.
      case: (Z.ltb_spec c r) => h1; case: (Z.ltb_spec c (o + Zn k)) => h2; case: (Z.ltb_spec c o) => h3 /=; try lia; try done.
      - case: (inwinP o (Zn k)) => h4; last lia. case: (inwinP o (Zn m)) => h5 /=.
        + case: Z.ltb_spec => //. lia.
        + by rewrite HZ //; lia.
      - case: (inwinP o (Zn k)) => h4; first lia. by rewrite andbF.
      - case: (inwinP o (Zn k)) => h4; first lia. by rewrite andbF.
      - case: (inwinP o (Zn k)) => h4; last lia. case: (inwinP o (Zn m)) => h5 //=.
        case: Z.ltb_spec => h6; first lia. rewrite win_ent. congr gl; lia.
      - case: (inwinP o (Zn k)) => h4; first lia. by rewrite andbF. }
    apply: emb_right => //.
    + move=> r c Hr Hc Hout. rewrite /masked G2 //; last lia. case: (inwinP o (Zn m)) => //. by rewrite andbF.
    + have EM : forall g, mxf N m (fun r j => masked o (gl g) r (o + j)%Z) = mxf N m (ent g (0 + NZ * o) NZ).
      { move=> g. apply: mxf_ext => r j Hr Hj. rewrite win_ent /masked. case: Z.ltb_spec => [?|_] /=; [lia|done]. }
      rewrite !EM E2. congr (_ *m _^T). apply: qmx_ext => // b /ltP Hb a Ha.
      rewrite EQ; try lia. case: Z.ltb_spec => [_|?]; last lia. rewrite win_ent /pan -/o. apply: HLo; lia.
Qed.

Variables H0 A : list R.
Hypotheses (HQ : qr_post n p H0 H tau) (HT : tri_post n p H A).
Notation X := (mxf N N (upper (gl A))).
Notation G := (Gm n p (gl H) (rat tau)).

Lemma emb_orth i Q : (bo i + Zn (2 * n)%N <= NZ)%Z -> Q *m Q^T = 1%:M -> Emb i Q *m (Emb i Q)^T = 1%:M.
Proof. move=> Hw E. rewrite emb_tr emb_mul //; last exact: bo_ge0. by rewrite E emb_1. Qed.

Lemma prodE_orth i : (i <= l)%N -> prodE n p (gl H) (rat tau) i *m (prodE n p (gl H) (rat tau) i)^T = 1%:M.
Proof.
  elim: i => [|i IH] Hi /=; first by rewrite trmx1 mulmx1.
  rewrite trmx_mul mulmxA -[_ *m _ *m (Emb i _)^T]mulmxA emb_orth ?mulmx1; first by apply: IH; exact: ltnW.
  - apply: win2. move/ltP: Hi => Hi. apply/ltP. move: Hi. rewrite -minusE. lia.
  - apply: qmx_orth => k Hk. exact: (qp_refl HQ).
Qed.

Lemma G_orth : G^T *m G = 1%:M.
Proof.
  apply: mulmx1C. rewrite /Gm trmx_mul mulmxA -[_ *m _ *m (Emb l _)^T]mulmxA emb_orth ?mulmx1; first exact: prodE_orth.
  - rewrite (bo_l n Hp). exact: Z.le_refl.
  - apply: qmx_orth => k Hk. exact: (qp_last HQ).
Qed.

Record ri (i : nat) (B Q : list R) : Prop := {
  ri_sq : square N B;
  ri_q : lenZ Q = (Zn (2 * n)%N * Zn (2 * n)%N)%Z;
  ri_low : forall r c, (0 <= r < NZ)%Z -> (0 <= c < bo i)%Z -> (c < r)%Z -> gl B r c = gl H r c;
  ri_prod : mxf N N (masked (bo i) (gl B)) *m (prodE n p (gl H) (rat tau) i)^T = X *m G^T }.

Lemma rot_step_ok i B Q : (i < l)%N -> ri i.+1 B Q ->
  exists B' Q', cyclic_rotation_step (Zn n) (Zn p) tau (Zn i) (B, Q) = Some (B', Q') /\ ri i B' Q'.
Proof.
  move=> Hi [HS HQl HL HP]. rewrite /cyclic_rotation_step (NE n p) (n2E n) diag_off.
  have Hi1 : (i.+1 < p)%N. { move/ltP: Hi => Hi. apply/ltP. move: Hi. rewrite -minusE. lia. }
  have -> : (NZ * Zn i * Zn n = 0 + NZ * bo i)%Z by rewrite /CyclicQRFacts.bo; ring.
  have B0 := bo_ge0 n i. have BS := boS n i.
  have [||||||B1 [Q1 [-> [B2 [E2 [S2 [L2 [F2 P2]]]]]]]] := @rot_gen i n B Q.
  - by rewrite leq_pmull.
  - exact: win2.
  - by [].
  - by [].
  - move=> r c Hr Hc Hcr. apply: HL => //. lia.
  - move=> r c Hr Hc. have Hw := win2 (n := n) Hi1. have Hnp := n_pos Hn. have En := n2E n. rewrite HL; try lia. apply: (qp_low HQ (b := i)) => //. lia.
  - cbn [obind]. rewrite -/(bo i) E2. cbn [obind]. exists B2, Q1. split => //. split => //.
    + by rewrite L2.
    + move=> r c Hr Hc Hcr. rewrite F2 //. apply: HL => //. lia.
    + by rewrite P2 -HP BS /= trmx_mul mulmxA.
Qed.

Lemma cyclic_rotation_ok : exists A', cyclic_rotation (Zn n) (Zn p) A tau = Some A' /\ square N A' /\ mxf N N (gl A') = X *m G^T.
Proof.
  rewrite /cyclic_rotation (NE n p) (n2E n) (lZ Hp) diag_off.
  have -> : (NZ * Zn l * Zn n = 0 + NZ * bo l)%Z by rewrite /CyclicQRFacts.bo; ring.
  have Bl := bo_l n Hp. have B0 := bo_ge0 n l. have Hnp := n_pos Hn.
  set Q0 := List.repeat _ _.
  have LQ0 : lenZ Q0 = (Zn (2 * n)%N * Zn (2 * n)%N)%Z by rewrite /lenZ /Q0 List.repeat_length -n2E; lia.
  have [||||||B1 [Q1 [-> [B2 [E2 [S2 [L2 [F2 P2]]]]]]]] := @rot_gen l (2 * n) A Q0.
  - by [].
  - lia.
  - exact: (tp_sq HT).
  - by [].
  - move=> r c Hr Hc Hcr. apply: (tp_low HT) => //. lia.
  - move=> r c Hr. lia.
  - cbn [obind]. rewrite -/(bo l) E2. cbn [obind].
    have HI : ri l B2 Q1.
    { split => //.
      - by rewrite L2.
      - move=> r c Hr Hc Hcr. rewrite F2 //. apply: (tp_low HT) => //. lia.
      - rewrite P2 Bl /Gm trmx_mul mulmxA. congr (_ *m _ *m _). apply: mxf_ext => r c Hr Hc.
        rewrite /masked /upper. case: Z.ltb_spec => [_|?]; last lia. case: Z.ltb_spec => h1; case: Z.leb_spec => h2 //=; lia. }
    have [||[A' Q'] [-> HI']] := @for_down_inv _ (fun i st => ri (Z.to_nat i) st.1 st.2) (Z.to_nat (Zn l)) (Zn l) (cyclic_rotation_step (Zn n) (Zn p) tau) (B2, Q1).
    + move=> i [B Q] Hi HIi. have E' : (i = Zn (Z.to_nat i))%Z by lia.
      have E'' : Z.to_nat (i + 1) = (Z.to_nat i).+1 by lia. rewrite E'' in HIi.
      have [|B' [Q' [EB HB]]] := rot_step_ok _ HIi; first by apply/ltP; lia.
      exists (B', Q'). split => //. by rewrite -E' in EB.
    + by rewrite Nat2Z.id.
    + cbn [obind]. exists A'. split => //. 
      move: HI'. have -> : Z.to_nat (Zn l - Zn (Z.to_nat (Zn l))) = 0%N by (clear; lia). case=> /= HS _ _.
      rewrite trmx1 mulmx1 => E. split => //. rewrite -E. apply: mxf_ext => r c Hr Hc. rewrite /masked bo0. by case: Z.ltb_spec => //=; lia.
Qed.

Lemma rot_inverse : exists A', cyclic_rotation (Zn n) (Zn p) A tau = Some A' /\ square N A' /\ mxf N N (gl A') *m mxf N N (gl H0) = 1%:M.
Proof.
  have [A' [E [HS EA]]] := cyclic_rotation_ok. exists A'. split => //. split => //.
  by rewrite EA (qp_prod HQ) mulmxA -[X *m _ *m _]mulmxA G_orth mulmx1 (tp_inv HT).
Qed.
End Rot.

Lemma upper_diag N g : mxf N N (upper g) \in unitmx -> forall r, (0 <= r < Zn N)%Z -> g r r <> R0.
Proof.
  rewrite unitmxE det_upper unitfE => /prodf_neq0 H r Hr.
  have Hr' : (Z.to_nat r < N)%N by apply/ltP; lia.
  have := H (Ordinal Hr') isT. rewrite /= Z2Nat.id; last lia. by move/eqP.
Qed.

Lemma cyc_of n p A : (0 < n)%N -> block_cyclic (mat (n * p) A) -> cyc n p (gl (n * p) A).
Proof.
  move=> Hn HC a b r c Ha Hb Hr Hc H1 H2 H3.
  have Wa := win1 (n := n) Ha. have Wb := win1 (n := n) Hb. have A0 := bo_ge0 n a. have B0 := bo_ge0 n b.
  have Hr' : (Z.to_nat r < n * p)%N by apply/ltP; rewrite -?multE in Wa *; lia.
  have Hc' : (Z.to_nat c < n * p)%N by apply/ltP; rewrite -?multE in Wb *; lia.
  have Ea : (Z.to_nat r %/ n = a)%N.
  { have -> : Z.to_nat r = (a * n + (Z.to_nat r - a * n))%N by rewrite -plusE -minusE -multE; move: Hr; rewrite /bo; lia.
    rewrite divnMDl // divn_small ?addn0 //. apply/ltP. rewrite -minusE -multE. move: Hr. rewrite /bo. lia. }
  have Eb : (Z.to_nat c %/ n = b)%N.
  { have -> : Z.to_nat c = (b * n + (Z.to_nat c - b * n))%N by rewrite -plusE -minusE -multE; move: Hc; rewrite /bo; lia.
    rewrite divnMDl // divn_small ?addn0 //. apply/ltP. rewrite -minusE -multE. move: Hc. rewrite /bo. lia. }
  have := HC (Ordinal Hr') (Ordinal Hc'). rewrite /= Ea Eb => -[].
  - move/or3P => [/eqP|/eqP|/andP [/eqP h1 /eqP h2]] //. by case: H3.
  - rewrite mat_mxf mxE /= !Z2Nat.id //; lia.
Qed.

Lemma cyclic_inverse_ok la junk n p H : lapack_ok la -> (0 < n)%N -> (2 <= p)%N -> square (n * p) H ->
  block_cyclic (mat (n * p) H) -> mat (n * p) H \in unitmx ->
  exists H', cyclic_inverse la junk (Zn n) (Zn p) H = Some (H', 0%Z) /\ square (n * p) H' /\ mat (n * p) H' *m mat (n * p) H = 1%:M.
Proof.
  move=> HLA Hn Hp HS HC HU. rewrite /cyclic_inverse (NE n p).
  have HT : lenZ (fresh junk (Zn (n * p)%N)) = Zn (n * p)%N by rewrite fresh_len //; lia.
  have [H1 [tau [-> HQ]]] := cyclic_qr_ok Hn Hp HLA HS HT (cyc_of Hn HC). cbn [obind].
  have HD : forall r, (0 <= r < Zn (n * p)%N)%Z -> gl (n * p) H1 r r <> R0.
  { apply: upper_diag. move: HU. by rewrite mat_mxf (qp_prod HQ) unitmx_mul => /andP []. }
  have HUp : forall b r c, (b.+1 < p)%N -> (bo n b <= c < bo n b + Zn n)%Z -> (0 <= r < bo n b - Zn n)%Z -> gl (n * p) H1 r c = 0.
  { move=> b r c Hb Hc Hr. apply: (qp_up HQ (b := b)) => //; try lia. }
  have [A [-> HTr]] := cyclic_trinv_ok Hn Hp (qp_sq HQ) HUp HD HLA. cbn [obind]. change (negb (0 =? 0)%Z) with false. cbv iota.
  have [A' [-> [S' E']]] := rot_inverse Hn Hp (qp_tau HQ) HQ HTr. cbn [obind].
  exists A'. split => //. split => //. by rewrite !mat_mxf.
Qed.
