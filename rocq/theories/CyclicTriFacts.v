(** Proofs about the inversion of the block structured triangular matrix. *)
From Coq Require Import ZArith List Reals Lia Lra.
From mathcomp Require Import all_ssreflect fingroup perm ssralg matrix.
From Verif Require Import Base BaseFacts Sums SumsFacts RealOps Blas BlasFacts RField MatProd MatSpec MatFacts TimeStepFacts
  Lapack LapackSpec LapackFacts LapackExists WindowFacts BlockCyclic CyclicQRFacts.
Set Implicit Arguments.
Unset Strict Implicit.
Unset Printing Implicit Defensive.
Local Open Scope ring_scope.
Import GRing.Theory.

Lemma sum_upper_l m a i g : (0 <= i <= m)%Z -> sum 0 m (fun l => Rmult (upper a i l) (g l)) = sum i m (fun l => Rmult (a i l) (g l)).
Proof.
  move=> Hi. rewrite (@sum_split 0 i m) //. rewrite (@sum_zero 0 i); first rewrite Rplus_0_l.
  - apply: sum_ext => l Hl. rewrite /upper. case: Z.leb_spec => //. lia.
  - move=> l Hl. rewrite /upper. case: Z.leb_spec => [?|_]; first lia. exact: Rmult_0_l.
Qed.
Lemma sum_upper_r m a j g : (0 <= j < m)%Z -> sum 0 m (fun l => Rmult (g l) (upper a l j)) = sum 0 (j + 1) (fun l => Rmult (g l) (a l j)).
Proof.
  move=> Hi. rewrite (@sum_split 0 (j + 1) m) //; last lia. rewrite (@sum_zero (j + 1) m); first rewrite Rplus_0_r.
  - apply: sum_ext => l Hl. rewrite /upper. case: Z.leb_spec => //. lia.
  - move=> l Hl. rewrite /upper. case: Z.leb_spec => [?|_]; first lia. exact: Rmult_0_r.
Qed.

Lemma dtrtri_ok la m A off ld : lapack_ok la -> fits (lenZ A) (Zn m) (Zn m) off ld ->
  (forall i, (0 <= i < Zn m)%Z -> ent A off ld i i <> R0) ->
  exists A', dtrtri la (Zn m) A off ld = Some (A', 0%Z) /\ writes A A' m m off ld (ent A' off ld) /\
    mxf m m (upper (ent A' off ld)) *m mxf m m (upper (ent A off ld)) = 1%:M /\
    (forall i j, (0 <= j < i)%Z -> (i < Zn m)%Z -> ent A' off ld i j = ent A off ld i j).
Proof.
  move=> HLA HF HD. rewrite /dtrtri. have [P [-> [HP EP]]] := gather_ok HF. cbn [obind].
  have HPd : diag_nz m P by move=> i /ltP Him; rewrite EP; try lia; apply: HD; lia.
  have := ok_trtri HLA (proj2 (packed_len _ _ _) HP) HPd.
  case: (la_trtri _ _ _) => P' info [-> [/packed_len HP' [HI HLow]]].
  have [A' [-> HW]] := scatter_ok HP' HF. cbn [obind]. exists A'. split => //. case: (HW) => HL [HE HFr].
  have EA : forall i j, (0 <= i < Zn m)%Z -> (0 <= j < Zn m)%Z -> ent A' off ld i j = pk P' m i j by [].
  split; [|split].
  - by split.
  - rewrite (upper_ext EA) -HI. congr (_ *m _). apply: upper_ext => i j Hi Hj. by rewrite EP.
  - move=> i j Hj Hi. rewrite EA; try lia. rewrite -EP; try lia.
    have := HLow (Z.to_nat i) (Z.to_nat j). rewrite !Z2Nat.id; try lia. apply. apply/andP; split; apply/ltP; lia.
Qed.

Lemma dtrmm_left_mx m n alpha A oa lda B ob ldb :
  fits (lenZ A) (Zn m) (Zn m) oa lda -> fits (lenZ B) (Zn m) (Zn n) ob ldb ->
  exists B', dtrmm_left (Zn m) (Zn n) alpha A oa lda B ob ldb = Some B' /\ writes B B' m n ob ldb (ent B' ob ldb) /\
    mxf m n (ent B' ob ldb) = alpha *: (mxf m m (upper (ent A oa lda)) *m mxf m n (ent B ob ldb)).
Proof.
  move=> HA HB. have [B' [E [HL [HE HF]]]] := @dtrmm_left_ok _ _ alpha A oa lda B ob ldb HA HB.
  exists B'. split => //. split; first by split.
  rewrite mxf_mul mxf_scale. apply: mxf_ext => i j Hi Hj. rewrite HE // sum_upper_l //. lia.
Qed.
Lemma dtrmm_right_mx m n alpha A oa lda B ob ldb :
  fits (lenZ A) (Zn n) (Zn n) oa lda -> fits (lenZ B) (Zn m) (Zn n) ob ldb ->
  exists B', dtrmm_right (Zn m) (Zn n) alpha A oa lda B ob ldb = Some B' /\ writes B B' m n ob ldb (ent B' ob ldb) /\
    mxf m n (ent B' ob ldb) = alpha *: (mxf m n (ent B ob ldb) *m mxf n n (upper (ent A oa lda))).
Proof.
  move=> HA HB. have [B' [E [HL [HE HF]]]] := @dtrmm_right_ok _ _ alpha A oa lda B ob ldb HA HB.
  exists B'. split => //. split; first by split.
  rewrite mxf_mul mxf_scale. apply: mxf_ext => i j Hi Hj. rewrite HE // sum_upper_r //.
Qed.
Lemma dgemm_mx m n k alpha A oa lda B ob ldb beta C oc ldc :
  fits (lenZ A) (Zn m) (Zn k) oa lda -> fits (lenZ B) (Zn k) (Zn n) ob ldb -> fits (lenZ C) (Zn m) (Zn n) oc ldc -> 
  exists C', dgemm false (Zn m) (Zn n) (Zn k) alpha A oa lda B ob ldb beta C oc ldc = Some C' /\
    writes C C' m n oc ldc (ent C' oc ldc) /\
    mxf m n (ent C' oc ldc) = alpha *: (mxf m k (ent A oa lda) *m mxf k n (ent B ob ldb)) + beta *: mxf m n (ent C oc ldc).
Proof.
  move=> HA HB HC. have [C' [E [HL [HE HF]]]] := @dgemm_ok false _ _ _ alpha A oa lda B ob ldb beta C oc ldc HA HB HC.
  exists C'. split => //. split; first by split.
  rewrite mxf_mul !mxf_scale mxf_add. apply: mxf_ext => i j Hi Hj. by rewrite HE.
Qed.

Lemma mul_sel N m k o g : (0 <= o)%Z -> (o + Zn m <= Zn N)%Z ->
  mxf k m g *m sel N m o = mxf k N (fun r c => if inwin o (Zn m) c then g r (c - o)%Z else R0).
Proof.
  move=> Ho Hm. apply: trmx_inj. rewrite trmx_mul [(mxf k m g)^T]mxf_tr selT_mul // mxf_tr. done.
Qed.

Lemma cancel5 (V : zmodType) (a b c : V) : a + b + c - b - c = a.
Proof. by rewrite (addrAC a b c) addrK addrK. Qed.

Section Tri.
Variables (n p : nat).
Hypotheses (Hn : (0 < n)%N) (Hp : (2 <= p)%N).
Notation N := (n * p)%N.
Notation NZ := (Zn (n * p)%N).
Notation gl := (gl N).
Notation bo := (bo n).
Notation P a := (sel N n (bo a)).
Variable H : list R.
Notation u := (upper (gl H)).
Hypotheses (HSq : square N H) (HUp : forall b r c, (b.+1 < p)%N -> (bo b <= c < bo b + Zn n)%Z -> (0 <= r < bo b - Zn n)%Z -> gl H r c = 0)
  (HD : forall r, (0 <= r < NZ)%Z -> gl H r r <> R0).

(** rows of the inverse *)
Definition rows_ok (x : Z -> Z -> R) (lo : Z) : Prop := forall r c, (lo <= r < NZ)%Z -> (0 <= c < NZ)%Z ->
  sum 0 NZ (fun k => Rmult (x r k) (u k c)) = if (c =? r)%Z then R1 else R0.

Lemma rows_sel x lo m o : rows_ok x lo -> (0 <= lo <= o)%Z -> (o + Zn m <= NZ)%Z -> sel N m o *m mxf N N x *m mxf N N u = sel N m o.
Proof.
  move=> HR Ho Hm. rewrite sel_mul; try lia. rewrite mxf_mul. apply: mxf_ext => i c Hi Hc. rewrite HR //. lia.
Qed.
Lemma sel_rows x m o : (0 <= o)%Z -> (o + Zn m <= NZ)%Z -> sel N m o *m mxf N N x *m mxf N N u = sel N m o ->
  forall r c, (o <= r < o + Zn m)%Z -> (0 <= c < NZ)%Z -> sum 0 NZ (fun k => Rmult (x r k) (u k c)) = if (c =? r)%Z then R1 else R0.
Proof.
  move=> Ho Hm. rewrite sel_mul; try lia. rewrite mxf_mul => E r c Hr Hc. have E' := mxf_at E (i := (r - o)%Z) (j := c).
  have Er : (o + (r - o) = r)%Z by lia. rewrite Er in E'. apply: E'; lia.
Qed.

Definition blk (g : Z -> Z -> R) (a b : nat) : 'M[R]_n := mxf n n (fun i j => g (bo a + i) (bo b + j))%Z.

Lemma last_rows g : P p.-1 *m mxf N N (upper g) = blk (upper g) p.-1 p.-1 *m P p.-1.
Proof.
  have Hp1 : (p.-1 < p)%N by rewrite prednK // (leq_trans _ Hp). have Hw := win1 (n := n) Hp1. have Hb := bo_ge0 n p.-1.
  have Ew : (bo p.-1 + Zn n = NZ)%Z by rewrite -(boS n) prednK ?bo_p // (leq_trans _ Hp).
  rewrite sel_mul // mul_sel //. apply: mxf_ext => i c Hi Hc. case: inwinP => Hc'.
  - congr (upper g); lia.
  - rewrite /upper. case: Z.leb_spec => //. lia.
Qed.

Record ti (i : nat) (A : list R) : Prop := {
  ti_sq : square N A;
  ti_low : forall r c, (0 <= r < NZ)%Z -> (0 <= c < r)%Z -> gl A r c = gl H r c;
  ti_un : forall r c, (0 <= r < bo i)%Z -> (r <= c < bo p.-1)%Z -> gl A r c = gl H r c;
  ti_last : forall r c, (0 <= r < bo i)%Z -> (0 <= c < Zn n)%Z -> gl A r (bo p.-1 + c)%Z =
    sum 0 (Zn n) (fun l => Rmult (gl H r (bo p.-1 + l)%Z) (upper (gl A) (bo p.-1 + l)%Z (bo p.-1 + c)%Z));
  ti_rows : rows_ok (upper (gl A)) (bo i) }.

Lemma pp_inv i A : (i < p)%N -> ti i A -> blk (upper (gl A)) p.-1 p.-1 *m blk u p.-1 p.-1 = 1%:M.
Proof.
  move=> Hi [HS HL HN HLa HR].
  have Hp1 : (p.-1 < p)%N by rewrite prednK // (leq_trans _ Hp). have Hw := win1 (n := n) Hp1. have Hb := bo_ge0 n p.-1.
  have Hb' := bo_ge0 n i.
  have := @rows_sel (upper (gl A)) (bo i) n (bo p.-1) HR. 
  have Hle : (bo i <= bo p.-1)%Z by apply: bo_le; rewrite -ltnS prednK // (leq_trans _ Hp).
  move/(_ (conj Hb' Hle) Hw). rewrite last_rows -mulmxA last_rows => E.
  have := congr1 (fun M => M *m (P p.-1)^T) E. by rewrite /= -!mulmxA sel_orth // mulmx1.
Qed.

Lemma tri_step_ok la i A : lapack_ok la -> (i.+3 < p)%N -> ti i.+1 A ->
  exists A', cyclic_trinv_step la (Zn n) (Zn p) (Zn i) (A, 0%Z) = Some (A', 0%Z) /\ ti i A'.
Proof.
  move=> HLA Hi HT. have HPP := pp_inv (ltnW (ltnW Hi)) HT. case: HT => [HS HLo HN HLa HR].
  rewrite /cyclic_trinv_step (NE n p). change (negb (0 =? 0)%Z) with false. cbv iota.
  have Hp1 : (p.-1 < p)%N by rewrite prednK // (leq_trans _ Hp).
  have Hp0 : (0 < p)%N by rewrite (leq_trans _ Hp).
  have Eq1 : (Zn i + NZ * (Zn i + 1))%Z = (Zn i + NZ * Zn i.+1)%Z by lia.
  have Eq2 : (Zn p - 1 = Zn p.-1)%Z by move/leP: Hp; lia.
  have Eq3 : (((Zn i + 1) + NZ * (Zn i + 2)) = (Zn i.+1 + NZ * Zn i.+2))%Z by lia.
  have Eq4 : ((Zn i + NZ * (Zn i + 2)) = (Zn i + NZ * Zn i.+2))%Z by lia.
  have Eq5 : (Zn i + 1 = Zn i.+1)%Z by lia.
  pose k := (n * (p - i.+2))%N.
  have Ek : (Zn n * (Zn p - Zn i - 2) = Zn k)%Z by rewrite /k -minusE -multE; move/ltP: Hi; lia.
  rewrite Eq1 Eq2 Eq3 Eq4 Eq5 Ek !(win_off n p) !(diag_off n p).
  have Hnp := n_pos Hn.
  have B0 := bo_ge0 n i. have B1 := boS n i. have B2 := boS n i.+1.
  have Hk : (bo i.+2 + Zn k = NZ)%Z.
  { rewrite -(bo_p n p) /k /CyclicQRFacts.bo -minusE -multE. move/ltP: Hi. nia. }
  have B3 : (bo i.+2 + Zn n <= bo p.-1)%Z by apply: bo_lt; rewrite -ltnS prednK.
  have B4 : (bo p.-1 + Zn n = NZ)%Z by rewrite -(boS n) prednK // bo_p.
  set o := bo i in B0 B1 *. set o1 := bo i.+1 in B1 B2 *. set o2 := bo i.+2 in B2 B3 Hk *. set op := bo p.-1 in B3 B4 *.
  have F0 : forall B, square N B -> fits (lenZ B) (Zn n) (Zn n) (o + NZ * o) NZ by move=> B HB; apply: fits_win => //; lia.
  have F1 : forall B, square N B -> fits (lenZ B) (Zn n) (Zn n) (o + NZ * o1) NZ by move=> B HB; apply: fits_win => //; lia.
  have F2 : forall B, square N B -> fits (lenZ B) (Zn n) (Zn n) (o + NZ * op) NZ by move=> B HB; apply: fits_win => //; lia.
  have F3 : forall B, square N B -> fits (lenZ B) (Zn n) (Zn k) (o + NZ * o2) NZ by move=> B HB; apply: fits_win => //; lia.
  have F4 : forall B, square N B -> fits (lenZ B) (Zn n) (Zn k) (o1 + NZ * o2) NZ by move=> B HB; apply: fits_win => //; lia.
  have F5 : forall B, square N B -> fits (lenZ B) (Zn n) (Zn n) (o1 + NZ * o1) NZ by move=> B HB; apply: fits_win => //; lia.
  have [|A1 [-> [W1 [E1 L1]]]] := @dtrtri_ok la n A (o + NZ * o) NZ HLA (F0 _ HS).
  { move=> r Hr. rewrite win_ent HN; try lia. apply: HD; lia. }
  cbn [obind]. change (negb (0 =? 0)%Z) with false. cbv iota.
  have S1 : square N A1 by rewrite /square (proj1 W1).
  have [A2 [-> [W2 E2]]] := @dtrmm_left_mx n n (-1)%coqR A1 (o + NZ * o) NZ A1 (o + NZ * op) NZ (F0 _ S1) (F2 _ S1).
  cbn [obind]. have S2 : square N A2 by rewrite /square (proj1 W2).
  have [A3 [-> [W3 E3]]] := @dtrmm_left_mx n n (-1)%coqR A2 (o + NZ * o) NZ A2 (o + NZ * o1) NZ (F0 _ S2) (F1 _ S2).
  cbn [obind]. have S3 : square N A3 by rewrite /square (proj1 W3).
  have [A4 [-> [W4 E4]]] := @dgemm_mx n k n 1%coqR A3 (o + NZ * o1) NZ A3 (o1 + NZ * o2) NZ 1%coqR A3 (o + NZ * o2) NZ (F1 _ S3) (F4 _ S3) (F3 _ S3).
  cbn [obind]. have S4 : square N A4 by rewrite /square (proj1 W4).
  have [A5 [-> [W5 E5]]] := @dtrmm_right_mx n n 1%coqR A4 (o1 + NZ * o1) NZ A4 (o + NZ * o1) NZ (F5 _ S4) (F1 _ S4).
  cbn [obind]. have S5 : square N A5 by rewrite /square (proj1 W5).
  exists A5. split => //.
  have Hw : (o + Zn n <= NZ)%Z by lia. have B0' : (0 <= o1)%Z by lia. have B0'' : (0 <= o2)%Z by lia. have Bp : (0 <= op)%Z by lia.
  have G1 := writes_gl W1 B0 B0 Hw. have G2 := writes_gl W2 B0 Bp Hw. have G3 := writes_gl W3 B0 B0' Hw.
  have G4 := writes_gl W4 B0 B0'' Hw. have G5 := writes_gl W5 B0 B0' Hw.
  have Fout : forall r c, (0 <= r < NZ)%Z -> (0 <= c)%Z -> ~ (o <= r < o + Zn n)%Z ->
    gl A1 r c = gl A r c /\ gl A2 r c = gl A r c /\ gl A3 r c = gl A r c /\ gl A4 r c = gl A r c /\ gl A5 r c = gl A r c.
  { move=> r c Hr Hc Hn'. rewrite G5 // G4 // G3 // G2 // G1 //. by case: inwinP. }
  have Flow : forall r c, (0 <= r < NZ)%Z -> (0 <= c < o)%Z -> gl A5 r c = gl A r c.
  { move=> r c Hr Hc. rewrite G5 ?G4 ?G3 ?G2 ?G1 //; try lia.
    case: (inwinP o1) => [?|_]; first lia. case: (inwinP o2) => [?|_]; first lia. case: (inwinP op) => [?|_]; first lia.
    case: (inwinP o (Zn n) c) => [?|_]; first lia. by rewrite !andbF. }
  have Fdia : forall r c, (0 <= r < NZ)%Z -> (o <= c < o1)%Z -> gl A5 r c = gl A1 r c /\ gl A2 r c = gl A1 r c.
  { move=> r c Hr Hc. rewrite G5 ?G4 ?G3 ?G2 //; try lia.
    case: (inwinP o1) => [?|_]; first lia. case: (inwinP o2) => [?|_]; first lia. case: (inwinP op) => [?|_]; first lia.
    by rewrite !andbF. }
  have F1b : forall r c, (0 <= r < NZ)%Z -> (o1 <= c < o2)%Z -> gl A2 r c = gl A r c /\ gl A4 r c = gl A3 r c.
  { move=> r c Hr Hc. rewrite G4 ?G2 ?G1 //; try lia.
    case: (inwinP o2) => [?|_]; first lia. case: (inwinP op) => [?|_]; first lia. case: (inwinP o (Zn n) c) => [?|_]; first lia.
    by rewrite !andbF. }
  have Fmid : forall r c, (0 <= r < NZ)%Z -> (o2 <= c < op)%Z -> gl A3 r c = gl A r c.
  { move=> r c Hr Hc. rewrite G3 ?G2 ?G1 //; try lia.
    case: (inwinP o1) => [?|_]; first lia. case: (inwinP op) => [?|_]; first lia. case: (inwinP o (Zn n) c) => [?|_]; first lia.
    by rewrite !andbF. }
  have Fri : forall r c, (0 <= r < NZ)%Z -> (op <= c < NZ)%Z -> gl A1 r c = gl A r c /\ gl A3 r c = gl A2 r c.
  { move=> r c Hr Hc. rewrite G3 ?G1 //; try lia.
    case: (inwinP o1) => [?|_]; first lia. case: (inwinP o (Zn n) c) => [?|_]; first lia. by rewrite !andbF. }
  have F54 : forall r c, (0 <= r < NZ)%Z -> (o2 <= c < NZ)%Z -> gl A5 r c = gl A4 r c.
  { move=> r c Hr Hc. rewrite G5; try lia. case: (inwinP o1) => [?|_]; first lia. by rewrite !andbF. }
  set X := upper (gl A) in HR HPP *. set X' := upper (gl A5).
  (* blocks *)
  pose Xi := mxf n n (upper (ent A1 (o + NZ * o) NZ)).
  pose Y := mxf n n (ent A2 (o + NZ * op) NZ).
  pose Rm := mxf n n (ent A3 (o + NZ * o1) NZ).
  have EXi : Xi *m blk u i i = 1%:M.
  { rewrite -E1. congr (_ *m _). apply: mxf_ext => a b Ha Hb. rewrite /upper win_ent -/o.
    case: Z.leb_spec => h1; case: Z.leb_spec => h2 //; try lia. symmetry. apply: HN; lia. }
  have EY : Y = - (Xi *m blk u i p.-1 *m blk X p.-1 p.-1).
  { rewrite /Y E2 -/Xi scaleN1r. congr (- _). rewrite -mulmxA. congr (_ *m _). rewrite /blk mxf_mul.
    apply: mxf_ext => a b Ha Hb. rewrite win_ent -/o -/op. rewrite (proj1 (Fri _ _ _ _)); try lia. rewrite HLa; try lia.
    apply: sum_ext => l Hl. congr Rmult. rewrite /upper. case: Z.leb_spec => //. lia. }
  have ER : Rm = - (Xi *m blk u i i.+1).
  { rewrite /Rm E3 scaleN1r. congr (- _). congr (_ *m _).
    - apply: upper_ext => a b Ha Hb. rewrite !win_ent. apply: (proj2 (Fdia _ _ _ _)); lia.
    - apply: mxf_ext => a b Ha Hb. rewrite win_ent -/o -/o1. rewrite (proj1 (F1b _ _ _ _)); try lia. rewrite HN; try lia.
      rewrite /upper. case: Z.leb_spec => //. lia. }
  (* row of U *)
  have EU : P i *m mxf N N u = blk u i i *m P i + blk u i i.+1 *m P i.+1 + blk u i p.-1 *m P p.-1.
  { rewrite sel_mul; try (rewrite -/o; lia). rewrite !mul_sel; try (rewrite -/o -/o1 -/op; lia). rewrite !mxf_add -/o -/o1 -/op.
    apply: mxf_ext => a c Ha Hc.
    case: (inwinP o) => h1; case: (inwinP o1) => h2; case: (inwinP op) => h3; try lia.
    - have -> : (o + (c - o) = c)%Z by lia. lra.
    - have -> : (o1 + (c - o1) = c)%Z by lia. lra.
    - have -> : (op + (c - op) = c)%Z by lia. lra.
    - have -> : u (o + a)%Z c = R0; last lra. rewrite /upper. case: Z.leb_spec => // h4.
      have [|b [Hb Hcb]] := block_of Hn (r := c) (p := p); first lia.
      have Hb2 : (i.+2 <= b)%N. { apply: (bo_inv (n := n)). rewrite -/o2. lia. }
      have Hb3 : (b < p.-1)%N. { rewrite ltnNge. apply/negP => Hge. have := bo_le (n := n) Hge. rewrite -/op. lia. }
      have := bo_le (n := n) Hb2. rewrite -/o2 => Hb4. apply: (HUp (b := b)) => //; try lia. by rewrite -(prednK Hp0) ltnS. }
  (* row of X' *)
  have EX : P i *m mxf N N X' = Xi *m P i + Rm *m (P i.+1 *m mxf N N X) + Y *m P p.-1.
  { rewrite !sel_mul; try (rewrite -/o -/o1; lia). rewrite !mul_sel; try (rewrite -/o -/op; lia). rewrite mxf_mul !mxf_add -/o -/o1 -/op.
    move: E4. rewrite mxf_mul !mxf_scale mxf_add => E4. have {}E4 := mxf_at E4.
    move: E5. rewrite mxf_mul !mxf_scale => E5. have {}E5 := mxf_at E5.
    apply: mxf_ext => a c Ha Hc.
    have EXz : (c < o1)%Z -> sum 0 (Zn n) (fun l => Rmult (ent A3 (o + NZ * o1) NZ a l) (X (o1 + l)%Z c)) = R0.
    { move=> h. apply: sum_zero => l Hl. rewrite /X /upper. case: Z.leb_spec => [?|_]; first lia. exact: Rmult_0_r. }
    case: (Z.lt_ge_cases c o) => h1; [|case: (Z.lt_ge_cases c o1) => h2; [|case: (Z.lt_ge_cases c o2) => h3]].
    - rewrite EXz; last lia. case: inwinP => [?|_]; first lia. case: inwinP => [?|_]; first lia.
      rewrite /X' /upper. case: Z.leb_spec => [?|_]; first lia. lra.
    - rewrite EXz; last lia. case: inwinP => [_|?]; last lia. case: inwinP => [?|_]; first lia.
      rewrite /X' /upper win_ent (proj1 (Fdia _ _ _ _)); try lia. have -> : (o + (c - o) = c)%Z by lia.
      case: Z.leb_spec => h3; case: Z.leb_spec => h4; try lia; lra.
    - case: inwinP => [?|_]; first lia. case: inwinP => [?|_]; first lia.
      have -> : X' (o + a)%Z c = ent A5 (o + NZ * o1) NZ a (c - o1).
      { rewrite /X' /upper win_ent. have -> : (o1 + (c - o1) = c)%Z by lia. case: Z.leb_spec => //. lia. }
      rewrite E5; try lia. rewrite Rmult_1_l Rplus_0_l Rplus_0_r. apply: sum_ext => l Hl. congr Rmult.
      + rewrite !win_ent. apply: (proj2 (F1b _ _ _ _)); lia.
      + rewrite /X /upper win_ent. have -> : (o1 + (c - o1) = c)%Z by lia.
        case: Z.leb_spec => h4; case: Z.leb_spec => h5 //; try lia. apply: (proj1 (proj2 (proj2 (proj2 (Fout _ _ _ _ _))))); lia.
    - case: inwinP => [?|_]; first lia.
      have -> : X' (o + a)%Z c = ent A4 (o + NZ * o2) NZ a (c - o2).
      { rewrite /X' /upper win_ent. have -> : (o2 + (c - o2) = c)%Z by lia. case: Z.leb_spec => [_|?]; last lia. apply: F54; lia. }
      rewrite E4; try lia. rewrite !Rmult_1_l Rplus_0_l. congr Rplus.
      + apply: sum_ext => l Hl. congr Rmult. rewrite win_ent. have -> : (o2 + (c - o2) = c)%Z by lia.
        rewrite /X /upper. case: Z.leb_spec => [_|?]; last lia. apply: (proj1 (proj2 (proj2 (Fout _ _ _ _ _)))); lia.
      + rewrite win_ent. have -> : (o2 + (c - o2) = c)%Z by lia. case: inwinP => h4.
        * rewrite win_ent. have -> : (op + (c - op) = c)%Z by lia. apply: (proj2 (Fri _ _ _ _)); lia.
        * rewrite Fmid; try lia. rewrite HN; try lia.
          have [|b [Hb Hcb]] := block_of Hn (r := c) (p := p); first lia.
          have Hb2 : (i.+2 <= b)%N. { apply: (bo_inv (n := n)). rewrite -/o2. lia. }
          have Hb3 : (b < p.-1)%N. { rewrite ltnNge. apply/negP => Hge. have := bo_le (n := n) Hge. rewrite -/op. lia. }
          have := bo_le (n := n) Hb2. rewrite -/o2 => Hb4. apply: (HUp (b := b)) => //; try lia. by rewrite -(prednK Hp0) ltnS. }
  have EROW : P i *m mxf N N X' *m mxf N N u = P i.
  { rewrite EX !mulmxDl -!mulmxA EU last_rows.
    have -> : P i.+1 *m (mxf N N X *m mxf N N u) = P i.+1.
    { rewrite mulmxA. apply: (rows_sel HR); rewrite -/o1; lia. }
    rewrite ER EY !mulmxDr !mulmxA EXi mul1mx !mulNmx.
    have -> : Xi *m blk u i p.-1 *m blk X p.-1 p.-1 *m blk u p.-1 p.-1 = Xi *m blk u i p.-1 by rewrite -!mulmxA HPP mulmx1.
    exact: cancel5. }
  split => //.
  - move=> r c Hr Hc. case: (Z.lt_ge_cases c o) => h1; first by rewrite Flow //; [exact: HLo | lia].
    case: (inwinP o (Zn n) r) => h2.
    + rewrite (proj1 (Fdia _ _ _ _)); try lia.
      have := L1 (r - o)%Z (c - o)%Z. rewrite !win_ent. have -> : (o + (r - o) = r)%Z by lia. have -> : (o + (c - o) = c)%Z by lia.
      move=> ->; try lia. apply: HLo; lia.
    + rewrite (proj2 (proj2 (proj2 (proj2 (Fout _ _ _ _ h2))))); try lia. apply: HLo; lia.
  - move=> r c Hr Hc. rewrite (proj2 (proj2 (proj2 (proj2 (Fout _ _ _ _ _))))); try (rewrite -/o in Hr; rewrite -/op in Hc; lia).
    apply: HN => //. rewrite -/o -/o1 in Hr *. lia.
  - move=> r c Hr Hc. rewrite -/o in Hr. rewrite -/op.
    rewrite (proj2 (proj2 (proj2 (proj2 (Fout _ _ _ _ _))))); try lia. rewrite HLa //; last by rewrite -/o1; lia.
    apply: sum_ext => l Hl. congr Rmult. rewrite /upper -/op. case: Z.leb_spec => // h1. symmetry.
    apply: (proj2 (proj2 (proj2 (proj2 (Fout _ _ _ _ _))))); lia.
  - move=> r c Hr Hc. rewrite -/o in Hr. case: (Z.lt_ge_cases r o1) => h1.
    + apply: (sel_rows _ _ EROW) => //; rewrite -/o; lia.
    + rewrite -(HR r c) //; try (rewrite -/o1; lia). apply: sum_ext => l Hl. congr Rmult. rewrite /X' /X /upper. case: Z.leb_spec => // h2.
      apply: (proj2 (proj2 (proj2 (proj2 (Fout _ _ _ _ _))))); lia.
Qed.

Record tri_post (A : list R) : Prop := {
  tp_sq : square N A;
  tp_low : forall r c, (0 <= r < NZ)%Z -> (0 <= c < r)%Z -> gl A r c = gl H r c;
  tp_inv : mxf N N (upper (gl A)) *m mxf N N u = 1%:M }.

Lemma ti_done A : ti 0 A -> tri_post A.
Proof.
  case=> HS HL _ _ HR. split => //. rewrite mxf_mul mxf_1. apply: mxf_ext => r c Hr Hc. rewrite HR //.
  by rewrite Z.eqb_sym.
Qed.

Lemma tri_base_ok la : lapack_ok la -> (3 <= p)%N -> let q := (p - 3)%N in
  exists A', dtrtri la (3 * Zn n) H ((1 + NZ) * Zn q * Zn n) NZ = Some (A', 0%Z) /\
    square N A' /\ (forall r c, (0 <= r < NZ)%Z -> (0 <= c)%Z -> (r < bo q)%Z -> gl A' r c = gl H r c) /\
    (forall r c, (0 <= r < NZ)%Z -> (0 <= c < r)%Z -> gl A' r c = gl H r c) /\ rows_ok (upper (gl A')) (bo q).
Proof.
  move=> HLA H3 q. rewrite diag_off. have -> : (3 * Zn n = Zn (3 * n)%N)%Z by rewrite -multE; lia.
  have Hnp := n_pos Hn. have B0 := bo_ge0 n q.
  have Bq : (bo q + Zn (3 * n)%N = NZ)%Z by rewrite -(bo_p n p) /q /CyclicQRFacts.bo -minusE -multE; move/leP: H3; nia.
  set o := bo q in B0 Bq *.
  have HF : fits (lenZ H) (Zn (3 * n)%N) (Zn (3 * n)%N) (o + NZ * o) NZ by apply: fits_win => //; lia.
  have [|A1 [-> [W1 [E1 L1]]]] := @dtrtri_ok la (3 * n) H (o + NZ * o) NZ HLA HF.
  { move=> r Hr. rewrite win_ent. apply: HD; lia. }
  exists A1. split => //. split; first by rewrite /square (proj1 W1).
  have Hw : (o + Zn (3 * n)%N <= NZ)%Z by lia. have G1 := writes_gl W1 B0 B0 Hw.
  have Fout : forall r c, (0 <= r < NZ)%Z -> (0 <= c)%Z -> (r < o)%Z \/ (c < o)%Z -> gl A1 r c = gl H r c.
  { move=> r c Hr Hc Hor. rewrite G1 //. case: inwinP => I1; case: inwinP => I2 //=. lia. }
  split; first by move=> r c Hr Hc Ho; apply: Fout => //; left.
  split.
  - move=> r c Hr Hc. case: (Z.lt_ge_cases c o) => h1; first by apply: Fout => //; [lia|right].
    have := L1 (r - o)%Z (c - o)%Z. rewrite !win_ent. have -> : (o + (r - o) = r)%Z by lia. have -> : (o + (c - o) = c)%Z by lia.
    move=> -> //; lia.
  - have ES : forall g, sel N (3 * n) o *m mxf N N (upper g) = mxf (3 * n) (3 * n) (upper (fun i j => g (o + i)%Z (o + j)%Z)) *m sel N (3 * n) o.
    { move=> g. rewrite sel_mul // mul_sel //. apply: mxf_ext => i c Hi Hc. rewrite /upper. case: inwinP => Hc'.
      - have -> : (o + (c - o) = c)%Z by lia. by case: Z.leb_spec => h1; case: Z.leb_spec => h2 //; lia.
      - by case: Z.leb_spec => h1 //; lia. }
    have EE : sel N (3 * n) o *m mxf N N (upper (gl A1)) *m mxf N N u = sel N (3 * n) o.
    { rewrite ES -mulmxA ES mulmxA. rewrite -[RHS]mul1mx -E1. congr (_ *m _ *m _); apply: upper_ext => i j Hi Hj; by rewrite win_ent. }
    move=> r c Hr Hc. apply: (sel_rows _ _ EE) => //; lia.
Qed.

Lemma cyclic_trinv_ok la : lapack_ok la -> exists A', cyclic_trinv la (Zn n) (Zn p) H = Some (A', 0%Z) /\ tri_post A'.
Proof.
  move=> HLA. rewrite /cyclic_trinv (NE n p). have Hnp := n_pos Hn.
  case: Z.leb_spec => Hp2.
  - have HF : fits (lenZ H) NZ NZ 0 NZ by have := @fits_win N H N N 0 0 HSq; rewrite Z.mul_0_r Z.add_0_r; apply; lia.
    have [|A1 [-> [W1 [E1 L1]]]] := @dtrtri_ok la N H 0 NZ HLA HF.
    { move=> r Hr. exact: HD. }
    exists A1. split => //. split.
    + by rewrite /square (proj1 W1).
    + move=> r c Hr Hc. apply: L1; lia.
    + exact: E1.
  - have H3 : (3 <= p)%N by apply/leP; lia. have Hp0 : (0 < p)%N by exact: leq_trans H3.
    have Eq : (Zn p - 3 = Zn (p - 3)%N)%Z by rewrite -minusE; lia.
    rewrite Eq. have [A1 [-> [S1 [U1 [L1 R1]]]]] := tri_base_ok HLA H3. cbn [obind]. change (negb (0 =? 0)%Z) with false. cbv iota.
    set q := (p - 3)%N in U1 R1 *.
    have Bp : (bo p.-1 + Zn n = NZ)%Z by rewrite -(boS n) prednK // bo_p.
    have Bq : (bo q + 2 * Zn n = bo p.-1)%Z by rewrite /q /CyclicQRFacts.bo -minusE; move/leP: H3; nia.
    have B0 := bo_ge0 n q.
    case: Z.ltb_spec => Hp3.
    + have Eq2 : (Zn p - 1 = Zn p.-1)%Z by lia. rewrite Eq2 diag_off.
      have -> : (Zn n * Zn q = Zn (n * q)%N)%Z by rewrite -multE; lia.
      have -> : (NZ * Zn p.-1 * Zn n = 0 + NZ * bo p.-1)%Z by rewrite /CyclicQRFacts.bo; ring.
      have Enq : Zn (n * q)%N = bo q by rewrite /CyclicQRFacts.bo -multE; lia.
      have [||A2 [-> [W2 E2]]] := @dtrmm_right_mx (n * q) n 1%coqR A1 (bo p.-1 + NZ * bo p.-1) NZ A1 (0 + NZ * bo p.-1) NZ.
      { apply: fits_win => //; lia. } { apply: fits_win => //; lia. }
      cbn [obind].
      have S2 : square N A2 by rewrite /square (proj1 W2).
      have G2 := writes_gl W2 (Z.le_refl 0) _ _. rewrite Enq in G2.
      have {}G2 : forall r c : Z, (0 <= r < NZ)%Z -> (0 <= c)%Z -> (bo q <= r)%Z \/ (c < bo p.-1)%Z -> gl A2 r c = gl A1 r c.
      { move=> r c Hr Hc Ho. rewrite G2 //; try lia. case: inwinP => I1; case: inwinP => I2 //=; lia. }
      have HT : ti q A2.
      { split => //.
        - move=> r c Hr Hc. rewrite G2 //; [exact: L1|lia|]. case: (Z.lt_ge_cases r (bo q)) => h; [right|left]; lia.
        - move=> r c Hr Hc. rewrite G2; try lia. apply: U1; lia.
        - move=> r c Hr Hc. move: E2. rewrite mxf_mul mxf_scale => E2. have := mxf_at E2 (i := r) (j := c). rewrite !win_ent Z.add_0_l => ->; try lia.
          rewrite Rmult_1_l. apply: sum_ext => l Hl. rewrite win_ent Z.add_0_l U1; try lia. congr Rmult. rewrite /upper win_ent.
          case: Z.leb_spec => h1; case: Z.leb_spec => h2 //; try lia. symmetry. apply: G2; lia.
        - move=> r c Hr Hc. rewrite -(R1 r c Hr Hc). apply: sum_ext => l Hl. congr Rmult. rewrite /upper. case: Z.leb_spec => // _.
          apply: G2; lia. }
      have [||[A3 inf] [-> [/= -> HT3]]] := @for_down_inv _ (fun i st => st.2 = 0%Z /\ ti (Z.to_nat i) st.1) (Z.to_nat (Zn q)) (Zn q) (cyclic_trinv_step la (Zn n) (Zn p)) (A2, 0%Z).
      { move=> i [B inf] Hi [/= -> HTi]. have E' : (i = Zn (Z.to_nat i))%Z by lia.
        have E'' : Z.to_nat (i + 1) = (Z.to_nat i).+1 by lia. rewrite E'' in HTi.
        have [|B' [EB HB]] := tri_step_ok HLA _ HTi.
        { apply/ltP. move: Hi. rewrite /q -minusE. lia. }
        exists (B', 0%Z). split => //. by rewrite -E' in EB. }
      { split => //=. by rewrite Nat2Z.id. }
      exists A3. split => //. apply: ti_done. move: HT3. have -> : Z.to_nat (Zn q - Zn (Z.to_nat (Zn q))) = 0%N by (clear; lia). by [].
    + exists A1. split => //. apply: ti_done. have E0 : q = 0%N by rewrite /q -minusE; lia.
      rewrite E0 in R1. split => //.
      * move=> r c. rewrite (bo0 n). lia.
      * move=> r c. rewrite (bo0 n). lia.
Qed.
End Tri.
