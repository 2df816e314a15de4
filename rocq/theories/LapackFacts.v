(** Lemmas about the LAPACK wrappers and reflectors. *)
From Coq Require Import ZArith List Reals Lia Lra.
From mathcomp Require Import all_ssreflect fingroup perm ssralg matrix.
From Verif Require Import Base BaseFacts Sums SumsFacts RealOps RField Blas BlasFacts MatProd MatSpec MatFacts TimeStepFacts
  Lapack LapackSpec.
Set Implicit Arguments.
Unset Strict Implicit.
Unset Printing Implicit Defensive.
Local Open Scope ring_scope.
Import GRing.Theory.

Lemma pkE A m i j : ent A 0 (Zn m) i j = pk A m i j.
Proof. by []. Qed.
Lemma vkE t i : rat t i = vk t i.
Proof. by []. Qed.
Lemma mat_pk n A : mat n A = mxf n n (pk A n).
Proof. exact: mat_mxf. Qed.

(** a packed m x n matrix *)
Definition packed (m n : nat) (A : list R) : Prop := lenZ A = (Zn m * Zn n)%Z.
Lemma packed_len m n (A : list R) : List.length A = (m * n)%N <-> packed m n A.
Proof. rewrite /packed /lenZ -multE. split; lia. Qed.
Lemma fits_packed m n A : packed m n A -> fits (lenZ A) (Zn m) (Zn n) 0 (Zn m).
Proof. rewrite /packed /fits => ->. repeat split; try lia. Qed.

(** the m x n block at (off, ld) of C' holds f, the rest is that of C *)
Definition writes (C C' : list R) (m n : nat) (off ld : Z) (f : Z -> Z -> R) : Prop :=
  lenZ C' = lenZ C /\
  (forall i j, (0 <= i < Zn m)%Z -> (0 <= j < Zn n)%Z -> ent C' off ld i j = f i j) /\
  (forall k, (0 <= k)%Z -> ~ inblk (Zn m) (Zn n) off ld k -> rat C' k = rat C k).

Lemma writes_mxf C C' m n off ld f : writes C C' m n off ld f -> mxf m n (ent C' off ld) = mxf m n f.
Proof. move=> [_ [H _]]. exact: mxf_ext. Qed.

Lemma gather_ok m n A off ld : fits (lenZ A) (Zn m) (Zn n) off ld ->
  exists P, gather (Zn m) (Zn n) A off ld = Some P /\ packed m n P /\
    forall i j, (0 <= i < Zn m)%Z -> (0 <= j < Zn n)%Z -> pk P m i j = ent A off ld i j.
Proof.
  move=> HF. rewrite /gather. set Z0 := List.repeat _ _.
  have HZ : packed m n Z0 by rewrite /packed /lenZ List.repeat_length; lia.
  have [||P [E [HL [HE _]]]] := @write_block_ok (Zn m) (Zn n) 0 (Zn m) (fun i j => mget A off ld i j) (ent A off ld) Z0.
  - exact: fits_packed.
  - move=> i j Hi Hj. exact: (mget_ok HF).
  - exists P. split => //. split; first by rewrite /packed HL.
    move=> i j Hi Hj. by rewrite -pkE HE.
Qed.

Lemma scatter_ok m n P A off ld : packed m n P -> fits (lenZ A) (Zn m) (Zn n) off ld ->
  exists A', scatter (Zn m) (Zn n) P A off ld = Some A' /\ writes A A' m n off ld (pk P m).
Proof.
  move=> HP HF. rewrite /scatter.
  have [||A' [E [HL [HE HFr]]]] := @write_block_ok (Zn m) (Zn n) off ld (fun i j => mget P 0 (Zn m) i j) (pk P m) A.
  - by [].
  - move=> i j Hi Hj. exact: (mget_ok (fits_packed HP)).
  - by exists A'.
Qed.


Lemma hvec_ext m a b k : (forall i, (Zn k < i < Zn m)%Z -> a i (Zn k) = b i (Zn k)) -> hvec m a k = hvec m b k.
Proof.
  move=> H. apply: mxf_ext => i j Hi _. case: Z.ltb_spec => // Hlt. case: Z.eqb_spec => // Hne. apply: H. lia.
Qed.

Lemma hmx_ext m a b t u k : (forall i, (Zn k < i < Zn m)%Z -> a i (Zn k) = b i (Zn k)) -> t (Zn k) = u (Zn k) ->
  hmx m a t k = hmx m b u k.
Proof. move=> H1 H2. by rewrite /hmx H2 (hvec_ext H1). Qed.

Lemma qmx_ext m a b t u n : (forall k, (k < n)%N -> forall i, (Zn k < i < Zn m)%Z -> a i (Zn k) = b i (Zn k)) ->
  (forall k, (k < n)%N -> t (Zn k) = u (Zn k)) -> qmx m a t n = qmx m b u n.
Proof.
  elim: n => [//|n IH] H1 H2 /=. rewrite IH.
  - congr (_ *m _). apply: hmx_ext; [exact: H1|exact: H2].
  - move=> k Hk. apply: H1. exact: ltnW.
  - move=> k Hk. apply: H2. exact: ltnW.
Qed.

Lemma refl_ok_ext m a b t u k : (forall i, (Zn k < i < Zn m)%Z -> a i (Zn k) = b i (Zn k)) -> t (Zn k) = u (Zn k) ->
  refl_ok m a t k -> refl_ok m b u k.
Proof. move=> H1 H2. by rewrite /refl_ok H2 (hvec_ext H1). Qed.

Lemma upper_ext m n a b : (forall i j, (0 <= i < Zn m)%Z -> (0 <= j < Zn n)%Z -> a i j = b i j) ->
  mxf m n (upper a) = mxf m n (upper b).
Proof. move=> H. apply: mxf_ext => i j Hi Hj. rewrite /upper. case: Z.leb_spec => // _. exact: H. Qed.

Lemma dgeqrf_ok la m n A off ld tau ot : lapack_ok la -> (n <= m)%N -> fits (lenZ A) (Zn m) (Zn n) off ld ->
  (0 <= ot)%Z -> (ot + Zn n <= lenZ tau)%Z ->
  exists A' tau', dgeqrf la (Zn m) (Zn n) A off ld tau ot = Some (A', tau') /\
    writes A A' m n off ld (ent A' off ld) /\ lenZ tau' = lenZ tau /\
    (forall k, (0 <= k)%Z -> (k < ot \/ ot + Zn n <= k)%Z -> rat tau' k = rat tau k) /\
    (forall k, (k < n)%N -> refl_ok m (ent A' off ld) (fun i => rat tau' (ot + i)) k) /\
    mxf m n (ent A off ld) = qmx m (ent A' off ld) (fun i => rat tau' (ot + i)) n *m mxf m n (upper (ent A' off ld)).
Proof.
  move=> HLA Hnm HF Hot1 Hot2. rewrite /dgeqrf.
  have [P [-> [HP EP]]] := gather_ok HF. cbn [obind].
  have := ok_geqrf HLA Hnm (proj2 (packed_len _ _ _) HP).
  case: (la_geqrf _ _ _ _) => P' t [/packed_len HP' [Ht [Hrefl HQR]]].
  have [A' [-> HW]] := scatter_ok HP' HF. cbn [obind].
  have HtZ : lenZ t = Zn n by rewrite /lenZ Ht.
  have [|||||tau' [-> [HL [H1 H2]]]] := @copy_ok (Zn n) t 0 tau ot; try lia. cbn [obind].
  exists A', tau'. split => //. case: (HW) => HL' [HE HFr].
  have Ha : forall i j, (0 <= i < Zn m)%Z -> (0 <= j < Zn n)%Z -> pk P' m i j = ent A' off ld i j by move=> i j Hi Hj; rewrite HE.
  have Htau : forall k, (k < n)%N -> vk t (Zn k) = rat tau' (ot + Zn k).
  { move=> k /ltP Hk. rewrite H1; last lia. by rewrite -vkE Z.add_0_l. }
  have Hlow : forall k, (k < n)%N -> forall i, (Zn k < i < Zn m)%Z -> pk P' m i (Zn k) = ent A' off ld i (Zn k).
  { move=> k /ltP Hk i Hi. apply: Ha; lia. }
  split; first by []. split => //. split; first by move=> k Hk Ho; apply: H2. split.
  - move=> k Hk. apply: (refl_ok_ext _ _ (Hrefl k Hk)); [exact: Hlow|exact: Htau].
  - rewrite -(qmx_ext Hlow Htau) -(upper_ext Ha) -HQR. apply: mxf_ext => i j Hi Hj. by rewrite EP.
Qed.

(** QR decomposition with pivoting of a square array *)
Lemma dgeqp3_ok la n A tau : lapack_ok la -> square n A -> lenZ tau = Zn n ->
  exists A' jp tau', dgeqp3 la (Zn n) A (List.repeat 0%Z n) tau = Some (A', jp, tau') /\
    square n A' /\ lenZ tau' = Zn n /\ List.length jp = n /\
    (forall k, (k < n)%N -> refl_ok n (pk A' n) (vk tau') k) /\
    exists s : 'S_n, (forall j : 'I_n, List.nth j jp 0%Z = (Zn (s j) + 1)%Z) /\
      col_perm s (mat n A) = qmx n (pk A' n) (vk tau') n *m mxf n n (upper (pk A' n)).
Proof.
  move=> HLA HA Htau. rewrite /dgeqp3.
  have HF := fits_square HA.
  have [P [-> [HP EP]]] := gather_ok HF. cbn [obind].
  have EPA : mat n P = mat n A by rewrite !mat_pk; apply: mxf_ext.
  have := ok_geqp3 HLA (len_square HP).
  case: (la_geqp3 _ _ _ _) => [[P' jp] t] [Hjp [s [Hs [/packed_len HP' [Ht [Hrefl HQR]]]]]].
  have [A' [-> [HL' [HE HFr]]]] := scatter_ok HP' HF. cbn [obind].
  have HtZ : lenZ t = Zn n by rewrite /lenZ Ht.
  have [|||||tau' [-> [HL [H1 H2]]]] := @copy_ok (Zn n) t 0 tau 0; try lia. cbn [obind].
  exists A', jp, tau'. split => //. split; first by rewrite /square HL'. split; first by rewrite HL. split => //.
  have Ha : forall i j, (0 <= i < Zn n)%Z -> (0 <= j < Zn n)%Z -> pk P' n i j = pk A' n i j by move=> i j Hi Hj; rewrite -(pkE A') HE.
  have Ht' : forall k, (k < n)%N -> vk t (Zn k) = vk tau' (Zn k).
  { move=> k /ltP Hk. rewrite -!vkE. by rewrite -{2}(Z.add_0_l (Zn k)) H1 //; lia. }
  have Hlow : forall k, (k < n)%N -> forall i, (Zn k < i < Zn n)%Z -> pk P' n i (Zn k) = pk A' n i (Zn k).
  { move=> k /ltP Hk i Hi. apply: Ha; lia. }
  split.
  - move=> k Hk. apply: (refl_ok_ext _ _ (Hrefl k Hk)); [exact: Hlow|exact: Ht'].
  - exists s. split => //. by rewrite -(qmx_ext Hlow Ht') -(upper_ext Ha) -HQR EPA.
Qed.

(** reflectors *)
Lemma hmx_tr m a t k : (hmx m a t k)^T = hmx m a t k.
Proof. by rewrite /hmx linearB /= tr_scalar_mx linearZ /= trmx_mul trmxK. Qed.

Lemma hmx_sqr m a t k : refl_ok m a t k -> hmx m a t k *m hmx m a t k = 1%:M.
Proof.
  rewrite /refl_ok /hmx. set v := hvec m a k. set x := t _. case => [->|[_ H]].
  - by rewrite scale0r subr0 mulmx1.
  - rewrite mulmxBl mul1mx mulmxBr mulmx1 -scalemxAl -scalemxAr.
    have -> : v *m v^T *m (v *m v^T) = (v^T *m v) ord0 ord0 *: (v *m v^T).
    { by rewrite -mulmxA (mulmxA v^T) {1}[v^T *m v]mx11_scalar mul_scalar_mx -scalemxAr. }
    rewrite !scalerA. set w := v *m v^T. set y := (_ *m _) _ _ in H *.
    have -> : x * x * y = x + x by rewrite -mulrA H mulrDr mulr1.
    rewrite scalerDl. set z := x *: w. have -> : z - (z + z) = - z by rewrite opprD addrA subrr sub0r.
    by rewrite opprK subrK.
Qed.

Lemma qmx_orth m a t k : (forall l, (l < k)%N -> refl_ok m a t l) ->
  qmx m a t k *m (qmx m a t k)^T = 1%:M.
Proof.
  elim: k => [|k IH] H /=; first by rewrite trmx1 mulmx1.
  rewrite trmx_mul hmx_tr -mulmxA (mulmxA (hmx _ _ _ _)) hmx_sqr; last exact: H.
  rewrite mul1mx. apply: IH => l Hl. apply: H. exact: ltnW.
Qed.

Lemma qmx_orth' m a t k : (forall l, (l < k)%N -> refl_ok m a t l) ->
  (qmx m a t k)^T *m qmx m a t k = 1%:M.
Proof. move=> H. apply: mulmx1C. exact: qmx_orth. Qed.

(** determinant of a rank-1 update of the identity *)
Lemma det_rank1 (F : comRingType) m (u : 'cV[F]_m) (w : 'rV[F]_m) : \det (1%:M + u *m w) = 1 + (w *m u) ord0 ord0.
Proof.
  have E : block_mx 1%:M 0 w 1%:M *m block_mx (1%:M + u *m w) u 0 1%:M *m block_mx 1%:M 0 (- w) 1%:M =
           block_mx 1%:M u 0 (1%:M + w *m u) :> 'M[F]_(m + 1).
  { rewrite !mulmx_block !mul1mx !mul0mx !mulmx0 !mulmx1 !addr0 ?add0r.
    rewrite mulmxDr mulmx1 mulmxDl mul1mx !mulmxN mulmxA addrK. congr block_mx.
    - rewrite [w + _]addrC. by rewrite addrACA !subrr addr0.
    - by rewrite addrC. }
  have := congr1 (fun M : 'M[F]_(m + 1) => \det M) E. rewrite !det_mulmx !det_lblock !det_ublock !det1 !mul1r !mulr1 => ->.
  by rewrite det_mx11 !mxE eqxx.
Qed.

Lemma det_hmx m a t k : refl_ok m a t k -> \det (hmx m a t k) = if Req_EM_T (t (Zn k)) R0 then 1 else -1.
Proof.
  move=> H. rewrite /hmx. case: Req_EM_T => E /=.
  - by rewrite E scale0r subr0 det1.
  - case: H => [//|[_ H]]. rewrite -scaleN1r scalerA mulN1r scalemxAl det_rank1 -scalemxAr mxE mulNr H.
    by rewrite opprD addrA subrr add0r.
Qed.

(** application of one reflector *)
Definition hv (a : Z -> Z -> R) (k i : Z) : R := if (i <? k)%Z then R0 else if (i =? k)%Z then R1 else a i k.
Lemma hvecE m a k : hvec m a k = mxf m 1 (fun i _ => hv a (Zn k) i). Proof. by []. Qed.

Lemma refl_vec_ok A off ld m n k i : fits (lenZ A) (Zn m) (Zn n) off ld -> (k < n)%N -> (0 <= i < Zn m)%Z ->
  refl_vec A off ld (Zn k) i = Some (hv (ent A off ld) (Zn k) i).
Proof.
  move=> HF /ltP Hk Hi. rewrite /refl_vec /hv. case: Z.ltb_spec => // H1. case: Z.eqb_spec => // H2.
  apply: (mget_ok HF); lia.
Qed.

Lemma hmxE m a t k : hmx m a t k = mxf m m (fun i j =>
  Rminus (if (i =? j)%Z then R1 else R0) (Rmult (Rmult (t (Zn k)) (hv a (Zn k) i)) (hv a (Zn k) j))).
Proof.
  rewrite /hmx hvecE mxf_tr mxf_mul mxf_scale mxf_opp mxf_1 mxf_add. apply: mxf_ext => i j Hi Hj.
  rewrite sum_big big_ord_recl big_ord0 addr0 /=. lra.
Qed.

Lemma sum_delta n j f : (0 <= j < Zn n)%Z -> sum 0 (Zn n) (fun l => Rmult (f l) (if (l =? j)%Z then R1 else R0)) = f j.
Proof.
  move=> Hj. have Hj' : (Z.to_nat j < n)%N by apply/ltP; lia.
  rewrite sum_big (bigD1 (Ordinal Hj')) //= big1 ?addr0.
  - rewrite Z2Nat.id; last lia. rewrite Z.eqb_refl. lra.
  - move=> i Hne. case: Z.eqb_spec => [E|_]; last by rewrite Rmult_0_r.
    exfalso. move/eqP: Hne; apply. apply: val_inj => /=. lia.
Qed.

Lemma refl_right_ok m n v (a : Z -> Z -> R) t k C oc ldc : fits (lenZ C) (Zn m) (Zn n) oc ldc ->
  (forall i, (0 <= i < Zn n)%Z -> v i = Some (hv a (Zn k) i)) ->
  exists C', refl_right (Zn m) (Zn n) v (t (Zn k)) C oc ldc = Some C' /\
    writes C C' m n oc ldc (ent C' oc ldc) /\
    mxf m n (ent C' oc ldc) = mxf m n (ent C oc ldc) *m hmx n a t k.
Proof.
  move=> HF Hv. rewrite /refl_right.
  match goal with |- context [write_block _ _ _ _ ?f _] => set F := f end.
  have [|C' [E [HL [HE HFr]]]] := @write_block_ok (Zn m) (Zn n) oc ldc F (fun i j =>
    Rminus (ent C oc ldc i j) (Rmult (Rmult (t (Zn k)) (sum 0 (Zn n) (fun l => Rmult (ent C oc ldc i l) (hv a (Zn k) l)))) (hv a (Zn k) j))) C HF.
  - move=> i j Hi Hj. rewrite /F (@osum_ok 0 (Zn n) _ (fun l => Rmult (ent C oc ldc i l) (hv a (Zn k) l))).
    + cbn [obind]. rewrite Hv // (mget_ok HF) //.
    + lia.
    + move=> l Hl. rewrite (mget_ok HF) // Hv //.
  - exists C'. split => //. split; first by [].
    rewrite hmxE mxf_mul. apply: mxf_ext => i j Hi Hj. rewrite HE // -{1}(sum_delta (ent C oc ldc i) Hj).
    rewrite !sum_big. set S1 := bigop _ _ _. set S2 := bigop _ _ _.
    have -> : Rminus S1 (Rmult (Rmult (t (Zn k)) S2) (hv a (Zn k) j)) = S1 + (- (t (Zn k)) * hv a (Zn k) j) * S2.
    { rewrite -?RplusE -?RoppE -?RmultE. lra. }
    rewrite /S2 mulr_sumr -big_split. apply: eq_bigr => l _ /=. rewrite -?RplusE -?RoppE -?RmultE. lra.
Qed.

Lemma refl_left_ok m n v (a : Z -> Z -> R) t k C oc ldc : fits (lenZ C) (Zn m) (Zn n) oc ldc ->
  (forall i, (0 <= i < Zn m)%Z -> v i = Some (hv a (Zn k) i)) ->
  exists C', refl_left (Zn m) (Zn n) v (t (Zn k)) C oc ldc = Some C' /\
    writes C C' m n oc ldc (ent C' oc ldc) /\
    mxf m n (ent C' oc ldc) = hmx m a t k *m mxf m n (ent C oc ldc).
Proof.
  move=> HF Hv. rewrite /refl_left.
  match goal with |- context [write_block _ _ _ _ ?f _] => set F := f end.
  have [|C' [E [HL [HE HFr]]]] := @write_block_ok (Zn m) (Zn n) oc ldc F (fun i j =>
    Rminus (ent C oc ldc i j) (Rmult (Rmult (t (Zn k)) (hv a (Zn k) i)) (sum 0 (Zn m) (fun l => Rmult (hv a (Zn k) l) (ent C oc ldc l j))))) C HF.
  - move=> i j Hi Hj. rewrite /F (@osum_ok 0 (Zn m) _ (fun l => Rmult (hv a (Zn k) l) (ent C oc ldc l j))).
    + cbn [obind]. rewrite Hv // (mget_ok HF) //.
    + lia.
    + move=> l Hl. rewrite Hv // (mget_ok HF) //.
  - exists C'. split => //. split; first by [].
    rewrite hmxE mxf_mul. apply: mxf_ext => i j Hi Hj. rewrite HE // -{1}(sum_delta (fun l => ent C oc ldc l j) Hi).
    rewrite !sum_big. set S1 := bigop _ _ _. set S2 := bigop _ _ _.
    have -> : Rminus S1 (Rmult (Rmult (t (Zn k)) (hv a (Zn k) i)) S2) = S1 + (- (t (Zn k)) * hv a (Zn k) i) * S2.
    { rewrite -?RplusE -?RoppE -?RmultE. lra. }
    rewrite /S2 mulr_sumr -big_split. apply: eq_bigr => l _ /=. rewrite Z.eqb_sym -?RplusE -?RoppE -?RmultE. lra.
Qed.

Lemma writes_trans C C1 C2 m n off ld f g : writes C C1 m n off ld f -> writes C1 C2 m n off ld g -> writes C C2 m n off ld g.
Proof.
  move=> [L1 [E1 F1]] [L2 [E2 F2]]. split; first by rewrite L2. split => // k Hk Hn. by rewrite F2 // F1.
Qed.
Lemma writes_refl C m n off ld : writes C C m n off ld (ent C off ld).
Proof. by []. Qed.

(** application of Q from the right, from the right transposed, from the left transposed *)
Lemma dormqr_RN_ok m n k A oa lda tau ot C oc ldc :
  fits (lenZ A) (Zn n) (Zn k) oa lda -> fits (lenZ C) (Zn m) (Zn n) oc ldc -> (0 <= ot)%Z -> (ot + Zn k <= lenZ tau)%Z ->
  exists C', dormqr_RN (Zn m) (Zn n) (Zn k) A oa lda tau ot C oc ldc = Some C' /\ writes C C' m n oc ldc (ent C' oc ldc) /\
    mxf m n (ent C' oc ldc) = mxf m n (ent C oc ldc) *m qmx n (ent A oa lda) (fun i => rat tau (ot + i)) k.
Proof.
  move=> HA HC Ho1 Ho2. rewrite /dormqr_RN. set a := ent A oa lda. set t := fun i => rat tau (ot + i).
  have [|||C' [E [HW HM]]] := @for_range_inv _ (fun h C' => writes C C' m n oc ldc (ent C' oc ldc) /\
    mxf m n (ent C' oc ldc) = mxf m n (ent C oc ldc) *m qmx n a t (Z.to_nat h)) 0%Z (Zn k)
    (fun l C => let* t := aget tau (ot + l) in refl_right (Zn m) (Zn n) (refl_vec A oa lda l) t C oc ldc) C.
  - lia.
  - move=> l C1 Hl [HW HM]. rewrite (aget_rat tau); last lia. cbn [obind].
    have El : Zn (Z.to_nat l) = l by lia. have Hlk : (Z.to_nat l < k)%N by apply/ltP; lia.
    have [||C2 [E [HW2 HM2]]] := @refl_right_ok m n (refl_vec A oa lda l) a t (Z.to_nat l) C1 oc ldc.
    + by case: HW => ->.
    + move=> i Hi. rewrite -{1}El. exact: (refl_vec_ok HA Hlk Hi).
    + rewrite El in E. exists C2. split => //. split; first exact: (writes_trans HW HW2).
      rewrite HM2 HM. have -> : Z.to_nat (l + 1) = (Z.to_nat l).+1 by lia. by rewrite /= mulmxA.
  - split => //. by rewrite mulmx1.
  - exists C'. split => //. split => //. by rewrite HM Nat2Z.id.
Qed.

Lemma dormqr_LT_ok m n k A oa lda tau ot C oc ldc :
  fits (lenZ A) (Zn m) (Zn k) oa lda -> fits (lenZ C) (Zn m) (Zn n) oc ldc -> (0 <= ot)%Z -> (ot + Zn k <= lenZ tau)%Z ->
  exists C', dormqr_LT (Zn m) (Zn n) (Zn k) A oa lda tau ot C oc ldc = Some C' /\ writes C C' m n oc ldc (ent C' oc ldc) /\
    mxf m n (ent C' oc ldc) = (qmx m (ent A oa lda) (fun i => rat tau (ot + i)) k)^T *m mxf m n (ent C oc ldc).
Proof.
  move=> HA HC Ho1 Ho2. rewrite /dormqr_LT. set a := ent A oa lda. set t := fun i => rat tau (ot + i).
  have [|||C' [E [HW HM]]] := @for_range_inv _ (fun h C' => writes C C' m n oc ldc (ent C' oc ldc) /\
    mxf m n (ent C' oc ldc) = (qmx m a t (Z.to_nat h))^T *m mxf m n (ent C oc ldc)) 0%Z (Zn k)
    (fun l C => let* t := aget tau (ot + l) in refl_left (Zn m) (Zn n) (refl_vec A oa lda l) t C oc ldc) C.
  - lia.
  - move=> l C1 Hl [HW HM]. rewrite (aget_rat tau); last lia. cbn [obind].
    have El : Zn (Z.to_nat l) = l by lia. have Hlk : (Z.to_nat l < k)%N by apply/ltP; lia.
    have [||C2 [E [HW2 HM2]]] := @refl_left_ok m n (refl_vec A oa lda l) a t (Z.to_nat l) C1 oc ldc.
    + by case: HW => ->.
    + move=> i Hi. rewrite -{1}El. exact: (refl_vec_ok HA Hlk Hi).
    + rewrite El in E. exists C2. split => //. split; first exact: (writes_trans HW HW2).
      rewrite HM2 HM. have -> : Z.to_nat (l + 1) = (Z.to_nat l).+1 by lia. by rewrite /= trmx_mul hmx_tr mulmxA.
  - split => //. by rewrite trmx1 mul1mx.
  - exists C'. split => //. split => //. by rewrite HM Nat2Z.id.
Qed.

Lemma dormqr_RT_ok m n k A oa lda tau ot C oc ldc :
  fits (lenZ A) (Zn n) (Zn k) oa lda -> fits (lenZ C) (Zn m) (Zn n) oc ldc -> (0 <= ot)%Z -> (ot + Zn k <= lenZ tau)%Z ->
  exists C', dormqr_RT (Zn m) (Zn n) (Zn k) A oa lda tau ot C oc ldc = Some C' /\ writes C C' m n oc ldc (ent C' oc ldc) /\
    mxf m n (ent C' oc ldc) = mxf m n (ent C oc ldc) *m (qmx n (ent A oa lda) (fun i => rat tau (ot + i)) k)^T.
Proof.
  move=> HA HC Ho1 Ho2. rewrite /dormqr_RT. set a := ent A oa lda. set t := fun i => rat tau (ot + i).
  have [||C' [E [HW HM]]] := @for_down_inv _ (fun h C' => writes C C' m n oc ldc (ent C' oc ldc) /\
    mxf m n (ent C' oc ldc) *m (qmx n a t (Z.to_nat h))^T = mxf m n (ent C oc ldc) *m (qmx n a t k)^T) (Z.to_nat (Zn k)) (Zn k)
    (fun l C => let* t := aget tau (ot + l) in refl_right (Zn m) (Zn n) (refl_vec A oa lda l) t C oc ldc) C.
  - move=> l C1 Hl [HW HM]. rewrite (aget_rat tau); last lia. cbn [obind].
    have El : Zn (Z.to_nat l) = l by lia. have Hlk : (Z.to_nat l < k)%N by apply/ltP; lia.
    have [||C2 [E [HW2 HM2]]] := @refl_right_ok m n (refl_vec A oa lda l) a t (Z.to_nat l) C1 oc ldc.
    + by case: HW => ->.
    + move=> i Hi. rewrite -{1}El. exact: (refl_vec_ok HA Hlk Hi).
    + rewrite El in E. exists C2. split => //. split; first exact: (writes_trans HW HW2).
      rewrite HM2 -HM. have -> : Z.to_nat (l + 1) = (Z.to_nat l).+1 by lia. by rewrite /= trmx_mul hmx_tr mulmxA.
  - split => //. by rewrite Nat2Z.id.
  - exists C'. split => //. split => //. rewrite -HM. 
    have -> : Z.to_nat (Zn k - Zn (Z.to_nat (Zn k))) = 0%N by lia. by rewrite /= trmx1 mulmx1.
Qed.
