(** The contracts of LapackSpec.v can be met: QR decomposition by Householder reflections, LU
    decomposition with row interchanges, inversion of triangular matrices exist for all real
    matrices. *)
From Coq Require Import ZArith List Reals Lia Lra ClassicalEpsilon.
From mathcomp Require Import all_ssreflect fingroup perm ssralg matrix.
From Verif Require Import Base BaseFacts Sums SumsFacts RealOps RField Blas BlasFacts MatProd MatSpec MatFacts TimeStepFacts
  Lapack LapackSpec LapackFacts TimeFlowLoops TimeFlowFacts.
Set Implicit Arguments.
Unset Strict Implicit.
Unset Printing Implicit Defensive.
Local Open Scope ring_scope.
Import GRing.Theory.

(** a packed array with given entries *)
Definition pack (m n : nat) (f : Z -> Z -> R) : list R :=
  List.map (fun k => f (Zn k mod Zn m)%Z (Zn k / Zn m)%Z) (List.seq 0 (m * n)%N).

Lemma pack_len m n f : List.length (pack m n f) = (m * n)%N.
Proof. by rewrite /pack List.map_length List.seq_length. Qed.

Lemma pack_pk m n f i j : (0 <= i < Zn m)%Z -> (0 <= j < Zn n)%Z -> pk (pack m n f) m i j = f i j.
Proof.
  move=> Hi Hj. rewrite /pk /pack.
  have Hk : (Z.to_nat (i + j * Zn m) < m * n)%coq_nat by rewrite -multE; nia.
  rewrite (@List.nth_indep _ _ _ R0 (f (Zn 0 mod Zn m)%Z (Zn 0 / Zn m)%Z)); last by rewrite List.map_length List.seq_length.
  rewrite (List.map_nth (fun k => f (Zn k mod Zn m)%Z (Zn k / Zn m)%Z)) List.seq_nth //= -?plusE /=.
  have -> : (Zn (Z.to_nat (i + j * Zn m)) = i + j * Zn m)%Z by nia.
  by rewrite Z.mod_add ?Z.div_add ?Z.mod_small ?Z.div_small //; lia.
Qed.

Definition packv (n : nat) (t : Z -> R) : list R := List.map (fun k => t (Zn k)) (List.seq 0 n).
Lemma packv_len n t : List.length (packv n t) = n.
Proof. by rewrite /packv List.map_length List.seq_length. Qed.
Lemma packv_vk n t k : (k < n)%N -> vk (packv n t) (Zn k) = t (Zn k).
Proof.
  move=> /ltP Hk. rewrite /vk /packv Nat2Z.id (@List.nth_indep _ _ _ R0 (t (Zn 0))); last by rewrite List.map_length List.seq_length.
  by rewrite (List.map_nth (fun k => t (Zn k))) List.seq_nth.
Qed.

(** one Householder reflection *)
Lemma hmx_mul m p a t k f : hmx m a t k *m mxf m p f =
  mxf m p (fun i j => Rminus (f i j) (Rmult (Rmult (t (Zn k)) (hv a (Zn k) i)) (sum 0 (Zn m) (fun l => Rmult (hv a (Zn k) l) (f l j))))).
Proof.
  rewrite hmxE mxf_mul. apply: mxf_ext => i j Hi Hj. rewrite -{1}(sum_delta (fun l => f l j) Hi).
  rewrite !sum_big. match goal with |- _ = Rminus ?x (Rmult _ ?y) => set S1 := x; set S2 := y end.
  have -> : Rminus S1 (Rmult (Rmult (t (Zn k)) (hv a (Zn k) i)) S2) = S1 + (- (t (Zn k)) * hv a (Zn k) i) * S2.
  { rewrite -?RplusE -?RoppE -?RmultE. lra. }
  rewrite /S2 mulr_sumr -big_split. apply: eq_bigr => l _ /=. rewrite Z.eqb_sym -?RplusE -?RoppE -?RmultE. lra.
Qed.

Lemma hvec_sq m a k : ((hvec m a k)^T *m hvec m a k) ord0 ord0 = sum 0 (Zn m) (fun l => Rmult (hv a (Zn k) l) (hv a (Zn k) l)).
Proof. by rewrite hvecE mxf_tr mxf_mul mxE. Qed.

Section House.
Local Open Scope R_scope.
Let w (v : Z -> R) (k i : Z) : R := if (i <? k)%Z then 0 else if (i =? k)%Z then 1 else v i.

Lemma w_sum v m k y : (0 <= k < m)%Z -> sum 0 m (fun l => w v k l * y l) = y k + sum (k + 1) m (fun l => v l * y l).
Proof.
  move=> Hk. rewrite (@sum_split 0 k m); last lia. rewrite (@sum_zero 0 k).
  - rewrite Rplus_0_l sum_first; last lia. congr (_ + _).
    + rewrite /w Z.ltb_irrefl Z.eqb_refl. lra.
    + apply: sum_ext => l Hl. rewrite /w. case: Z.ltb_spec; first lia. case: Z.eqb_spec => //; lia.
  - move=> l Hl. rewrite /w. case: Z.ltb_spec => //; try lia. move=> _. lra.
Qed.

Lemma sq_sum_pos lo hi x : 0 <= sum lo hi (fun l => x l * x l).
Proof.
  case: (Z.le_gt_cases hi lo) => H; first by rewrite sum_empty //; lra.
  have : (lo <= hi)%Z by lia. move: hi {H}. apply: range_ind.
  - rewrite sum_nil. lra.
  - move=> i Hi IH. rewrite sum_last //. have := Rle_0_sqr (x i). rewrite /Rsqr. lra.
Qed.

Lemma sq_sum_zero lo hi x i : sum lo hi (fun l => x l * x l) = 0 -> (lo <= i < hi)%Z -> x i = 0.
Proof.
  move=> H Hi. rewrite (@sum_split lo i hi) in H; last lia. rewrite (@sum_first i) in H; last lia.
  have H1 := sq_sum_pos lo i x. have H2 := sq_sum_pos (i + 1) hi x.
  have H3 := Rle_0_sqr (x i). rewrite /Rsqr in H3. apply: Rsqr_0_uniq. rewrite /Rsqr. lra.
Qed.

Lemma householder m k x : (0 <= k < m)%Z -> exists v t,
  (t = 0 \/ (0 < t /\ t * sum 0 m (fun l => w v k l * w v k l) = 2)) /\
  forall i, (k < i < m)%Z -> x i - t * w v k i * sum 0 m (fun l => w v k l * x l) = 0.
Proof.
  move=> Hk. set S := sum (k + 1) m (fun l => x l * x l).
  have HS : 0 <= S := sq_sum_pos (k + 1) m x.
  case: (Req_EM_T S 0) => HS0.
  { exists (fun _ => 0), 0. split; first by left. move=> i Hi. rewrite (sq_sum_zero HS0); last lia. lra. }
  set xk := x k. set sigma := sqrt (xk * xk + S).
  have Hs2 : sigma * sigma = xk * xk + S.
  { apply: sqrt_sqrt. have := Rle_0_sqr xk. rewrite /Rsqr. lra. }
  have Hsp : 0 < sigma by apply: sqrt_lt_R0; have := Rle_0_sqr xk; rewrite /Rsqr; lra.
  clearbody sigma. set beta := if Rle_dec 0 xk then - sigma else sigma.
  have Hb2 : beta * beta = xk * xk + S by rewrite /beta; case: Rle_dec => h /=; move: Hs2; lra.
  have Hbn : beta <> 0 by rewrite /beta; case: Rle_dec => h /=; lra.
  have Hxb : xk * beta <= 0 by rewrite /beta; case: Rle_dec => h /=; nra.
  have HSp : 0 < S by lra.
  have Hden : xk - beta <> 0.
  { move=> E. have E' : xk = beta by lra. rewrite E' in Hb2. lra. }
  pose v i := x i / (xk - beta). pose t := (beta - xk) / beta.
  exists v, t.
  have Hvx : sum 0 m (fun l => w v k l * x l) = - beta.
  { rewrite w_sum //. have -> : sum (k + 1) m (fun l => v l * x l) = / (xk - beta) * S.
    { rewrite /S -sum_scal. apply: sum_ext => l _. rewrite /v. field. exact: Hden. }
    rewrite -/xk. have -> : S = beta * beta - xk * xk by lra. field. exact: Hden. }
  have Hvv : sum 0 m (fun l => w v k l * w v k l) = 2 * beta / (beta - xk).
  { rewrite w_sum //. have -> : sum (k + 1) m (fun l => v l * w v k l) = / ((xk - beta) * (xk - beta)) * S.
    { rewrite /S -sum_scal. apply: sum_ext => l Hl. rewrite /w. case: Z.ltb_spec; first lia. case: Z.eqb_spec; first lia.
      move=> _ _. rewrite /v. field. exact: Hden. }
    have -> : w v k k = 1 by rewrite /w Z.ltb_irrefl Z.eqb_refl.
    have -> : S = beta * beta - xk * xk by lra. field. split; lra. }
  split.
  - right. split.
    + have -> : t = (beta * beta - xk * beta) * / (beta * beta) by rewrite /t; field.
      apply: Rmult_lt_0_compat; last apply: Rinv_0_lt_compat; nra.
    + rewrite Hvv /t. field. split; lra.
  - move=> i Hi. rewrite Hvx. have -> : w v k i = v i by rewrite /w; case: Z.ltb_spec; first lia; case: Z.eqb_spec => //; lia.
    rewrite /t /v. field. split; lra.
Qed.
End House.

(** QR decomposition *)
Lemma qr_exists m n (A : 'M[R]_(m, n)) : (n <= m)%N -> exists a t,
  (forall k, (k < n)%N -> refl_ok m a t k) /\ A = qmx m a t n *m mxf m n (upper a).
Proof.
  move=> Hnm.
  suff H : forall k, (k <= n)%N -> exists a t f, (forall l, (l < k)%N -> refl_ok m a t l) /\
    (qmx m a t k)^T *m A = mxf m n f /\
    forall i j, (0 <= i < Zn m)%Z -> (0 <= j < Zn k)%Z -> f i j = upper a i j.
  { have [a [t [f [H1 [H2 H3]]]]] := H n (leqnn n). exists a, t. split => //.
    have -> : mxf m n (upper a) = mxf m n f by apply: mxf_ext => i j Hi Hj; rewrite H3.
    by rewrite -H2 mulmxA qmx_orth // mul1mx. }
  elim => [|k IH] Hk.
  { pose f i j := if insub (Z.to_nat i) is Some o then (if insub (Z.to_nat j) is Some q then A o q else R0) else R0.
    exists (fun _ _ => R0), (fun _ => R0), f. split => //. split.
    - rewrite trmx1 mul1mx. apply/matrixP => i j. by rewrite mxE /f !Nat2Z.id !valK.
    - move=> i j _ Hj. exfalso. simpl in Hj. lia. }
  have [a [t [f [H1 [H2 H3]]]]] := IH (ltnW Hk).
  have Hkm : (0 <= Zn k < Zn m)%Z by move/ltP: (leq_trans Hk Hnm); lia.
  have [v [tk [Ht Hv]]] := householder (fun i => f i (Zn k)) Hkm.
  pose t' j := if (j =? Zn k)%Z then tk else t j.
  pose w i := if (i <? Zn k)%Z then R0 else if (i =? Zn k)%Z then R1 else v i.
  pose g i j := Rminus (f i j) (Rmult (Rmult tk (w i)) (sum 0 (Zn m) (fun l => Rmult (w l) (f l j)))).
  pose a' i j := if (j =? Zn k)%Z then (if (i <=? Zn k)%Z then g i j else v i) else a i j.
  have Hw : forall i, hv a' (Zn k) i = w i.
  { move=> i. rewrite /hv /w /a' Z.eqb_refl. case: Z.ltb_spec => // h1. case: Z.eqb_spec => // h2. case: Z.leb_spec => //. lia. }
  have Ha : forall l, (l < k)%N -> forall i, (Zn l < i < Zn m)%Z -> a i (Zn l) = a' i (Zn l).
  { move=> l /ltP Hl i Hi. rewrite /a'. by case: Z.eqb_spec => //; lia. }
  have Htt : forall l, (l < k)%N -> t (Zn l) = t' (Zn l).
  { move=> l /ltP Hl. rewrite /t'. by case: Z.eqb_spec => //; lia. }
  have Htk : t' (Zn k) = tk by rewrite /t' Z.eqb_refl.
  exists a', t', g. split; [|split].
  - move=> l Hl. rewrite ltnS leq_eqVlt in Hl. case/orP: Hl => [/eqP ->|Hl].
    + rewrite /refl_ok hvec_sq Htk. case: Ht => [->|[Hp Ht]]; first by left.
      right. split => //. rewrite -RmultE -RplusE -R1E.
      have -> : sum 0 (Zn m) (fun l0 => Rmult (hv a' (Zn k) l0) (hv a' (Zn k) l0)) = sum 0 (Zn m) (fun l0 => Rmult (w l0) (w l0)).
      { apply: sum_ext => l0 _. by rewrite Hw. }
      rewrite Ht. lra.
    + apply: (refl_ok_ext _ _ (H1 l Hl)); [exact: Ha|exact: Htt].
  - rewrite /= trmx_mul hmx_tr -mulmxA -(qmx_ext Ha Htt) H2 hmx_mul Htk. apply: mxf_ext => i j Hi Hj. rewrite /g Hw.
    congr (Rminus _ (Rmult _ _)). apply: sum_ext => l _. by rewrite Hw.
  - move=> i j Hi Hj. rewrite /upper /a'. case: Z.eqb_spec => [->|Hne].
    + case: Z.leb_spec => // Hki. rewrite /g. have := Hv i (conj Hki (proj2 Hi)). by [].
    + have Hjk : (0 <= j < Zn k)%Z by lia.
      have E : sum 0 (Zn m) (fun l => Rmult (w l) (f l j)) = R0.
      { apply: sum_zero => l Hl. rewrite /w. case: Z.ltb_spec => Hlt; first by rewrite Rmult_0_l.
        rewrite H3 //. rewrite /upper. case: Z.leb_spec => //; first lia. by rewrite Rmult_0_r. }
      rewrite /g E Rmult_0_r Rminus_0_r. exact: H3.
Qed.

Lemma geqrf_exists m n A : (n <= m)%N -> exists res, geqrf_post m n A res.
Proof.
  move=> Hnm. have [a [t [H1 H2]]] := qr_exists (mxf m n (pk A m)) Hnm.
  exists (pack m n a, packv n t). rewrite /geqrf_post pack_len packv_len. split => //. split => //.
  have Ha : forall k, (k < n)%N -> forall i, (Zn k < i < Zn m)%Z -> a i (Zn k) = pk (pack m n a) m i (Zn k).
  { move=> k /ltP Hk i Hi. rewrite pack_pk //; lia. }
  have Ht : forall k, (k < n)%N -> t (Zn k) = vk (packv n t) (Zn k) by move=> k Hk; rewrite packv_vk.
  split.
  - move=> k Hk. apply: (refl_ok_ext _ _ (H1 k Hk)); [exact: Ha|exact: Ht].
  - rewrite -(qmx_ext Ha Ht) H2. congr (_ *m _). apply: upper_ext => i j Hi Hj. by rewrite pack_pk.
Qed.

Lemma geqp3_exists n A : exists res, geqp3_post n A res.
Proof.
  have [[A' tau] [H1 [H2 [H3 H4]]]] := geqrf_exists A (leqnn n).
  exists (A', List.map (fun k => (Zn k + 1)%Z) (List.seq 0 n), tau). split; first by rewrite List.map_length List.seq_length.
  exists 1%g. split.
  - move=> j. rewrite perm1 (@List.nth_indep _ _ _ 0%Z (Zn 0 + 1)%Z); last by rewrite List.map_length List.seq_length; apply/ltP.
    rewrite (List.map_nth (fun k => (Zn k + 1)%Z)) List.seq_nth //. by apply/ltP.
  - do 3 (split => //). rewrite col_perm1 mat_pk. exact: H4.
Qed.

(** row interchanges for a given permutation *)
Lemma swaps_exists n (s : 'S_n) : exists ipiv, ipiv_ok n ipiv /\
  forall f (i : 'I_n) c, swaps ipiv n f (Zn i) c = f (Zn (s i)) c.
Proof.
  suff H : forall k, (k <= n)%N -> exists ipiv (sg : 'S_n), List.length ipiv = k /\
     (forall i, (i < k)%N -> (Zn i + 1 <= List.nth i ipiv 0 <= Zn n)%Z) /\
     (forall f (i : 'I_n) c, swaps ipiv k f (Zn i) c = f (Zn (sg i)) c) /\
     (forall i : 'I_n, (i < k)%N -> sg i = s i).
  { have [ipiv [sg [H1 [H2 [H3 H4]]]]] := H n (leqnn n). exists ipiv. split; first by split.
    move=> f i c. by rewrite H3 H4. }
  elim => [|k IH] Hk.
  { by exists [::], 1%g; do 3 (split => //); move=> f i c; rewrite perm1. }
  have [ipiv [sg [H1 [H2 [H3 H4]]]]] := IH (ltnW Hk).
  pose ko := Ordinal Hk. pose p : 'I_n := (sg^-1)%g (s ko).
  have Hp : sg p = s ko by rewrite /p permKV.
  have Hpk : (k <= p)%N.
  { rewrite leqNgt. apply/negP => Hlt. have := H4 p Hlt. rewrite Hp => /perm_inj E. by rewrite -E ltnn in Hlt. }
  have Hsw : forall l, (l <= k)%N -> forall f r c, swaps (ipiv ++ [:: (Zn p + 1)%Z])%list l f r c = swaps ipiv l f r c.
  { elim => [//|l IHl] Hl f r c /=. rewrite /swap_rows List.app_nth1; last by rewrite H1; apply/ltP.
    by rewrite !(IHl (ltnW Hl)). }
  exists (ipiv ++ [:: (Zn p + 1)%Z])%list, (tperm ko p * sg)%g. split; [|split; [|split]].
  - rewrite List.app_length H1 /=. lia.
  - move=> i. rewrite ltnS leq_eqVlt => /orP [/eqP ->|Hi].
    + rewrite List.app_nth2 H1; last lia. rewrite Nat.sub_diag /=. move/leP: Hpk. have := ltn_ord p. move/ltP. lia.
    + rewrite List.app_nth1; last by rewrite H1; apply/ltP. exact: H2.
  - move=> f i c. rewrite /= List.app_nth2 H1; last lia. rewrite Nat.sub_diag /= /swap_rows !Hsw //.
    have -> : (Zn p + 1 - 1 = Zn p)%Z by lia. rewrite !of_nat_eqb permM.
    have -> : Zn k = Zn ko by []. rewrite !H3.
    case: tpermP => [->|->|h1 h2].
    + by rewrite eqxx.
    + case: eqP => [E|_]; last by rewrite eqxx. by congr (f (Zn (sg _)) c); apply: val_inj.
    + case: eqP => [E|_]; first by case: h1; apply: val_inj.
      by case: eqP => [E|_] //; case: h2; apply: val_inj.
  - move=> i. rewrite ltnS leq_eqVlt => /orP [/eqP E|Hi].
    + have -> : i = ko by apply: val_inj. by rewrite permM tpermL Hp.
    + rewrite permM tpermD; first exact: H4.
      * by rewrite -val_eqE /= gtn_eqF.
      * rewrite -val_eqE /= gtn_eqF //. exact: leq_trans Hi Hpk.
Qed.

(** entries of a matrix as a function on integers *)
Definition zfun (m n : nat) (A : 'M[R]_(m, n)) (i j : Z) : R :=
  if insub (Z.to_nat i) is Some o then (if insub (Z.to_nat j) is Some q then A o q else R0) else R0.
Lemma zfunE m n (A : 'M[R]_(m, n)) (i : 'I_m) (j : 'I_n) : zfun A (Zn i) (Zn j) = A i j.
Proof. by rewrite /zfun !Nat2Z.id !valK. Qed.
Lemma zfun_mxf m n (A : 'M[R]_(m, n)) : mxf m n (zfun A) = A.
Proof. by apply/matrixP => i j; rewrite mxE zfunE. Qed.

Lemma getrf_exists n A : exists res, getrf_post n A res.
Proof.
  case: n => [|n].
  { exists ([::], [::]). split => //. split => //. by apply/matrixP => [[]]. }
  have := cormen_lup_perm (mat n.+1 A). have := cormen_lup_correct (mat n.+1 A).
  have := cormen_lup_lower (mat n.+1 A). have := cormen_lup_upper (mat n.+1 A).
  case: (cormen_lup (mat n.+1 A)) => [[P L] U] /= HU HL HC /is_perm_mxP [s Es].
  have [ipiv [H1 H2]] := swaps_exists s.
  pose a i j := if (i <=? j)%Z then zfun U i j else zfun L i j.
  exists (pack n.+1 n.+1 a, ipiv). rewrite /getrf_post pack_len. split => //. split => //.
  have -> : mxf n.+1 n.+1 (swaps ipiv n.+1 (pk A n.+1)) = P *m mat n.+1 A.
  { rewrite Es -row_permE [mat _ _]mat_pk. apply/matrixP => i j. by rewrite !mxE H2. }
  rewrite [P *m _]HC. congr (_ *m _); apply/matrixP => i j; rewrite mxE.
  - rewrite /unit_lower pack_pk; try exact: ordZ. rewrite /a. case: Z.ltb_spec => h1.
    + rewrite HL; last by apply/leP; lia. by case: eqP => // E; move: h1; rewrite E; lia.
    + case: Z.eqb_spec => h2.
      * have -> : i = j by apply: val_inj; rewrite /=; lia. by rewrite HL // eqxx.
      * case: Z.leb_spec; first lia. by rewrite zfunE.
  - rewrite /upper pack_pk; try exact: ordZ. rewrite /a. case: Z.leb_spec => h1; first by rewrite zfunE.
    apply: HU. apply/ltP. lia.
Qed.

(** triangular matrices *)
Lemma det_unit_lower n a : \det (mxf n n (unit_lower a)) = 1.
Proof.
  rewrite det_trig.
  - rewrite big1 // => i _. by rewrite mxE /unit_lower Z.ltb_irrefl Z.eqb_refl.
  - apply/is_trig_mxP => i j Hij. rewrite mxE /unit_lower. case: Z.ltb_spec => //. move/ltP: Hij; lia.
Qed.

Lemma det_upper n a : \det (mxf n n (upper a)) = \prod_(i < n) a (Zn i) (Zn i).
Proof.
  rewrite -det_tr det_trig.
  - apply: eq_bigr => i _. by rewrite !mxE /upper Z.leb_refl.
  - apply/is_trig_mxP => i j Hij. rewrite !mxE /upper. case: Z.leb_spec => //. move/ltP: Hij; lia.
Qed.

Lemma upper_unit n A : diag_nz n A -> mxf n n (upper (pk A n)) \in unitmx.
Proof.
  move=> H. rewrite unitmxE det_upper unitfE prodf_seq_neq0. apply/allP => i _ /=. apply/eqP.
  apply: H. exact: ltn_ord.
Qed.

Lemma mat_pack n (A : 'M[R]_n) : mat n (pack n n (zfun A)) = A.
Proof. rewrite mat_pk -[RHS]zfun_mxf. apply: mxf_ext => i j Hi Hj. by rewrite pack_pk. Qed.

Lemma getrs_exists n A ipiv B : diag_nz n A -> exists X, getrs_post n A ipiv B X.
Proof.
  move=> HA. set L := mxf n n (unit_lower (pk A n)). set U := mxf n n (upper (pk A n)).
  exists (pack n n (zfun (invmx (L *m U) *m mxf n n (swaps ipiv n (pk B n))))).
  split; first exact: pack_len. rewrite mat_pack mulmxA mulmxV ?mul1mx //.
  rewrite unitmx_mul upper_unit // andbT unitmxE det_unit_lower. exact: unitr1.
Qed.

Lemma upper_inv n (U X : 'M[R]_n) : (forall i j : 'I_n, (j < i)%N -> U i j = 0) -> (forall i, U i i <> 0) ->
  X *m U = 1%:M -> forall i j : 'I_n, (j < i)%N -> X i j = 0.
Proof.
  move=> HU HD HX i. suff H : forall k (j : 'I_n), (j < k)%N -> (j < i)%N -> X i j = 0 by move=> j; apply: (H j.+1).
  elim => [//|k IH] j. rewrite ltnS leq_eqVlt => /orP [/eqP E|Hj] Hji; last exact: IH.
  have := congr1 (fun M : 'M[R]_n => M i j) HX. rewrite !mxE (bigD1 j) //= big1 ?addr0.
  - case: eqP => [Eij|_]; first by move: Hji; rewrite Eij ltnn. rewrite /= => /eqP. rewrite mulf_eq0 => /orP [/eqP //|/eqP].
    by move/HD.
  - move=> l Hl. case: (ltngtP l j) => h.
    + rewrite IH ?mul0r //; [by rewrite -E|exact: ltn_trans h Hji].
    + by rewrite HU ?mulr0.
    + by case/eqP: Hl; apply: val_inj.
Qed.

Lemma trtri_exists n A : diag_nz n A -> exists res, trtri_post n A res.
Proof.
  move=> HA. set U := mxf n n (upper (pk A n)). have HU := upper_unit HA.
  pose a i j := if (i <=? j)%Z then zfun (invmx U) i j else pk A n i j.
  exists (pack n n a, 0%Z). rewrite /trtri_post pack_len. do 2 (split => //).
  have HX : forall i j : 'I_n, (j < i)%N -> invmx U i j = 0.
  { apply: (@upper_inv n U); last exact: mulVmx.
    - move=> i j Hij. rewrite mxE /upper. case: Z.leb_spec => //. move/ltP: Hij. lia.
    - move=> i. rewrite mxE /upper Z.leb_refl. apply: HA. exact: ltn_ord. }
  split.
  - have -> : mxf n n (upper (pk (pack n n a) n)) = invmx U; last exact: mulVmx.
    apply/matrixP => i j. rewrite mxE /upper pack_pk; try exact: ordZ. rewrite /a. case: Z.leb_spec => h; first by rewrite zfunE.
    symmetry. apply: HX. apply/ltP. lia.
  - move=> i j /andP [/ltP H1 /ltP H2]. rewrite pack_pk; try lia. rewrite /a. case: Z.leb_spec => //. lia.
Qed.

Theorem lapack_exists : exists la, lapack_ok la.
Proof.
  pose eps (T : Type) (d : T) (P : T -> Prop) := epsilon (inhabits d) P.
  have He : forall T (d : T) (P : T -> Prop), (exists x, P x) -> P (eps T d P) by move=> T d P; apply: epsilon_spec.
  exists (mk_lapack
    (fun n A _ => eps _ ([::], [::], [::]) (geqp3_post (Z.to_nat n) A))
    (fun m n A => eps _ ([::], [::]) (geqrf_post (Z.to_nat m) (Z.to_nat n) A))
    (fun n A => eps _ ([::], [::]) (getrf_post (Z.to_nat n) A))
    (fun n A ipiv B => eps _ [::] (getrs_post (Z.to_nat n) A ipiv B))
    (fun n A => eps _ ([::], 0%Z) (trtri_post (Z.to_nat n) A))
    (fun n A => (List.repeat R0 (Z.to_nat n * Z.to_nat n)%N, List.repeat R0 (Z.to_nat n), 1%Z))).
  split => /=; rewrite ?Nat2Z.id.
  - move=> n A HA. rewrite Nat2Z.id. apply: (He). exact: geqp3_exists.
  - move=> m n A Hnm HA. rewrite !Nat2Z.id. apply: (He). exact: geqrf_exists.
  - move=> n A HA. rewrite Nat2Z.id. apply: (He). exact: getrf_exists.
  - move=> n A ipiv B HA Hi HB Hd. rewrite Nat2Z.id. apply: (He). exact: getrs_exists.
  - move=> n A HA Hd. rewrite Nat2Z.id. apply: (He). exact: trtri_exists.
  - move=> n A HA HS. rewrite Nat2Z.id. by split; rewrite List.repeat_length.
Qed.
