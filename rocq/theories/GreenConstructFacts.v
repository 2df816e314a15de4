(** Proofs about the construction of the Green's function. *)
From Coq Require Import ZArith List Reals Lia Lra.
From mathcomp Require Import all_ssreflect fingroup perm ssralg matrix.
From Verif Require Import Base BaseFacts Sums SumsFacts RealOps RField Blas BlasFacts MatProd MatSpec MatFacts TimeStep TimeStepSpec
  TimeStepFacts GreenSpec GreenFacts Lapack LapackSpec LapackFacts TimeFlow TimeFlowSpec TimeFlowLoops TimeFlowFacts LapackExists GreenConstruct.
Set Implicit Arguments.
Unset Strict Implicit.
Unset Printing Implicit Defensive.
Local Open Scope ring_scope.
Import GRing.Theory.

(** the number represented by logdet and sgndet *)
Definition sval (ls : R * Z) : R := Rmult (IZR (snd ls)) (exp (fst ls)).
Definition sgn_ok (s : Z) : Prop := s = 1%Z \/ s = (-1)%Z.

Lemma sgn_opp s : sgn_ok s -> sgn_ok (- s).
Proof. by case=> ->; [right|left]. Qed.

Lemma add_factor_ok t ls : t <> R0 -> sgn_ok (snd ls) ->
  exists ls', add_factor t ls = Some ls' /\ sgn_ok (snd ls') /\ Rmult (sval ls') t = sval ls.
Proof.
  case: ls => [l s] Ht Hs. rewrite /add_factor /rlog. case: Rlt_dec => h /=.
  - case: Rlt_dec => h' /=; last lra. eexists. split; first reflexivity. split; first exact: sgn_opp.
    rewrite /sval /= opp_IZR /Rminus exp_plus exp_Ropp exp_ln //. field. lra.
  - case: Rlt_dec => h' /=; last lra. eexists. split; first reflexivity. split => //.
    rewrite /sval /= /Rminus exp_plus exp_Ropp exp_ln //. field. lra.
Qed.

Lemma add_factor_none ls : add_factor R0 ls = None.
Proof. case: ls => l s. rewrite /add_factor /rlog. case: Rlt_dec => h /=; first lra. case: Rlt_dec => h' //=; lra. Qed.

(** products over 0 <= i < k *)
Definition pz (k : Z) (f : Z -> R) : R := \prod_(i < Z.to_nat k) f (Zn i).
Lemma pz0 f : pz 0 f = 1.
Proof. by rewrite /pz /= big_ord0. Qed.
Lemma pzS k f : (0 <= k)%Z -> pz (k + 1) f = Rmult (pz k f) (f k).
Proof. move=> H. rewrite /pz. have -> : Z.to_nat (k + 1) = (Z.to_nat k).+1 by lia. rewrite big_ord_recr /= Z2Nat.id //. Qed.

Definition flip (b : bool) : R := if b then 1 else -1.

Lemma det_lu_ok n T ipiv ls : lenZ T = (n * n)%Z -> lenZ ipiv = n -> sgn_ok (snd ls) ->
  (forall i, (0 <= i < n)%Z -> ent T 0 n i i <> R0) ->
  exists ls', det_lu n T ipiv ls = Some ls' /\ sgn_ok (snd ls') /\
   Rmult (sval ls') (pz n (fun i => Rmult (ent T 0 n i i) (flip (List.nth (Z.to_nat i) ipiv 0 =? i + 1)%Z))) = sval ls.
Proof.
  move=> HT Hi Hs Hnz. rewrite /det_lu. match goal with |- context [for_range 0 _ ?bd _] => set body := bd end.
  set F := fun i : Z => _. have Hn : (0 <= n)%Z by rewrite -Hi /lenZ; lia.
  have [|||ls' [-> [H1 H2]]] := @for_range_inv _ (fun k ls' => sgn_ok (snd ls') /\ Rmult (sval ls') (pz k F) = sval ls) 0%Z n body ls.
  - exact: Hn.
  - move=> k st Hk [I1 I2]. rewrite /body. 
    have E1 : aget T (k + k * n) = Some (ent T 0 n k k).
    { rewrite /ent Z.add_0_l. apply: aget_rat. rewrite HT. nia. }
    rewrite E1. cbn [obind]. have [st' [-> [J1 J2]]] := add_factor_ok (Hnz k Hk) I1. cbn [obind].
    rewrite (@aget_nth _ _ _ 0%Z); last by rewrite -/(lenZ ipiv) Hi. cbn [obind]. eexists. split; first reflexivity.
    cbn [fst snd]. rewrite pzS; last lia. set P := pz k F. rewrite /F. case: Z.eqb_spec => _; rewrite /flip -?RoppE -R1E.
    + split => //. rewrite -I2 -J2 -/P /sval. cbn [fst snd]. ring.
    + split; first exact: sgn_opp. rewrite -I2 -J2 -/P /sval. cbn [fst snd]. rewrite opp_IZR. ring.
  - split => //. rewrite pz0 -R1E. lra.
  by exists ls'.
Qed.

Lemma det_lu_none n T ipiv ls i : lenZ T = (n * n)%Z -> (0 <= i < n)%Z -> ent T 0 n i i = R0 -> det_lu n T ipiv ls = None.
Proof.
  move=> HT Hi E. case Hd : (det_lu n T ipiv ls) => [ls'|//]. exfalso. rewrite /det_lu in Hd.
  have := @for_range_partial _ (fun k _ => (k <= i)%Z) 0%Z n _ ls ls' _ _ _ Hd. 
  have H : (0 <= n)%Z by lia. move=> /(_ H) H'. suff : (n <= i)%Z by lia. apply: H'; last lia.
  move=> k st st' Hk Hki. case: (Z.eq_dec k i) => [->|Hne]; last lia.
  have -> : aget T (i + i * n) = Some R0.
  { rewrite -E /ent Z.add_0_l. apply: aget_rat. rewrite HT. nia. }
  cbn [obind]. by rewrite add_factor_none.
Qed.

Definition bigd (d : list R) (i : Z) : R := if Rle_dec (Rabs (rat d i)) 1 then R1 else rat d i.
Definition smalld (d : list R) (i : Z) : R := if Rle_dec (Rabs (rat d i)) 1 then rat d i else R1.

Lemma bigd_nz d i : bigd d i <> R0.
Proof. rewrite /bigd. case: Rle_dec => h /=; first lra. move=> E. apply: h. rewrite E Rabs_R0. lra. Qed.

Lemma det_big_ok n d ls : lenZ d = n -> sgn_ok (snd ls) ->
  exists ls', det_big n d ls = Some ls' /\ sgn_ok (snd ls') /\ Rmult (sval ls') (pz n (bigd d)) = sval ls.
Proof.
  move=> Hd Hs. rewrite /det_big. match goal with |- context [for_range 0 _ ?bd _] => set body := bd end.
  have Hn : (0 <= n)%Z by rewrite -Hd /lenZ; lia.
  have [|||ls' [-> [H1 H2]]] := @for_range_inv _ (fun k ls' => sgn_ok (snd ls') /\ Rmult (sval ls') (pz k (bigd d)) = sval ls) 0%Z n body ls.
  - exact: Hn.
  - move=> k st Hk [I1 I2]. rewrite /body aget_rat ?Hd //. cbn [obind]. rewrite pzS; last lia. have Hb := @bigd_nz d k.
    move: Hb. rewrite {1 3}/bigd. case: Rle_dec => h /= Hb.
    + exists st. split => //. split => //. rewrite -I2. ring.
    + have [st' [-> [J1 J2]]] := add_factor_ok Hb I1. exists st'. split => //. split => //. rewrite -I2 -J2. ring.
  - split => //. rewrite pz0 -R1E. lra.
  by exists ls'.
Qed.

Lemma det_refl_ok n tau ls : lenZ tau = n -> sgn_ok (snd ls) ->
  exists ls', det_refl n tau ls = Some ls' /\ sgn_ok (snd ls') /\
    Rmult (sval ls') (pz n (fun i => flip (~~ Rlt_dec 0 (rat tau i)))) = sval ls.
Proof.
  move=> Hd Hs. rewrite /det_refl. match goal with |- context [for_range 0 _ ?bd _] => set body := bd end. set F := fun i : Z => _.
  have Hn : (0 <= n)%Z by rewrite -Hd /lenZ; lia.
  have [|||ls' [-> [H1 H2]]] := @for_range_inv _ (fun k ls' => sgn_ok (snd ls') /\ Rmult (sval ls') (pz k F) = sval ls) 0%Z n body ls.
  - exact: Hn.
  - move=> k st Hk [I1 I2]. rewrite /body aget_rat ?Hd //. cbn [obind]. eexists. split; first reflexivity. 
    cbn [fst snd]. rewrite pzS; last lia. set P := pz k F. rewrite /F /flip -?RoppE -R1E. case: Rlt_dec => h /=.
    + split; first exact: sgn_opp. rewrite -I2 -/P /sval. cbn [fst snd]. rewrite opp_IZR. ring.
    + split => //. rewrite -I2 -/P /sval. cbn [fst snd]. ring.
  - split => //. rewrite pz0 -R1E. lra.
  by exists ls'.
Qed.

(** D_b^-1 *)
Lemma diag_big_ok n d G : (0 <= n)%Z -> lenZ d = n -> lenZ G = (n * n)%Z -> (forall k, (0 <= k < n * n)%Z -> rat G k = R0) ->
  exists G', diag_big n d G = Some G' /\ lenZ G' = (n * n)%Z /\
    forall i j, (0 <= i < n)%Z -> (0 <= j < n)%Z -> ent G' 0 n i j = if (i =? j)%Z then Rinv (bigd d i) else R0.
Proof.
  move=> Hn Hd HG HG0. rewrite /diag_big. match goal with |- context [for_range 0 _ ?bd _] => set body := bd end.
  have [|||G' [-> [H1 H2]]] := @for_range_inv _ (fun k G' => lenZ G' = (n * n)%Z /\ forall i j, (0 <= i < n)%Z -> (0 <= j < n)%Z ->
     ent G' 0 n i j = if (i =? j)%Z && (i <? k)%Z then Rinv (bigd d i) else R0) 0%Z n body G.
  - exact: Hn.
  - move=> k G1 Hk [I1 I2]. rewrite /body aget_rat ?Hd //. cbn [obind].
    match goal with |- context [obind ?c _] => have -> : c = Some (Rinv (bigd d k)) end.
    { rewrite /rdiv /bigd. case: Rlt_dec => h /=; case: Rle_dec => h' /=; try lra; last by rewrite Rinv_1.
      case: Req_EM_T => E /=; first by move: h; rewrite E Rabs_R0; lra. congr Some. rewrite /Rdiv. ring. }
    cbn [obind]. rewrite aset_lenZ; last by rewrite I1; nia. eexists. split; first reflexivity.
    split; first by rewrite len_lset. move=> i j Hi Hj. rewrite ent_set // I2 //.
    case: (Z.eqb_spec k i) => Hki; case: (Z.eqb_spec k j) => Hkj; case: (Z.eqb_spec i j) => Hij; rewrite /= ?Hki //; try lia.
    + case: Z.ltb_spec => //; lia.
    + case: (Z.ltb_spec i k) => h1; case: (Z.ltb_spec i (k + 1)) => h2 //; lia.
  - split => // i j Hi Hj. have -> : (i <? 0)%Z = false by apply/Z.ltb_ge; lia. rewrite andbF /ent HG0 //. nia.
  exists G'. split => //. split => // i j Hi Hj. rewrite H2 //. have -> : (i <? n)%Z by apply/Z.ltb_lt; lia. by rewrite andbT.
Qed.

(** D_s T *)
Lemma scale_small_ok n d T : (0 <= n)%Z -> lenZ d = n -> lenZ T = (n * n)%Z ->
  exists T', scale_small n d T = Some T' /\ lenZ T' = (n * n)%Z /\
    forall i j, (0 <= i < n)%Z -> (0 <= j < n)%Z -> ent T' 0 n i j = Rmult (smalld d i) (ent T 0 n i j).
Proof.
  move=> Hn Hd HT. rewrite /scale_small. match goal with |- context [for_range 0 _ ?bd _] => set body := bd end.
  have [|||T' [-> [H1 H2]]] := @for_range_inv _ (fun k T' => lenZ T' = (n * n)%Z /\ forall i j, (0 <= i < n)%Z -> (0 <= j < n)%Z ->
     ent T' 0 n i j = if (i <? k)%Z then Rmult (smalld d i) (ent T 0 n i j) else ent T 0 n i j) 0%Z n body T.
  - exact: Hn.
  - move=> k T1 Hk [I1 I2]. rewrite /body aget_rat ?Hd //. cbn [obind]. case: Rle_dec => h /=.
    + have [||||T2 [-> [J1 [J2 J3]]]] := @dscal_ok n (rat d k) T1 k n; try lia.
      eexists. split; first reflexivity. rewrite J1. split => // i j Hi Hj.
      case: (Z.eq_dec i k) => [->|Hne].
      * have -> : (k <? k + 1)%Z by apply/Z.ltb_lt; lia. rewrite /ent Z.add_0_l J2 //. 
        have := I2 k j Hk Hj. rewrite /ent !Z.add_0_l Z.ltb_irrefl => ->. rewrite /smalld. by case: Rle_dec.
      * have -> : (i <? k + 1)%Z = (i <? k)%Z by case: (Z.ltb_spec i k); case: (Z.ltb_spec i (k+1)) => //; lia.
        rewrite -I2 // /ent !Z.add_0_l J3 //; first nia. move=> l Hl E.
        have : (n * (j - l) = k - i)%Z by lia. move=> E'. case: (Z.eq_dec j l) => [Ejl|Hjl]; first by rewrite Ejl in E'; lia. nia.
    + exists T1. split => //. split => // i j Hi Hj. rewrite I2 //.
      case: (Z.ltb_spec i k) => h1; case: (Z.ltb_spec i (k + 1)) => h2 //; try lia.
      have -> : i = k by lia. rewrite /smalld. case: Rle_dec => //= _. by rewrite Rmult_1_l.
  - split => // i j Hi Hj. by have -> : (i <? 0)%Z = false by apply/Z.ltb_ge; lia.
  exists T'. split => //. split => // i j Hi Hj. rewrite H2 //. by have -> : (i <? n)%Z by apply/Z.ltb_lt; lia.
Qed.

(** row interchanges as a permutation *)
Lemma swaps_perm n ipiv k : ipiv_ok n ipiv -> (k <= n)%N -> exists s : 'S_n,
  (forall f, mxf n n (swaps ipiv k f) = perm_mx s *m mxf n n f) /\
  (-1) ^+ s = \prod_(i < k) flip (List.nth i ipiv 0 =? Zn i + 1)%Z :> R.
Proof.
  move=> [Hl Hp]. elim: k => [|k IH] Hk.
  { exists 1%g. split; first by move=> f; rewrite perm_mx1 mul1mx. by rewrite odd_perm1 big_ord0. }
  have [s [H1 H2]] := IH (ltnW Hk). have Hpk := Hp k Hk.
  have Hpn : (Z.to_nat (List.nth k ipiv 0%Z - 1) < n)%N by apply/ltP; lia.
  pose ko := Ordinal Hk. pose po := Ordinal Hpn. exists (tperm ko po * s)%g. split.
  - move=> f. rewrite perm_mxM -mulmxA -H1 -row_permE. apply/matrixP => i j. rewrite !mxE /= /swap_rows.
    have Ep : Zn po = (List.nth k ipiv 0 - 1)%Z by rewrite /= Z2Nat.id; lia.
    have -> : Zn k = Zn ko by []. rewrite -Ep !of_nat_eqb. case: tpermP => [->|->|h1 h2].
    + by rewrite eqxx.
    + case: eqP => [E|_]; last by rewrite eqxx. by congr (swaps _ _ _ (Zn _) _).
    + case: eqP => [E|_]; first by case: h1; apply: val_inj.
      by case: eqP => [E|_] //; case: h2; apply: val_inj.
  - rewrite big_ord_recr -H2 /= odd_permM odd_tperm -val_eqE /=.
    have -> : (k != Z.to_nat (List.nth k ipiv 0%Z - 1)) = ~~ (List.nth k ipiv 0 =? Zn k + 1)%Z.
    { case: Z.eqb_spec => h; case: eqP => h' //; lia. }
    rewrite signr_addb mulrC. congr (_ * _). by case: Z.eqb.
Qed.

Definition bmx (n : nat) (d : list R) : 'M[R]_n := diag_mx (mxf 1 n (fun _ j => Rinv (bigd d j))).
Definition smx (n : nat) (d : list R) : 'M[R]_n := diag_mx (mxf 1 n (fun _ j => smalld d j)).

Lemma bmx_dmx n d : bmx n d *m dmx n d = smx n d.
Proof.
  rewrite dmxE -(mxf_diag n (fun j => rat d j)) /bmx mxf_diag_l /smx -mxf_diag. apply: mxf_ext => i j Hi Hj.
  case: Z.eqb_spec => _; last by rewrite Rmult_0_r. have := @bigd_nz d i. rewrite /bigd /smalld.
  case: Rle_dec => h /= Hb; field; lra.
Qed.

Lemma pz_big n f : pz (Zn n) f = \prod_(i < n) f (Zn i).
Proof. by rewrite /pz Nat2Z.id. Qed.

Lemma det_bmx n d : \det (bmx n d) * pz (Zn n) (bigd d) = 1.
Proof.
  rewrite /bmx det_diag pz_big -big_split big1 // => i _ /=. rewrite mxE -RmultE -R1E. apply: Rinv_l. exact: bigd_nz.
Qed.

Lemma det_qmx m a t k : (forall l, (l < k)%N -> refl_ok m a t l) ->
  \det (qmx m a t k) = \prod_(i < k) flip (~~ Rlt_dec 0 (t (Zn i))).
Proof.
  elim: k => [|k IH] H; first by rewrite /= det1 big_ord0.
  rewrite /= det_mulmx big_ord_recr /= IH; last by move=> l Hl; apply: H; apply: leqW.
  congr (_ * _). have Hk := H k (ltnSn k). rewrite det_hmx //. case: Hk => [->|[Hp _]].
  - case: Req_EM_T => //= _. by case: Rlt_dec => h //=; lra.
  - case: Req_EM_T => E /=; first by rewrite E in Hp; lra. by case: Rlt_dec.
Qed.

Lemma mul_one4 (a p q : R) : a * p = 1 -> q * q = 1 -> a * q * p * q = 1.
Proof. by move=> E1 E2; rewrite (mulrAC a) E1 mul1r. Qed.

Lemma det_value (s3 fl pb sg u a g v one : R) : one = 1 -> s3 * fl * pb * (u * sg) = one ->
  sg * sg = 1 -> sg * (g * a) = u -> g * pb * fl = 1 -> a * v = 1 -> s3 = v.
Proof.
  move=> -> E1 Es Eu Eg Ea.
  have : s3 * a = 1.
  { have -> : s3 * a = s3 * a * (g * pb * fl) * (sg * sg) by rewrite Eg Es !mulr1.
    rewrite -E1 -Eu -?RmultE. lra. }
  move=> E. by rewrite -[s3]mulr1 -Ea mulrA E mul1r.
Qed.

Section Green.
Variables (la : lapack) (LA : lapack_ok la).
Variables (junk : Z -> R) (n L b : nat) (M : nat -> 'M[R]_n) (t : tsm) (k : nat) (G : greens_func).
Hypotheses (Hn : (0 < n)%N) (Ht : tsm_products L b M t) (HG : square n (gf_mat G)).
Let A := cyclic_flow M L ((k * b) %% L).

Lemma green_construct_cases : exists T ipiv g d tau,
  green_construct la junk t (Zn (k * b)%N) G =
    (let* ls := det_lu (Zn n) T ipiv (0%coqR, 1%Z) in
     let* ls := det_big (Zn n) d ls in
     let* ls := det_refl (Zn n) tau ls in
     let* g := dgetrs la (Zn n) T ipiv g in
     Some (mk_greens g (fst ls) (snd ls) (gf_N G))) /\
  square n T /\ ipiv_ok n ipiv /\ square n g /\ lenZ d = Zn n /\ lenZ tau = Zn n /\
  \det (mat n g) * pz (Zn n) (bigd d) * pz (Zn n) (fun i => flip (~~ Rlt_dec 0 (rat tau i))) = 1 /\
  exists s : 'S_n, (forall f, mxf n n (swaps ipiv n f) = perm_mx s *m mxf n n f) /\
    (-1) ^+ s = pz (Zn n) (fun i => flip (List.nth (Z.to_nat i) ipiv 0 =? i + 1)%Z) :> R /\
    perm_mx s *m (mat n g *m (1%:M + A)) = mxf n n (unit_lower (pk T n)) *m mxf n n (upper (pk T n)).
Proof.
  rewrite /green_construct. have EN : ts_N t = Zn n by case: Ht => [[]]. rewrite EN.
  have [||||Q [tau [d [T [-> [H1 [H2 [H3 [H4 [H5 [H6 H7]]]]]]]]]]] :=
    @time_flow_map_ok la n LA junk L b M t k (fresh junk (Zn n * Zn n)) (fresh junk (Zn n)) (fresh junk (Zn n)) (fresh junk (Zn n * Zn n)) Hn Ht.
  { exact: fresh_square. } { apply: fresh_len. lia. } { apply: fresh_len. lia. } { exact: fresh_square. }
  cbn [obind].
  have [|||g0 [-> [Z1 [Z2 _]]]] := @zero_fill_ok (Zn n * Zn n)%Z (gf_mat G) 0%Z; try lia; first by rewrite HG; lia.
  rewrite Z.add_0_l in Z2. rewrite HG in Z1. cbn [obind].
  have [|g1 [-> [B1 B2]]] := @diag_big_ok (Zn n) d g0 _ H3 Z1 Z2; first lia. cbn [obind].
  have [||||g2 [-> [R1' R2]]] := @dormqr_RT_ok n n n Q 0 (Zn n) tau 0 g1 0 (Zn n).
  { exact: fits_square. } { exact: fits_square. } { by []. } { by rewrite H2; lia. }
  have R1 := proj1 R1'. rewrite B1 in R1. cbn [obind].
  have [|T1 [-> [S1 S2]]] := @scale_small_ok (Zn n) d T _ H3 H4; first lia. cbn [obind].
  have [|||T2 [-> [D1 D2]]] := @daxpy_ok (Zn n * Zn n)%Z 1%coqR g2 T1; try lia. cbn [obind].
  have Eg : mat n g2 = bmx n d *m (qmx n (pk Q n) (vk tau) n)^T.
  { rewrite mat_mxf R2. congr (_ *m _). rewrite /bmx -mxf_diag. apply: mxf_ext => i j Hi Hj. by rewrite B2. }
  have ET : mat n T2 = mat n g2 *m (1%:M + A).
  { rewrite mulmxDr mulmx1 /A -H7 {2}Eg -!mulmxA (mulmxA _^T) qmx_orth' // mul1mx mulmxA bmx_dmx /smx !mat_mxf mxf_diag_l mxf_add.
    apply: mxf_ext => i j Hi Hj. rewrite -S2 // {1}/ent Z.add_0_l D2; last nia. rewrite /ent !Z.add_0_l. lra. }
  rewrite /dgetrf. have [P [-> [HP EP]]] := @gather_ok n n T2 0 (Zn n) (fits_square D1). cbn [obind].
  case EF : (la_getrf la (Zn n) P) => [P' ipiv].
  have := ok_getrf LA (proj2 (packed_len n n P) HP). rewrite EF => [[F1 [F2 F3]]]. move/packed_len: F1 => F1.
  have [T3 [-> [W1 [W2 _]]]] := scatter_ok F1 (fits_square D1). rewrite D1 in W1. cbn [obind].
  exists T3, ipiv, g2, d, tau. split => //. do 5 (split; first by []). split.
  - rewrite Eg det_mulmx det_tr.
    have -> : pz (Zn n) (fun i : Z => flip (~~ Rlt_dec 0 (rat tau i))) = \det (qmx n (pk Q n) (vk tau) n).
    { by rewrite det_qmx // pz_big. }
    have Eb := det_bmx n d.
    have Eq : \det (qmx n (pk Q n) (vk tau) n) * \det (qmx n (pk Q n) (vk tau) n) = 1.
    { by rewrite -{2}det_tr -det_mulmx qmx_orth // det1. }
    exact: (mul_one4 Eb Eq).
  - have [s [HS1 HS2]] := swaps_perm F2 (leqnn n). exists s. split => //. split.
    + rewrite HS2 pz_big. by apply: eq_bigr => i _; rewrite Nat2Z.id.
    + rewrite -ET mat_mxf. have -> : mxf n n (ent T2 0 (Zn n)) = mxf n n (pk P n) by apply: mxf_ext => i j Hi Hj; rewrite EP.
      rewrite -HS1 F3. congr (_ *m _); apply: mxf_ext => i j Hi Hj; by rewrite /unit_lower /upper -[pk T3 n i j]pkE W2.
Qed.

Lemma prod_split (f g : Z -> R) : pz (Zn n) (fun i => Rmult (f i) (g i)) = pz (Zn n) f * pz (Zn n) g.
Proof. by rewrite !pz_big -big_split. Qed.

Lemma green_construct_ok : \det (1%:M + A) <> 0 ->
  exists G', green_construct la junk t (Zn (k * b)%N) G = Some G' /\ square n (gf_mat G') /\ gf_N G' = gf_N G /\
    is_green (mat n (gf_mat G')) A /\ sgn_ok (gf_sgndet G') /\
    Rmult (IZR (gf_sgndet G')) (exp (gf_logdet G')) = \det (mat n (gf_mat G')).
Proof.
  move=> HA. have [T [ipiv [g [d [tau [-> [H1 [H2 [H3 [H4 [H5 [H6 [s [H7 [H8 H9]]]]]]]]]]]]]]] := green_construct_cases.
  have Hdet : (-1) ^+ s * (\det (mat n g) * \det (1%:M + A)) = pz (Zn n) (fun i => ent T 0 (Zn n) i i).
  { rewrite -det_mulmx -det_perm -det_mulmx H9 det_mulmx det_unit_lower mul1r det_upper pz_big. by []. }
  have Hg : \det (mat n g) <> 0.
  { move=> E. move: H6. rewrite E !mul0r => /eqP. by rewrite eq_sym oner_eq0. }
  have Hnz : forall i, (0 <= i < Zn n)%Z -> ent T 0 (Zn n) i i <> R0.
  { move=> i Hi E. have : pz (Zn n) (fun i => ent T 0 (Zn n) i i) = 0.
    { rewrite pz_big. have Hi' : (Z.to_nat i < n)%N by apply/ltP; lia.
      rewrite (bigD1 (Ordinal Hi')) //= Z2Nat.id; last lia. by rewrite E mul0r. }
    rewrite -Hdet => /eqP. rewrite !mulf_eq0 signr_eq0 /=. case/orP => /eqP //. }
  have Hi : lenZ ipiv = Zn n by rewrite /lenZ (proj1 H2).
  have [|ls1 [-> [L1 L2]]] := @det_lu_ok (Zn n) T ipiv (0%coqR, 1%Z) H1 Hi _ Hnz; first by left. cbn [obind].
  have [ls2 [-> [L3 L4]]] := det_big_ok H4 L1. cbn [obind].
  have [ls3 [-> [L5 L6]]] := det_refl_ok H5 L3. cbn [obind].
  rewrite /dgetrs. have [P [-> [HP EP]]] := @gather_ok n n T 0 (Zn n) (fits_square H1). cbn [obind].
  have [B [-> [HB EB]]] := @gather_ok n n g 0 (Zn n) (fits_square H3). cbn [obind].
  have HPd : diag_nz n P by move=> i /ltP Hin; rewrite EP; try lia; apply: Hnz; lia.
  have [X1 X2] := ok_getrs LA (proj2 (packed_len n n P) HP) H2 (proj2 (packed_len n n B) HB) HPd. move/packed_len: X1 => X1.
  have [g' [-> [W1 [W2 _]]]] := scatter_ok X1 (fits_square H3). rewrite H3 in W1. cbn [obind].
  eexists. split; first reflexivity. cbn [gf_mat gf_logdet gf_sgndet gf_N]. split => //. split => //.
  have EX : mat n g' = mat n (la_getrs la (Zn n) P ipiv B).
  { rewrite [RHS]mat_pk mat_mxf. apply: mxf_ext => i j Hi' Hj. by rewrite W2. }
  have HU : mat n g \in unitmx by rewrite unitmxE unitfE; apply/eqP.
  have Hgr : (1%:M + A) *m mat n g' = 1%:M.
  { move: X2. rewrite -EX H7.
    have -> : mxf n n (pk B n) = mat n g by rewrite mat_mxf; apply: mxf_ext => i j Hi' Hj; rewrite EB.
    have -> : mxf n n (unit_lower (pk P n)) = mxf n n (unit_lower (pk T n)).
    { apply: mxf_ext => i j Hi' Hj. by rewrite /unit_lower EP. }
    have -> : mxf n n (upper (pk P n)) = mxf n n (upper (pk T n)).
    { apply: mxf_ext => i j Hi' Hj. by rewrite /upper EP. }
    rewrite -H9 -!mulmxA => X2. apply: (can_inj (@mulKmx _ _ n _ HU)). rewrite mulmx1. apply: (can_inj (@mulKmx _ _ n _ (unitmx_perm _ s))). exact: X2. }
  split; first by rewrite /is_green; apply: mulmx1C. split => //.
  have EdX : \det (1%:M + A) * \det (mat n g') = 1 by rewrite -det_mulmx Hgr det1.
  apply: (@det_value (sval ls3) _ _ _ _ _ _ _ (sval (0%coqR, 1%Z)) _ _ _ Hdet H6 EdX).
  - rewrite /sval /= exp_0 -R1E. lra.
  - rewrite -L2 -L4 -L6 prod_split H8. by [].
  - by rewrite -signr_addb addbb.
Qed.

Lemma green_construct_none : \det (1%:M + A) = 0 -> green_construct la junk t (Zn (k * b)%N) G = None.
Proof.
  move=> HA. have [T [ipiv [g [d [tau [-> [H1 [H2 [H3 [H4 [H5 [H6 [s [H7 [H8 H9]]]]]]]]]]]]]]] := green_construct_cases.
  have Hdet : (-1) ^+ s * (\det (mat n g) * \det (1%:M + A)) = pz (Zn n) (fun i => ent T 0 (Zn n) i i).
  { rewrite -det_mulmx -det_perm -det_mulmx H9 det_mulmx det_unit_lower mul1r det_upper pz_big. by []. }
  move: Hdet. rewrite HA !mulr0 pz_big => /esym/eqP. rewrite prodf_seq_eq0 => /hasP [i _ /= /eqP E].
  by rewrite (det_lu_none _ _ H1 (ordZ i) E).
Qed.
End Green.
