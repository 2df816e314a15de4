(** Proofs about the time flow map. *)
From Coq Require Import ZArith List Reals Lia Lra Permutation.
From mathcomp Require Import all_ssreflect fingroup perm ssralg matrix.
From Verif Require Import Base BaseFacts Sums SumsFacts RealOps ParamParser RField Blas BlasFacts MatProd MatSpec MatFacts
  TimeStep TimeStepSpec TimeStepFacts GreenSpec GreenFacts Prepivot PrepivotFacts Lapack LapackSpec LapackFacts TimeFlowSpec TimeFlow TimeFlowLoops.
Set Implicit Arguments.
Unset Strict Implicit.
Unset Printing Implicit Defensive.
Local Open Scope ring_scope.
Import GRing.Theory.

(** permutations as functions on integers *)
Definition sfun (n : nat) (s : 'S_n) (j : Z) : Z :=
  if insub (Z.to_nat j) is Some o then Zn (s (o : 'I_n)) else 0%Z.

Lemma sfunE n (s : 'S_n) (j : 'I_n) : sfun s (Zn j) = Zn (s j).
Proof. by rewrite /sfun Nat2Z.id valK. Qed.

Lemma ordEx n j : (0 <= j < Zn n)%Z -> exists o : 'I_n, j = Zn o.
Proof.
  move=> Hj. have H : (Z.to_nat j < n)%N by apply/ltP; lia. exists (Ordinal H) => /=. lia.
Qed.

Lemma sfun_inj n (s : 'S_n) : inj_on (Zn n) (sfun s).
Proof.
  split.
  - move=> j /ordEx [o ->]. rewrite sfunE. exact: ordZ.
  - move=> i j /ordEx [a ->] /ordEx [b ->]. rewrite !sfunE => H.
    have E : s a = s b by apply: val_inj; rewrite /=; lia. by rewrite (perm_inj E).
Qed.

(** a list that is a permutation of 0, ..., n-1 *)
Lemma perm_of_list n l : Permutation l (zrange n) -> exists s : 'S_n, forall j : 'I_n, List.nth j l 0%Z = Zn (s j).
Proof.
  move=> HP. have HL : List.length l = n by rewrite (Permutation_length HP) zrange_len.
  have HN : List.NoDup l.
  { apply: (Permutation_NoDup (Permutation_sym HP)). apply: FinFun.Injective_map_NoDup; last exact: List.seq_NoDup.
    move=> x y. lia. }
  have HR : forall j : 'I_n, (Z.to_nat (List.nth j l 0%Z) < n)%N /\ (0 <= List.nth j l 0)%Z.
  { move=> j. have Hj : (j < List.length l)%coq_nat by rewrite HL; apply/ltP.
    have := Permutation_in _ HP (List.nth_In l 0%Z Hj). rewrite in_zrange => H. split; last lia. apply/ltP. lia. }
  pose f (j : 'I_n) : 'I_n := Ordinal (proj1 (HR j)).
  have Hf : injective f.
  { move=> a b E. apply: val_inj => /=. have E' : List.nth a l 0%Z = List.nth b l 0%Z.
    { have := congr1 val E. rewrite /= => E'. have := HR a. have := HR b. lia. }
    apply: (proj1 (List.NoDup_nth l 0%Z) HN); try (rewrite HL; apply/ltP; exact: ltn_ord). exact: E'. }
  exists (perm Hf) => j. rewrite permE /=. have := HR j. lia.
Qed.

Lemma col_perm_inj (m n : nat) (s : 'S_n) (X Y : 'M[R]_(m, n)) : col_perm s X = col_perm s Y -> X = Y.
Proof.
  move=> /matrixP H. apply/matrixP => i j. have := H i (s^-1%g j). by rewrite !mxE permKV.
Qed.

(** column scaled by d, permutations, triangular products in terms of matrices *)
Lemma mat_ij n A (i j : 'I_n) : mat n A i j = ent A 0 (Zn n) (Zn i) (Zn j).
Proof. by rewrite mat_mxf mxE. Qed.

Lemma dmxE n d : dmx n d = diag_mx (mxf 1 n (fun _ j => rat d j)).
Proof. by congr diag_mx. Qed.

Lemma sum_upper n (a b : Z -> Z -> R) i j : (0 <= i < Zn n)%Z ->
  sum i (Zn n) (fun l => Rmult (a i l) (b l j)) = sum 0 (Zn n) (fun l => Rmult (upper a i l) (b l j)).
Proof.
  move=> Hi. rewrite (@sum_split 0 i (Zn n)); last lia. rewrite (@sum_zero 0 i).
  - rewrite Rplus_0_l. apply: sum_ext => l Hl. rewrite /upper. by case: Z.leb_spec => //; lia.
  - move=> l Hl. rewrite /upper. case: Z.leb_spec => H; first lia. by rewrite Rmult_0_l.
Qed.

Section Flow.
Variables (la : lapack) (n : nat).
Hypothesis LA : lapack_ok la.

(** what the loop maintains: Q orthogonal in factored form, d without zeros, Q diag(d) T = P *)
Record flow_inv (P : 'M[R]_n) (f : tfm) : Prop := {
  fi_Q : square n (f_Q f);
  fi_tau : lenZ (f_tau f) = Zn n;
  fi_d : lenZ (f_d f) = Zn n;
  fi_T : square n (f_T f);
  fi_jpvt : lenZ (f_jpvt f) = Zn n;
  fi_W : square n (f_W f);
  fi_norms : lenZ (f_norms f) = Zn n;
  fi_v : lenZ (f_v f) = Zn n;
  fi_refl : forall k, (k < n)%N -> refl_ok n (pk (f_Q f) n) (vk (f_tau f)) k;
  fi_dnz : forall i, (0 <= i < Zn n)%Z -> rat (f_d f) i <> R0;
  fi_prod : qmx n (pk (f_Q f) n) (vk (f_tau f)) n *m dmx n (f_d f) *m mat n (f_T f) = P }.

Lemma tfm_first_ok src f : square n src -> square n (f_Q f) -> lenZ (f_tau f) = Zn n -> lenZ (f_d f) = Zn n ->
  square n (f_T f) -> square n (f_W f) -> lenZ (f_norms f) = Zn n -> lenZ (f_v f) = Zn n ->
  exists f', tfm_first la (Zn n) src f = Some f' /\ flow_inv (mat n src) f'.
Proof.
  move=> Hsrc HQ Htau Hd HT HW Hno Hv. rewrite /tfm_first.
  have [Q0 [-> [HQ0 EQ0]]] := copy_square Hsrc HQ. cbn [obind]. rewrite Nat2Z.id.
  have [Q [jp [tau [-> [HQs [Htau1 [Hjp [Hrefl [s [Hs HQR]]]]]]]]]] := dgeqp3_ok LA HQ0 Htau. cbn [obind].
  have [||||d [v [-> [Hd1 [Hv1 Hdv]]]]] := @extract_diag_ok (Zn n) Q (f_d f) (f_v f); try (rewrite /square in HQs; lia).
  cbn [obind].
  have [||||||| jp' [T [-> [Hjp' [HT' HTe]]]]] := @first_T_ok (Zn n) Q v (sfun s) jp (f_T f).
  - lia.
  - exact: HQs.
  - exact: Hv1.
  - exact: HT.
  - by rewrite /lenZ Hjp.
  - exact: sfun_inj.
  - move=> j /ordEx [o ->]. by rewrite Nat2Z.id sfunE.
  - cbn [obind]. eexists; split; first reflexivity.
    have Hnz : forall i, (0 <= i < Zn n)%Z -> rat d i <> R0 by move=> i Hi; rewrite (proj1 (Hdv i Hi)); apply: dg_nz.
    split => //=.
    rewrite -EQ0 -mulmxA.
    have E : col_perm s (dmx n d *m mat n T) = mxf n n (upper (pk Q n)).
    { apply/matrixP => i j. rewrite dmxE [mat n T]mat_mxf mxf_diag_l !mxE.
      have := HTe (Zn i) (Zn j) (ordZ i) (ordZ j). rewrite sfunE => ->. rewrite /upper.
      case: Z.leb_spec => H; last by rewrite Rmult_0_r.
      rewrite (proj2 (Hdv (Zn i) (ordZ i))) -Rmult_assoc Rinv_r ?Rmult_1_l //. exact: Hnz (ordZ i). }
    rewrite -E in HQR. apply: (@col_perm_inj _ _ s).
    have -> : forall X Y : 'M[R]_n, col_perm s (X *m Y) = X *m col_perm s Y.
    { move=> X Y. apply/matrixP => i j. rewrite !mxE. apply: eq_bigr => k _. by rewrite !mxE. }
    by [].
Qed.

Lemma tfm_next_ok src f P : (0 < n)%N -> square n src -> flow_inv P f ->
  exists f', tfm_next la (Zn n) src f = Some f' /\ flow_inv (mat n src *m P) f'.
Proof.
  move=> Hn Hsrc [HQ Htau Hd HT Hjp HW Hno Hv Hrefl Hdnz HP]. rewrite /tfm_next.
  have Hn' : (0 < Zn n)%Z by move/ltP: Hn; lia.
  have [W0 [-> [HW0 EW0]]] := copy_square Hsrc HW. cbn [obind].
  have [||||W1 [-> [[HW1 _] EW1]]] := @dormqr_RN_ok n n n (f_Q f) 0 (Zn n) (f_tau f) 0 W0 0 (Zn n).
  - exact: fits_square.
  - exact: fits_square.
  - lia.
  - lia.
  cbn [obind]. rewrite HW0 in HW1.
  have EW1' : mat n W1 = mat n src *m qmx n (pk (f_Q f) n) (vk (f_tau f)) n by rewrite mat_mxf EW1 EW0 -mat_mxf.
  have [||W [-> [HWs EW]]] := @cols_scale n (rat (f_d f)) (fun i W => let* di := aget (f_d f) i in dscal (Zn n) di W (i * Zn n) 1) W1.
  - exact: HW1.
  - move=> i B Hi. by rewrite aget_rat //; lia.
  cbn [obind].
  have [|||norms [-> Hnorms]] := @norms_ok (Zn n) W (f_norms f); try (rewrite /square in HWs; lia). cbn [obind].
  have [|||jp [-> HPerm]] := @prepivot_perm _ Rltb (Zn n) norms (f_jpvt f); try (rewrite -/(lenZ _); lia). cbn [obind].
  rewrite Nat2Z.id in HPerm. have [s Hs] := perm_of_list HPerm.
  have Hjp1 : lenZ jp = Zn n by rewrite /lenZ (Permutation_length HPerm) zrange_len.
  have Hs' : forall j, (0 <= j < Zn n)%Z -> List.nth (Z.to_nat j) jp 0%Z = sfun s j.
  { move=> j /ordEx [o ->]. by rewrite Nat2Z.id sfunE. }
  have [||||||Q0 [-> [HQ0 EQ0]]] := @permute_cols_ok (Zn n) (sfun s) jp W (f_Q f).
  - lia.
  - exact: HWs.
  - exact: HQ.
  - exact: Hjp1.
  - exact: sfun_inj.
  - exact: Hs'.
  cbn [obind].
  have EQ0' : mxf n n (ent Q0 0 (Zn n)) = col_perm s (mat n W).
  { apply/matrixP => i j. rewrite !mxE EQ0; try exact: ordZ. rewrite sfunE. by rewrite /ent -ratE; congr rat; rewrite -plusE -multE; lia. }
  have [||||Q1 [tau [-> [[HQ1 _] [Htau1 [_ [Hrefl1 HQR]]]]]]] := @dgeqrf_ok la n n Q0 0 (Zn n) (f_tau f) 0 LA.
  - by [].
  - exact: fits_square.
  - lia.
  - lia.
  cbn [obind]. rewrite HQ0 in HQ1. rewrite EQ0' in HQR.
  have [||||d [v [-> [Hd1 [Hv1 Hdv]]]]] := @extract_diag_ok (Zn n) Q1 (f_d f) (f_v f); try lia. cbn [obind].
  have [|||Q2 [-> [HQ2 EQ2]]] := @scale_upper_ok (Zn n) v Q1; try lia. cbn [obind].
  have [||||||v2 [T1 [-> [Hv2 [HT1 ET1]]]]] := @permute_rows_ok (Zn n) (sfun s) jp v (f_T f).
  - lia.
  - exact: HT.
  - exact: Hv1.
  - exact: Hjp1.
  - exact: sfun_inj.
  - exact: Hs'.
  cbn [obind].
  have [||T2 [-> [HT2 [ET2 _]]]] := @dtrmm_left_ok (Zn n) (Zn n) 1%coqR Q2 0 (Zn n) T1 0 (Zn n).
  - exact: fits_square.
  - exact: fits_square.
  cbn [obind]. eexists; split; first reflexivity.
  have Hnz : forall i, (0 <= i < Zn n)%Z -> rat d i <> R0 by move=> i Hi; rewrite (proj1 (Hdv i Hi)); apply: dg_nz.
  have Hlow : forall k, (k < n)%N -> forall i, (Zn k < i < Zn n)%Z -> ent Q1 0 (Zn n) i (Zn k) = pk Q2 n i (Zn k).
  { move=> k /ltP Hk i Hi. rewrite -(pkE Q2) EQ2; try lia. by case: Z.leb_spec => //; lia. }
  have Ht : forall k, (k < n)%N -> rat tau (0 + Zn k) = vk tau (Zn k) by [].
  split => //=; try (by rewrite /square ?HT2 ?Htau1 ?Htau).
  - move=> k Hk. apply: (refl_ok_ext _ _ (Hrefl1 k Hk)); [exact: Hlow|exact: Ht].
  - rewrite -(qmx_ext Hlow Ht). set Qm := qmx _ _ _ _ in HQR *.
    have ET1' : mat n T1 = row_perm s (mat n (f_T f)).
    { rewrite [mat n T1]mat_mxf. apply/matrixP => i j. rewrite !mxE ET1; try exact: ordZ. rewrite sfunE.
      by rewrite /ent -ratE; congr rat; rewrite -plusE -multE; lia. }
    have ET2' : mat n T2 = mxf n n (upper (pk Q2 n)) *m mat n T1.
    { rewrite [mat n T2]mat_mxf [mat n T1]mat_mxf mxf_mul. apply: mxf_ext => i j Hi Hj. rewrite ET2 // Rmult_1_l.
      exact: (@sum_upper n (pk Q2 n) (ent T1 0 (Zn n))). }
    have EDU : dmx n d *m mxf n n (upper (pk Q2 n)) = mxf n n (upper (ent Q1 0 (Zn n))).
    { rewrite dmxE mxf_diag_l. apply: mxf_ext => i j Hi Hj. rewrite /upper. case: Z.leb_spec => H; last by rewrite Rmult_0_r.
      rewrite -(pkE Q2) EQ2 //. case: Z.leb_spec; last lia. move=> _. rewrite (proj2 (Hdv i Hi)).
      rewrite -Rmult_assoc (Rmult_comm (rat d i)) Rmult_assoc Rinv_r ?Rmult_1_r //. exact: Hnz. }
    rewrite ET2' -mulmxA (mulmxA (dmx n d)) EDU mulmxA -HQR ET1'.
    have -> : forall X Y : 'M[R]_n, col_perm s X *m row_perm s Y = X *m Y.
    { move=> X Y. apply/matrixP => i j. rewrite !mxE [RHS](reindex_inj (@perm_inj _ s)) /=. apply: eq_bigr => k _. by rewrite !mxE. }
    by rewrite EW EW1' -HP !mulmxA; congr (_ *m _).
Qed.

(** products of the blocks in cyclic order *)
Lemma oprod_ext (G F : nat -> 'M[R]_n) lo lo' len : (forall i, (i < len)%N -> G (lo + i)%N = F (lo' + i)%N) ->
  oprod G lo len = oprod F lo' len.
Proof.
  elim: len => [//|len IH] H. rewrite !oprodS H // IH // => i Hi. apply: H. exact: ltnW.
Qed.

Lemma oprod_blocks (M : nat -> 'M[R]_n) b lo len :
  oprod (fun q => oprod M (q * b) b) lo len = oprod M (lo * b) (len * b).
Proof.
  elim: len => [|len IH]; first by rewrite mul0n.
  by rewrite oprodS IH mulSn [(b + _)%N]addnC oprod_cat mulnDl.
Qed.

Lemma oprod_cyclic (F : nat -> 'M[R]_n) p k : (k < p)%N ->
  oprod (fun q => F ((q + k) %% p)%N) 0 p = oprod F 0 k *m oprod F k (p - k).
Proof.
  move=> Hk. have -> : oprod (fun q => F ((q + k) %% p)%N) 0 p = oprod (fun q => F ((q + k) %% p)%N) 0 ((p - k) + k).
  { by rewrite subnK // ltnW. }
  rewrite oprod_cat add0n. congr (_ *m _); apply: oprod_ext => i Hi.
  - rewrite add0n. congr F. rewrite addnAC subnK; last exact: ltnW. rewrite modnDl modn_small //. exact: ltn_trans Hk.
  - rewrite add0n addnC. congr F. rewrite modn_small //. by rewrite -ltn_subRL.
Qed.

Lemma time_flow_map_ok junk L b (M : nat -> 'M[R]_n) t k Q tau d T :
  (0 < n)%N -> tsm_products L b M t ->
  square n Q -> lenZ tau = Zn n -> lenZ d = Zn n -> square n T ->
  exists Q' tau' d' T', time_flow_map la junk t (Zn (k * b)%N) Q tau d T = Some (Q', tau', d', T') /\
    square n Q' /\ lenZ tau' = Zn n /\ lenZ d' = Zn n /\ square n T' /\
    (forall k, (k < n)%N -> refl_ok n (pk Q' n) (vk tau') k) /\
    (forall i, (0 <= i < Zn n)%Z -> rat d' i <> R0) /\
    qmx n (pk Q' n) (vk tau') n *m dmx n d' *m mat n T' = cyclic_flow M L ((k * b) %% L).
Proof.
  move=> Hn [[HN HL Hb [Hb0 HL0] Hnum HB HinvB [HBp1 HBp2]] HMp] HQ Htau Hd HT.
  have [p Hp] : exists p, ts_numBprod t = Zn p by exists (List.length (ts_Bprod t)).
  have HLp : L = (p * b)%N by rewrite Hp in Hnum; rewrite -multE; nia.
  have Hp0 : (0 < p)%N by case: (p) HLp HL0 => // ->; rewrite mul0n.
  have Hlen : List.length (ts_Bprod t) = p by rewrite Hp in HBp1; lia.
  pose Bp q := oprod M (q * b) b.
  have Hget : forall q, (q < p)%N -> exists src, aget (ts_Bprod t) (Zn q) = Some src /\ square n src /\ mat n src = Bp q.
  { move=> q Hq. exists (List.nth q (ts_Bprod t) nil). split.
    - rewrite (@aget_nth _ _ _ nil) ?Nat2Z.id //. rewrite Hlen. move/ltP: Hq. lia.
    - split.
      + apply: square_len. apply: (@Forall_nth_ok _ _ _ _ _ HBp2). rewrite Hlen. exact/ltP.
      + rewrite /Bp -HMp; last by rewrite HLp ltn_pmul2r. by rewrite /mat_at nthE. }
  have Hmod : forall q, cmod (Zn q) (ts_numBprod t) = Some (Zn (q %% p)%N).
  { move=> q. rewrite /cmod Hp. case: Z.eqb_spec => [E|_]; first by move/ltP: Hp0; lia.
    congr Some. rewrite Z.rem_mod_nonneg; [|lia|by move/ltP: Hp0; lia].
    have E := divn_eq q p. have Hr : (q %% p < p)%N by rewrite ltn_mod.
    have E' : (Zn q = Zn p * Zn (q %/ p)%N + Zn (q %% p)%N)%Z by rewrite {1}E -plusE -multE; lia.
    rewrite (Z.mod_unique (Zn q) (Zn p) (Zn (q %/ p)%N) (Zn (q %% p)%N)) //. left. move/ltP: Hr. lia. }
  rewrite /time_flow_map HN Hb.
  have -> : cdiv (Zn (k * b)%N) (Zn b) = Some (Zn k).
  { rewrite /cdiv. case: Z.eqb_spec => [E|_]; first by move/ltP: Hb0; lia. congr Some.
    have -> : Zn (k * b)%N = (Zn k * Zn b)%Z by rewrite -multE; lia. apply: Z.quot_mul. move/ltP: Hb0; lia. }
  cbn [obind]. rewrite Hmod. cbn [obind].
  have [src [-> [Hsrc Esrc]]] := Hget (k %% p)%N (ltn_pmod _ Hp0). cbn [obind].
  have [|||||||f [-> Hf]] := @tfm_first_ok src (mk_tfm Q tau d T [::] (fresh junk (Zn n * Zn n)) (fresh junk (Zn n)) (fresh junk (Zn n))) Hsrc; try by [].
  - exact: fresh_square.
  - apply: fresh_len; lia.
  - apply: fresh_len; lia.
  cbn [obind].
  match goal with |- context [for_range 1 _ ?bd _] => set body := bd end.
  pose G q := Bp ((q + k) %% p)%N.
  have [|||f' [-> Hf']] := @for_range_inv _ (fun l f => flow_inv (oprod G 0 (Z.to_nat l)) f) 1%Z (ts_numBprod t) body f.
  - rewrite Hp. move/ltP: Hp0. lia.
  - move=> l g Hl Hg. rewrite /body.
    have El : (l + Zn k = Zn (Z.to_nat l + k)%N)%Z by rewrite -plusE; lia.
    rewrite El Hmod. cbn [obind].
    have [src' [-> [Hsrc' Esrc']]] := Hget ((Z.to_nat l + k) %% p)%N (ltn_pmod _ Hp0). cbn [obind].
    have [g' [E Hg']] := tfm_next_ok Hn Hsrc' Hg. exists g'. split => //.
    have -> : Z.to_nat (l + 1) = (Z.to_nat l).+1 by lia. by rewrite oprodS add0n /G -Esrc'.
  - have -> : Z.to_nat 1 = 1%N by []. by rewrite oprod1 /G add0n -Esrc.
  cbn [obind]. exists (f_Q f'), (f_tau f'), (f_d f'), (f_T f'). split => //.
  case: Hf' => G1 G2 G3 G4 _ _ _ _ G9 G10 G11.
  do 6 (split; first by []). rewrite G11 Hp Nat2Z.id.
  have -> : oprod G 0 p = oprod (fun q => Bp ((q + k %% p) %% p)%N) 0 p by apply: oprod_ext => i _; rewrite /G modnDmr.
  rewrite oprod_cyclic ?ltn_mod // /Bp !oprod_blocks mul0n. rewrite /cyclic_flow HLp -muln_modl. by rewrite mulnBl.
Qed.
End Flow.
