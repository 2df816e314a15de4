(** Unequal time Green's functions: the loops over time slices. *)
From Coq Require Import ZArith List Reals Lia Lra.
From mathcomp Require Import all_ssreflect fingroup perm ssralg matrix.
From Verif Require Import Base BaseFacts Sums SumsFacts RealOps Blas BlasFacts MatProd RField MatSpec MatFacts TimeStep TimeStepSpec
  TimeStepFacts GreenSpec GreenFacts ParamParser LapackSpec LapackFacts WindowFacts BlockCyclic BlockCyclicSpec CyclicQRFacts CyclicTriFacts
  CyclicRotFacts BlockFacts UnequalBuildFacts WickSpec MeasureSpec UMeasure UMeasureSpec UMeasureFacts UMeasureSeqFacts UnequalTime UnequalTimeSpec SweepFacts.
Set Implicit Arguments.
Unset Strict Implicit.
Unset Printing Implicit Defensive.
Local Open Scope ring_scope.
Import GRing.Theory.

Lemma cdivE a c : (0 < c)%N -> cdiv (Zn a) (Zn c) = Some (Zn (a %/ c)).
Proof.
  move=> Hc. rewrite /cdiv. have Hc' : (0 < Zn c)%Z by move/ltP: Hc; lia.
  have -> : (Zn c =? 0)%Z = false by apply/Z.eqb_neq; lia.
  congr Some. rewrite Z.quot_div_nonneg //; last lia.
  rewrite {1}(divn_eq a c) -plusE -multE Nat2Z.inj_add Nat2Z.inj_mul Z.add_comm Z_div_plus_full; last lia.
  rewrite Z.div_small //. have /ltP := ltn_pmod a Hc. lia.
Qed.

Lemma inv_unique n (G A : 'M[R]_n) : G *m A = 1%:M -> G = invmx A.
Proof. move=> H. have HU := mulmx1_unit H. by rewrite -[RHS]mul1mx -H -mulmxA mulmxV ?mulmx1 //; case: HU. Qed.

Section Fill.
Variables (n L : nat) (s ld len : Z).
Hypothesis Hfit : forall i, (i < L)%N -> fits len (Zn n) (Zn n) (Zn i * s) ld.
Hypothesis Hdis : forall i i' r c r' c', (i < L)%N -> (i' < L)%N ->
  (0 <= r < Zn n)%Z -> (0 <= c < Zn n)%Z -> (0 <= r' < Zn n)%Z -> (0 <= c' < Zn n)%Z ->
  (Zn i * s + r + c * ld = Zn i' * s + r' + c' * ld)%Z -> i = i'.

Definition gb (G : list R) (i : nat) : 'M[R]_n := mxf n n (ent G (Zn i * s) ld).

Lemma writes_gb G G' i f j : writes G G' n n (Zn i * s) ld f -> (i < L)%N -> (j < L)%N ->
  gb G' j = if j == i then mxf n n f else gb G j.
Proof.
  move=> [_ [HE HF]] Hi Hj. case: eqP => [->|Hij].
  - by apply: mxf_ext => r c Hr Hc; rewrite HE.
  - apply: mxf_ext => r c Hr Hc. rewrite /ent HF //; first by case: (Hfit Hj) => *; nia.
    move=> [r' [c' [Hr' [Hc' E]]]]. apply: Hij. exact: (@Hdis j i r c r' c').
Qed.

Lemma fill_ok (T : nat -> 'M[R]_n) (body : Z -> list R -> option (list R)) G0 :
  (forall i G, (i < L)%N -> lenZ G = len -> (forall j, (j < i)%N -> gb G j = T j) ->
     exists G', body (Zn i) G = Some G' /\ lenZ G' = len /\ gb G' i = T i /\ forall j, (j < i)%N -> gb G' j = gb G j) ->
  lenZ G0 = len ->
  exists G', for_range 0 (Zn L) body G0 = Some G' /\ lenZ G' = len /\ forall j, (j < L)%N -> gb G' j = T j.
Proof.
  move=> Hb HL0.
  have [|||G' [-> [HL HG]]] := @for_range_inv _ (fun k G => lenZ G = len /\ forall j, (Zn j < k)%Z -> gb G j = T j) 0%Z (Zn L) body G0; first lia.
  - move=> i G Hi [HL HG]. have [k [Ei Hk]] : exists k, i = Zn k /\ (k < L)%N by exists (Z.to_nat i); split; [lia|apply/ltP; lia].
    subst i. have [|G' [E [HL' [HT HO]]]] := Hb k G Hk HL; first by move=> j /ltP Hj; apply: HG; lia.
    exists G'. split => //. split => // j Hj. case: (ltngtP j k) => h.
    + rewrite HO //. apply: HG. move/ltP: h. lia.
    + move/ltP: h. lia.
    + by rewrite h.
  - split => //. lia.
  - exists G'. split => //. split => // j /ltP Hj. apply: HG. lia.
Qed.

Lemma copy_gb H oh ldh G i : (i < L)%N -> lenZ G = len -> fits (lenZ H) (Zn n) (Zn n) oh ldh ->
  exists G', domatcopy (Zn n) (Zn n) 1 H oh ldh G (Zn i * s) ld = Some G' /\ lenZ G' = len /\
    gb G' i = mxf n n (ent H oh ldh) /\ forall j, (j < i)%N -> gb G' j = gb G j.
Proof.
  move=> Hi HL HH.
  have [||G' [-> [HL' [HE HF]]]] := @domatcopy_ok (Zn n) (Zn n) 1 H oh ldh G (Zn i * s) ld; [done|by rewrite HL; apply: Hfit|].
  have HW : writes G G' n n (Zn i * s) ld (fun r c => Rmult 1 (ent H oh ldh r c)) by [].
  exists G'. split => //. split; first by rewrite HL'. split.
  - rewrite (writes_gb HW) // eqxx. by apply: mxf_ext => r c _ _; rewrite Rmult_1_l.
  - move=> j Hj. rewrite (writes_gb HW) //; last exact: ltn_trans Hi. by rewrite ltn_eqF.
Qed.

Lemma gemm_gb A oa lda B ob ldb G i : (i < L)%N -> lenZ G = len ->
  fits (lenZ A) (Zn n) (Zn n) oa lda -> fits (lenZ B) (Zn n) (Zn n) ob ldb ->
  exists G', dgemm false (Zn n) (Zn n) (Zn n) 1 A oa lda B ob ldb 0 G (Zn i * s) ld = Some G' /\ lenZ G' = len /\
    gb G' i = mxf n n (ent A oa lda) *m mxf n n (ent B ob ldb) /\ forall j, (j < i)%N -> gb G' j = gb G j.
Proof.
  move=> Hi HL HA HB.
  have [||| G' [-> [HW HE]]] := @dgemm_mx n n n 1 A oa lda B ob ldb 0 G (Zn i * s) ld; [done|done|by rewrite HL; apply: Hfit|].
  exists G'. split => //. split; first by case: HW => ->. split.
  - rewrite /gb HE. by rewrite scale1r scale0r addr0.
  - move=> j Hj. rewrite (writes_gb HW) //; last exact: ltn_trans Hi. by rewrite ltn_eqF.
Qed.
End Fill.

Section Uneq.
Variables (n L b p : nat) (M : nat -> 'M[R]_n) (t : tsm) (junk : Z -> R).
Hypothesis Hn : (0 < n)%N.
Hypothesis Hp : (2 <= p)%N.
Hypothesis HL : L = (p * b)%N.
Hypothesis Hb : (0 < b)%N.
Hypothesis HT : tsm_holds L b M t.
Hypothesis HU : \det (1%:M + oprod M 0 L) != 0.
Notation N := (n * p)%N.
Notation NZ := (Zn (n * p)%N).
Notation Gr := (invmx (1%:M + oprod M 0 L)).
Variable H : list R.
Hypothesis HS : square N H.
Variable A : 'M[R]_N.
Hypothesis HA : forall a b, (a < p)%N -> (b < p)%N -> bk A a b = cyclic_mx p (mat_at n (ts_Bprod t)) a b.
Hypothesis HX : mat N H *m A = 1%:M.

Lemma Epow : (Zn p * Zn n = NZ)%Z. Proof. by rewrite -(NE n p); lia. Qed.
Lemma HFprod a : (a < p)%N -> mat_at n (ts_Bprod t) a = oprod M (a * b) b.
Proof. move=> Ha. case: HT => _ [_ HQ]. apply: HQ. by rewrite HL ltn_mul2r Hb Ha. Qed.

Lemma H_fits a c : (a < p)%N -> (c < p)%N -> fits (lenZ H) (Zn n) (Zn n) (bo n a + NZ * bo n c) NZ.
Proof. move=> Ha Hc. apply: fits_win => //; [exact: bo_ge0|exact: bo_ge0|exact: win1|exact: win1]. Qed.
Lemma H_block a c : (a < p)%N -> (c < p)%N -> mxf n n (ent H (bo n a + NZ * bo n c) NZ) = bk (mat N H) a c.
Proof. move=> Ha Hc. rewrite mat_gl bk_mxf // /blk. apply: mxf_ext => i j _ _. exact: win_ent. Qed.

Lemma H_00 : bk (mat N H) 0 0 = Gr.
Proof. apply: inv_unique. apply: mulmx1C. exact: (inv_00 Hn Hp HA HFprod HL HX). Qed.
Lemma L_gt0 : (0 < L)%N. Proof. by rewrite HL muln_gt0 Hb (ltnW Hp). Qed.
Lemma Gr_l : Gr *m (1%:M + oprod M 0 L) = 1%:M. Proof. apply: mulVmx. by rewrite unitmxE unitfE. Qed.

Lemma eq_det i : (i < L)%N -> \det (1%:M + cyclic_flow M L i) != 0.
Proof.
  move=> Hi. rewrite det_cyclic; [|move=> j Hj|exact: ltnW].
  - by rewrite /cyclic_flow subn0 oprod0 mul1mx.
  - case: HT => _ [HB _]. have [_ [_ E]] := HB j Hj. by case: (mulmx1_unit E).
Qed.

Lemma q_lt i : (i < L)%N -> (i %/ b < p)%N. Proof. by rewrite HL ltn_divLR. Qed.

Lemma B_at i : (i < L)%N -> exists Bm iB, aget (ts_B t) (Zn i) = Some Bm /\ aget (ts_invB t) (Zn i) = Some iB /\
  fits (lenZ Bm) (Zn n) (Zn n) 0 (Zn n) /\ fits (lenZ iB) (Zn n) (Zn n) 0 (Zn n) /\
  mxf n n (ent Bm 0 (Zn n)) = M i /\ M i *m mxf n n (ent iB 0 (Zn n)) = 1%:M /\ mxf n n (ent iB 0 (Zn n)) *m M i = 1%:M.
Proof.
  move=> Hi. case: HT => SH [HB _]. have [S1 S2] := shape_sq SH Hi. have [E1 [E2 E3]] := HB i Hi.
  have HlB : (i < List.length (ts_B t))%coq_nat by case: SH => _ _ _ _ _ [-> _] _ _; apply/ltP.
  have HlI : (i < List.length (ts_invB t))%coq_nat by case: SH => _ _ _ _ _ _ [-> _] _; apply/ltP.
  exists (List.nth i (ts_B t) nil), (List.nth i (ts_invB t) nil).
  rewrite (aget_list nil HlB) (aget_list nil HlI) -!mat_mxf S1 S2. move: E1 E2 E3. rewrite /mat_at !nthE => -> -> ->.
  by do 4!(split => //); rewrite /fits; nia.
Qed.

Lemma rem_cases i : (Zn (i %% b) =? 0)%Z = (i %% b == 0)%N.
Proof. by case: Z.eqb_spec => h; case: eqP => h' //; lia. Qed.
Lemma rem0 i : (i %% b == 0)%N -> (i %/ b * b = i)%N.
Proof. by move/eqP => h; rewrite [RHS](divn_eq i b) h addn0. Qed.
Lemma rem_pos i : (i %% b == 0)%N = false -> exists j, i = j.+1.
Proof. case: i => [|j]; last by exists j. by rewrite mod0n. Qed.

Lemma tau0_ok G : lenZ G = (Zn n * Zn L * Zn n)%Z ->
  exists G', uneq_tau0 (Zn n) (Zn L) (Zn p) (Zn b) (ts_B t) H G = Some G' /\ lenZ G' = (Zn n * Zn L * Zn n)%Z /\
    forall i, (i < L)%N -> gb n (Zn n) (Zn L * Zn n) G' i = green_tau0 M L i.
Proof.
  move=> HG. rewrite /uneq_tau0.
  have Hfit : forall i, (i < L)%N -> fits (Zn n * Zn L * Zn n) (Zn n) (Zn n) (Zn i * Zn n) (Zn L * Zn n).
  { move=> i /ltP Hi. rewrite /fits. have : (Zn i + 1 <= Zn L)%Z by lia. repeat split; nia. }
  have Hdis : forall i i' r c r' c', (i < L)%N -> (i' < L)%N ->
    (0 <= r < Zn n)%Z -> (0 <= c < Zn n)%Z -> (0 <= r' < Zn n)%Z -> (0 <= c' < Zn n)%Z ->
    (Zn i * Zn n + r + c * (Zn L * Zn n) = Zn i' * Zn n + r' + c' * (Zn L * Zn n))%Z -> i = i'.
  { move=> i i' r c r' c' /ltP Hi /ltP Hi' Hr Hc Hr' Hc' E.
    have [E1 E2] : (r = r' /\ Zn i + c * Zn L = Zn i' + c' * Zn L)%Z by apply: (@blk_inj (Zn n) (Zn n)); lia.
    have [] := @blk_inj (Zn L) (Zn L) (Zn i) c (Zn i') c'; lia. }
  apply: (fill_ok (n := n) (s := Zn n) (ld := (Zn L * Zn n)%Z)) => // i X Hi HXl HXg.
  rewrite cmodE //. cbn [obind]. rewrite rem_cases. case Er: (i %% b == 0)%N.
  - rewrite cdivE //. cbn [obind]. have Hq := q_lt Hi. have Hp0 : (0 < p)%N by exact: ltnW.
    have := H_fits Hq Hp0. have := H_block Hq Hp0. rewrite bo0 Z.mul_0_r Z.add_0_r Epow => EB EF.
    have [G' [E1 [E2 [E3 E4]]]] := copy_gb Hfit Hdis Hi HXl EF.
    exists G'. split; first by rewrite -E1; congr domatcopy; rewrite /bo; lia. split => //. split => //.
    rewrite E3 EB (inv_col Hn Hp HA HFprod HX) // H_00 rem0 //.
  - have [j Ej] := rem_pos Er. subst i. have Hj : (j < L)%N by exact: ltnW.
    have -> : (Zn j.+1 - 1 = Zn j)%Z by lia.
    have [Bm [iB [-> [_ [F1 [_ [EB _]]]]]]] := B_at Hj. cbn [obind].
    have F2 : fits (lenZ X) (Zn n) (Zn n) (Zn j * Zn n) (Zn L * Zn n) by rewrite HXl; exact: Hfit.
    have [G' [E1 [E2 [E3 E4]]]] := gemm_gb Hfit Hdis Hi HXl F1 F2.
    exists G'. split => //. split => //. split => //.
    rewrite E3 EB -/(gb n _ _ X j) HXg // /green_tau0 mulmxA. by rewrite oprodS add0n.
Qed.

Lemma seq_fit i : (i < L)%N -> fits (Zn n * Zn n * Zn L) (Zn n) (Zn n) (Zn i * (Zn n * Zn n)) (Zn n).
Proof. move=> /ltP Hi. rewrite /fits. have : (Zn i + 1 <= Zn L)%Z by lia. repeat split; nia. Qed.
Lemma seq_dis i i' r c r' c' : (i < L)%N -> (i' < L)%N ->
    (0 <= r < Zn n)%Z -> (0 <= c < Zn n)%Z -> (0 <= r' < Zn n)%Z -> (0 <= c' < Zn n)%Z ->
    (Zn i * (Zn n * Zn n) + r + c * Zn n = Zn i' * (Zn n * Zn n) + r' + c' * Zn n)%Z -> i = i'.
Proof.
  move=> /ltP Hi /ltP Hi' Hr Hc Hr' Hc' E.
  have [E1 E2] : (r = r' /\ Zn i * Zn n + c = Zn i' * Zn n + c')%Z by apply: (@blk_inj (Zn n) (Zn n)); lia.
  have [] := @blk_inj (Zn n) (Zn n) c (Zn i) c' (Zn i'); lia.
Qed.

Lemma sub_id_ok T0 : square n T0 ->
  exists T, for_range 0 (Zn n) (fun j T => let* t := aget T (j + Zn n * j) in aset T (j + Zn n * j) (t - 1)%R) T0 = Some T /\
    square n T /\ mat n T = mat n T0 - 1%:M.
Proof.
  move=> HT0.
  have [|||T [-> [HTs HE]]] := @for_range_inv _ (fun k T => square n T /\ forall r c, (0 <= r < Zn n)%Z -> (0 <= c < Zn n)%Z ->
      ent T 0 (Zn n) r c = (if ((r =? c) && (r <? k))%Z%bool then ent T0 0 (Zn n) r c - 1 else ent T0 0 (Zn n) r c)%coqR) 0%Z (Zn n)
     (fun j T => let* t := aget T (j + Zn n * j) in aset T (j + Zn n * j) (t - 1)%R) T0; first lia.
  - move=> j X Hj [HXs HE]. have Hl : (0 <= j + Zn n * j < lenZ X)%Z by rewrite HXs; nia.
    rewrite aget_rat //. cbn [obind]. rewrite aset_ok //. eexists; split; first reflexivity. split; first by rewrite /square /lenZ lset_length.
    move=> r c Hr Hc. rewrite {1}/ent rat_lset; [|done|nia].
    have -> : (j + Zn n * j =? 0 + r + c * Zn n)%Z = ((r =? j)%Z && (c =? j)%Z)%bool.
    { apply/Z.eqb_spec/andP => [h|[/Z.eqb_eq -> /Z.eqb_eq ->]]; last lia.
      have [] := @blk_inj (Zn n) (Zn n) j j r c; try lia. move=> -> ->. by rewrite Z.eqb_refl. }
    have := HE r c Hr Hc. rewrite {1}/ent => E.
    case: (Z.eqb_spec r j) => h1 /=; last first.
    { rewrite E. case: (Z.eqb_spec r c) => h3 //=. case: Z.ltb_spec => h4; case: Z.ltb_spec => h5 //; lia. }
    subst j. case: (Z.eqb_spec c r) => h2; last by rewrite E; case: (Z.eqb_spec r c) => h3 //; lia.
    subst c. move: E. have -> : (r + Zn n * r = 0 + r + r * Zn n)%Z by lia. move=> ->. rewrite !Z.eqb_refl /=.
    case: Z.ltb_spec => h4; case: Z.ltb_spec => h5 //; lia.
  - split => // r c Hr Hc. have -> : (r <? 0)%Z = false by apply/Z.ltb_ge; lia. by rewrite Bool.andb_false_r.
  - exists T. split => //. split => //. rewrite !mat_mxf mxf_1 mxf_opp mxf_add. apply: mxf_ext => r c Hr Hc. rewrite HE //.
    have -> : (r <? Zn n)%Z by apply/Z.ltb_lt; lia. rewrite Bool.andb_true_r. case: Z.eqb_spec => _; lra.
Qed.

Lemma tau_ok G : lenZ G = (Zn n * Zn n * Zn L)%Z ->
  exists G', uneq_0tau junk (Zn n) (Zn L) (Zn p) (Zn b) (ts_invB t) H G = Some G' /\ lenZ G' = (Zn n * Zn n * Zn L)%Z /\
    forall i, (i < L)%N -> gb n (Zn n * Zn n) (Zn n) G' i = green_0tau M L i.
Proof.
  move=> HG. rewrite /uneq_0tau. have Hp0 : (0 < p)%N by exact: ltnW.
  apply: (fill_ok (n := n) (s := (Zn n * Zn n)%Z) (ld := Zn n)) => // i X Hi HXl HXg.
  have Eo : forall k, (k * Zn n * Zn n = k * (Zn n * Zn n))%Z by move=> k; lia.
  rewrite cmodE //. cbn [obind]. rewrite rem_cases. case Er: (i %% b == 0)%N.
  - rewrite cdivE //. cbn [obind]. have Hq := q_lt Hi.
    have := H_fits Hp0 Hq. have := H_block Hp0 Hq. rewrite bo0 Z.add_0_l Epow => EB EF.
    have [G' [E1 [E2 [E3 E4]]]] := copy_gb seq_fit seq_dis Hi HXl EF.
    exists G'. split; first by rewrite -E1; congr domatcopy; rewrite -?Epow /bo; lia. split => //. split => //.
    rewrite E3 EB. case: (posnP (i %/ b)) => [E0|Hq0].
    + rewrite E0 H_00 /green_0tau. by rewrite -(rem0 Er) E0.
    + rewrite (inv_row' Hn Hp HA HFprod HL HX) ?Hq0 ?Hq // H_00 rem0 // /green_0tau.
      have -> // : (i == 0)%N = false. apply/eqP => h. by rewrite h div0n in Hq0.
  - have [j Ej] := rem_pos Er. subst i. have Hj : (j < L)%N by exact: ltnW.
    have -> : (Zn j.+1 - 1 = Zn j)%Z by lia.
    have [Bm [iB [_ [-> [_ [F1 [_ [EB EB']]]]]]]] := B_at Hj.
    have step : forall Y : 'M[R]_n, (- (Y *m oprod M j (L - j))) *m mxf n n (ent iB 0 (Zn n)) = - (Y *m oprod M j.+1 (L - j.+1)).
    { move=> Y. have -> : (L - j = (L - j.+1).+1)%N by rewrite subnSK. rewrite oprodSl. by rewrite mulNmx -!mulmxA EB mulmx1. }
    case: Z.eqb_spec => Ej.
    + have E0 : j = 0%N by lia. subst j.
      have := H_fits Hp0 Hp0. have := H_block Hp0 Hp0. rewrite bo0 Z.mul_0_r Z.add_0_r Epow => EH EF.
      have HF : lenZ (fresh junk (Zn n * Zn n)) = (Zn n * Zn n)%Z by rewrite fresh_len; lia.
      have [||T [-> [HTl [HTe _]]]] := @domatcopy_ok (Zn n) (Zn n) 1 H 0 NZ (fresh junk (Zn n * Zn n)) 0 (Zn n) => //.
      { rewrite HF /fits. nia. }
      cbn [obind]. have HTs : square n T by rewrite /square HTl HF.
      have [T' [-> [HTs' ET']]] := sub_id_ok HTs. cbn [obind].
      have F2 : fits (lenZ T') (Zn n) (Zn n) 0 (Zn n) by rewrite HTs' /fits; nia.
      have [G' [E1 [E2 [E3 E4]]]] := gemm_gb seq_fit seq_dis Hi HXl F2 F1.
      exists G'. split; first by rewrite -E1; congr dgemm; lia. split => //. split => //.
      rewrite E3 -mat_mxf ET' /green_0tau /=. have -> : mat n T = Gr.
      { rewrite -H_00 -EH mat_mxf. apply: mxf_ext => r c Hr Hc. by rewrite HTe // Rmult_1_l. }
      rewrite -step subn0. congr (_ *m _). have := Gr_l. rewrite mulmxDr mulmx1. move: (invmx _) => Y <-. by rewrite opprD addrA subrr add0r.
    + have F2 : fits (lenZ X) (Zn n) (Zn n) (Zn j * (Zn n * Zn n)) (Zn n) by rewrite HXl; exact: seq_fit.
      have [G' [E1 [E2 [E3 E4]]]] := gemm_gb seq_fit seq_dis Hi HXl F2 F1.
      exists G'. cbn [obind]. split; first by rewrite -E1; congr dgemm; lia. split => //. split => //.
      rewrite E3 -/(gb n _ _ X j) HXg // /green_0tau. have -> : (j == 0)%N = false by apply/eqP; lia. by rewrite step.
Qed.

Lemma eqlt_ok G : lenZ G = (Zn n * Zn n * Zn L)%Z ->
  exists G', uneq_eqlt junk (Zn n) (Zn L) (Zn p) (Zn b) (ts_B t) (ts_invB t) H G = Some G' /\ lenZ G' = (Zn n * Zn n * Zn L)%Z /\
    forall i, (i < L)%N -> gb n (Zn n * Zn n) (Zn n) G' i = green_eqlt M L i.
Proof.
  move=> HG. rewrite /uneq_eqlt. have Hp0 : (0 < p)%N by exact: ltnW.
  have [||G' [E [HGl HGe]]] := @fill_ok n L (Zn n * Zn n)%Z (Zn n) (Zn n * Zn n * Zn L)%Z
     (fun i => green_eqlt M L i)
     (fun i G =>
        let* r := cmod i (Zn b) in
        if (r =? 0)%Z then
          let* ib := cdiv i (Zn b) in
          domatcopy (Zn n) (Zn n) 1 H ((ib + ib * Zn p * Zn n) * Zn n) (Zn p * Zn n) G (i * Zn n * Zn n) (Zn n)
        else
          let* G := copy (Zn n * Zn n) G ((i - 1) * Zn n * Zn n) G (i * Zn n * Zn n) in
          let* Bm := aget (ts_B t) (i - 1) in
          let* iB := aget (ts_invB t) (i - 1) in
          slice_wrap_at junk (Zn n) Bm iB G (i * Zn n * Zn n)) G; last by exists G'.
  2: done.
  move=> i X Hi HXl HXg.
  rewrite cmodE //. cbn [obind]. rewrite rem_cases. case Er: (i %% b == 0)%N.
  - rewrite cdivE //. cbn [obind]. have Hq := q_lt Hi.
    have := H_fits Hq Hq. have := H_block Hq Hq. rewrite Epow => EB EF.
    have [G' [E1 [E2 [E3 E4]]]] := copy_gb seq_fit seq_dis Hi HXl EF.
    exists G'. split; first by rewrite -E1; congr domatcopy; rewrite -?Epow /bo; lia. split => //. split => //.
    rewrite E3 EB /green_eqlt. apply: inv_unique. apply: mulmx1C.
    have := inv_diag Hn Hp HA HFprod HL HX Hq. by rewrite rem0.
  - have [j Ej] := rem_pos Er. subst i. have Hj : (j < L)%N by exact: ltnW.
    have -> : (Zn j.+1 - 1 = Zn j)%Z by lia.
    have Eo : forall k, (k * Zn n * Zn n = k * (Zn n * Zn n))%Z by move=> k; lia. rewrite !Eo.
    have Hj1 : (Zn j + 2 <= Zn L)%Z by move/ltP: Hi; lia.
    have [|||||X1 [-> [HX1l [HX1e HX1o]]]] := @copy_ok (Zn n * Zn n) X (Zn j * (Zn n * Zn n)) X (Zn j.+1 * (Zn n * Zn n)); try (rewrite ?HXl; nia).
    cbn [obind]. have [Bm [iB [-> [-> [F1 [F2 [EB [EB1 EB2]]]]]]]] := B_at Hj. cbn [obind]. rewrite /slice_wrap_at.
    have HF : lenZ (fresh junk (Zn n * Zn n)) = (Zn n * Zn n)%Z by rewrite fresh_len; lia.
    have FX : fits (lenZ X1) (Zn n) (Zn n) (Zn j.+1 * (Zn n * Zn n)) (Zn n) by rewrite HX1l HXl; exact: seq_fit.
    have [|||T [-> [HW HE]]] := @dgemm_mx n n n 1 Bm 0 (Zn n) X1 (Zn j.+1 * (Zn n * Zn n)) (Zn n) 0 (fresh junk (Zn n * Zn n)) 0 (Zn n) => //.
    { rewrite HF /fits. nia. }
    cbn [obind]. have FT : fits (lenZ T) (Zn n) (Zn n) 0 (Zn n) by case: HW => -> _; rewrite HF /fits; nia.
    have HX1l' : lenZ X1 = (Zn n * Zn n * Zn L)%Z by rewrite HX1l.
    have [G' [E1 [E2 [E3 E4]]]] := gemm_gb seq_fit seq_dis Hi HX1l' FT F2.
    exists G'. split => //. split => //. split.
    + rewrite E3 HE scale1r scale0r addr0 EB.
      have -> : mxf n n (ent X1 (Zn j.+1 * (Zn n * Zn n)) (Zn n)) = green_eqlt M L j.
      { rewrite -HXg //. apply: mxf_ext => r c Hr Hc. rewrite /ent -!Z.add_assoc HX1e //. nia. }
      rewrite /green_eqlt. apply: inv_unique.
      have [N1 N2] := cyclic_next M Hj. rewrite N2 -/(is_green _ _). apply: (proj1 (@wrap_green _ _ _ _ _ EB2 _)).
      rewrite -N1. apply: mulVmx. rewrite unitmxE unitfE. exact: eq_det j Hj.
    + move=> i Hij. rewrite E4 //. apply: mxf_ext => r c Hr Hc. rewrite /ent HX1o //; first nia.
      left. move/ltP: Hij => Hij. nia.
Qed.
End Uneq.

Lemma gb_column n L G i : gb n (Zn n) (Zn L * Zn n) G i = column_block n L G i.
Proof. apply/matrixP => r c. rewrite !mxE /ent -ratE. congr rat. rewrite -!plusE -!multE. lia. Qed.
Lemma gb_matrix n G i : gb n (Zn n * Zn n) (Zn n) G i = matrix_no n G i.
Proof. apply/matrixP => r c. rewrite !mxE /ent -ratE. congr rat. rewrite -!plusE -!multE. lia. Qed.

Lemma unequal_ok la junk n L b (M : nat -> 'M[R]_n) t (H g1 g2 g3 : list R) : lapack_ok la -> (0 < n)%N -> (2 * b <= L)%N ->
  tsm_holds L b M t -> 1%:M + oprod M 0 L \in unitmx ->
  square (n * (L %/ b)) H -> lenZ g1 = (Zn n * Zn L * Zn n)%Z -> lenZ g2 = (Zn n * Zn n * Zn L)%Z -> lenZ g3 = (Zn n * Zn n * Zn L)%Z ->
  exists H' g1' g2' g3', unequal_time_greens la junk (Zn n) (Zn L) t H g1 g2 g3 = Some (H', (g1', g2', g3')) /\
    square (n * (L %/ b)) H' /\
    lenZ g1' = (Zn n * Zn L * Zn n)%Z /\ lenZ g2' = (Zn n * Zn n * Zn L)%Z /\ lenZ g3' = (Zn n * Zn n * Zn L)%Z /\
    forall i, (i < L)%N -> column_block n L g1' i = green_tau0 M L i /\ matrix_no n g2' i = green_0tau M L i /\
      matrix_no n g3' i = green_eqlt M L i.
Proof.
  move=> LA Hn HLb HT HU0 HS HG1 HG2 HG3. have HU : \det (1%:M + oprod M 0 L) != 0 by rewrite -unitfE -unitmxE.
  case: (HT) => SH _. case: (SH) => _ _ Eb [Hb HL0] Enum _ _ [EBl HBsq].
  have [p EL] : exists p, L = (p * b)%N by exists (Z.to_nat (ts_numBprod t)); rewrite -multE; move/ltP: Hb => Hb; nia.
  have Ep : ts_numBprod t = Zn p by move: Enum; rewrite EL -multE; move/ltP: Hb => Hb; nia.
  have Hp : (2 <= p)%N by rewrite EL leq_pmul2r in HLb.
  have Edv : (L %/ b = p)%N by rewrite EL mulnK.
  rewrite Edv in HS *. rewrite /unequal_time_greens Ep Eb.
  have [H1 [-> [HS1 HI]]] := identity_ok HS. cbn [obind].
  have HBl : List.length (ts_Bprod t) = p by rewrite Ep in EBl; lia.
  have [H2 [-> [HS2 HA]]] := blocks_ok Hp HBl HBsq HS1 HI.
  cbn [obind]. have HF := HFprod EL Hb HT.
  have HU2 : mat (n * p) H2 \in unitmx by exact: (cyc_unit Hn Hp HA HF EL HU).
  have HC : block_cyclic (mat (n * p) H2) by exact: (cyclic_mx_block Hn HBl HA).
  have [H3 [-> [HS3 HX]]] := cyclic_inverse_ok junk LA Hn Hp HS2 HC HU2. cbn [obind].
  have [g1' [-> [L1 E1]]] := tau0_ok Hn Hp EL Hb HT HS3 HA HX HG1. cbn [obind].
  have [g2' [-> [L2 E2]]] := tau_ok junk Hn Hp EL Hb HT HU HS3 HA HX HG2. cbn [obind].
  have [g3' [-> [L3 E3]]] := eqlt_ok junk Hn Hp EL Hb HT HU HS3 HA HX HG3. cbn [obind].
  exists H3, g1', g2', g3'. do 5!(split => //). move=> i Hi. by rewrite -gb_column -!gb_matrix E1 // E2 // E3.
Qed.

Lemma block_entry n L G i (r c : 'I_n) : val G (Zn r + Zn n * (Zn i + Zn L * Zn c)) = column_block n L G i r c.
Proof. rewrite mxE nthE /val. congr (List.nth _ _ _). rewrite -!plusE -!multE. lia. Qed.
Lemma matrix_entry n G i (r c : 'I_n) : val G (Zn r + Zn n * (Zn c + Zn n * Zn i)) = matrix_no n G i r c.
Proof. rewrite mxE nthE /val. congr (List.nth _ _ _). rewrite -!plusE -!multE. lia. Qed.

Lemma green_tau0_0 n (M : nat -> 'M[R]_n) L : green_tau0 M L 0 = green_eqlt M L 0.
Proof. by rewrite /green_tau0 /green_eqlt /cyclic_flow oprod0 !mul1mx subn0. Qed.
Lemma green_0tau_0 n (M : nat -> 'M[R]_n) L : green_0tau M L 0 = green_eqlt M L 0.
Proof. by rewrite /green_0tau /green_eqlt /cyclic_flow oprod0 mul1mx subn0. Qed.

Lemma match_cur_ok n L (Mu Md : nat -> 'M[R]_n) c : (0 < L)%N ->
  (forall a, In a [:: cGtau0_u c; cG0tau_u c; cGeqlt_u c; cGtau0_d c; cG0tau_d c; cGeqlt_d c] -> lenZ a = (Zn n * Zn n * Zn L)%Z) ->
  greens_match L Mu Md c -> cur_ok (Zn n) (Zn L) c.
Proof.
  move=> HL Hlen HM. split => // s i j Hi Hj.
  have [i' Ei] : exists i' : 'I_n, i = Zn i'.
  { have h : (Z.to_nat i < n)%N by apply/ltP; lia. exists (Ordinal h) => /=. lia. }
  have [j' Ej] : exists j' : 'I_n, j = Zn j'.
  { have h : (Z.to_nat j < n)%N by apply/ltP; lia. exists (Ordinal h) => /=. lia. }
  have := HM 0%N i' j' HL s. cbv zeta. rewrite -Ei -Ej green_tau0_0 green_0tau_0 => -[-> [_ [-> ->]]]. done.
Qed.

Lemma current_ok la junk n L b (Mu Md : nat -> 'M[R]_n) tu td (Hu Hd : list R) : lapack_ok la -> (0 < n)%N -> (2 * b <= L)%N -> (0 < L)%N ->
  tsm_holds L b Mu tu -> tsm_holds L b Md td -> 1%:M + oprod Mu 0 L \in unitmx -> 1%:M + oprod Md 0 L \in unitmx ->
  square (n * (L %/ b)) Hu -> square (n * (L %/ b)) Hd ->
  exists Hu' Hd' c, current_greens la junk (Zn n) (Zn L) tu td Hu Hd = Some (Hu', Hd', c) /\
    square (n * (L %/ b)) Hu' /\ square (n * (L %/ b)) Hd' /\ greens_match L Mu Md c /\ cur_ok (Zn n) (Zn L) c.
Proof.
  move=> LA Hn HLb HL Tu Td Uu Ud Su Sd. rewrite /current_greens.
  have F1 : lenZ (fresh junk (Zn n * Zn L * Zn n)) = (Zn n * Zn L * Zn n)%Z by rewrite fresh_len //; nia.
  have F2 : lenZ (fresh junk (Zn n * Zn n * Zn L)) = (Zn n * Zn n * Zn L)%Z by rewrite fresh_len //; nia.
  have [Hu' [g1 [g2 [g3 [-> [Su' [L1 [L2 [L3 EG]]]]]]]]] := unequal_ok junk LA Hn HLb Tu Uu Su F1 F2 F2. cbn [obind].
  have [Hd' [k1 [k2 [k3 [-> [Sd' [K1 [K2 [K3 EK]]]]]]]]] := unequal_ok junk LA Hn HLb Td Ud Sd F1 F2 F2. cbn [obind].
  exists Hu', Hd', (mk_cur g1 g2 g3 k1 k2 k3). split => //. split => //. split => //.
  have HM : greens_match L Mu Md (mk_cur g1 g2 g3 k1 k2 k3).
  { move=> l i j Hl s. have [E1 [E2 E3]] := EG l Hl. have [E4 [E5 E6]] := EK l Hl. have [_ [_ E7]] := EG 0%N HL. have [_ [_ E8]] := EK 0%N HL.
    cbv zeta. rewrite /uconfig. cbn [gtt g00 gt0 g0t cGtau0_u cG0tau_u cGeqlt_u cGtau0_d cG0tau_d cGeqlt_d].
    have e0 : (Zn i + Zn n * Zn j = Zn i + Zn n * (Zn j + Zn n * Zn 0))%Z by lia.
    case: s; rewrite e0 !block_entry !matrix_entry ?E1 ?E2 ?E3 ?E4 ?E5 ?E6 ?E7 ?E8 //. }
  split => //. apply: (match_cur_ok HL _ HM) => a /=. by do !case=> [<-|]; rewrite ?L1 ?L2 ?L3 ?K1 ?K2 ?K3 //; lia.
Qed.

Section Seq.
Variables (Norb Nx Ny sh : Z) (n L b : nat) (la : Lapack.lapack).
Hypothesis HNorb : (0 < Norb)%Z.
Hypothesis HNx : (0 < Nx)%Z.
Hypothesis HNy : (0 < Ny)%Z.
Hypothesis HN : Zn n = (Nx * Ny * Norb)%Z.
Hypothesis LA : lapack_ok la.
Hypothesis Hb : (0 < b)%N.
Hypothesis HLb : (2 * b <= L)%N.

Definition sample_match (x : sample) (s : R * cur_greens) : Prop :=
  fst s = sa_sign x /\ forall Mu Md : nat -> 'M[R]_n, sample_of L b Mu Md x -> greens_match L Mu Md (snd s).

Lemma measure_ok xs : forall Hu Hd m g, umeas_ok Norb Nx Ny sh (Zn L) m g ->
  Forall (fun x => exists Mu Md : nat -> 'M[R]_n, sample_of L b Mu Md x) xs ->
  square (n * (L %/ b)) Hu -> square (n * (L %/ b)) Hd ->
  exists Hu' Hd' m' cs, measure_samples la xs Hu Hd m = Some (Hu', Hd', m') /\
    square (n * (L %/ b)) Hu' /\ square (n * (L %/ b)) Hd' /\
    Forall2 sample_match xs cs /\ (forall s, In s cs -> cur_ok (Nx * Ny * Norb) (Zn L) (snd s)) /\ uaccumulate_all cs m = Some m'.
Proof.
  have Hn : (0 < n)%N by apply/ltP; nia.
  have HL : (0 < L)%N by apply: leq_trans HLb; rewrite muln_gt0.
  have HLz : (0 < Zn L)%Z by move/ltP: HL; lia.
  elim: xs => [|x xs IH] Hu Hd m g Hm HX Su Sd.
  - exists Hu, Hd, m, nil. do 3!(split; first by []). split; first by constructor. by split.
  - have [Mu [Md HMx]] : exists Mu Md : nat -> 'M[R]_n, sample_of L b Mu Md x by inversion HX.
    have HX' : Forall (fun x => exists Mu Md : nat -> 'M[R]_n, sample_of L b Mu Md x) xs by inversion HX.
    case: (HMx) => Tu [Td [Uu Ud]].
    have [Hu1 [Hd1 [c [Ec [Su1 [Sd1 [GM CO]]]]]]] := current_ok (sa_junk x) LA Hn HLb HL Tu Td Uu Ud Su Sd.
    have CO' : cur_ok (Nx * Ny * Norb) (Zn L) c by rewrite -HN.
    have [m1 [Em [Hm1 _]]] := @uaccumulate_ok Norb Nx Ny sh (Zn L) HNorb HNx HNy HLz (sa_sign x) c m g CO' Hm.
    have [Hu' [Hd' [m' [cs [Es [Su' [Sd' [F2 [Fc Ea]]]]]]]]] := IH _ _ _ _ Hm1 HX' Su1 Sd1.
    exists Hu', Hd', m', ((sa_sign x, c) :: cs).
    have EE : accumulate_unequal_time la (sa_junk x) (sa_sign x) (sa_up x) (sa_dn x) Hu Hd m = Some (Hu1, Hd1, m1).
    { rewrite /accumulate_unequal_time (uo_Norb _ _ _ _ _ _ _ Hm) (uo_Ncell _ _ _ _ _ _ _ Hm) (uo_L _ _ _ _ _ _ _ Hm) -HN Ec. cbn [obind].
      by rewrite Em. }
    split; first by cbn [measure_samples]; rewrite EE; cbn [obind].
    split => //. split => //. split; last split.
    + apply: Forall2_cons => //. split; first by []. move=> Mu' Md' [Tu' [Td' [Uu' Ud']]].
      have [Hu2 [Hd2 [c2 [Ec2 [_ [_ [GM2 _]]]]]]] := current_ok (sa_junk x) LA Hn HLb HL Tu' Td' Uu' Ud' Su Sd.
      move: Ec2. rewrite Ec => -[_ _ ->]. exact: GM2.
    + move=> s [<-|Hs] //. exact: Fc.
    + move: Ea. rewrite /uaccumulate_all /=. by rewrite Em.
Qed.
End Seq.

Lemma oprod_scalar (f : nat -> R) lo len : oprod (fun l => (f l)%:M : 'M[R]_1) lo len = (\prod_(lo <= l < lo + len) f l)%:M.
Proof.
  elim: len => [|k IH]; first by rewrite oprod0 addn0 big_geq.
  by rewrite oprodS IH addnS big_nat_recr ?leq_addr //= -scalar_mxM mulrC.
Qed.
Lemma mat_scalar x : mat 1 [:: x] = x%:M.
Proof. apply/matrixP => i j. rewrite !mxE !ord1 /=. done. Qed.
