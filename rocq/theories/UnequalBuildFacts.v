(** The block p-cyclic matrix built from products of time step matrices, and its inverse. *)
From Coq Require Import ZArith List Reals Lia Lra.
From mathcomp Require Import all_ssreflect fingroup perm ssralg matrix.
From Verif Require Import Base BaseFacts Sums SumsFacts RealOps Blas BlasFacts RField MatSpec MatFacts TimeStep TimeStepSpec
  TimeStepFacts GreenSpec GreenFacts LapackSpec LapackFacts WindowFacts BlockCyclic BlockCyclicSpec CyclicQRFacts CyclicTriFacts
  CyclicRotFacts BlockFacts UnequalTime.
Set Implicit Arguments.
Unset Strict Implicit.
Unset Printing Implicit Defensive.
Local Open Scope ring_scope.
Import GRing.Theory.

Section Build.
Variables (n p : nat).
Hypothesis Hn : (0 < n)%N.
Notation N := (n * p)%N.
Notation NZ := (Zn (n * p)%N).
Notation bo := (bo n).

Lemma mat_gl H : mat N H = mxf N N (gl N H). Proof. exact: mat_mxf. Qed.

Lemma write_bk H H' a0 b0 f a b : (a0 < p)%N -> (b0 < p)%N -> (a < p)%N -> (b < p)%N ->
  writes H H' n n (bo a0 + NZ * bo b0) NZ f ->
  bk (mat N H') a b = if (a == a0) && (b == b0) then mxf n n f else bk (mat N H) a b.
Proof.
  move=> Ha0 Hb0 Ha Hb HW. have Wa := win1 (n := n) Ha. have Wb := win1 (n := n) Hb. have Wa0 := win1 (n := n) Ha0.
  have Ga := bo_ge0 n a. have Gb := bo_ge0 n b. have Ga0 := bo_ge0 n a0. have Gb0 := bo_ge0 n b0.
  have HG := writes_gl HW Ga0 Gb0 Wa0.
  rewrite !mat_gl !bk_mxf // /blk.
  case: andP => [[/eqP -> /eqP ->]|Hab]; apply: mxf_ext => i j Hi Hj; (rewrite HG; [|lia|lia]); case: inwinP => Ir; case: inwinP => Ic /=; try lia.
  - congr f; lia.
  - exfalso. apply: Hab. split; apply/eqP; apply/eqP; rewrite eqn_leq; apply/andP; split; apply: (bo_inv (n := n)); lia.
  - done.
  - done.
  - done.
Qed.

Lemma identity_ok H : square N H ->
  exists H', uneq_identity (Zn n) (Zn p) H = Some H' /\ square N H' /\ mat N H' = 1%:M.
Proof.
  move=> HS. rewrite /uneq_identity. have HNE := NE n p.
  have [|||H1 [-> [HL [HZ _]]]] := @zero_fill_ok (Zn n * Zn n * Zn p * Zn p)%Z H 0; try lia.
  { rewrite HS -HNE. lia. }
  cbn [obind]. have HS1 : square N H1 by rewrite /square HL.
  have [|||H2 [E [HS2 HE]]] := @for_range_inv _ (fun k H => square N H /\ forall r c, (0 <= r < NZ)%Z -> (0 <= c < NZ)%Z ->
      gl N H r c = if ((r =? c)%Z && (r <? k)%Z)%bool then R1 else R0) 0%Z (Zn p * Zn n)%Z
     (fun i H => aset H (i + i * Zn p * Zn n) 1%R) H1; first lia.
  - move=> i X Hi [HX HE]. have HXl : (0 <= i + i * Zn p * Zn n < Z.of_nat (List.length X))%Z by rewrite -/(lenZ X) HX -HNE; nia.
    rewrite aset_ok //. eexists; split; first reflexivity. split; first by rewrite /square /lenZ lset_length.
    move=> r c Hr Hc. rewrite /gl /ent rat_lset; [|done|nia]. have := HE r c Hr Hc. rewrite /gl /ent => ->.
    have Hi' : (0 <= i < NZ)%Z by lia.
    have -> : (i + i * Zn p * Zn n =? 0 + r + c * NZ)%Z = ((r =? i)%Z && (c =? i)%Z)%bool.
    { apply/Z.eqb_spec/andP => [h|[/Z.eqb_eq -> /Z.eqb_eq ->]]; last by rewrite -HNE; lia.
      have [] := @blk_inj NZ NZ i i r c; try lia. move=> -> ->. by rewrite Z.eqb_refl. }
    case: (Z.eqb_spec r i) => h1 /=.
    + subst i. case: (Z.eqb_spec c r) => h2; case: (Z.eqb_spec r c) => h3; case: Z.ltb_spec => h4 /=; try lia; rewrite // /=; case: Z.ltb_spec; lia || done.
    + case: (Z.eqb_spec r c) => h3 //=. case: Z.ltb_spec => h4; case: Z.ltb_spec => h5 //; lia.
  - split => // r c Hr Hc. have -> : (r <? 0)%Z = false by apply/Z.ltb_ge; lia. rewrite Bool.andb_false_r /gl /ent. apply: HZ.
    rewrite -HNE in Hr Hc *. nia.
  - exists H2. split => //. split => //. rewrite mat_gl mxf_1. apply: mxf_ext => r c Hr Hc. rewrite HE //.
    have -> : (r <? Zn p * Zn n)%Z by apply/Z.ltb_lt; lia. by rewrite Bool.andb_true_r.
Qed.

Section Prods.
Variable Bprod : list (list R).
Hypothesis Hp : (2 <= p)%N.
Hypothesis HBl : List.length Bprod = p.
Hypothesis HBsq : List.Forall (fun m => List.length m = (n * n)%N) Bprod.
Notation F := (mat_at n Bprod).

Lemma block_copy alpha B H a0 b0 off : square n B -> square N H -> (a0 < p)%N -> (b0 < p)%N -> off = (bo a0 + NZ * bo b0)%Z ->
  exists H', domatcopy (Zn n) (Zn n) alpha B 0 (Zn n) H off (Zn p * Zn n) = Some H' /\ square N H' /\
    forall a b, (a < p)%N -> (b < p)%N ->
      bk (mat N H') a b = if (a == a0) && (b == b0) then alpha *: mat n B else bk (mat N H) a b.
Proof.
  move=> HB HS Ha0 Hb0 ->. have -> : (Zn p * Zn n = NZ)%Z by rewrite -(NE n p); lia.
  have Wa0 := win1 (n := n) Ha0. have Wb0 := win1 (n := n) Hb0. have Ga0 := bo_ge0 n a0. have Gb0 := bo_ge0 n b0.
  have [||H' [-> [HL [HE HF]]]] := @domatcopy_ok (Zn n) (Zn n) alpha B 0 (Zn n) H (bo a0 + NZ * bo b0) NZ.
  - rewrite HB /fits. nia.
  - exact: fits_win.
  - exists H'. split => //. split; first by rewrite /square HL.
    move=> a b Ha Hb. rewrite (@write_bk H H' a0 b0 (fun i j => Rmult alpha (ent B 0 (Zn n) i j))) //.
    by case: ifP => // _; rewrite -mxf_scale -mat_mxf.
Qed.

Lemma blocks_ok H : square N H -> mat N H = 1%:M ->
  exists H', uneq_blocks (Zn n) (Zn p) Bprod H = Some H' /\ square N H' /\
    forall a b, (a < p)%N -> (b < p)%N -> bk (mat N H') a b = cyclic_mx p F a b.
Proof.
  move=> HS H1. rewrite /uneq_blocks.
  have [|||H2 [E [HS2 HE]]] := @for_range_inv _ (fun k H => square N H /\ forall a b, (a < p)%N -> (b < p)%N ->
      bk (mat N H) a b = if a == b then 1%:M else if (Zn b <? k)%Z then cyclic_mx p F a b else 0) 0%Z (Zn p)
     (fun i H => let* P := aget Bprod i in
        if (i <? Zn p - 1)%Z then domatcopy (Zn n) (Zn n) (-1) P 0 (Zn n) H (((i + 1) + Zn p * Zn n * i) * Zn n) (Zn p * Zn n)
        else domatcopy (Zn n) (Zn n) 1 P 0 (Zn n) H (Zn p * Zn n * (Zn p - 1) * Zn n) (Zn p * Zn n)) H; first lia.
  - move=> i X Hi [HX HE]. have [k [Ei Hk]] : exists k, i = Zn k /\ (k < p)%N by exists (Z.to_nat i); split; [lia|apply/ltP; lia].
    subst i. rewrite (@aget_list _ _ _ nil); last by rewrite HBl; apply/ltP. cbn [obind].
    have Hsq : square n (List.nth k Bprod nil).
    { apply: square_len. apply: (Forall_nth_ok (P := fun m => List.length m = (n * n)%N)) => //. by rewrite HBl; apply/ltP. }
    have Epow : (Zn p * Zn n = NZ)%Z by rewrite -(NE n p); lia.
    case: Z.ltb_spec => Hkp.
    + have Hk1 : (k.+1 < p)%N by apply/ltP; lia.
      have [|X' [EX [HX' HB]]] := @block_copy (-1)%R _ _ k.+1 k ((Zn k + 1 + Zn p * Zn n * Zn k) * Zn n) Hsq HX Hk1 Hk.
      { rewrite Epow /CyclicQRFacts.bo. lia. }
      exists X'. split => //. split => // a b Ha Hb. rewrite HB // HE // /cyclic_mx.
      case: (a =P b) => [->|Hab]; first by case: (b =P k) => [->|_]; rewrite ?andbF // ltn_eqF.
      case: (b =P k) => [->|Hbk].
      * have -> : (Zn k <? Zn k)%Z = false by apply/Z.ltb_irrefl. have -> : (Zn k <? Zn k + 1)%Z by apply/Z.ltb_lt; lia.
        rewrite andbT. case: (a =P k.+1) => Hak.
        -- rewrite /mat_at nthE. have -> : (-1)%R = - (1 : R) by []. by rewrite scaleNr scale1r.
        -- have -> : (k == p.-1) = false; last by rewrite andbF. apply: ltn_eqF. rewrite -ltnS prednK //. exact: ltnW.
      * rewrite andbF. have -> : (Zn b <? Zn k + 1)%Z = (Zn b <? Zn k)%Z; last done.
        case: Z.ltb_spec => h1; case: Z.ltb_spec => h2 //; lia.
    + have Hk1 : k = p.-1 by move/ltP: Hp; lia. have Hp0 : (0 < p)%N by exact: ltnW.
      have [|X' [EX [HX' HB]]] := @block_copy (1)%R _ _ 0%N k (Zn p * Zn n * (Zn p - 1) * Zn n) Hsq HX Hp0 Hk.
      { rewrite Epow /CyclicQRFacts.bo. have -> : (Zn p - 1 = Zn k)%Z by lia. lia. }
      exists X'. split => //. split => // a b Ha Hb. rewrite HB // HE // /cyclic_mx.
      case: (a =P b) => [->|Hab].
      { case: andP => // -[/eqP h1 /eqP h2]. exfalso. move: Hp. by rewrite -(prednK Hp0) -Hk1 -h2 h1. }
      case: (b =P k) => [->|Hbk].
      * have -> : (Zn k <? Zn k)%Z = false by apply/Z.ltb_irrefl. have -> : (Zn k <? Zn k + 1)%Z by apply/Z.ltb_lt; lia.
        rewrite andbT. have -> : (a == k.+1) = false by rewrite Hk1 prednK // ltn_eqF.
        rewrite -Hk1 eqxx andbT. case: (a =P 0%N) => // _. by rewrite /mat_at nthE scale1r.
      * rewrite andbF. have -> : (Zn b <? Zn k + 1)%Z = (Zn b <? Zn k)%Z; last done.
        case: Z.ltb_spec => h1; case: Z.ltb_spec => h2 //; lia.
  - split => // a b Ha Hb. rewrite H1 bk_1 //. case: eqP => // _. have -> // : (Zn b <? 0)%Z = false by apply/Z.ltb_ge; lia.
  - exists H2. split => //. split => // a b Ha Hb. rewrite HE //. have -> : (Zn b <? Zn p)%Z by apply/Z.ltb_lt; move/ltP: Hb; lia.
    rewrite /cyclic_mx. by case: eqP.
Qed.

Lemma cyclic_mx_block (A : 'M[R]_N) : (forall a b, (a < p)%N -> (b < p)%N -> bk A a b = cyclic_mx p F a b) -> @block_cyclic n p A.
Proof.
  move=> HA i j. cbv zeta. set a := (i %/ n)%N. set b := (j %/ n)%N.
  have Ha : (a < p)%N by rewrite ltn_divLR // [(p * n)%N]mulnC. have Hb : (b < p)%N by rewrite ltn_divLR // [(p * n)%N]mulnC.
  case E: [|| _, _ | _]; [by left|right].
  have Hri : (i %% n < n)%N by rewrite ltn_mod. have Hrj : (j %% n < n)%N by rewrite ltn_mod.
  have := HA a b Ha Hb. move/negbT: E. rewrite !negb_or => /and3P [/negbTE h1 /negbTE h2 /negbTE h3].
  rewrite /cyclic_mx h1 h2 h3. have -> : A = mxf N N (fun r c => match insub (Z.to_nat r), insub (Z.to_nat c) with Some r, Some c => A r c | _, _ => 0 end).
  { apply/matrixP => r c. rewrite !mxE !Nat2Z.id !valK. done. }
  rewrite bk_mxf // => /matrixP /(_ (Ordinal Hri) (Ordinal Hrj)). rewrite !mxE /= /CyclicQRFacts.bo.
  have -> : (Zn a * Zn n + Zn (i %% n) = Zn i)%Z by have := divn_eq i n; rewrite -/a; move: (nat_of_ord i) => x; rewrite -plusE -multE; lia.
  have -> : (Zn b * Zn n + Zn (j %% n) = Zn j)%Z by have := divn_eq j n; rewrite -/b; move: (nat_of_ord j) => x; rewrite -plusE -multE; lia.
  done.
Qed.
End Prods.
End Build.
