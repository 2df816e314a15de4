(** Facts about the matrix exponential. *)
From Coq Require Import ZArith List Reals Lia Lra.
From mathcomp Require Import all_ssreflect fingroup perm ssralg matrix.
From Verif Require Import Base BaseFacts Sums SumsFacts RealOps Blas BlasFacts MatProd RField MatSpec MatFacts TimeStep TimeStepSpec TimeStepFacts
  Lapack LapackSpec LapackFacts SimParams Kinetic KineticSpec KineticFacts KineticExp KineticExpSpec.
Set Implicit Arguments.
Unset Strict Implicit.
Unset Printing Implicit Defensive.
Local Open Scope ring_scope.
Import GRing.Theory.

(** power series of a diagonalised matrix *)
Lemma mpow_conj n (U V D : 'M[R]_n) k : V *m U = 1%:M -> mpow (U *m D *m V) k = U *m mpow D k *m V.
Proof.
  move=> HVU. have HUV := mulmx1C HVU. elim: k => [|k IH]; first by rewrite /mpow /= mulmx1.
  rewrite /mpow /= -!/(mpow _ _) IH. by rewrite -!mulmxA [V *m (U *m _)]mulmxA HVU mul1mx.
Qed.
Lemma mpow_diag n (d : 'rV[R]_n) k : mpow (diag_mx d) k = diag_mx (\row_j pow (d ord0 j) k).
Proof.
  elim: k => [|k IH].
  - apply/matrixP => i j. by rewrite !mxE /=.
  - rewrite /mpow /= -/(mpow _ _) IH. apply/matrixP => i j. rewrite mul_diag_mx !mxE /=. by case: eqP => [->|_]; rewrite ?mulr1n ?mulr0n ?mulr0.
Qed.

Lemma infinite_sum_ext f g l : (forall k, f k = g k) -> infinite_sum f l -> infinite_sum g l.
Proof.
  move=> H Hf eps He. have [N HN] := Hf eps He. exists N => k Hk. rewrite -(PartSum.sum_eq f g) //. exact: HN.
Qed.
Lemma infinite_sum_0 : infinite_sum (fun _ => R0) R0.
Proof.
  move=> eps He. exists 0%N => k _. rewrite (_ : sum_f_R0 _ k = R0); first by rewrite R_dist_eq.
  elim: k => //= k ->. exact: Rplus_0_l.
Qed.
Lemma infinite_sum_plus f g a b : infinite_sum f a -> infinite_sum g b -> infinite_sum (fun k => Rplus (f k) (g k)) (Rplus a b).
Proof.
  move=> Hf Hg eps He. have He2 : (eps / 2 > 0)%coqR by lra.
  have [N1 H1] := Hf _ He2. have [N2 H2] := Hg _ He2. exists (N1 + N2)%coq_nat => k Hk.
  rewrite plus_sum. have h1 := H1 k ltac:(lia). have h2 := H2 k ltac:(lia). have := R_dist_plus (sum_f_R0 f k) a (sum_f_R0 g k) b. lra.
Qed.
Lemma infinite_sum_mult c f a : infinite_sum f a -> infinite_sum (fun k => Rmult c (f k)) (Rmult c a).
Proof.
  move=> Hf. case: (Req_EM_T c 0) => [->|Hc].
  - rewrite Rmult_0_l. apply: (infinite_sum_ext _ infinite_sum_0) => k. by rewrite Rmult_0_l.
  - move=> eps He. have Hca : (0 < Rabs c)%coqR by exact: Rabs_pos_lt.
    have [|N HN] := Hf (eps / Rabs c)%coqR; first exact: Rdiv_lt_0_compat.
    exists N => k Hk. rewrite (_ : sum_f_R0 _ k = Rmult c (sum_f_R0 f k)); last by elim: (k) => //= m ->; rewrite Rmult_plus_distr_l. rewrite /R_dist -Rmult_minus_distr_l Rabs_mult.
    have := HN k Hk. rewrite /R_dist => h. apply: (Rlt_le_trans _ (Rabs c * (eps / Rabs c))%coqR); first exact: Rmult_lt_compat_l.
    right. field. lra.
Qed.
Lemma infinite_sum_big (I : finType) (f : I -> nat -> R) (a : I -> R) : (forall l, infinite_sum (f l) (a l)) ->
  infinite_sum (fun k => \sum_l f l k) (\sum_l a l).
Proof.
  move=> H. elim: (index_enum I) => [|l s IH].
  - rewrite big_nil. apply: (infinite_sum_ext _ infinite_sum_0) => k. by rewrite big_nil.
  - rewrite big_cons. apply: (infinite_sum_ext _ (infinite_sum_plus (H l) IH)) => k. by rewrite big_cons.
Qed.

(** the exponential of a diagonalised matrix *)
Definition expd n (U : 'M[R]_n) (d : 'rV[R]_n) (V : 'M[R]_n) : 'M[R]_n := U *m diag_mx (\row_j exp (d ord0 j)) *m V.

Lemma is_exp_expd n (U V : 'M[R]_n) d : V *m U = 1%:M -> is_exp (U *m diag_mx d *m V) (expd U d V).
Proof.
  move=> HVU i j. 
  have HE : forall e : 'rV[R]_n, (U *m diag_mx e *m V) i j = \sum_l (U i l * V l j) * e ord0 l.
  { move=> e. rewrite mxE. apply: eq_bigr => l _. rewrite mul_mx_diag mxE. by rewrite mulrAC. }
  rewrite /expd HE. 
  apply: (@infinite_sum_ext (fun k => \sum_l Rmult (U i l * V l j) (Rmult (Rinv (INR (Factorial.fact k))) (pow (d ord0 l) k)))).
  - move=> k. rewrite mpow_conj // mpow_diag HE RmultE big_distrr /=. apply: eq_bigr => l _. rewrite !mxE. by rewrite !RmultE mulrCA.
  - apply: infinite_sum_big => l. rewrite !mxE. apply: infinite_sum_mult. rewrite /exp. case: (exist_exp _) => x. exact.
Qed.

Lemma is_exp_uniq n (A E F : 'M[R]_n) : is_exp A E -> is_exp A F -> E = F.
Proof. move=> HE HF. apply/matrixP => i j. exact: (uniqueness_sum _ _ _ (HE i j) (HF i j)). Qed.

Lemma expd_inv n (U V : 'M[R]_n) d : V *m U = 1%:M -> expd U (- d) V *m expd U d V = 1%:M.
Proof.
  move=> HVU. rewrite /expd -!mulmxA [V *m (U *m _)]mulmxA HVU mul1mx [diag_mx _ *m (diag_mx _ *m _)]mulmxA mulmx_diag.
  rewrite (_ : diag_mx _ = 1%:M); first by rewrite mul1mx (mulmx1C HVU).
  apply/matrixP => i j. rewrite !mxE. case: eqP => _ //=. by rewrite !mulr1n -RmultE -RoppE -exp_plus Rplus_opp_l exp_0.
Qed.

Lemma conj_opp n (U V : 'M[R]_n) d : - (U *m diag_mx d *m V) = U *m diag_mx (- d) *m V.
Proof. by rewrite (_ : diag_mx (- d) = - diag_mx d) ?mulmxN ?mulNmx //; apply/matrixP => i j; rewrite !mxE mulNrn. Qed.

Lemma is_exp_inverse n (U V A E F : 'M[R]_n) d : V *m U = 1%:M -> A = U *m diag_mx d *m V -> is_exp A E -> is_exp (- A) F ->
  F *m E = 1%:M /\ E *m F = 1%:M.
Proof.
  move=> HVU EA HE HF. rewrite EA in HE HF.
  rewrite (is_exp_uniq HE (is_exp_expd _ HVU)). rewrite conj_opp in HF. rewrite (is_exp_uniq HF (is_exp_expd _ HVU)).
  have H := expd_inv d HVU. split => //. exact: mulmx1C.
Qed.

(** LAPACKE_dsyev *)
Lemma dsyev_ok la n A w : lapack_ok la -> square n A -> lenZ w = Zn n -> (mat n A)^T = mat n A ->
  exists U w' info, dsyev la (Zn n) A w = Some (U, w', info) /\ square n U /\ lenZ w' = Zn n /\
    (syev_converges la -> info = 0%Z) /\
    (info = 0%Z -> (mat n U)^T *m mat n U = 1%:M /\
      mat n A = mat n U *m diag_mx (mxf 1 n (fun _ j => rat w' j)) *m (mat n U)^T).
Proof.
  move=> HLA HA Hw HS. rewrite /dsyev.
  have HF := fits_square HA.
  have [P [-> [HP EP]]] := gather_ok HF. cbn [obind].
  have EPA : mat n P = mat n A by rewrite !mat_pk; apply: mxf_ext.
  have HSP : (mat n P)^T = mat n P by rewrite EPA.
  have := ok_syev HLA (len_square HP) HSP.
  have Hcv : syev_converges la -> snd (la_syev la (Zn n) P) = 0%Z by move=> H; exact: H (len_square HP) HSP.
  move: Hcv. case: (la_syev _ _ _) => [[P' t] info] /= Hcv [/packed_len HP' [Ht Hd]].
  have [A' [-> [HL' [HE HFr]]]] := scatter_ok HP' HF. cbn [obind].
  have HtZ : lenZ t = Zn n by rewrite /lenZ Ht.
  have [|||||w' [-> [HL [H1 H2]]]] := @copy_ok (Zn n) t 0 w 0; try lia. cbn [obind].
  exists A', w', info. split => //. split; first by rewrite /square HL'. split; first by rewrite HL. split => //.
  move=> /Hd [HO HD].
  have Ha : mat n A' = mat n P'. { rewrite !mat_pk. apply: mxf_ext => i j Hi Hj. by rewrite -(pkE A') HE. }
  split; first by rewrite Ha.
  rewrite Ha -EPA HD. congr (_ *m diag_mx _ *m _). apply/rowP => j. rewrite !mxE. rewrite -vkE. have /ltP Hj := ltn_ord j. by rewrite -{2}(Z.add_0_l (Zn j)) H1 //; lia.
Qed.

Lemma exp_values_ok n w : lenZ w = Zn n -> exists w', exp_values (Zn n) w = Some w' /\ lenZ w' = Zn n /\
  forall j, (0 <= j < Zn n)%Z -> rat w' j = exp (rat w j).
Proof.
  move=> Hw. rewrite /exp_values.
  have [|||w' [-> [H1 [H2 H3]]]] := @for_range_inv _ (fun i v => lenZ v = Zn n /\
    (forall j, (0 <= j < i)%Z -> rat v j = exp (rat w j)) /\ (forall j, (i <= j)%Z -> rat v j = rat w j)) 0 (Zn n)
    (fun i w => obind (aget w i) (fun x => aset w i (exp x))) w; first lia.
  - move=> i v Hi [Hv [H1 H2]]. rewrite aget_rat ?Hv; last lia. cbn [obind].
    rewrite aset_ok; last by move: Hv; rewrite /lenZ; lia. eexists. split; first reflexivity.
    have HR : forall k, (0 <= k)%Z -> rat (lset v (Z.to_nat i) (exp (rat v i))) k = if (i =? k)%Z then exp (rat v i) else rat v k.
    { move=> k Hk. rewrite rat_lset //. by move: Hv; rewrite /lenZ; lia. }
    split; first by rewrite /lenZ lset_length.
    split => j Hj; (rewrite HR; last lia); case: Z.eqb_spec => Hji; try lia.
    + by rewrite -Hji H2 //; lia.
    + apply: H1; lia.
    + apply: H2; lia.
  - split => //. split => // j Hj; lia.
  - by exists w'.
Qed.

Lemma scale_columns_ok n w U : lenZ w = Zn n -> square n U -> exists V, scale_columns (Zn n) w U = Some V /\ square n V /\
  mat n V = mat n U *m diag_mx (mxf 1 n (fun _ j => rat w j)).
Proof.
  move=> Hw HU. rewrite /scale_columns.
  have HL : lenZ U = (Zn n * Zn n)%Z by exact: HU.
  have [|||V [-> [H1 [H2 H3]]]] := @for_range_inv _ (fun i V => lenZ V = (Zn n * Zn n)%Z /\
    (forall r c, (0 <= r < Zn n)%Z -> (0 <= c < i)%Z -> ent V 0 (Zn n) r c = (rat w c * ent U 0 (Zn n) r c)%coqR) /\
    (forall r c, (0 <= r < Zn n)%Z -> (i <= c < Zn n)%Z -> ent V 0 (Zn n) r c = ent U 0 (Zn n) r c)) 0%Z (Zn n)
    (fun i V => obind (aget w i) (fun x => dscal (Zn n) x V (i * Zn n) 1)) U; first lia.
  - move=> i V Hi [HV [H1 H2]]. rewrite aget_rat ?Hw; last lia. cbn [obind].
    have [||||V' [-> [HL' [E1 E2]]]] := @dscal_ok (Zn n) (rat w i) V (i * Zn n) 1; [lia|lia|nia|nia|].
    exists V'. split => //. split; first by rewrite HL'.
    split => r c Hr Hc; rewrite /ent.
    + case: (Z.eq_dec c i) => [->|Hci].
      * rewrite (_ : (0 + r + i * Zn n)%Z = (i * Zn n + r * 1)%Z); last lia.
        rewrite E1; last lia. congr Rmult. rewrite -(_ : (0 + r + i * Zn n)%Z = (i * Zn n + r * 1)%Z); last lia. apply: H2; lia.
      * rewrite E2; [apply: H1; lia|nia|]. nia.
    + rewrite E2; [apply: H2; lia|nia|]. nia.
  - split => //. split => r c Hr Hc //; lia.
  - exists V. split => //. split => //. rewrite !mat_mxf mxf_diag_r. apply: mxf_ext => i j Hi Hj. by rewrite H2.
Qed.

Lemma dgemm_square_tr n A B C : square n A -> square n B -> square n C ->
  exists C', dgemm true (Zn n) (Zn n) (Zn n) 1%coqR A 0 (Zn n) B 0 (Zn n) 0%coqR C 0 (Zn n) = Some C' /\
    square n C' /\ mat n C' = mat n A *m (mat n B)^T.
Proof.
  move=> HA HB HC.
  have [C' [E [HL [HE _]]]] := @dgemm_ok true (Zn n) (Zn n) (Zn n) 1%coqR A 0%Z (Zn n) B 0%Z (Zn n) 0%coqR C 0%Z (Zn n)
    (fits_square HA) (fits_square HB) (fits_square HC).
  exists C'; split => //; split; first by rewrite /square HL.
  rewrite !mat_mxf mxf_tr mxf_mul. apply: mxf_ext => i j Hi Hj. rewrite HE //.
  by rewrite Rmult_0_l Rplus_0_r Rmult_1_l.
Qed.

Lemma matrix_exp_ok la junk n A ret : lapack_ok la -> syev_converges la -> square n A -> square n ret -> (mat n A)^T = mat n A ->
  exists E U d, matrix_exp la junk (Zn n) A ret = Some (E, 0%Z) /\ square n E /\
    U^T *m U = 1%:M /\ mat n A = U *m diag_mx d *m U^T /\ mat n E = expd U d U^T.
Proof.
  move=> HLA HC HA HR HS. rewrite /matrix_exp.
  have [U0 [-> [HU0 EU0]]] := copy_square HA (fresh_square junk n). cbn [obind].
  rewrite EU0.
  have [|U [w [info [-> [HU [Hw [Hi Hd]]]]]]] := @dsyev_ok la n A (fresh junk (Zn n)) HLA HA _ HS; first by rewrite fresh_len //; lia.
  rewrite (Hi HC) in Hd *. cbn [obind Z.ltb Z.compare].
  have [w' [-> [Hw' Ew']]] := exp_values_ok Hw. cbn [obind].
  have [V0 [-> [HV0 EV0]]] := copy_square HU (fresh_square junk n). cbn [obind]. rewrite EV0.
  have [V [-> [HV EV]]] := scale_columns_ok Hw' HU. cbn [obind].
  have [E [-> [HE EE]]] := dgemm_square_tr HV HU HR. cbn [obind].
  have [HO HD] := Hd erefl.
  exists E, (mat n U), (mxf 1 n (fun _ j => rat w j)). split => //. split => //. split => //. split => //.
  rewrite EE EV /expd. congr (_ *m diag_mx _ *m _). apply/rowP => j. rewrite !mxE. have /ltP Hj := ltn_ord j. rewrite Ew' //. lia.
Qed.

Lemma dscal1_opp n A : square n A -> exists B, dscal1 (Zn n * Zn n) (-1)%coqR A = Some B /\ square n B /\ mat n B = - mat n A.
Proof.
  move=> HA. have [||B [E [HL HB]]] := @dscal1_ok (Zn n * Zn n) (-1)%coqR A (rat A); [lia|by apply: arr_rat|].
  exists B. split => //. split => //. rewrite !mat_mxf mxf_opp. apply: mxf_ext => i j Hi Hj. rewrite /ent.
  have H := HB (0 + i + j * Zn n)%Z ltac:(nia). rewrite aget_rat in H; last by rewrite /lenZ HL; nia.
  have [->] := H. rewrite Z.add_0_l. lra.
Qed.

Lemma matrix_exp_pair la junk n A : lapack_ok la -> syev_converges la -> square n A -> (mat n A)^T = mat n A ->
  exists E B F, matrix_exp la junk (Zn n) A (fresh junk (Zn n * Zn n)) = Some (E, 0%Z) /\
    dscal1 (Zn n * Zn n) (-1)%coqR A = Some B /\
    matrix_exp la junk (Zn n) B (fresh junk (Zn n * Zn n)) = Some (F, 0%Z) /\
    square n E /\ square n F /\
    is_exp (mat n A) (mat n E) /\ is_exp (- mat n A) (mat n F) /\ mat n F *m mat n E = 1%:M /\ mat n E *m mat n F = 1%:M.
Proof.
  move=> HLA HC HA HS.
  have [E [U [d [EE [HE [HO [EA EX]]]]]]] := @matrix_exp_ok la junk n A _ HLA HC HA (fresh_square junk n) HS.
  have [B [EB [HB EB']]] := dscal1_opp HA.
  have HSB : (mat n B)^T = mat n B by rewrite EB' linearN /= HS.
  have [F [V [e [EF [HF [HO' [EA' EX']]]]]]] := @matrix_exp_ok la junk n B _ HLA HC HB (fresh_square junk n) HSB.
  exists E, B, F. do 5!split => //.
  have H1 : is_exp (mat n A) (mat n E) by rewrite EA EX; exact: is_exp_expd.
  have H2 : is_exp (- mat n A) (mat n F) by rewrite -EB' EA' EX'; exact: is_exp_expd.
  have [H3 H4] := is_exp_inverse HO EA H1 H2. by [].
Qed.

Lemma kinetic_matrix_mat p : well_formed p ->
  exists M, kinetic_matrix p = Some M /\ square (sites p) M /\ mat (sites p) M = - sp_dt p *: hamiltonian p /\
    (hamiltonian p)^T = hamiltonian p.
Proof.
  move=> WF. have [M [E [HL H]]] := KineticFacts.kinetic_ok p WF. exists M. split => //.
  have Hc : (0 < sp_Nx p * sp_Ny p)%Z by case: WF; nia.
  have HN : (0 < sp_Norb p)%Z by case: WF.
  have Hs : Zn (sites p) = (sp_Norb p * (sp_Nx p * sp_Ny p))%Z by rewrite /sites Z2Nat.id //; nia.
  split; first by rewrite /square Hs.
  set Nc := (sp_Nx p * sp_Ny p)%Z in Hc Hs H *.
  have Hi : forall i : 'I_(sites p), (0 <= Zn i mod Nc < Nc)%Z /\ (0 <= Zn i / Nc < sp_Norb p)%Z /\ Zn i = (Zn i mod Nc + Zn i / Nc * Nc)%Z.
  { move=> i. have /ltP Hi := ltn_ord i. split; first exact: Z.mod_pos_bound. split.
    - split; first by apply: Z.div_pos; lia. apply: Z.div_lt_upper_bound; lia.
    - have := Z.div_mod (Zn i) Nc. lia. }
  split.
  - rewrite mat_mxf. apply/matrixP => i j. rewrite !mxE /ent -/Nc.
    have [A1 [A2 A3]] := Hi i. have [B1 [B2 B3]] := Hi j.
    have := H _ _ _ _ A1 B1 A2 B2. rewrite -A3 -B3 Hs (_ : (0 + Zn i + Zn j * _)%Z = (Zn i + sp_Norb p * Nc * Zn j)%Z); last lia.
    move=> ->. rewrite -?RmultE -?RoppE. case: eqP => [->|Hij].
    + rewrite !Z.eqb_refl /=. done.
    + case: Z.eqb_spec => Ha; case: Z.eqb_spec => Ho /=; try lra.
      exfalso. apply: Hij. apply: ord_inj. have : Zn i = Zn j by congruence. lia.
  - apply/matrixP => i j. rewrite !mxE eq_sym. case: eqP => [->//|_]. by rewrite total_sym.
Qed.

Lemma kinetic_exponential_ok la junk p : lapack_ok la -> syev_converges la -> well_formed p ->
  exists k, kinetic_exponential la junk p = Some k /\ TimeStepSpec.kinetic_ok (sites p) k /\
    k_Norb k = sp_Norb p /\ k_Ncell k = (sp_Nx p * sp_Ny p)%Z /\
    is_exp (- sp_dt p *: hamiltonian p) (mat (sites p) (expK k)) /\
    is_exp (sp_dt p *: hamiltonian p) (mat (sites p) (inv_expK k)) /\
    mat (sites p) (expK k) *m mat (sites p) (inv_expK k) = 1%:M.
Proof.
  move=> HLA HC WF. have [M [EM [HM [EH HS]]]] := kinetic_matrix_mat WF.
  have HSM : (mat (sites p) M)^T = mat (sites p) M by rewrite EH linearZ /= HS.
  have [E [B [F [E1 [E2 [E3 [H1 [H2 [H3 [H4 [H5 H6]]]]]]]]]]] := @matrix_exp_pair la junk (sites p) M HLA HC HM HSM.
  have Hc : (0 < sp_Nx p * sp_Ny p)%Z by case: WF; nia.
  have HN : (0 < sp_Norb p)%Z by case: WF.
  have Hs : (sp_Norb p * (sp_Nx p * sp_Ny p))%Z = Zn (sites p) by rewrite /sites Z2Nat.id //; nia.
  rewrite /kinetic_exponential EM. cbn [obind]. rewrite Hs E1. cbn [obind]. rewrite E2. cbn [obind]. rewrite E3. cbn [obind].
  eexists. split; first reflexivity. rewrite /= -EH. split.
  - split => //=; [lia|exact: len_square|exact: len_square].
  - split => //. split => //. split => //. split => //. by move: H4; rewrite EH scaleNr opprK.
Qed.

Lemma matrix_exp_is_exp la junk n A ret : lapack_ok la -> syev_converges la ->
  List.length A = (n * n)%N -> List.length ret = (n * n)%N -> (mat n A)^T = mat n A ->
  exists E, matrix_exp la junk (Z.of_nat n) A ret = Some (E, 0%Z) /\ List.length E = (n * n)%N /\
    is_exp (mat n A) (mat n E).
Proof.
  move=> HLA HC HA HR HS.
  have [E [U [d [EE [HE [HO [EA EX]]]]]]] := @matrix_exp_ok la junk n A ret HLA HC (square_len HA) (square_len HR) HS.
  exists E. split => //. split; first exact: len_square. rewrite EA EX. exact: is_exp_expd.
Qed.

Lemma fresh_rat junk n i : (0 <= i < n)%Z -> rat (fresh junk n) i = junk i.
Proof.
  move=> Hi. rewrite /rat /fresh (@List.nth_indep _ _ _ R0 (junk (Z.of_nat 0))); last by rewrite List.map_length List.seq_length; lia.
  rewrite (List.map_nth (fun k => junk (Z.of_nat k))) List.seq_nth; last lia. by rewrite /= Z2Nat.id //; lia.
Qed.

Lemma matrix_exp_fails la junk n A ret : lapack_ok la -> (forall n A, snd (la_syev la n A) = 1%Z) ->
  square n A -> (mat n A)^T = mat n A -> matrix_exp la junk (Zn n) A ret = Some (ret, 1%Z).
Proof.
  move=> HLA HF HA HS. rewrite /matrix_exp.
  have [U0 [-> [HU0 EU0]]] := copy_square HA (fresh_square junk n). cbn [obind]. rewrite EU0.
  rewrite /dsyev. have HFt := fits_square HA.
  have [P [-> [HP EP]]] := gather_ok HFt. cbn [obind].
  have EPA : mat n P = mat n A by rewrite !mat_pk; apply: mxf_ext.
  have HSP : (mat n P)^T = mat n P by rewrite EPA.
  have := ok_syev HLA (len_square HP) HSP. have := HF (Zn n) P.
  case: (la_syev _ _ _) => [[P' t] info] /= -> [/packed_len HP' [Ht _]].
  have [A' [-> _]] := scatter_ok HP' HFt. cbn [obind].
  have HtZ : lenZ t = Zn n by rewrite /lenZ Ht.
  have HfZ : lenZ (fresh junk (Zn n)) = Zn n by rewrite fresh_len //; lia.
  have [|||||w' [-> _]] := @copy_ok (Zn n) t 0 (fresh junk (Zn n)) 0; try lia. by [].
Qed.

Lemma kinetic_exponential_fails la junk p : lapack_ok la -> (forall n A, snd (la_syev la n A) = 1%Z) -> well_formed p ->
  exists k, kinetic_exponential la junk p = Some k /\
    forall i, (0 <= i < Z.of_nat (sites p * sites p))%Z ->
      aget (expK k) i = Some (junk i) /\ aget (inv_expK k) i = Some (junk i).
Proof.
  move=> HLA HF WF. have [M [EM [HM [EH HS]]]] := kinetic_matrix_mat WF.
  have HSM : (mat (sites p) M)^T = mat (sites p) M by rewrite EH linearZ /= HS.
  have [B [EB [HB EB']]] := dscal1_opp HM.
  have HSB : (mat (sites p) B)^T = mat (sites p) B by rewrite EB' linearN /= HSM.
  have Hc : (0 < sp_Nx p * sp_Ny p)%Z by case: WF; nia.
  have HN : (0 < sp_Norb p)%Z by case: WF.
  have Hs : (sp_Norb p * (sp_Nx p * sp_Ny p))%Z = Zn (sites p) by rewrite /sites Z2Nat.id //; nia.
  rewrite /kinetic_exponential EM. cbn [obind]. rewrite Hs matrix_exp_fails //. cbn [obind].
  rewrite EB. cbn [obind]. rewrite matrix_exp_fails //. cbn [obind].
  eexists. split; first reflexivity. move=> i Hi /=.
  have Hi' : (0 <= i < Zn (sites p) * Zn (sites p))%Z by move: Hi; rewrite -multE; lia.
  have H : aget (fresh junk (Zn (sites p) * Zn (sites p))) i = Some (junk i).
  { rewrite aget_rat; last by rewrite fresh_len; lia. congr Some. exact: fresh_rat. }
  by [].
Qed.
