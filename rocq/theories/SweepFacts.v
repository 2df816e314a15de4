(** Proofs about Monte Carlo sweeps. *)
From Coq Require Import ZArith List Reals Permutation Lia Lra.
From mathcomp Require Import all_ssreflect ssralg matrix.
From Verif Require Import Base BaseFacts Sums SumsFacts RealOps RField ParamParser Blas BlasFacts MatProd MatSpec MatFacts TimeStep TimeStepSpec
  TimeStepFacts Strat StratSpec StratFacts GreenUpdate GreenSpec GreenFacts Lapack LapackSpec LapackFacts TimeFlow TimeFlowSpec TimeFlowLoops TimeFlowFacts
  GreenConstruct GreenConstructFacts Random RandomSpec RandomFacts ShuffleFacts Uniform UniformFacts RandSource RandSourceFacts Sweep SweepSpec.
Set Implicit Arguments.
Unset Strict Implicit.
Unset Printing Implicit Defensive.
Local Open Scope ring_scope.
Import GRing.Theory.

(** determinants *)
Lemma green_det n (A : 'M[R]_n) G : green_of A G -> \det (mat n (gf_mat G)) * \det (1%:M + A) = 1.
Proof. move=> [_ _ H _ _]. by rewrite -det_mulmx H det1. Qed.

Lemma green_nz n (A : 'M[R]_n) G : green_of A G -> \det (1%:M + A) <> 0.
Proof. move=> /green_det H E. move: H. rewrite E mulr0 => /eqP. by rewrite eq_sym oner_eq0. Qed.

Lemma dratio_E n (G : 'M[R]_n) i delta : dratio G i delta = Rplus 1 (Rmult (Rminus 1 (G i i)) delta).
Proof. rewrite /dratio -?RplusE -?RmultE -?RoppE -?R1E. lra. Qed.

(** accepted update of one Green's function *)
Lemma rank1_ok junk n (i : 'I_n) delta (A : 'M[R]_n) G : green_of A G ->
  exists du, det_ratio_at (Zn n) (Zn i) delta G = Some du /\
    \det (1%:M + scale_row i (1 + delta) A) = du * \det (1%:M + A) /\
    (du <> 0 -> exists G1 G2, rank1 junk delta (Zn n) (Zn i) G = Some G1 /\ det_scaled du G1 = Some G2 /\
       green_of (scale_row i (1 + delta) A) G2).
Proof.
  move=> HG. have Hnz := green_nz HG. have HD := green_det HG. case: HG => HN /square_len Hl Hgr Hs Hd.
  have Hi := ordZ i.
  rewrite /det_ratio_at.
  have -> : aget (gf_mat G) (Zn i + Zn i * Zn n) = Some (mat n (gf_mat G) i i).
  { rewrite mat_ij /ent Z.add_0_l. apply: aget_rat. rewrite Hl. nia. }
  cbn [obind]. eexists. split; first reflexivity. rewrite -dratio_E.
  split; first exact: det_ratio. move=> Hdu. rewrite /rank1.
  have [m [-> [Hm Em]]] := sherman_morrison_ok junk Hl Hdu. cbn [obind].
  have Hgr' : is_green (mat n m) (scale_row i (1 + delta) A) by rewrite Em; apply: rank1_green.
  have Hdet := det_ratio i delta Hgr.
  rewrite /det_scaled /rlog. set du := dratio _ _ _ in Hdu Hdet *. clearbody du.
  have Hp := Rabs_pos_lt _ Hdu.
  eexists. eexists. split; first reflexivity. case: Rlt_dec => // _. cbn [obind gf_mat gf_logdet gf_sgndet gf_N].
  split; first reflexivity.
  have E1 : \det (mat n m) * (du * \det (1%:M + A)) = 1 by rewrite -Hdet -det_mulmx Hgr' det1.
  have E2 : \det (mat n m) * du = \det (mat n (gf_mat G)).
  { have HDz : \det (1%:M + A) != 0 by apply/eqP. apply: (mulIf HDz). by rewrite -mulrA E1 HD. }
  constructor => //=.
  - exact: len_square.
  - case: Rlt_dec => h //=. by case: Hs => ->; [right|left].
  - have E3 : Rmult (Rmult (IZR (gf_sgndet G)) (exp (gf_logdet G))) (Rinv du) = \det (mat n m).
    { rewrite Hd -E2 -RmultE Rmult_assoc Rinv_r // Rmult_1_r. by []. }
    rewrite -E3 /Rminus exp_plus exp_Ropp exp_ln //. case: Rlt_dec => h /=.
    + rewrite Rabs_left // opp_IZR. by field.
    + rewrite Rabs_right; last lra. by field.
Qed.

(** scaling a row of the last factor *)
Lemma scale_row_mul n (i : 'I_n) c (A B : 'M[R]_n) : scale_row i c (A *m B) = scale_row i c A *m B.
Proof.
  apply/matrixP => a b'. rewrite !mxE. case: eqP => E.
  - rewrite mulr_sumr. apply: eq_bigr => j _. by rewrite mxE E eqxx mulrA.
  - apply: eq_bigr => j _. rewrite mxE. by case: eqP.
Qed.

Lemma cyclic_scale n (M M' : nat -> 'M[R]_n) L l (i : 'I_n) c : (l < L)%N ->
  (forall l', l' <> l -> (l' < L)%N -> M' l' = M l') -> M' l = scale_row i c (M l) ->
  cyclic_flow M' L l.+1 = scale_row i c (cyclic_flow M L l.+1).
Proof.
  move=> Hl H1 H2. have [_ ->] := cyclic_next M Hl. have [_ ->] := cyclic_next M' Hl.
  rewrite scale_row_mul H2. congr (_ *m (_ *m _)); apply: oprod_ext => j Hj; apply: H1.
  - move=> E. move: Hj. by rewrite -E add0n ltnn.
  - rewrite add0n. exact: ltn_trans Hl.
  - move=> E. move/leP: (leq_addr j l.+1). rewrite E. lia.
  - by rewrite -ltn_subRL.
Qed.

(** the determinant does not depend on the slice *)
Lemma det_cyclic n (M : nat -> 'M[R]_n) L l : (forall j, (j < L)%N -> M j \in unitmx) -> (l <= L)%N ->
  \det (1%:M + cyclic_flow M L l) = \det (1%:M + cyclic_flow M L 0).
Proof.
  move=> HM. elim: l => [//|l IH] Hl. rewrite -IH; last exact: ltnW.
  have [-> ->] := cyclic_next M Hl. set X := oprod _ _ _ *m oprod _ _ _.
  have HU := HM l Hl.
  have -> : 1%:M + M l *m X = M l *m (1%:M + X *m M l) *m invmx (M l).
  { by rewrite mulmxDr mulmx1 mulmxDl mulmxV // !mulmxA -(mulmxA _ (M l) (invmx _)) mulmxV // mulmx1. }
  rewrite !det_mulmx mulrAC -det_mulmx mulmxV // det1 mul1r. by [].
Qed.

(** time step matrices in the middle of a sweep: the products of all blocks but the one in progress *)
Definition tsm_sync n L b (M : nat -> 'M[R]_n) (t : tsm) (l : nat) : Prop :=
  tsm_shape n L b t /\
  (forall l', (l' < L)%N -> mat_at n (ts_B t) l' = M l' /\
     mat_at n (ts_invB t) l' *m M l' = 1%:M /\ M l' *m mat_at n (ts_invB t) l' = 1%:M) /\
  (forall q, (q * b < L)%N -> ~~ ((q * b < l) && (l < q.+1 * b))%N -> mat_at n (ts_Bprod t) q = oprod M (q * b) b).

Lemma sync_holds n L b (M : nat -> 'M[R]_n) t l : (b %| l)%N -> tsm_sync L b M t l -> tsm_holds L b M t.
Proof.
  move=> /dvdnP [k ->] [H1 [H2 H3]]. split => //. split => // q Hq. apply: H3 => //.
  have Hb : (0 < b)%N by case: H1 => _ _ _ [].
  rewrite !ltn_pmul2r // ltnS. by case: ltngtP.
Qed.

Lemma holds_sync n L b (M : nat -> 'M[R]_n) t l : tsm_holds L b M t -> tsm_sync L b M t l.
Proof. by move=> [H1 [H2 H3]]; split => //; split => // q Hq _; apply: H3. Qed.

Lemma sync_update n L b (M M' : nat -> 'M[R]_n) t t' l : (l < L)%N -> tsm_sync L b M t l ->
  (forall l', l' <> l -> (l' < L)%N -> M' l' = M l') -> updated L b l (M' l) t t' -> tsm_sync L b M' t' l.+1.
Proof.
  move=> Hl [H1 [H2 H3]] HM [U1 [U2 [U3 [U4 [U5 U6]]]]].
  have Hb : (0 < b)%N by case: H1 => _ _ _ [].
  have HB : forall l', (l' < L)%N -> mat_at n (ts_B t') l' = M' l'.
  { move=> l' Hl'. case: (eqVneq l' l) => [->|/eqP Hne]; first exact: U2.
    rewrite (U5 l' Hne).1 HM //. exact: (H2 l' Hl').1. }
  split => //. split.
  - move=> l' Hl'. split; first exact: HB. case: (eqVneq l' l) => [->|/eqP Hne]; first by split.
    rewrite (U5 l' Hne).2 HM //. exact: (H2 l' Hl').2.
  - move=> q Hq Hnot. rewrite U6 //. case: eqP => E.
    + apply: oprod_ext => j Hj. apply: HB.
      have HLb : (q.+1 * b <= L)%N by rewrite -E.
      apply: leq_trans HLb. by rewrite mulSn addnC ltn_add2r.
    + have Hnot' : ~~ ((q * b <= l)%N && (l.+1 < q.+1 * b)%N) by move: Hnot; rewrite ltnS.
      have Hout : ((l < q * b) || (q.+1 * b <= l))%N.
      { move: Hnot'. rewrite negb_and -!ltnNge ltnS => /orP [-> //|Hle]. apply/orP. right.
        rewrite leq_eqVlt in Hle. case/orP: Hle => [/eqP Ee|//]. by case: E. }
      rewrite H3 //.
      * apply: oprod_ext => j Hj. symmetry. apply: HM.
        -- move=> Ee. move: Hout. rewrite -Ee. rewrite ltnNge leq_addr /= mulSn addnC leq_add2l leqNgt Hj. by [].
        -- have HbL : exists p, L = (p * b)%N.
           { case: H1 => _ _ _ _ Hnum _ _ _. exists (Z.to_nat (ts_numBprod t)). rewrite -multE. nia. }
           case: HbL => p EL. rewrite EL ltn_pmul2r // in Hq. apply: (@leq_trans (q.+1 * b)); last by rewrite EL leq_pmul2r.
           by rewrite mulSn addnC ltn_add2r.
      * case/orP: Hout => h; rewrite negb_and -!leqNgt; apply/orP; [left; exact: ltnW|right; exact: h].
Qed.

(** flipping the field *)
Lemma flip_pos n l i : (i < n)%N -> forall l' i', (i' < n)%N -> (l' * n + i' == l * n + i)%N = (l' == l) && (i' == i).
Proof.
  move=> Hi l' i' Hi'. apply/eqP/andP => [E|[/eqP -> /eqP ->] //].
  have E1 : l' = l.
  { have := congr1 (fun x => x %/ n)%N E. by rewrite !divnMDl ?divn_small ?addn0 //; case: (n) Hi. }
  split; apply/eqP => //. move: E. rewrite E1 => /eqP. by rewrite eqn_add2l => /eqP.
Qed.

Section Flip.
Variables (n L : nat) (s : list Z).
Hypothesis HF : field_ok n L s.

Lemma site_lt l i : (l < L)%N -> (i < n)%N -> (l * n + i < List.length s)%coq_nat.
Proof.
  case: HF => -> _ Hl Hi. apply/ltP. apply: (@leq_trans (l.+1 * n)); last by rewrite leq_mul2r Hl orbT.
  by rewrite mulSn addnC ltn_add2r.
Qed.

Lemma field_val l i : (l < L)%N -> (i < n)%N ->
  aget s (Zn i + Zn l * Zn n) = Some (List.nth (l * n + i) s 0%Z) /\
  (List.nth (l * n + i) s 0%Z = 0%Z \/ List.nth (l * n + i) s 0%Z = 1%Z).
Proof.
  move=> Hl Hi. have Hlt := site_lt Hl Hi. split.
  - have -> : (Zn i + Zn l * Zn n = Zn (l * n + i)%N)%Z by rewrite -plusE -multE; lia. exact: aget_list.
  - apply: (@Forall_nth_ok _ _ _ _ _ (proj2 HF)). exact: Hlt.
Qed.

Lemma flipped_ok l i : (l < L)%N -> (i < n)%N -> field_ok n L (flipped n l i s).
Proof.
  move=> Hl Hi. split; first by rewrite /flipped lset_length; case: HF.
  apply: Forall_lset; first by case: HF. by case: (field_val Hl Hi) => _ [->|->]; [right|left].
Qed.

Lemma flipped_nth l i l' i' : (l < L)%N -> (i < n)%N -> (i' < n)%N ->
  List.nth (l' * n + i') (flipped n l i s) 0%Z =
  if (l' == l) && (i' == i) then (1 - List.nth (l * n + i) s 0)%Z else List.nth (l' * n + i') s 0%Z.
Proof.
  move=> Hl Hi Hi'. rewrite /flipped lset_nth_d; last exact: site_lt.
  case: Nat.eqb_spec => [E|E]; move/eqP: (E); rewrite eq_sym flip_pos // => H.
  - by rewrite H.
  - by rewrite (negbTE H).
Qed.

Lemma aset_flipped l i : (l < L)%N -> (i < n)%N ->
  aset s (Zn i + Zn l * Zn n) (1 - List.nth (l * n + i) s 0)%Z = Some (flipped n l i s).
Proof.
  move=> Hl Hi. have -> : (Zn i + Zn l * Zn n = Zn (l * n + i)%N)%Z by rewrite -plusE -multE; lia.
  apply: aset_list. exact: site_lt.
Qed.
End Flip.

Lemma tabE t v o : tab t v o = nth R0 (nth nil t v) (Z.to_nat o).
Proof. by rewrite /tab !nthE. Qed.

(** the step matrices as a function of the field *)
Definition flips_rows n L k (SM : list (list R) -> list Z -> nat -> 'M[R]_n) : Prop :=
  forall expV s l (i : 'I_n) c, field_ok n L s -> (l < L)%N ->
    let v := Z.to_nat (List.nth (l * n + i) s 0%Z) in let o := (Zn i / k_Ncell k)%Z in
    tab expV (1 - v) o = c * tab expV v o ->
    SM expV (flipped n l i s) l = scale_row i c (SM expV s l) /\
    forall l', l' <> l -> SM expV (flipped n l i s) l' = SM expV s l'.

Lemma to_nat_flip v : v = 0%Z \/ v = 1%Z -> Z.to_nat (1 - v) = (1 - Z.to_nat v)%N.
Proof. by case=> ->. Qed.

Lemma factor_flip n L k expV s l (i : 'I_n) c (w : nat -> nat -> R) K : field_ok n L s -> (l < L)%N ->
  let v := Z.to_nat (List.nth (l * n + i) s 0%Z) in let o := (Zn i / k_Ncell k)%Z in
  tab expV (1 - v) o = c * tab expV v o ->
  let F s l := diag_mx (\row_(i < n) (field_factor n (k_Ncell k) expV s l i * w l i)) *m K in
  F (flipped n l i s) l = scale_row i c (F s l) /\
  forall l', l' <> l -> F (flipped n l i s) l' = F s l'.
Proof.
  move=> HF Hl v o Hc F. have Hv := (field_val HF Hl (ltn_ord i)).2. rewrite !tabE !nthE in Hc. split.
  - rewrite /F scale_row_mul. congr (_ *m _). apply/matrixP => a b. rewrite !mxE /field_factor !nthE.
    rewrite (flipped_nth HF _ Hl) //. rewrite eqxx /= val_eqE. case: (eqVneq a i) => [->|Hne].
    + rewrite to_nat_flip // -/v -/o Hc mulrnAr -mulrA. by [].
    + by [].
  - move=> l' Hl'. rewrite /F. congr (diag_mx _ *m _). apply/matrixP => a b. rewrite !mxE /field_factor !nthE.
    rewrite (flipped_nth HF _ Hl) //. by case: eqP Hl'.
Qed.

Lemma step_flips n L k : flips_rows L k (step_mx n k).
Proof.
  move=> expV s l i c HF Hl v o Hc.
  have [H1 H2] := factor_flip (fun _ _ => 1) (mat n (expK k)) HF Hl Hc.
  have E : forall s l, step_mx n k expV s l = diag_mx (\row_(i < n) (field_factor n (k_Ncell k) expV s l i * 1)) *m mat n (expK k).
  { move=> s' l'. rewrite /step_mx. congr (diag_mx _ *m _). apply/matrixP => a b'. by rewrite !mxE mulr1. }
  split; first by rewrite !E. move=> l' Hl'. rewrite !E. exact: H2.
Qed.

Lemma phonon_step_flips n L k expX : flips_rows L k (fun expV s => phonon_step_mx n k expV s expX).
Proof.
  move=> expV s l i c HF Hl v o Hc.
  exact: (factor_flip (fun l i => nth R0 expX (l * n + i)) (mat n (expK k)) HF Hl Hc).
Qed.

(** two loops in lockstep *)
Lemma for_range_sim (A B : Type) (Rel : Z -> A -> B -> Prop) lo hi f g a b : (lo <= hi)%Z ->
  (forall i a b, (lo <= i < hi)%Z -> Rel i a b -> exists a' b', f i a = Some a' /\ g i b = Some b' /\ Rel (i + 1)%Z a' b') ->
  Rel lo a b -> exists a' b', for_range lo hi f a = Some a' /\ for_range lo hi g b = Some b' /\ Rel hi a' b'.
Proof.
  rewrite /for_range => Hle. have : (lo + Zn (Z.to_nat (hi - lo)) = hi)%Z by lia.
  move: (Z.to_nat _) => c. clear Hle. elim: c lo a b => [|c IH] lo a b Hc Hstep H0.
  - exists a, b. do 2 split => //. have -> // : hi = lo by lia.
  - have [|a1 [b1 [E1 [E2 H1]]]] := Hstep lo a b _ H0; first lia. rewrite /= E1 E2 /=. apply: IH => //; first lia.
    move=> i a2 b2 Hi. apply: Hstep. lia.
Qed.

Section HS.
Context {RS MT : Type}.
Variables (rng : rand_source RS) (valid : RS -> Prop).
Hypothesis RO : rand_ok rng valid.
Variables (la : lapack) (LA : lapack_ok la) (junk : Z -> R).
Variables (n L b : nat) (k : kinetic) (st : strat).
Hypotheses (KO : kinetic_ok n k) (SO : strat_ok (k_Norb k) st).
Variable SM : list (list R) -> list Z -> nat -> 'M[R]_n.
Hypothesis HSM : flips_rows L k SM.

(** fermion determinants at a slice *)
Definition wgt (l : nat) (s : list Z) : R :=
  \det (1%:M + cyclic_flow (SM (expVu st) s) L l) * \det (1%:M + cyclic_flow (SM (expVd st) s) L l).

(** the Green's functions at slice [l] belong to the current field *)
Record site_ok (l : nat) (m : mcstate RS MT) : Prop := {
  si_seed : valid (mc_seed m);
  si_field : field_ok n L (mc_s m);
  si_N : ts_N (mc_tu m) = Zn n;
  si_Gu : green_of (cyclic_flow (SM (expVu st) (mc_s m)) L l) (mc_Gu m);
  si_Gd : green_of (cyclic_flow (SM (expVd st) (mc_s m)) L l) (mc_Gd m) }.

Lemma delta_at v o : (v = 0%Z \/ v = 1%Z) -> (0 <= o < k_Norb k)%Z ->
  tab2 (st_delta st) v o = Some (tab (st_delta st) (Z.to_nat v) o).
Proof.
  move=> Hv Ho. case: SO => _ _ H2 Hlen _ _. rewrite /tab2.
  have Hb : (0 <= v < Zn (List.length (st_delta st)))%Z by rewrite H2; case: Hv => ->; lia.
  rewrite (@aget_nth _ _ _ nil) //. cbn [obind]. rewrite (@aget_nth _ _ _ R0) //.
  have := @Forall_nth_ok _ _ _ (Z.to_nat v) nil Hlen. cbv beta. move=> -> //. rewrite H2. lia.
Qed.


Lemma hs_site_ok l (i : 'I_n) m : (l < L)%N -> site_ok l.+1 m ->
  exists u seed m', r_uniform rng (mc_seed m) = Some (u, seed) /\
    hs_site rng junk k st (Zn l) (Zn i) m = Some m' /\ site_ok l.+1 m' /\
    mc_seed m' = seed /\ mc_order m' = mc_order m /\ mc_tu m' = mc_tu m /\ mc_td m' = mc_td m /\ mc_meas m' = mc_meas m /\
    ((Rlt u (Rdiv (Rabs (wgt l.+1 (flipped n l i (mc_s m)))) (Rabs (wgt l.+1 (mc_s m)))) /\ mc_s m' = flipped n l i (mc_s m)) \/
     (~ Rlt u (Rdiv (Rabs (wgt l.+1 (flipped n l i (mc_s m)))) (Rabs (wgt l.+1 (mc_s m)))) /\
      mc_s m' = mc_s m /\ mc_Gu m' = mc_Gu m /\ mc_Gd m' = mc_Gd m)) /\
    forall expV l', l' <> l -> expV = expVu st \/ expV = expVd st -> SM expV (mc_s m') l' = SM expV (mc_s m) l'.
Proof.
  move=> Hl [H1 H2 H3 H4 H5]. have Hi := ordZ i.
  have [u [seed [Eu [Hu1 [Hu2 Hu3]]]]] := ro_uniform RO H1.
  have [Eo Ho] := orb_at KO Hi. have [Es Hv] := field_val H2 Hl (ltn_ord i).
  set v := List.nth _ _ _ in Es Hv. set o := (Zn i / k_Ncell k)%Z in Eo Ho.
  have Hv1 : (Z.to_nat v <= 1)%N by case: Hv => ->.
  have Hv' : ((1 - v)%Z = 0%Z \/ (1 - v)%Z = 1%Z) by lia.
  have [F1 F2] := HSM H2 Hl (so_flip_u SO Hv1 Ho). have [F3 F4] := HSM H2 Hl (so_flip_d SO Hv1 Ho).
  have Cu := cyclic_scale Hl (fun l' Hne _ => F2 l' Hne) F1. have Cd := cyclic_scale Hl (fun l' Hne _ => F4 l' Hne) F3.
  exists u, seed. rewrite /hs_site H3 Eo Es. cbn [obind]. rewrite !delta_at //. cbn [obind].
  rewrite to_nat_flip //. set deu := tab _ (Z.to_nat v) o in F1 F3 Cu Cd *. set ded := tab _ (1 - Z.to_nat v)%N o in F1 F3 Cu Cd *.
  have [du [-> [Du1 Du2]]] := rank1_ok junk i deu H4. have [dd [-> [Dd1 Dd2]]] := rank1_ok junk i ded H5. cbn [obind].
  rewrite Eu. cbn [obind]. rewrite -Cu in Du1 Du2. rewrite -Cd in Dd1 Dd2.
  have Nu := green_nz H4. have Nd := green_nz H5.
  have Ew : Rdiv (Rabs (wgt l.+1 (flipped n l i (mc_s m)))) (Rabs (wgt l.+1 (mc_s m))) = Rabs (Rmult du dd).
  { rewrite /wgt Du1 Dd1 -?RmultE. rewrite -RmultE in Du1. set x := \det _ in Nu *. set y := \det _ in Nd *.
    rewrite /Rdiv -Rabs_inv -Rabs_mult. congr Rabs. field. by split. }
  rewrite Ew. case: Rlt_dec => Hacc.
  - have Hdu : du <> 0 by move=> E; move: Hacc; rewrite E Rmult_0_l Rabs_R0; lra.
    have Hdd : dd <> 0 by move=> E; move: Hacc; rewrite E Rmult_0_r Rabs_R0; lra.
    have [Gu1 [Gu2 [Eu1 [Eu2 Hgu]]]] := Du2 Hdu. have [Gd1 [Gd2 [Ed1 [Ed2 Hgd]]]] := Dd2 Hdd.
    rewrite /update_both Eu1. cbn [obind]. rewrite Ed1. cbn [obind]. rewrite Eu2. cbn [obind]. rewrite Ed2. cbn [obind fst snd].
    rewrite (aset_flipped H2 Hl (ltn_ord i)). cbn [obind]. eexists. split => //. split; first reflexivity.
    split; first by constructor => //=; apply: flipped_ok.
    do 5 (split; first by []). split; first by left.
    move=> expV l' Hl' [->|->] /=; [exact: F2|exact: F4].
  - eexists. split => //. split; first reflexivity. split; first by constructor.
    do 5 (split; first by []). split; first by right. by [].
Qed.

Hypothesis HU : forall expV s l, expV = expVu st \/ expV = expVd st -> field_ok n L s -> (l < L)%N -> SM expV s l \in unitmx.

Lemma wgt_slice l s : field_ok n L s -> (l <= L)%N -> wgt l s = wgt 0 s.
Proof.
  move=> Hs Hl. rewrite /wgt. congr (_ * _); apply: det_cyclic => // j Hj; apply: HU => //; [by left|by right].
Qed.

(** the loop over the sites runs the Metropolis chain *)
Lemma hs_loop l rest pre m : (l < L)%N -> site_ok l.+1 m ->
  mc_order m = List.app pre rest -> List.Forall (fun i => (0 <= i < Zn n)%Z) rest ->
  exists m', for_from (List.length rest) (Zn (List.length pre))
               (fun j m => let* i := aget (mc_order m) j in hs_site rng junk k st (Zn l) i m) m = Some m' /\
    metropolis_sites rng n (wgt 0) l rest (mc_seed m) (mc_s m) = Some (mc_seed m', mc_s m') /\
    site_ok l.+1 m' /\ mc_order m' = mc_order m /\ mc_tu m' = mc_tu m /\ mc_td m' = mc_td m /\ mc_meas m' = mc_meas m /\
    forall expV l', l' <> l -> expV = expVu st \/ expV = expVd st -> SM expV (mc_s m') l' = SM expV (mc_s m) l'.
Proof.
  move=> Hl. elim: rest pre m => [|i rest IH] pre m Hm Ho Hr; first by exists m.
  move/List.Forall_cons_iff: Hr => [Hi Hr].
  have Hi' : (Z.to_nat i < n)%N by apply/ltP; lia.
  have Ei : Zn (Ordinal Hi') = i by rewrite /= Z2Nat.id //; lia.
  have [u [seed [m1 [Eu [Es [Hm1 [S1 [S2 [S3 [S4 [S5 [Hcase Hother]]]]]]]]]]]] := hs_site_ok (Ordinal Hi') Hl Hm.
  rewrite Ei in Es. rewrite /=.
  have -> : aget (mc_order m) (Zn (List.length pre)) = Some i.
  { rewrite Ho (@aget_list _ _ _ 0%Z); last by rewrite List.app_length /=; lia. by rewrite List.nth_middle. }
  cbn [obind]. rewrite Es. cbn [obind].
  have [|m' [F1 [F2 [F3 [F4 [F5 [F6 [F7 F8]]]]]]]] := IH (List.app pre [:: i]) m1 Hm1 _ Hr.
  { by rewrite S2 Ho -List.app_assoc. }
  have Ep : (Zn (List.length pre) + 1 = Zn (List.length (List.app pre [:: i])))%Z by rewrite List.app_length /=; lia.
  rewrite Ep. exists m'. split => //. rewrite Eu. cbn [obind]. split; last first.
  - split => //. rewrite F4 F5 F6 F7. do 4 (split => //). move=> expV l' Hl' HV. by rewrite F8 // Hother.
  - have Hf := si_field Hm. have Hf' := @flipped_ok _ _ _ Hf l _ Hl Hi'.
    rewrite (wgt_slice Hf) // (wgt_slice Hf') // in Hcase.
    rewrite -F2 S1. case: Rlt_dec => Hacc; case: Hcase => [[Ha ->]|[Ha [-> _]]] //.
Qed.

Lemma hs_sites_ok l m : (l < L)%N -> site_ok l.+1 m -> List.length (mc_order m) = n ->
  exists r r', hs_sites rng junk k st (Zn l) m = Some r /\
    metropolis_slice rng n (wgt 0) (Zn l) (mc_seed m, mc_order m, mc_s m) = Some r' /\
    match r, r' with
    | None, None => True
    | Some m', Some c => c = (mc_seed m', mc_order m', mc_s m') /\
        site_ok l.+1 m' /\ List.length (mc_order m') = n /\ mc_tu m' = mc_tu m /\ mc_td m' = mc_td m /\ mc_meas m' = mc_meas m /\
        forall expV l', l' <> l -> expV = expVu st \/ expV = expVd st -> SM expV (mc_s m') l' = SM expV (mc_s m) l'
    | _, _ => False
    end.
Proof.
  move=> Hl Hm Ho. rewrite /hs_sites /metropolis_slice (si_N Hm).
  have [sh [-> Hsh]] := ro_shuffle RO (si_seed Hm) Ho. cbn [obind].
  case: sh Hsh => [[seed order]|] Hsh; last by exists None, None.
  have [Hseed Hperm] := Hsh _ _ erefl.
  set m1 := mk_mc _ _ _ _ _ _ _ _.
  have Hm1 : site_ok l.+1 m1 by case: Hm => H1 H2 H3 H4 H5; constructor.
  have Hlen : List.length order = n.
  { rewrite (Permutation_length Hperm) List.map_length List.seq_length. by []. }
  have Hin : List.Forall (fun i => (0 <= i < Zn n)%Z) order.
  { apply/List.Forall_forall => x Hx. have := Permutation_in _ Hperm Hx. rewrite List.in_map_iff => [[y [<- Hy]]].
    move/List.in_seq: Hy. lia. }
  have [m' [F1 [F2 [F3 [F4 [F5 [F6 [F7 F8]]]]]]]] := @hs_loop l order nil m1 Hl Hm1 erefl Hin.
  rewrite /for_range. have -> : Z.to_nat (Zn n - 0) = List.length order by rewrite Hlen; lia.
  rewrite Hlen in F1 *. rewrite F1. cbn [obind]. rewrite Nat2Z.id F2. cbn [obind].
  do 2 eexists. split; first reflexivity. split; first reflexivity. cbn [fst snd]. split; first by rewrite F4.
  split => //. split; first by rewrite F4. by [].
Qed.

(** the state between two slices *)
Record slice_ok (MI : MT -> Prop) (l : nat) (m : mcstate RS MT) : Prop := {
  sl_site : site_ok l m;
  sl_order : List.length (mc_order m) = n;
  sl_tu : tsm_sync L b (SM (expVu st) (mc_s m)) (mc_tu m) l;
  sl_td : tsm_sync L b (SM (expVd st) (mc_s m)) (mc_td m) l;
  sl_meas : MI (mc_meas m) }.

Lemma wrap_one (M : nat -> 'M[R]_n) t l G : (l < L)%N -> tsm_sync L b M t l -> green_of (cyclic_flow M L l) G ->
  exists B iB g, aget (ts_B t) (Zn l) = Some B /\ aget (ts_invB t) (Zn l) = Some iB /\
    slice_wrap junk (Zn n) B iB (gf_mat G) = Some g /\
    green_of (cyclic_flow M L l.+1) (mk_greens g (gf_logdet G) (gf_sgndet G) (gf_N G)).
Proof.
  move=> Hl [H1 [H2 _]] HG. case: (H1) => _ _ _ _ _ [HB1 HB2] [HI1 HI2] _.
  have HlB : (l < List.length (ts_B t))%coq_nat by rewrite HB1; apply/ltP.
  have HlI : (l < List.length (ts_invB t))%coq_nat by rewrite HI1; apply/ltP.
  rewrite (@aget_list _ _ _ nil) // (@aget_list _ (ts_invB t) _ nil) //.
  have [E1 [E2 E3]] := H2 l Hl.
  have [||g [Ew [Hg Eg]]] := @slice_wrap_ok junk n (List.nth l (ts_B t) nil) (List.nth l (ts_invB t) nil) _ _ _ (square_len (go_len HG)).
  - apply: square_len. exact: (@Forall_nth_ok _ _ _ _ nil HB2).
  - apply: square_len. exact: (@Forall_nth_ok _ _ _ _ nil HI2).
  do 2 eexists. exists g. do 2 (split; first reflexivity). split => //. have [C1 C2] := cyclic_next M Hl.
  case: HG => G1 G2 G3 G4 G5.
  rewrite C1 in G3. have [W1 W2] := wrap_green E2 G3. rewrite -C2 in W1.
  have Eg' : mat n g = M l *m mat n (gf_mat G) *m mat_at n (ts_invB t) l by rewrite Eg -E1 /TimeStepSpec.mat_at !nthE.
  constructor => //=.
  - exact: len_square.
  - by rewrite Eg'.
  - rewrite G5 Eg' !det_mulmx mulrAC -det_mulmx E3 det1 mul1r. by [].
Qed.

Lemma wrap_both_ok MI l m : (l < L)%N -> slice_ok MI l m ->
  exists m', wrap_both junk (Zn l) m = Some m' /\ site_ok l.+1 m' /\
    mc_seed m' = mc_seed m /\ mc_order m' = mc_order m /\ mc_s m' = mc_s m /\
    mc_tu m' = mc_tu m /\ mc_td m' = mc_td m /\ mc_meas m' = mc_meas m.
Proof.
  move=> Hl [[H1 H2 H3 H4 H5] Ho Hu Hd HM]. rewrite /wrap_both H3.
  have [B [iB [g [-> [-> [Eg Hg]]]]]] := wrap_one Hl Hu H4. cbn [obind]. rewrite Eg. cbn [obind].
  have [B' [iB' [g' [-> [-> [Eg' Hg']]]]]] := wrap_one Hl Hd H5. cbn [obind]. rewrite Eg'. cbn [obind].
  eexists. split; first reflexivity. split; first by constructor. by [].
Qed.

(** Green's function recomputed from the time step matrices *)
Lemma construct_one (M : nat -> 'M[R]_n) t l G nw : (0 < n)%N -> (l < L)%N -> (b %| nw)%N -> (nw %| l.+1)%N ->
  tsm_sync L b M t l.+1 -> green_of (cyclic_flow M L l.+1) G ->
  exists G', green_construct la junk t (Zn (l.+1 %% L)) G = Some G' /\ green_of (cyclic_flow M L l.+1) G'.
Proof.
  move=> Hn Hl Hb Hnw Ht HG. have Hb' := dvdn_trans Hb Hnw.
  have Hh := sync_holds Hb' Ht.
  have HbL : (b %| L)%N.
  { case: Ht => [[_ _ _ _ Hnum _ _ _] _]. apply/dvdnP. exists (Z.to_nat (ts_numBprod t)). rewrite -multE. nia. }
  have Hp : tsm_products L b M t by case: Hh => h1 [h2 h3]; split.
  have HL : (0 < L)%N by apply: leq_ltn_trans Hl.
  have EC : cyclic_flow M L (l.+1 %% L) = cyclic_flow M L l.+1.
  { move: Hl. rewrite leq_eqVlt => /orP [/eqP ->|Hlt]; first by rewrite modnn cyclic_end. by rewrite modn_small. }
  have Hmod : (b %| l.+1 %% L)%N.
  { move: (Hl). rewrite leq_eqVlt => /orP [/eqP ->|Hlt]; first by rewrite modnn dvdn0. by rewrite modn_small. }
  case/dvdnP: Hmod => q Eq.
  have Eqq : ((q * b) %% L = q * b)%N by rewrite -Eq modn_mod.
  have HA : \det (1%:M + cyclic_flow M L ((q * b) %% L)) <> 0 by rewrite Eqq -Eq EC; exact: green_nz HG.
  have [G' [E [H1 [H2 [H3 [H4 H5]]]]]] := green_construct_ok LA junk Hn Hp (square_len (go_len HG)) HA.
  exists G'. rewrite Eq. split => //. rewrite Eqq -Eq EC in H3. constructor => //.
  - rewrite H2. exact: go_N HG.
  - exact: len_square.
Qed.

Lemma cmodE a c : (0 < c)%N -> cmod (Zn a) (Zn c) = Some (Zn (a %% c)).
Proof.
  move=> Hc. rewrite /cmod. have -> : (Zn c =? 0)%Z = false by apply/Z.eqb_neq; move/ltP: Hc; lia.
  congr Some. rewrite Z.rem_mod_nonneg; [|lia|by move/ltP: Hc; lia].
  rewrite {1}(divn_eq a c) -plusE -multE Nat2Z.inj_add Nat2Z.inj_mul Z.add_comm Z_mod_plus_full Z.mod_small //.
  have /ltP := ltn_pmod a Hc. lia.
Qed.

Lemma recompute_ok MI nw l m : (0 < n)%N -> (l < L)%N -> (0 < nw)%N -> (b %| nw)%N -> slice_ok MI l.+1 m ->
  exists m', recompute_both la junk (Zn nw) (Zn l) m = Some m' /\ slice_ok MI l.+1 m' /\
    mc_seed m' = mc_seed m /\ mc_order m' = mc_order m /\ mc_s m' = mc_s m /\ mc_tu m' = mc_tu m /\ mc_td m' = mc_td m /\
    mc_meas m' = mc_meas m.
Proof.
  move=> Hn Hl Hnw Hb Hm. rewrite /recompute_both.
  have -> : (Zn l + 1 = Zn l.+1)%Z by lia. rewrite cmodE //. cbn [obind].
  case: Z.eqb_spec => Er; last by exists m.
  have Hdiv : (nw %| l.+1)%N by apply/eqP; lia.
  case: (Hm) => [[H1 H2 H3 H4 H5] Ho Hu Hd HM].
  have -> : ts_L (mc_tu m) = Zn L by case: Hu => [[]].
  rewrite cmodE; last exact: leq_ltn_trans Hl. cbn [obind].
  have [Gu [-> HGu]] := construct_one Hn Hl Hb Hdiv Hu H4. cbn [obind].
  have [Gd [-> HGd]] := construct_one Hn Hl Hb Hdiv Hd H5. cbn [obind].
  eexists. split; first reflexivity. split; last by []. constructor => //.
Qed.

Lemma measure_slice_ok measure MI neqlt l m : measure_ok n measure MI -> slice_ok MI l m ->
  forall l' : nat, exists m', measure_slice measure neqlt (Zn l') m = Some m' /\ slice_ok MI l m' /\
    mc_seed m' = mc_seed m /\ mc_order m' = mc_order m /\ mc_s m' = mc_s m.
Proof.
  move=> Hme Hm l'. rewrite /measure_slice. case: Z.ltb_spec => Hpos; last by exists m.
  rewrite /cmod. have -> : (neqlt =? 0)%Z = false by apply/Z.eqb_neq; lia. cbn [obind].
  case: Z.eqb_spec => _; last by exists m.
  case: (Hm) => [[H1 H2 H3 H4 H5] Ho Hu Hd HM].
  have [d' [-> Hd']] := Hme _ _ _ _ _ H4 H5 HM. cbn [obind].
  eexists. split; first reflexivity. split; last by []. constructor => //.
Qed.
End HS.

(** the field alone *)
Lemma step_unit n L k expV s l : kinetic_ok n k -> expV_ok (k_Norb k) expV -> field_ok n L s -> (l < L)%N ->
  step_mx n k expV s l \in unitmx.
Proof.
  move=> KO VO FO Hl. have [B [_ [_ H]]] := compute_inv_step_ok KO VO FO Hl (fresh_square (fun _ => R0) n).
  by case/mulmx1_unit: H.
Qed.

Lemma phonon_step_unit n L k expV s expX l : kinetic_ok n k -> expV_ok (k_Norb k) expV -> field_ok n L s ->
  List.length expX = (L * n)%N -> List.Forall (fun x => x <> R0) expX -> (l < L)%N ->
  phonon_step_mx n k expV s expX l \in unitmx.
Proof.
  move=> KO VO FO XO XP Hl. have [B [_ [_ H]]] := compute_inv_phonon_step_ok KO VO FO XO XP Hl (fresh_square (fun _ => R0) n).
  by case/mulmx1_unit: H.
Qed.

Section Iter.
Context {RS MT : Type}.
Variables (rng : rand_source RS) (valid : RS -> Prop).
Hypothesis RO : rand_ok rng valid.
Variables (la : lapack) (LA : lapack_ok la) (junk : Z -> R).
Variables (measure : greens_func -> greens_func -> MT -> option MT) (MI : MT -> Prop).
Variables (n L b : nat) (k : kinetic) (st : strat).
Hypotheses (Hn : (0 < n)%N) (KO : kinetic_ok n k) (SO : strat_ok (k_Norb k) st) (HM : measure_ok n measure MI).

Let SM := step_mx n k.
Notation slice_ok := (@slice_ok RS MT valid n L b st SM MI).

Lemma SM_unit expV s l : expV = expVu st \/ expV = expVd st -> field_ok n L s -> (l < L)%N -> SM expV s l \in unitmx.
Proof. case=> -> Hs Hl; apply: step_unit Hs Hl => //; [exact: so_u SO|exact: so_d SO]. Qed.

Lemma update_tsms_ok l (m m' : mcstate RS MT) : (l < L)%N ->
  tsm_sync L b (SM (expVu st) (mc_s m)) (mc_tu m) l -> tsm_sync L b (SM (expVd st) (mc_s m)) (mc_td m) l ->
  site_ok valid L st SM l.+1 m' -> List.length (mc_order m') = n -> mc_tu m' = mc_tu m -> mc_td m' = mc_td m -> MI (mc_meas m') ->
  (forall expV l', l' <> l -> expV = expVu st \/ expV = expVd st -> SM expV (mc_s m') l' = SM expV (mc_s m) l') ->
  exists m2, update_tsms junk k st (Zn l) m' = Some m2 /\ slice_ok l.+1 m2 /\
    mc_seed m2 = mc_seed m' /\ mc_order m2 = mc_order m' /\ mc_s m2 = mc_s m' /\ mc_meas m2 = mc_meas m'.
Proof.
  move=> Hl Hu Hd Hm Ho Eu Ed HMe HS. rewrite /update_tsms Eu Ed. case: Hm => S1 S2 S3 S4 S5.
  have [tu [-> Uu]] := update_tsm_ok junk KO (so_u SO) S2 (proj1 Hu) Hl. cbn [obind].
  have [td [-> Ud]] := update_tsm_ok junk KO (so_d SO) S2 (proj1 Hd) Hl. cbn [obind].
  have Hu' : tsm_sync L b (SM (expVu st) (mc_s m')) tu l.+1.
  { apply: (sync_update Hl Hu) Uu => l' Hl' _. apply: HS => //. by left. }
  have Hd' : tsm_sync L b (SM (expVd st) (mc_s m')) td l.+1.
  { apply: (sync_update Hl Hd) Ud => l' Hl' _. apply: HS => //. by right. }
  eexists. split; first reflexivity. split; last by []. constructor => //. constructor => //=. by case: Hu' => [[]].
Qed.

Lemma dqmc_slice_ok nw neqlt l m : (0 < nw)%N -> (b %| nw)%N -> (l < L)%N -> slice_ok l m ->
  exists r r', dqmc_slice rng measure la junk k st (Zn nw) neqlt (Zn l) m = Some r /\
    metropolis_slice rng n (wgt L st SM 0) (Zn l) (mc_seed m, mc_order m, mc_s m) = Some r' /\
    match r, r' with
    | None, None => True
    | Some m', Some c => c = (mc_seed m', mc_order m', mc_s m') /\ slice_ok l.+1 m'
    | _, _ => False
    end.
Proof.
  move=> Hnw Hb Hl Hm. rewrite /dqmc_slice.
  have [m1 [-> [W1 [W2 [W3 [W4 [W5 [W6 W7]]]]]]]] := wrap_both_ok junk Hl Hm. cbn [obind].
  have Ho : List.length (mc_order m1) = n by rewrite W3; case: Hm.
  have [r [r' [-> [Er' Hr]]]] := hs_sites_ok RO junk KO SO (@step_flips n L k) SM_unit Hl W1 Ho. cbn [obind].
  rewrite W2 W3 W4 in Er'. rewrite Er'. clear Er'.
  case: r r' Hr => [m2|] [c|] //; last by move=> _; exists None, None.
  move=> [Ec [F1 [F2 [F3 [F4 [F5 F6]]]]]].
  case: (Hm) => _ _ Hu Hd HMe.
  have [||||m3 [-> [U1 [U2 [U3 [U4 U5]]]]]] := @update_tsms_ok l m m2 Hl Hu Hd F1 F2.
  - by rewrite F3.
  - by rewrite F4.
  - by rewrite F5 W7.
  - move=> expV l' Hl' HV. by rewrite /SM F6 // W4.
  cbn [obind].
  have [m4 [-> [V1 [V2 [V3 [V4 [V5 [V6 V7]]]]]]]] := recompute_ok LA junk Hn Hl Hnw Hb U1. cbn [obind].
  have [m5 [-> [X1 [X2 [X3 X4]]]]] := @measure_slice_ok _ _ _ _ _ _ _ _ measure MI neqlt l.+1 m4 HM V1 l. cbn [obind].
  do 2 eexists. split; first reflexivity. split; first reflexivity. split => //.
  by rewrite Ec X2 X3 X4 V2 V3 V4 U2 U3 U4.
Qed.

Lemma wgt_weight s : wgt L st SM 0 s = weight n L k st s.
Proof. by []. Qed.

Lemma consistent_slice m : mc_consistent valid MI n L b k st m -> slice_ok 0 m.
Proof.
  case=> H1 H2 H3 H4 H5 H6 H7 H8. constructor => //; [constructor => //|exact: holds_sync|exact: holds_sync].
  by case: H4 => [[]].
Qed.

Lemma slice_consistent m : slice_ok L m -> mc_consistent valid MI n L b k st m.
Proof.
  case=> [[H1 H2 H3 H4 H5] H6 H7 H8 H9].
  have HbL : (b %| L)%N.
  { case: H7 => [[_ _ _ _ Hnum _ _ _] _]. apply/dvdnP. exists (Z.to_nat (ts_numBprod (mc_tu m))). rewrite -multE. nia. }
  rewrite !cyclic_end in H4 H5. constructor => //; exact: sync_holds HbL _.
Qed.

Lemma dqmc_iteration_ok nw neqlt m : (0 < nw)%N -> (b %| nw)%N -> mc_consistent valid MI n L b k st m ->
  exists r r', dqmc_iteration rng measure la junk k st (Zn nw) neqlt m = Some r /\
    metropolis_sweep rng n (weight n L k st) L (mc_seed m, mc_order m, mc_s m) = Some r' /\
    match r, r' with
    | None, None => True
    | Some m', Some c => c = (mc_seed m', mc_order m', mc_s m') /\ mc_consistent valid MI n L b k st m'
    | _, _ => False
    end.
Proof.
  move=> Hnw Hb Hm. rewrite /dqmc_iteration /metropolis_sweep.
  have -> : ts_L (mc_tu m) = Zn L by case: (mcc_tu Hm) => [[]].
  pose Rel (l : Z) (o : option (mcstate RS MT)) (o' : option (RS * list Z * list Z)) :=
    match o, o' with
    | None, None => True
    | Some m', Some c => c = (mc_seed m', mc_order m', mc_s m') /\ slice_ok (Z.to_nat l) m'
    | _, _ => False
    end.
  have [|||r [r' [E1 [E2 HR]]]] := @for_range_sim _ _ Rel 0%Z (Zn L)
    (fun l => may_hang (dqmc_slice rng measure la junk k st (Zn nw) neqlt l))
    (fun l => may_hang (metropolis_slice rng n (weight n L k st) l)) (Some m) (Some (mc_seed m, mc_order m, mc_s m)).
  - lia.
  - move=> l o o' Hl. case: o o' => [m1|] [c|] //=; last by move=> _; exists None, None.
    move=> [-> Hm1]. have Hl' : (Z.to_nat l < L)%N by apply/ltP; lia.
    have [r [r' [E1 [E2 HR]]]] := dqmc_slice_ok neqlt Hnw Hb Hl' Hm1.
    rewrite Z2Nat.id in E1 E2; last lia. exists r, r'. do 2 (split => //).
    rewrite /Rel. have -> : Z.to_nat (l + 1) = (Z.to_nat l).+1 by lia. by [].
  - split => //. exact: consistent_slice.
  exists r, r'. do 2 (split => //). case: r r' HR {E1 E2} => [m1|] [c|] //= [-> H]. rewrite Nat2Z.id in H.
  split => //. exact: slice_consistent.
Qed.

Lemma dqmc_sweeps_ok nw neqlt count m : (0 < nw)%N -> (b %| nw)%N -> mc_consistent valid MI n L b k st m ->
  exists r r', dqmc_sweeps rng measure la junk k st (Zn nw) neqlt (Zn count) m = Some r /\
    for_range 0 (Zn count) (fun _ => may_hang (metropolis_sweep rng n (weight n L k st) L)) (Some (mc_seed m, mc_order m, mc_s m)) = Some r' /\
    match r, r' with
    | None, None => True
    | Some m', Some c => c = (mc_seed m', mc_order m', mc_s m') /\ mc_consistent valid MI n L b k st m'
    | _, _ => False
    end.
Proof.
  move=> Hnw Hb Hm. rewrite /dqmc_sweeps.
  pose Rel (_ : Z) (o : option (mcstate RS MT)) (o' : option (RS * list Z * list Z)) :=
    match o, o' with
    | None, None => True
    | Some m', Some c => c = (mc_seed m', mc_order m', mc_s m') /\ mc_consistent valid MI n L b k st m'
    | _, _ => False
    end.
  apply: (@for_range_sim _ _ Rel) => //; first lia.
  move=> l o o' Hl. case: o o' => [m1|] [c|] //=; last by move=> _; exists None, None.
  move=> [-> Hm1]. exact: dqmc_iteration_ok.
Qed.

Lemma dqmc_setup_ok q seed order s d : L = (q * b)%N -> (0 < L)%N -> valid seed -> List.length order = n ->
  field_ok n L s -> MI d -> weight n L k st s <> 0 ->
  exists m, dqmc_setup la junk k st (Zn n) (Zn L) (Zn b) seed order s d = Some m /\
    mc_consistent valid MI n L b k st m /\ mc_s m = s /\ mc_seed m = seed /\ mc_meas m = d.
Proof.
  move=> EL HL Hs Ho Hf Hd Hw. rewrite /dqmc_setup.
  have [t [Et Ht]] := allocate_ok junk n EL HL. rewrite Et. cbn [obind].
  have [tu [-> Hu]] := init_tsm_ok junk KO (so_u SO) Hf Ht. cbn [obind].
  have [td [-> Hdn]] := init_tsm_ok junk KO (so_d SO) Hf Ht. cbn [obind].
  have Pu : tsm_products L b (SM (expVu st) s) tu by case: Hu => h1 [h2 h3]; split.
  have Pd : tsm_products L b (SM (expVd st) s) td by case: Hdn => h1 [h2 h3]; split.
  have HA : square n (gf_mat (allocate_greens junk (Zn n))) by exact: fresh_square.
  have [Wu Wd] : \det (1%:M + cyclic_flow (SM (expVu st) s) L 0) <> 0 /\ \det (1%:M + cyclic_flow (SM (expVd st) s) L 0) <> 0.
  { split=> E; apply: Hw; rewrite /weight -/SM E; [exact: mul0r|exact: mulr0]. }
  have E0 : ((0 * b) %% L = 0)%N by rewrite mul0n mod0n.
  have [|Gu [E [U1 [U2 [U3 [U4 U5]]]]]] := @green_construct_ok la LA junk n L b _ tu 0 _ Hn Pu HA; first by rewrite E0.
  rewrite mul0n in E. change (Zn 0) with 0%Z in E. rewrite E. cbn [obind]. clear E.
  have [|Gd [E [D1 [D2 [D3 [D4 D5]]]]]] := @green_construct_ok la LA junk n L b _ td 0 _ Hn Pd HA; first by rewrite E0.
  rewrite mul0n in E. change (Zn 0) with 0%Z in E. rewrite E. cbn [obind]. clear E.
  rewrite E0 in U3 D3.
  eexists. split; first reflexivity. split; last by []. constructor => //=; constructor => //; try exact: len_square.
Qed.
End Iter.

(** the hypotheses on the random numbers and on the tables hold for the code's generator and tables *)
Lemma xorshift_ok fuel : rand_ok (xorshift_source fuel) valid_seed.
Proof.
  constructor => /=.
  - move=> sd m sq V Hl. rewrite shuffle_wait_ok //; last by rewrite Hl; lia.
    exists (shuffle fuel sd (Zn m) sq). split => // st' sq' E.
    rewrite -Hl. apply: shuffle_length E => //. by rewrite Hl.
  - move=> sd bound V [Hb1 Hb2]. rewrite Z.mod_small; last lia.
    rewrite bounded_wait_ok //; last lia. cbn [obind]. eexists. split; first reflexivity.
    move=> v st'. case E: (get_bounded _ _ _) => [[w st1]|] // [<- <-].
    have [H1 [H2 _]] := get_bounded_ok _ _ _ _ _ V E. split => //. lia.
  - move=> sd V. have [x [st' [E [[H1 H2] H3]]]] := get_uniform_ok _ V. by exists x, st'.
Qed.

Lemma fill_strat_ok Norb U dt jk st : (0 <= Norb)%Z -> Zn (List.length U) = Norb -> Zn (List.length jk) = Norb ->
  fill_stratonovich Norb U dt jk = Some st -> strat_ok Norb st.
Proof.
  move=> HN HU HJ E. have HT := fill_tables Norb U dt jk HN HU HJ st E.
  have [_ [vu0 [vu1 [vd0 [vd1 [d0 [d1 [Est [[L1 [L2 [L3 [L4 [L5 L6]]]]] _]]]]]]]]] := fill_ok Norb U dt jk HN HU HJ st E.
  have Hinv : forall o, (Zn o < Norb)%Z -> tab (expVu st) 0 (Zn o) * tab (expVu st) 1 (Zn o) = 1 /\
                                       tab (expVd st) 0 (Zn o) * tab (expVd st) 1 (Zn o) = 1.
  { move=> o Ho. have [|l [Hl [_ [-> [-> [-> [-> _]]]]]]] := HT (Zn o); first lia.
    have Hl0 : l <> R0 by lra. split; [exact: Rinv_l|exact: Rinv_r]. }
  have Htab : forall t v o, tab t v (Zn o) = nth R0 (nth nil t v) o by move=> t v o; rewrite tabE Nat2Z.id.
  have Hflip : forall l, Rlt R0 l -> l = (1 + (Rminus (Rmult l l) 1)) * Rinv l /\ Rinv l = (1 + (Rminus (Rmult (Rinv l) (Rinv l)) 1)) * l.
  { move=> l Hl. rewrite -!RplusE -!RmultE. split; rewrite /Rminus -Rplus_assoc (Rplus_comm 1) Rplus_assoc Rplus_opp_r Rplus_0_r.
    - by field; lra.
    - by field; lra. }
  constructor.
  - constructor; rewrite ?Est //=; first by repeat constructor. move=> o Ho. have [H _] := Hinv o Ho. by rewrite !Htab Est in H.
  - constructor; rewrite ?Est //=; first by repeat constructor. move=> o Ho. have [_ H] := Hinv o Ho. by rewrite !Htab Est in H.
  - by rewrite Est.
  - rewrite Est /=. by repeat constructor.
  - move=> v o Hv Ho. have [l [Hl [_ [E1 [E2 [E3 [E4 [E5 E6]]]]]]]] := HT o Ho.
    case: v Hv => [|[|//]] _; rewrite ?subn0 ?subnn E1 E2 ?E5 ?E6; have [F1 F2] := Hflip l Hl; [exact: F1|exact: F2].
  - move=> v o Hv Ho. have [l [Hl [_ [E1 [E2 [E3 [E4 [E5 E6]]]]]]]] := HT o Ho.
    case: v Hv => [|[|//]] _; rewrite ?subn0 ?subnn E3 E4 ?E5 ?E6; have [F1 F2] := Hflip l Hl; [exact: F2|exact: F1].
Qed.

Lemma flipped_twice n L s l i : field_ok n L s -> (l < L)%N -> (i < n)%N -> flipped n l i (flipped n l i s) = s.
Proof.
  move=> Hf Hl Hi. have Hlt := site_lt Hf Hl Hi. apply: (@List.nth_ext _ _ _ 0%Z 0%Z); first by rewrite /flipped !lset_length.
  move=> p Hp. rewrite /flipped !lset_length in Hp.
  rewrite {1}/flipped lset_nth_d; last by rewrite /flipped lset_length.
  case: Nat.eqb_spec => [<-|E].
  - rewrite /flipped lset_nth_d // Nat.eqb_refl. lia.
  - rewrite /flipped lset_nth_d //. by case: Nat.eqb_spec.
Qed.

Lemma balance a c : Rlt R0 a -> Rlt R0 c -> Rmult (Rmin 1 (Rdiv c a)) a = Rmult (Rmin 1 (Rdiv a c)) c.
Proof.
  move=> Ha Hc. have Ea : Rdiv c a = Rmult c (Rinv a) by []. have Ia := Rinv_0_lt_compat _ Ha. have Ic := Rinv_0_lt_compat _ Hc.
  have E1 : Rmult (Rdiv c a) a = c by rewrite /Rdiv Rmult_assoc Rinv_l; lra.
  have E2 : Rmult (Rdiv a c) c = a by rewrite /Rdiv Rmult_assoc Rinv_l; lra.
  rewrite /Rmin. case: Rle_dec => h1; case: Rle_dec => h2 /=; rewrite ?Rmult_1_l ?E1 ?E2 //.
  - have : Rle (Rmult 1 a) (Rmult (Rdiv c a) a) by apply: Rmult_le_compat_r; lra.
    have : Rle (Rmult 1 c) (Rmult (Rdiv a c) c) by apply: Rmult_le_compat_r; lra.
    rewrite E1 E2. lra.
  - have : Rlt (Rmult (Rdiv c a) a) (Rmult 1 a) by apply: Rmult_lt_compat_r; lra.
    have : Rlt (Rmult (Rdiv a c) c) (Rmult 1 c) by apply: Rmult_lt_compat_r; lra.
    rewrite E1 E2. lra.
Qed.

Lemma hs_site_weight (RS MT : Type) (rng : rand_source RS) valid junk n L k st l i (m : mcstate RS MT) :
  rand_ok rng valid -> kinetic_ok n k -> strat_ok (k_Norb k) st -> (l < L)%N -> (i < n)%N ->
  valid (mc_seed m) -> field_ok n L (mc_s m) -> ts_N (mc_tu m) = Zn n ->
  let flow expV s := cyclic_flow (step_mx n k expV s) L l.+1 in
  green_of (flow (expVu st) (mc_s m)) (mc_Gu m) -> green_of (flow (expVd st) (mc_s m)) (mc_Gd m) ->
  exists m', hs_site rng junk k st (Zn l) (Zn i) m = Some m' /\
    green_of (flow (expVu st) (mc_s m')) (mc_Gu m') /\ green_of (flow (expVd st) (mc_s m')) (mc_Gd m') /\
    field_ok n L (mc_s m') /\ weight n L k st (mc_s m') <> 0 /\
    (weight n L k st (flipped n l i (mc_s m)) = 0 -> mc_s m' = mc_s m).
Proof.
  move=> RO KO SO Hl Hi Hv Hf HN flow Hu Hd.
  have Hm : site_ok valid L st (step_mx n k) l.+1 m by [].
  have [u [seed [m1 [Eu [Es [Hm1 [S1 [S2 [S3 [S4 [S5 [Hcase Hother]]]]]]]]]]]] :=
    hs_site_ok RO junk KO SO (@step_flips n L k) (Ordinal Hi) Hl Hm.
  have [u' [sd' [Eu' [Hu0 _]]]] := ro_uniform RO Hv. have Euu : u' = u by move: Eu'; rewrite Eu => -[].
  rewrite Euu in Hu0.
  have HW : forall s, field_ok n L s -> wgt L st (step_mx n k) l.+1 s = weight n L k st s.
  { move=> s Hs. rewrite (wgt_slice (SM_unit KO SO) Hs) //. }
  exists m1. split => //. case: (Hm1) => T1 T2 T3 T4 T5. do 3 (split => //). split.
  - rewrite -HW //. have N1 := green_nz T4. have N2 := green_nz T5. rewrite /wgt => E.
    move/eqP: E. by rewrite mulf_eq0 => /orP [/eqP|/eqP].
  - move=> E0. case: Hcase => [[Ha _]|[_ [-> //]]]. exfalso. move: Ha.
    rewrite HW; last exact: (flipped_ok Hf). rewrite E0 Rabs_R0 /Rdiv Rmult_0_l. lra.
Qed.

(** a class of 2 x 2 matrices with non-zero weight, used in examples *)
Definition pos2 (A : 'M[R]_2) : Prop := (forall i j, Rle R0 (A i j)) /\ Rlt R0 (\det A).

Lemma det2 (A : 'M[R]_2) : \det A = Rminus (Rmult (A ord0 ord0) (A ord_max ord_max)) (Rmult (A ord0 ord_max) (A ord_max ord0)).
Proof.
  rewrite (expand_det_row _ ord0) !big_ord_recl big_ord0 /cofactor !det_mx11 !mxE /=.
  have E1 : lift ord0 ord0 = ord_max :> 'I_2 by apply: val_inj.
  have E2 : lift ord_max ord0 = ord0 :> 'I_2 by apply: val_inj.
  rewrite !E1 !E2 /= /bump /= expr0 expr1 addr0 mul1r mulN1r -!RplusE -!RmultE -!RoppE. lra.
Qed.

Lemma pos_det2 (A : 'M[R]_2) : pos2 A -> \det (1%:M + A) <> 0.
Proof.
  move=> [H1 H2]. move: H2 (H1 ord0 ord0) (H1 ord_max ord_max). rewrite !det2 !mxE.
  move: (A ord0 ord0) (A ord_max ord_max) (A ord0 ord_max) (A ord_max ord0) => a d p q /=.
  rewrite !mulr0n !mulr1n -!RplusE -?R0E -?R1E => Hdet Ha Hd E. nra.
Qed.

Lemma pos2_mul A B : pos2 A -> pos2 B -> pos2 (A *m B).
Proof.
  move=> [A1 A2] [B1 B2]. split; last by rewrite det_mulmx -RmultE; apply: Rmult_lt_0_compat.
  move=> i j. rewrite !mxE !big_ord_recl big_ord0 -!RplusE -!RmultE -?R0E.
  have H1 := Rmult_le_pos _ _ (A1 i ord0) (B1 ord0 j). have H2 := Rmult_le_pos _ _ (A1 i (lift ord0 ord0)) (B1 (lift ord0 ord0) j).
  rewrite Rplus_0_r. exact: Rplus_le_le_0_compat.
Qed.

Lemma pos2_oprod (M : nat -> 'M[R]_2) lo len : (forall j, (j < len)%N -> pos2 (M (lo + j)%N)) -> pos2 (oprod M lo len).
Proof.
  elim: len lo => [|len IH] lo H.
  - rewrite oprod0. split; last by rewrite det1 -R1E; lra.
    move=> i j. rewrite mxE. case: eqP => _; rewrite ?mulr1n ?mulr0n -?R0E -?R1E; lra.
  - rewrite oprodSl. apply: pos2_mul.
    + apply: IH => j Hj. rewrite addSnnS. exact: H.
    + rewrite -[X in M X]addn0. exact: H.
Qed.

Lemma pos2_step k expV s l : (forall i : 'I_2, Rlt R0 (field_factor 2 (k_Ncell k) expV s l i)) ->
  pos2 (mat 2 (expK k)) -> pos2 (step_mx 2 k expV s l).
Proof.
  move=> HV HK. apply: pos2_mul => //. split.
  - move=> i j. rewrite !mxE. case: eqP => _; rewrite ?mulr1n ?mulr0n -?R0E; last lra. by have := HV i; lra.
  - rewrite det2 !mxE /= !mulr1n !mulr0n -?R0E. move: (Rmult_lt_0_compat _ _ (HV ord0) (HV ord_max)) => /=.
    set x := Rmult _ _. rewrite Rmult_0_l. lra.
Qed.
