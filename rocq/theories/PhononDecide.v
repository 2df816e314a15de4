(** Updates of the phonon field counted as accepted are those which moved the field. *)
From Coq Require Import ZArith List Reals Lia Lra.
From mathcomp Require Import all_ssreflect ssralg matrix.
From Verif Require Import Base BaseFacts RField RealOps SimParams MatSpec MatFacts TimeStep TimeStepSpec TimeStepFacts Strat StratSpec GreenSpec GreenFacts
  Lapack LapackSpec GreenConstruct RandSource Sweep SweepSpec SweepFacts PhononSweep PhononSpec PhononFieldFacts PhononLoopFacts PhononFacts PhononCountSpec PhononCountFacts.
Set Implicit Arguments.
Unset Strict Implicit.
Unset Printing Implicit Defensive.
Local Open Scope ring_scope.

Section Decide.
Context {RS MT PT : Type}.
Variables (rng : rand_source RS) (valid : RS -> Prop) (la : lapack) (junk : Z -> R).
Variables (n L : nat) (k : kinetic) (st : strat) (ph : phonon_params) (dt mu : R).
Hypotheses (RO : rand_ok rng valid) (Hn : (0 < n)%N) (Hn64 : (Z.of_nat n < 2^64)%Z) (KO : kinetic_ok n k) (PO : phonon_ok (k_Norb k) ph).

Lemma half : 0.5%coqR = (1/2)%coqR.
Proof. lra. Qed.

Lemma local_decides l i (p p' : phstate RS MT PT) : ts_N (mc_tu (p_mc p)) = Zn n -> List.length (p_X p) = (L * n)%N -> (l < L)%N -> (i < n)%N ->
  local_update rng junk k ph dt (Zn l) (Zn i) p = Some p' ->
  coupling k ph i = R0 /\ p_X p' = p_X p /\ p_cnt p' = p_cnt p \/
  coupling k ph i <> R0 /\ exists u seed, r_uniform rng (mc_seed (p_mc p)) = Some (u, seed) /\
    (p_X p' = shift_one n l i (Rmult (Rminus u (1/2)) (ph_local_box_width ph)) (p_X p) /\ p_cnt p' = count_local 1 1 (p_cnt p) \/
     p_X p' = p_X p /\ p_cnt p' = count_local 0 1 (p_cnt p)).
Proof.
  move=> EN HX Hl Hi. rewrite /local_update EN. rewrite (orb_ok KO Hi). cbn [obind]. rewrite (coupling_at KO PO Hi). cbn [obind].
  case: Req_EM_T => Hg; first by move=> [<-]; left. move=> H. right. split => //.
  binv H. case: a E H => u seed E H. exists u, seed. split => //. do 5 binv H. case: a3 E4 H => u' seed' _ H.
  rewrite half in H. destruct (Rlt_dec _ _).
  - binv H. rewrite (X_at HX Hl Hi) in H. cbn [obind] in H.
    rewrite posZ aset_list in H; last by rewrite HX; apply/ltP; exact: pos_lt. cbn [obind] in H. do 2 binv H. left. by case: H => <-.
  - right. by case: H => <-.
Qed.

Lemma decide_decides count i dE f Xi eXi X' eX' (q q' : @blkstate RS MT PT) : (i < n)%N -> List.length (p_X (b_p q)) = (L * n)%N ->
  X' = colset n L i f (p_X (b_p q)) -> List.length Xi = L -> (forall l, (l < L)%N -> nth R0 Xi l = nth R0 (p_X (b_p q)) (l * n + i)) ->
  block_decide rng la junk k st dt (Zn L) (Zn n) (Zn i) count dE Xi eXi X' eX' q = Some q' ->
  p_X (b_p q') = X' /\ p_cnt (b_p q') = count 1%Z 1%Z (p_cnt (b_p q)) \/
  p_X (b_p q') = p_X (b_p q) /\ p_cnt (b_p q') = count 0%Z 1%Z (p_cnt (b_p q)).
Proof.
  move=> Hi HX EX S1 S2 H. rewrite /block_decide in H. do 5 binv H. case: a3 E3 H => u seed _ H. destruct (Rlt_dec _ _).
  - do 4 binv H. left. by case: H => <-.
  - rewrite EX (restore_col_ok Hi HX f S1 S2) in H. cbn [obind] in H. binv H. right. by case: H => <-.
Qed.

Notation sizes q := (ts_N (mc_tu (p_mc (b_p q))) = Zn n /\ ts_L (mc_tu (p_mc (b_p q))) = Zn L /\
  List.length (p_X (b_p q)) = (L * n)%N /\ List.length (p_expX (b_p q)) = (L * n)%N /\ valid (mc_seed (p_mc (b_p q)))).

Lemma block_decides (q q' : @blkstate RS MT PT) : sizes q -> block_update rng la junk k st ph dt q = Some (Some q') ->
  exists (i : nat) seed, (i < n)%N /\ r_bounded rng (mc_seed (p_mc (b_p q))) (Zn n) = Some (Some (Zn i, seed)) /\
  (coupling k ph i = R0 /\ p_X (b_p q') = p_X (b_p q) /\ p_cnt (b_p q') = p_cnt (b_p q) \/
   coupling k ph i <> R0 /\ exists u seed', r_uniform rng seed = Some (u, seed') /\
    (p_X (b_p q') = shift_all n i (Rmult (Rminus u (1/2)) (ph_block_box_width ph)) (p_X (b_p q)) /\ p_cnt (b_p q') = count_block 1 1 (p_cnt (b_p q)) \/
     p_X (b_p q') = p_X (b_p q) /\ p_cnt (b_p q') = count_block 0 1 (p_cnt (b_p q)))).
Proof.
  move=> [EN [EL [HX [HeX Hv]]]]. rewrite /block_update EN EL. have [r [-> Hr]] := bounded_site RO Hn Hn64 Hv. cbn [obind].
  case: r Hr => [[v seed]|] Hr //. have [i [-> [Hi Hs]]] := Hr _ _ erefl. move=> H. exists i, seed. do 2 (split => //).
  rewrite (orb_ok KO Hi) in H. cbn [obind] in H. rewrite (coupling_at KO PO Hi) in H. cbn [obind] in H. move: H.
  case: Req_EM_T => Hg; first by move=> [<-]; left. move=> H. right. split => //.
  have [Xi [E1 [S1 S2]]] := save_col_ok junk Hi HX. rewrite E1 in H. cbn [obind] in H.
  binv H. binv H. case: a0 E0 H => u seed' Eu H. exists u, seed'. split => //. do 2 binv H. rewrite half in H.
  rewrite (block_shift_ok Hi HX) // in H. cbn [obind] in H. binv H. case: H => ?. subst a2.
  have := @decide_decides _ i _ (fun l => Rplus (nth R0 (p_X (b_p q)) (l * n + i)) (Rmult (Rminus u (1/2)) (ph_block_box_width ph))) Xi _ _ _ _ _ Hi _ _ S1 _ E3.
  rewrite shift_all_col //. by apply.
Qed.

Lemma flip_decides (q q' : @blkstate RS MT PT) : sizes q -> flip_update rng la junk k st ph dt mu q = Some (Some q') ->
  exists (i : nat) seed, (i < n)%N /\ r_bounded rng (mc_seed (p_mc (b_p q))) (Zn n) = Some (Some (Zn i, seed)) /\
  (coupling k ph i = R0 /\ p_X (b_p q') = p_X (b_p q) /\ p_cnt (b_p q') = p_cnt (b_p q) \/
   coupling k ph i <> R0 /\
    (p_X (b_p q') = reflect_all n i (Rdiv (Rmult 2 mu) (coupling k ph i)) (p_X (b_p q)) /\ p_cnt (b_p q') = count_flip 1 1 (p_cnt (b_p q)) \/
     p_X (b_p q') = p_X (b_p q) /\ p_cnt (b_p q') = count_flip 0 1 (p_cnt (b_p q)))).
Proof.
  move=> [EN [EL [HX [HeX Hv]]]]. rewrite /flip_update EN EL. have [r [-> Hr]] := bounded_site RO Hn Hn64 Hv. cbn [obind].
  case: r Hr => [[v seed]|] Hr //. have [i [-> [Hi Hs]]] := Hr _ _ erefl. move=> H. exists i, seed. do 2 (split => //).
  rewrite (orb_ok KO Hi) in H. cbn [obind] in H. rewrite (coupling_at KO PO Hi) in H. cbn [obind] in H. move: H.
  case: Req_EM_T => Hg; first by move=> [<-]; left. move=> H. right. split => //.
  have [Xi [E1 [S1 S2]]] := save_col_ok junk Hi HX. rewrite E1 in H. cbn [obind] in H. binv H.
  have E2 : rdiv (2 * mu)%coqR (coupling k ph i) = Some (Rdiv (Rmult 2 mu) (coupling k ph i)) by rewrite /rdiv; case: Req_EM_T.
  rewrite E2 in H. cbn [obind] in H. binv H.
  rewrite (flip_shift_ok Hi HX _ _ HeX _ _ S1 S2) in H. cbn [obind] in H. binv H. case: H => ?. subst a1.
  have := @decide_decides _ i _ (fun l => Rminus (Rdiv (Rmult 2 mu) (coupling k ph i)) (nth R0 (p_X (b_p q)) (l * n + i))) Xi _ _ _ _ _ Hi _ _ S1 _ E3.
  rewrite reflect_all_col //. by apply.
Qed.
End Decide.
