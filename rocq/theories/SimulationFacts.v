(** Proofs about complete simulations. *)
From Coq Require Import ZArith List Reals Lia Lra.
From mathcomp Require Import all_ssreflect ssralg matrix.
From Verif Require Import Base BaseFacts RField MatSpec MatFacts TimeStep TimeStepSpec Strat StratSpec GreenSpec GreenFacts Lapack LapackSpec
  GreenConstruct SimParams ParamParser RandSource Sweep SweepSpec SweepFacts SimulationSpec.
Set Implicit Arguments.
Unset Strict Implicit.
Unset Printing Implicit Defensive.
Local Open Scope ring_scope.
Import GRing.Theory.

(** * When measurements change the data *)
Section Pure.
Context {RS MT : Type}.
Variables (rng : rand_source RS) (measure : greens_func -> greens_func -> MT -> option MT) (la : lapack) (junk : Z -> R).

Lemma hs_site_meas k st l i (m m' : mcstate RS MT) : hs_site rng junk k st l i m = Some m' -> mc_meas m' = mc_meas m.
Proof.
  rewrite /hs_site. do 6!(move/obind_Some => [? [_]]). move/obind_Some => [[u sd] [_]].
  case: (Rlt_dec _ _) => _ /=; last by case=> <-.
  do 2!(move/obind_Some => [? [_]]). by case=> <-.
Qed.
Lemma hs_sites_meas k st l (m m' : mcstate RS MT) : (0 <= ts_N (mc_tu m))%Z ->
  hs_sites rng junk k st l m = Some (Some m') -> mc_meas m' = mc_meas m.
Proof.
  move=> HN. rewrite /hs_sites => /obind_Some [[[sd o]|] [_ //]] /obind_Some [m2 [E [<-]]]. move: E.
  pose I (_ : Z) (x : mcstate RS MT) := mc_meas x = mc_meas m.
  move=> E. have := @for_range_partial _ I _ _ _ _ _ HN _ _ E. apply; last by [].
  move=> i x x' _; rewrite /I => <- /obind_Some [j [_]]. exact: hs_site_meas.
Qed.
Lemma dqmc_slice_meas k st nw neqlt l (m m' : mcstate RS MT) : (0 <= ts_N (mc_tu m))%Z -> (0 <= l)%Z ->
  dqmc_slice rng measure la junk k st nw neqlt l m = Some (Some m') ->
  if due_at neqlt (l + 1) then measure (mc_Gu m') (mc_Gd m') (mc_meas m) = Some (mc_meas m') else mc_meas m' = mc_meas m.
Proof.
  move=> HN Hl. rewrite /dqmc_slice => /obind_Some [m1 [E1]].
  have [M1 N1] : mc_meas m1 = mc_meas m /\ mc_tu m1 = mc_tu m.
  { move: E1. rewrite /wrap_both. do 6!(move/obind_Some => [? [_]]). by case=> <-. }
  move=> /obind_Some [[m2|] [E2 //]] /obind_Some [m3 [E3]] /obind_Some [m4 [E4]] /obind_Some [m5 [E5 [<-]]].
  have M2 : mc_meas m2 = mc_meas m1 by apply: (hs_sites_meas _ E2); rewrite N1.
  have M3 : mc_meas m3 = mc_meas m2.
  { move: E3. rewrite /update_tsms. do 2!(move/obind_Some => [? [_]]). by case=> <-. }
  have M4 : mc_meas m4 = mc_meas m3.
  { move: E4. rewrite /recompute_both => /obind_Some [r [_]]. case: (r =? 0)%Z; last by case=> <-.
    do 3!(move/obind_Some => [? [_]]). by case=> <-. }
  move: E5. rewrite /measure_slice /due_at. case: Z.ltb_spec => Hp; last by case=> <-; rewrite M4 M3 M2.
  rewrite /cmod. have -> : (neqlt =? 0)%Z = false by apply/Z.eqb_neq; lia. cbn [obind andb].
  rewrite Z.rem_mod_nonneg; try lia. case: (_ =? 0)%Z; last by case=> <-; rewrite M4 M3 M2.
  move/obind_Some => [d [E [<-]]] /=. by rewrite -M1 -M2 -M3 -M4.
Qed.
End Pure.

(** data after measuring with a list of pairs of Green's functions *)
Definition measure_list (MT : Type) (measure : greens_func -> greens_func -> MT -> option MT) (gs : list (greens_func * greens_func)) (d : MT) : option MT :=
  List.fold_left (fun o g => obind o (fun d => measure (fst g) (snd g) d)) gs (Some d).
Lemma measure_list_snoc (MT : Type) measure gs g (d : MT) :
  measure_list measure (gs ++ [:: g]) d = obind (measure_list measure gs d) (fun d => measure (fst g) (snd g) d).
Proof. by rewrite /measure_list fold_left_app. Qed.

Section Chain.
Context {RS MT : Type}.
Variables (rng : rand_source RS) (valid : RS -> Prop).
Hypothesis RO : rand_ok rng valid.
Variables (la : lapack) (LA : lapack_ok la) (junk : Z -> R).
Variables (measure : greens_func -> greens_func -> MT -> option MT) (MI : MT -> Prop).
Variables (n L b : nat) (k : kinetic) (st : strat).
Hypotheses (Hn : (0 < n)%N) (KO : kinetic_ok n k) (SO : strat_ok (k_Norb k) st) (HM : measure_ok n measure MI).

Let SM := step_mx n k.
Notation sliceok := (@slice_ok RS MT valid n L b st SM MI).
Notation W := (weight n L k st).

(** the pair of Green's functions belongs to slice and field *)
Definition greens_pair (x : nat * list Z) (g : greens_func * greens_func) : Prop :=
  field_ok n L (snd x) /\ (x.1 <= L)%N /\
  green_of (cyclic_flow (SM (expVu st) (snd x)) L (fst x)) (fst g) /\
  green_of (cyclic_flow (SM (expVd st) (snd x)) L (fst x)) (snd g).

Definition recorded (eq : eq_record) (d d' : MT) : Prop :=
  exists gs, List.Forall2 greens_pair eq gs /\ measure_list measure gs d = Some d'.

Lemma iteration_recorded nw neqlt d eq m : (0 < nw)%N -> (b %| nw)%N -> mc_consistent valid MI n L b k st m ->
  recorded eq d (mc_meas m) ->
  exists r r', dqmc_iteration rng measure la junk k st (Z.of_nat nw) neqlt m = Some r /\
    chain_sweep rng n W L neqlt ((mc_seed m, mc_order m, mc_s m), eq) = Some r' /\
    match r, r' with
    | None, None => True
    | Some m', Some (c, eq') => c = (mc_seed m', mc_order m', mc_s m') /\ mc_consistent valid MI n L b k st m' /\
        recorded eq' d (mc_meas m')
    | _, _ => False
    end.
Proof.
  move=> Hnw Hb Hm HR0. rewrite /dqmc_iteration /chain_sweep.
  have -> : ts_L (mc_tu m) = Z.of_nat L by case: (mcc_tu Hm) => [[]].
  pose Rel (l : Z) (o : option (mcstate RS MT)) (o' : option ((RS * list Z * list Z) * eq_record)) :=
    match o, o' with
    | None, None => True
    | Some m', Some (c, eq') => c = (mc_seed m', mc_order m', mc_s m') /\ sliceok (Z.to_nat l) m' /\ recorded eq' d (mc_meas m')
    | _, _ => False
    end.
  have [|||r [r' [E1 [E2 HR]]]] := @for_range_sim _ _ Rel 0%Z (Z.of_nat L)
    (fun l => may_hang (dqmc_slice rng measure la junk k st (Z.of_nat nw) neqlt l))
    (fun l => may_hang (chain_slice rng n W neqlt l)) (Some m) (Some ((mc_seed m, mc_order m, mc_s m), eq)).
  - lia.
  - move=> l o o' Hl. case: o o' => [m1|] [[c eq1]|] //=; last by move=> _; exists None, None.
    move=> [-> [Hm1 Hr1]]. have Hl' : (Z.to_nat l < L)%N by apply/ltP; lia.
    have [r [r' [E1 [E2 HR]]]] := dqmc_slice_ok RO LA junk Hn KO SO HM neqlt Hnw Hb Hl' Hm1.
    rewrite Z2Nat.id in E1 E2; last lia. rewrite E1.
    have E2' : metropolis_slice rng n W l (mc_seed m1, mc_order m1, mc_s m1) = Some r' by [].
    rewrite /chain_slice [fst _]/= E2'. cbn [obind snd].
    case: r r' HR E1 {E2 E2'} => [m2|] [c2|] // HR E1; last by exists None, None.
    case: HR => -> Hm2. do 2 eexists. split; first reflexivity. split; first reflexivity.
    rewrite /Rel. have EL : Z.to_nat (l + 1) = (Z.to_nat l).+1 by lia. rewrite EL. do 2 (split; first by []).
    have HN : (0 <= ts_N (mc_tu m1))%Z by rewrite (si_N (sl_site Hm1)); lia.
    have := dqmc_slice_meas HN (proj1 Hl) E1. case: Hr1 => gs [Hgs Eg].
    case: (due_at _ _) => E; last by exists gs; rewrite E.
    exists (gs ++ [:: (mc_Gu m2, mc_Gd m2)]). split; last by rewrite measure_list_snoc Eg.
    apply: Forall2_app => //. constructor; last by constructor.
    case: (sl_site Hm2) => _ F2 _ G1 G2. by split => //=; split.
  - split => //. split => //. exact: consistent_slice.
  exists r, r'. do 2 (split => //). case: r r' HR {E1 E2} => [m1|] [[c eq1]|] //= [-> [H Hr]]. rewrite Nat2Z.id in H.
  split => //. split => //. exact: slice_consistent.
Qed.
End Chain.
