(** Proofs about complete simulations with phonons of the program that records every site: the record of the chain. *)
From Coq Require Import ZArith List Reals Lia Lra.
From mathcomp Require Import all_ssreflect ssralg matrix.
From Verif Require Import Base BaseFacts RField MatSpec MatFacts TimeStep TimeStepSpec Strat StratSpec GreenSpec GreenFacts Lapack LapackSpec
  GreenConstruct SimParams ParamParser RandSource Sweep SweepSpec SweepFacts SimulationSpec SimulationFacts
  PhononSweep PhononSpec PhononFieldFacts PhononLoopFacts PhononFacts PMeasure SimulationRun WickSpec PSimulation PSimulationSpec PSimulationFacts
  FPMeasure FPSimulation.
Set Implicit Arguments.
Unset Strict Implicit.
Unset Printing Implicit Defensive.
Local Open Scope ring_scope.
Import GRing.Theory.

Lemma fpaccumulate_all_snoc xs x m : fpaccumulate_all (xs ++ [:: x]) m = obind (fpaccumulate_all xs m) (fun m => fpaccumulate (ps_Gu x) (ps_Gd x) (ps_X x) m).
Proof. by rewrite /fpaccumulate_all fold_left_app. Qed.

Section Chain.
Context {RS MT : Type}.
Variables (rng : rand_source RS) (valid : RS -> Prop).
Hypothesis RO : rand_ok rng valid.
Variables (la : lapack) (LA : lapack_ok la) (junk : Z -> R).
Variables (measure : greens_func -> greens_func -> MT -> option MT) (MI : MT -> Prop).
Variables (n L b : nat) (k : kinetic) (st : strat) (p : sim_params) (noHS : bool).
Let ph := sp_phonon p.
Let dt := sp_dt p.
Hypotheses (Hn : (0 < n)%N) (Hn64 : (Z.of_nat n < 2^64)%Z) (HL2 : (2 <= L)%N) (KO : kinetic_ok n k) (SO : strat_ok (k_Norb k) st)
  (PO : phonon_ok (k_Norb k) ph) (Hdt : dt <> R0) (HM : measure_ok n measure MI).

Notation phstate := (phstate RS MT fpmeas).
Notation steps := (psteps_of n k st p).
Notation consistent := (@ph_consistent n L k st ph dt RS MT fpmeas valid MI (fun _ => True) b).
Notation at_slice := (at_slice (PT := fpmeas) valid MI (fun _ => True) n L b k st ph dt).

Notation ph_pair := (ph_pair n L k st p).

Definition fph_recorded (eq : ph_record) (d : MT) (e : fpmeas) (x : phstate) : Prop :=
  exists gs, List.Forall2 ph_pair eq gs /\ measure_list measure gs d = Some (mc_meas (p_mc x)) /\
    fpaccumulate_all (ph_samples eq gs) e = Some (p_meas x).

(** the histories are large enough for [mx] measurements *)
Variables (d0 : MT) (e0 : fpmeas) (mx : Z).
Hypothesis HC : forall eq gs, List.Forall2 ph_pair eq gs -> (Z.of_nat (List.length eq) <= mx)%Z ->
  exists e, fpaccumulate_all (ph_samples eq gs) e0 = Some e.

Lemma ftotal_ok : measure_ph_ok n L (totally f_measure_phonons) (fun _ => True).
Proof. move=> *. by eexists. Qed.

Lemma fsame_data_recorded eq x x' : same_data x x' -> fph_recorded eq d0 e0 x -> fph_recorded eq d0 e0 x'.
Proof. by case=> A B [gs [H1 [H2 H3]]]; exists gs; rewrite A B. Qed.

Lemma fph_iteration_recorded nw neqlt eq x : (0 < nw)%N -> (b %| nw)%N -> consistent x -> fph_recorded eq d0 e0 x ->
  (Z.of_nat (List.length eq) + measured neqlt (Z.of_nat L) <= mx)%Z ->
  let it := phonon_iteration rng measure f_measure_phonons la junk k noHS st ph dt (sp_mu p) (Z.of_nat nw) neqlt x in
  (exists r r', it = Some r /\ pchain_sweep rng n L k st p noHS neqlt (cfg x, eq) = Some r' /\
    match r, r' with
    | None, None => True
    | Some x', Some (c, eq') => c = cfg x' /\ consistent x' /\ fph_recorded eq' d0 e0 x' /\
        Z.of_nat (List.length eq') = (Z.of_nat (List.length eq) + measured neqlt (Z.of_nat L))%Z
    | _, _ => False
    end) \/ (it = None /\ zero_weight n L k st ph dt).
Proof.
  move=> Hnw Hb Hx HR0 Hcap. rewrite /phonon_iteration /pchain_sweep.
  have -> : ts_L (mc_tu (p_mc x)) = Z.of_nat L by case: (phc_tu Hx) => [[]].
  have Hrl : forall s X (l : 'I_L) (i : 'I_n) dx, List.length X = (L * n)%N ->
    weight_ratio n L k st ph dt s X l i dx = code_ratio n L k st ph dt s X l i dx by move=> s X l i dx HX; rewrite code_ratio_weight.
  pose Rel (l : Z) (o : option phstate) (o' : option ((RS * list Z * list Z * list R) * ph_record)) :=
    match o, o' with
    | None, None => True
    | Some x', Some (c, eq') => c = cfg x' /\ at_slice (Z.to_nat l) x' /\ fph_recorded eq' d0 e0 x' /\
        Z.of_nat (List.length eq') = (Z.of_nat (List.length eq) + measured neqlt l)%Z
    | _, _ => False
    end.
  have [|||r [r' [-> [-> HR]]]] := @for_range_sim _ _ Rel 0%Z (Z.of_nat L)
    (fun l => may_hang (phonon_slice rng measure f_measure_phonons la junk k noHS st ph dt (Z.of_nat nw) neqlt l))
    (fun l => may_hang (pchain_slice rng n L k st p noHS neqlt l)) (Some x) (Some (cfg x, eq)).
  - lia.
  - move=> l o o' Hl. case: o o' => [x1|] [[c eq1]|] //=; last by move=> _; exists None, None.
    move=> [-> [Hx1 [Hr1 Hlen]]]. have Hl' : (Z.to_nat l < L)%N by apply/ltP; lia.
    have [r [r' [E1 [E2 HR]]]] := @phonon_slice_ok _ _ _ _ _ RO _ LA junk _ _ _ _ _ _ _ _ _ _ _ Hn KO SO PO HM ftotal_ok Hdt _ Hrl noHS nw neqlt (Ordinal Hl') x1 Hnw Hb Hx1.
    cbn [nat_of_ord] in E1, E2, HR. rewrite Z2Nat.id in E1 E2; last lia.
    have HN : (0 <= ts_N (mc_tu (p_mc x1)))%Z by rewrite (si_N (sl_site (as_slice Hx1))); lia.
    have HS := phonon_slice_meas HN (proj1 Hl) E1.
    rewrite /pchain_slice [fst _]/= E2. cbn [obind].
    case: r r' HR HS {E1 E2} => [x2|] [c2|] // HR HS; last by exists None, None.
    case: HR => -> Hx2. rewrite {1}/cfg.
    have EL : Z.to_nat (l + 1) = (Z.to_nat l).+1 by lia.
    have Hstep := measured_step neqlt (proj1 Hl). rewrite /Rel.
    case ED : (due_at neqlt (l + 1)) HS Hstep => HS Hstep.
    + case: HS => E1 HS. case: (Hr1) => gs [Hgs [Eg Ee]].
      pose g := (mc_Gu (p_mc x2), mc_Gd (p_mc x2)). pose y := ((Z.to_nat l).+1, (mc_s (p_mc x2), p_X x2)).
      have Hy : ph_pair y g.
      { case: (sl_site (as_slice Hx2)) => _ F2 _ G1 G2. rewrite (as_expX Hx2) in G1 G2. split => //. split; first exact: as_X Hx2. by split => //=; split. }
      have HF : List.Forall2 ph_pair (eq1 ++ [:: y]) (gs ++ [:: g]) by apply: Forall2_app => //; constructor.
      have Hl2 := @measured_mono L neqlt (l + 1)%Z (Z.of_nat L) ltac:(lia).
      have Hlen' : Z.of_nat (List.length (eq1 ++ [:: y])) = (Z.of_nat (List.length eq) + measured neqlt (l + 1))%Z by rewrite app_length /=; lia.
      have [e Ee'] := HC HF ltac:(lia).
      have EL2 : List.length eq1 = List.length gs by apply/eqP; rewrite eq_sym; apply/eqP; exact: Forall2_len Hgs.
      move: (Ee'). rewrite ph_samples_snoc // fpaccumulate_all_snoc Ee. cbn [obind]. cbn [ps_Gu ps_Gd ps_l ps_X fst snd g y].
      move=> Ep.
      have [P1 P2] := HS e Ep. rewrite P2. do 2 eexists. split; first reflexivity. split; first reflexivity.
      rewrite EL. split; first by []. split; first exact: Hx2. split; last exact: Hlen'.
      exists (gs ++ [:: g]). split; first exact: HF. split; first by rewrite measure_list_snoc Eg.
      by rewrite P1.
    + case: HS => HS ->. do 2 eexists. split; first reflexivity. split; first reflexivity.
      rewrite EL. split; first by []. split; first exact: Hx2. split; first exact: fsame_data_recorded HS Hr1. cbn [snd]. lia.
  - rewrite /Rel. split => //. split; first exact: consistent_at. split => //. rewrite /measured. case: Z.ltb_spec => Hq; rewrite ?Z.div_0_l; lia.
  cbn [obind].
  have Hhang : forall (A : Type) (f : A -> option (option A)), for_range 0 (ph_n_block_updates ph) (fun _ => may_hang f) None = Some None.
  { move=> A f. case: (Z_le_gt_dec 0 (ph_n_block_updates ph)) => Hpos; last by rewrite for_range_none //; lia.
    have [//|||o [-> ->] //] := @for_range_inv _ (fun _ (o : option A) => o = None) 0%Z (ph_n_block_updates ph) (fun _ => may_hang f) None.
    - move=> j o _ ->. by exists None.
    - by []. }
  case: r r' HR => [x1|] [[c eq1]|] //.
  2:{ move=> _. left. exists None, None. by []. }
  move=> [-> [Hx1 [Hr1 Hlen]]]. rewrite Nat2Z.id in Hx1. have {}Hx1 := at_consistent Hx1.
  rewrite /pchain_blocks. cbn [may_hang].
  have [[r [r' [E1 [-> HR]]]]|[-> HZ]] := block_updates_ok junk Hx1 (@block_update_ok _ _ _ _ _ RO _ LA junk _ _ _ _ _ _ _ _ _ Hn Hn64 KO SO PO); last by right.
  rewrite E1. cbn [obind]. case: r r' HR E1 => [x2|] [c'|] //.
  2:{ move=> _ _. left. rewrite Hhang /=. by exists None, None. }
  move=> [-> Hx2] E1. cbn [may_hang].
  have [[r [r' [E2 [-> HR]]]]|[-> HZ]] := block_updates_ok junk Hx2 (@flip_update_ok _ _ _ _ _ RO _ LA junk _ _ _ _ _ _ _ _ _ Hn Hn64 KO SO PO (sp_mu p)); last by right.
  rewrite E2. cbn [obind]. left. do 2 eexists. split; first reflexivity. split; first reflexivity.
  case: r r' HR E2 => [x3|] [c3|] // [-> Hx3] E2. split => //. split => //. split => //.
  have D1 := block_updates_meas (@block_update_meas RS MT fpmeas rng la junk k st ph dt) E1.
  have D2 := block_updates_meas (@flip_update_meas RS MT fpmeas rng la junk k st ph dt (sp_mu p)) E2.
  exact: fsame_data_recorded D2 (fsame_data_recorded D1 Hr1).
Qed.
End Chain.
