(** C69: how the results of a simulation depend on the field it starts from. *)
From Coq Require Import ZArith List Reals Lia Lra.
From mathcomp Require Import all_ssreflect fingroup perm ssralg matrix.
From Verif Require Import Base MatProd RField MatSpec MatFacts TimeStep TimeStepSpec Strat StratSpec StratFacts Lapack LapackSpec GreenConstruct SimParams ParamSpec KineticSpec KineticExp
  KineticExpSpec KineticExpFacts RandSource SweepSpec WickSpec Measure MeasureSpec UMeasure UMeasureSpec SimulationSpec Simulation IdealSpec IdealFacts LapackSyev
  FockSpec FockFacts HubbardSpec HubbardFacts HubbardLink ThermalSpec ThermalFacts ThermalRun ThermalResults P_Fock MixMean MixSpec MixResults MixCase.
Set Implicit Arguments.
Unset Strict Implicit.
Unset Printing Implicit Defensive.
Local Open Scope ring_scope.
Import GRing.Theory.

(** C69, for inputs where every flip of a single field value changes the absolute value of the weight and no weight is zero: start from any field and let the
    random numbers be ideal.  The mean of each entry of the result arrays, divided by the mean of the sign, differs from the
    expectation value in thermal equilibrium (with the Trotter product in place of exp(-beta H)) by at most a constant times rate^ne / ns for [ne] equilibration and [ns] measurement
    sweeps, with one rate < 1 for all entries, start fields and numbers of sweeps; and the mean of the sign is positive once rate^ne / ns is small.  Missing for the full claim: inputs with
    flips which do not change the absolute value of the weight; see the next theorem. *)
Theorem C69_start_forgotten_partial : forall la junk ijunk p k st EV EK,
  lapack_ok la -> syev_converges la -> well_formed p -> valid_params p ->
  Z.of_nat (List.length (sp_U p)) = sp_Norb p ->
  (forall o, (0 <= o < sp_Norb p)%Z -> Rle 0 (Rmult (sp_dt p) (List.nth (Z.to_nat o) (sp_U p) R0))) ->
  (0 < sp_neqlt p <= sp_L p)%Z -> ((0 < sp_nuneqlt p)%Z -> (2 * sp_prodBlen p <= sp_L p)%Z) ->
  kinetic_exponential la junk p = Some k ->
  fill_stratonovich (sp_Norb p) (sp_U p) (sp_dt p) (fresh junk (sp_Norb p)) = Some st ->
  is_exp (- sp_dt p *: interaction p) EV -> is_exp (- sp_dt p *: kinetic_energy p) EK ->
  let n := sites p in let L := Z.to_nat (sp_L p) in let W := weight n L k st in
  (forall s, List.In s (fields (L * n)) -> W s <> 0) ->
  (forall s l i, List.In s (fields (L * n)) -> (l < L)%N -> (i < n)%N -> Rabs (W (flipped n l i s)) <> Rabs (W s)) ->
  let from ne ns s := mean_from (with_counts p ne ns) la junk ijunk s in
  let usign (r : meas * option umeas) := match snd r with Some u => u_sign u | None => R0 end in
  let uval f e (r : meas * option umeas) := match snd r with Some u => val (u_arr u f) e | None => R0 end in
  exists rate q, Rle 0 rate /\ Rlt rate 1 /\ Rlt 0 q /\
  (forall ne ns s t, run_of p ne ns s -> List.length t = (Z.to_nat (ne + ns) * L)%N -> List.Forall (slice_tape_ok n) t ->
     exists m u, simulation ideal_source la junk ijunk (with_counts p ne ns) (start_numbers s, t) = Some (Some (m, u))) /\
  (forall ne ns s, long_run p rate q ne ns s -> Rlt 0 (from ne ns s (fun r => m_sign (fst r))) /\
     ((0 < sp_nuneqlt p)%Z -> Rlt 0 (from ne ns s usign))) /\
  thermal_equal_time (tends_to p rate q) (fun O : fock n => thermal EV EK L 0 O 1%:M)
    (fun f e ne ns s => Rdiv (from ne ns s (fun r => val (m_arr (fst r) f) e)) (from ne ns s (fun r => m_sign (fst r)))) /\
  ((0 < sp_nuneqlt p)%Z -> thermal_unequal_time (p := p) (tends_to p rate q) (thermal EV EK L)
     (fun f e ne ns s => Rdiv (from ne ns s (uval f e)) (from ne ns s usign))).
Proof.
  move=> la junk ijunk p k st EV EK LA SC WF VP HU Hpos Hn Hun Ek Est HV HK n L W NZ HD from usign uval.
  have [KO [KN [KC [HE SO]]]] := tables (junk := junk) LA SC WF HU Ek Est.
  have -> := is_exp_uniq HV (@EV_exp p). have -> := is_exp_uniq HK (EK_exp WF HE).
  have [rate [scale [[R0' R1'] [S0 HF]]]] := chain_forgets n W L NZ (turn_differ HD).
  exists rate, (threshold p k st scale). split=> //. split=> //. split; first exact: (threshold_pos (junk := junk) LA SC WF HU Ek Est NZ S0).
  split; [|split; [|split]].
  - move=> ne ns s t HR Ht Hv. have [[m u] [eq [un H]]] := from_returns ijunk LA SC WF VP HU Hpos Hn Hun Ek Est NZ HR Ht Hv. exists m, u. exact: (ir_sim H).
  - move=> ne ns s H. split; first exact: (@sign_pos la junk ijunk p k st LA SC WF VP HU Hpos Hn Hun Ek Est NZ rate scale R0' S0 HF ne ns s H).
    move=> Hp. exact: (@usign_pos la junk ijunk p k st LA SC WF VP HU Hpos Hn Hun Ek Est NZ rate scale R0' S0 HF ne ns s Hp H).
  - exact: (@eq_tends la junk ijunk p k st LA SC WF VP HU Hpos Hn Hun Ek Est NZ rate scale R0' S0 HF).
  - exact: (@un_tends la junk ijunk p k st LA SC WF VP HU Hpos Hn Hun Ek Est NZ rate scale R0' S0 HF).
Qed.
Print Assumptions C69_start_forgotten_partial.

(** C69 fails without the condition on the flips: for one site, one slice and a single measurement sweep, all other hypotheses hold, but the results from
    the two start fields differ by the same amount for every number of equilibration sweeps. *)
Theorem C69_start_remembered_refuted : exists la p k st delta, lapack_ok la /\ syev_converges la /\ well_formed p /\ valid_params p /\
  Z.of_nat (List.length (sp_U p)) = sp_Norb p /\
  (forall o, (0 <= o < sp_Norb p)%Z -> Rle 0 (Rmult (sp_dt p) (List.nth (Z.to_nat o) (sp_U p) R0))) /\
  (0 < sp_neqlt p <= sp_L p)%Z /\ (sp_nuneqlt p <= 0)%Z /\
  kinetic_exponential la (fun _ => R0) p = Some k /\
  fill_stratonovich (sp_Norb p) (sp_U p) (sp_dt p) (fresh (fun _ => R0) (sp_Norb p)) = Some st /\
  (forall s, List.In s (fields (Z.to_nat (sp_L p) * sites p)) -> Rlt 0 (weight (sites p) (Z.to_nat (sp_L p)) k st s)) /\
  Rlt 0 delta /\
  exists s s', List.In s (fields (Z.to_nat (sp_L p) * sites p)) /\ List.In s' (fields (Z.to_nat (sp_L p) * sites p)) /\
    forall ijunk ne, (0 <= ne)%Z ->
    let result s := Rdiv (mean_from (with_counts p ne 1) la (fun _ => R0) ijunk s (fun r => val (m_arr (fst r) grfun_u) 0))
                         (mean_from (with_counts p ne 1) la (fun _ => R0) ijunk s (fun r => m_sign (fst r))) in
    Rabs (Rminus (result s) (result s')) = delta.
Proof.
  have [la [LA SC]] := lapack_converges. set p := atom_params 1 0.
  have [k [Ek [KO [KN [KC [HE _]]]]]] := kinetic_exponential_ok (fun _ => R0) LA SC (atom_wf 1 0).
  have HU : forall o, (0 <= o < 1)%Z -> Rle 0 (Rmult (1/8) (List.nth (Z.to_nat o) [:: 4%coqR] R0)).
  { move=> o Ho. have -> : o = 0%Z by lia. cbn. lra. }
  have [st Est] := @fill_defined 1 [:: 4%coqR] (1/8)%coqR [:: R0] Z.le_0_1 erefl erefl HU.
  have [delta [D0 HD]] := one_forever LA SC Ek KC HE Est.
  exists la, p, k, st, delta. do 5 (split; first (first [exact: LA|exact: SC|exact: atom_wf|exact: atom_valid|exact: erefl])).
  split; first exact: HU. split; first by cbn; lia. split; first by cbn; lia. split; first exact: Ek. split; first exact: Est.
  split. { move=> s Hs. exact: (proj1 (one_weight KC HE Est Hs)). }
  split; first exact: D0. exists [:: 0%Z], [:: 1%Z]. split; first by left. split; first by right; left.
  move=> ijunk ne Hne. exact: HD.
Qed.
Print Assumptions C69_start_remembered_refuted.

(** one site with two slices satisfies all hypotheses of C69, with both kinds of measurements *)
Example C69_case : exists la k st EV EK, lapack_ok la /\ syev_converges la /\ well_formed (atom_params 2 1) /\ valid_params (atom_params 2 1) /\
  kinetic_exponential la (fun _ => R0) (atom_params 2 1) = Some k /\
  fill_stratonovich 1 [:: 4%coqR] (1/8)%coqR [:: R0] = Some st /\
  is_exp (- (1/8)%coqR *: interaction (atom_params 2 1)) EV /\ is_exp (- (1/8)%coqR *: kinetic_energy (atom_params 2 1)) EK /\
  (0 < sp_nuneqlt (atom_params 2 1))%Z /\
  (forall s, List.In s (fields 2) -> weight 1 2 k st s <> 0) /\
  (forall s l i, List.In s (fields 2) -> (l < 2)%N -> (i < 1)%N -> Rabs (weight 1 2 k st (flipped 1 l i s)) <> Rabs (weight 1 2 k st s)) /\
  exists rate q D, Rle 0 rate /\ Rlt rate 1 /\ Rlt 0 q /\ forall ne ns, (0 <= ne)%Z -> (0 < ns)%Z -> Rle (memory rate ne ns) q ->
    let from := mean_from (with_counts (atom_params 2 1) ne ns) la (fun _ => R0) (fun _ => 7%Z) [:: 0%Z; 1%Z] in
    Rle (Rabs (Rminus (Rdiv (from (fun r => val (m_arr (fst r) doubleocc) 0)) (from (fun r => m_sign (fst r))))
      (average 1 (fun i => thermal EV EK 2 0 (bilinear_op 1 (number up i) *m bilinear_op 1 (number dn i)) 1%:M)))) (Rmult D (memory rate ne ns)).
Proof.
  have [la [LA SC]] := lapack_converges. have [EV [EK [HV HK]]] := C61_exponentials_exist (atom_wf 2 1).
  have [k [Ek [KO [KN [KC [HE _]]]]]] := kinetic_exponential_ok (fun _ => R0) LA SC (atom_wf 2 1).
  have HU : forall o, (0 <= o < 1)%Z -> Rle 0 (Rmult (1/8) (List.nth (Z.to_nat o) [:: 4%coqR] R0)).
  { move=> o Ho. have -> : o = 0%Z by lia. cbn. lra. }
  have [st Est] := @fill_defined 1 [:: 4%coqR] (1/8)%coqR [:: R0] Z.le_0_1 erefl erefl HU.
  have [NZ HD] := atom_two KC HE Est. have VP := @atom_valid 2 1 Z.lt_0_2.
  have [rate [q [A1 [A2 [A3 [_ [_ [A4 _]]]]]]]] := @C69_start_forgotten_partial la (fun _ => R0) (fun _ => 7%Z) (atom_params 2 1) k st EV EK LA SC (atom_wf 2 1) VP erefl HU
    (conj Z.lt_0_1 (Zle_bool_imp_le 1 2 erefl)) (fun _ => Z.le_refl 2) Ek Est HV HK NZ HD.
  exists la, k, st, EV, EK. split; first exact: LA. split; first exact: SC. split; first exact: atom_wf. split; first exact: VP. split; first exact: Ek.
  split; first exact: Est. split; first exact: HV. split; first exact: HK. split; first exact Z.lt_0_1. split; first exact: NZ. split; first exact: HD.
  have [D [D0 H]] := @te_doubleocc _ _ _ _ _ A4 0%Z (conj (Z.le_refl 0) Z.lt_0_1).
  exists rate, q, D. split; first exact: A1. split; first exact: A2. split; first exact: A3. move=> ne ns Hne Hns HM.
  have R : run_of (atom_params 2 1) ne ns [:: 0%Z; 1%Z].
  { split=> //. split=> //. split; first by cbn; repeat (first [left; reflexivity|right]). move=> _. exists ne. split; first lia. exact: Z.divide_1_l. }
  have X := H ne ns _ (conj R HM). move: X. cbv zeta. rewrite /average /=. exact.
Qed.
