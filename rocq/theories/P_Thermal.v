(** C63, C64: what the results of a simulation estimate, and positivity of the sum of the weights. *)
From Coq Require Import ZArith List Reals Lia Lra.
From mathcomp Require Import all_ssreflect fingroup perm ssralg matrix.
From Verif Require Import Base MatProd RField MatSpec MatFacts TimeStep TimeStepSpec Strat StratSpec StratFacts Lapack LapackSpec GreenConstruct SimParams ParamSpec KineticSpec KineticExp
  KineticExpSpec KineticExpFacts RandSource SweepSpec WickSpec Measure MeasureSpec UMeasure UMeasureSpec SimulationSpec Simulation IdealSpec IdealFacts LapackSyev SimulationCase
  FockSpec FockFacts HubbardSpec HubbardFacts HubbardLink ThermalSpec ThermalFacts ThermalRun ThermalResults P_Fock.
Set Implicit Arguments.
Unset Strict Implicit.
Unset Printing Implicit Defensive.
Local Open Scope ring_scope.
Import GRing.Theory.

(** C63: start from a field with probability proportional to the absolute value of its weight, and let the random
    numbers be ideal.  Then every simulation returns, and the mean of each entry of the result arrays divided by the mean of the sign
    is the expectation value of the operator the entry is named after, in the Hubbard model on the given lattice with the Trotter
    product in place of exp(-beta H); with no error from the number of samples, the measurement intervals or the equilibration
    sweeps.  No field has weight zero in the theorem. *)
Theorem C63_results_unbiased : forall la junk ijunk p k st EV EK,
  lapack_ok la -> syev_converges la -> well_formed p -> valid_params p ->
  Z.of_nat (List.length (sp_U p)) = sp_Norb p ->
  (forall o, (0 <= o < sp_Norb p)%Z -> Rle 0 (Rmult (sp_dt p) (List.nth (Z.to_nat o) (sp_U p) R0))) ->
  (0 <= sp_nequil p)%Z -> (0 < sp_nsampl p)%Z -> (0 < sp_neqlt p <= sp_L p)%Z ->
  ((0 < sp_nuneqlt p)%Z -> (2 * sp_prodBlen p <= sp_L p)%Z /\
     exists t, (sp_nequil p <= t < sp_nequil p + sp_nsampl p)%Z /\ (sp_nuneqlt p | t)%Z) ->
  kinetic_exponential la junk p = Some k ->
  fill_stratonovich (sp_Norb p) (sp_U p) (sp_dt p) (fresh junk (sp_Norb p)) = Some st ->
  is_exp (- sp_dt p *: interaction p) EV -> is_exp (- sp_dt p *: kinetic_energy p) EK ->
  let n := sites p in let L := Z.to_nat (sp_L p) in let W := weight n L k st in
  (forall s, List.In s (fields (L * n)) -> W s <> 0) ->
  let mean := mean_result p la junk ijunk W in
  (forall s t, List.In s (fields (L * n)) -> List.length t = (Z.to_nat (sp_nequil p + sp_nsampl p) * L)%N ->
     List.Forall (slice_tape_ok n) t ->
     exists m u, simulation ideal_source la junk ijunk p (start_numbers s, t) = Some (Some (m, u)) /\ (u = None <-> (sp_nuneqlt p <= 0)%Z)) /\
  Rlt 0 (mean (fun r => m_sign (fst r))) /\
  thermal_equal_time (@eq R) (fun O : fock n => thermal EV EK L 0 O 1%:M)
    (fun f e => Rdiv (mean (fun r => val (m_arr (fst r) f) e)) (mean (fun r => m_sign (fst r)))) /\
  ((0 < sp_nuneqlt p)%Z ->
     let usign (r : meas * option umeas) := match snd r with Some u => u_sign u | None => R0 end in
     let uval f e (r : meas * option umeas) := match snd r with Some u => val (u_arr u f) e | None => R0 end in
     Rlt 0 (mean usign) /\
     thermal_unequal_time (p := p) (@eq R) (thermal EV EK L) (fun f e => Rdiv (mean (uval f e)) (mean usign))).
Proof.
  move=> la junk ijunk p k st EV EK LA SC WF VP HU Hpos Hq Hs Hn Hun Ek Est HV HK n L W NZ mean.
  have [KO [KN [KC [HE SO]]]] := tables (junk := junk) LA SC WF HU Ek Est.
  have -> := is_exp_uniq HV (@EV_exp p). have -> := is_exp_uniq HK (EK_exp WF HE).
  have Zp := zc_pos' (junk := junk) LA SC WF HU Ek Est. have Tp := TW_pos NZ.
  split; [|split; [|split]].
  - move=> s t Hf Ht Hv. have [[m u] [eq [un HR]]] := run_exists ijunk LA SC WF VP HU Hpos Hq Hs Hn Hun Ek Est NZ Hf Ht Hv.
    exists m, u. split; first exact: (ir_sim HR). have := ir_u HR. rewrite /=. case: u HR => [u|] HR H; split=> //. case: H. lia.
  - rewrite /mean (mean_sign ijunk LA SC WF VP HU Hpos Hq Hs Hn Hun Ek Est NZ). exact: Rdiv_lt_0_compat.
  - exact: equal_time_thermal.
  - move=> Hp usign uval. split; last exact: unequal_time_thermal.
    rewrite /mean (mean_usign ijunk LA SC WF VP HU Hpos Hq Hs Hn Hun Ek Est NZ Hp). exact: Rdiv_lt_0_compat.
Qed.
Print Assumptions C63_results_unbiased.

(** C64: the sum of the weights of all auxiliary fields is positive, for all lattices, hoppings, chemical potentials, interactions and
    numbers of slices; so the mean of the sign is never zero or negative. *)
Theorem C64_total_weight_positive : forall la junk p k st jv L,
  lapack_ok la -> syev_converges la -> well_formed p ->
  Z.of_nat (List.length (sp_U p)) = sp_Norb p -> Z.of_nat (List.length jv) = sp_Norb p ->
  kinetic_exponential la junk p = Some k -> fill_stratonovich (sp_Norb p) (sp_U p) (sp_dt p) jv = Some st ->
  let W := weight (sites p) L k st in
  Rlt 0 (total W (fields (L * sites p))) /\
  Rlt 0 (Rdiv (total (fun s => Rmult (Rabs (W s)) (sgn (W s))) (fields (L * sites p))) (total (fun s => Rabs (W s)) (fields (L * sites p)))) /\
  exists s, List.In s (fields (L * sites p)) /\ Rlt 0 (W s).
Proof.
  move=> la junk p k st jv L LA SC WF HU LJ Ek Est W.
  have [KO [KN [KC [HE SO]]]] := tables_ok LA SC WF HU LJ Ek Est.
  have T1 : Rlt 0 (total W (fields (L * sites p))) by rewrite /W (weights_total L KO KN KC HU LJ Est); exact: zc_pos.
  have EX : exists s, List.In s (fields (L * sites p)) /\ Rlt 0 (W s).
  { move: T1. rewrite /total. elim: (fields _) => [|y ys IH] /= H; first by lra.
    case: (Rlt_dec 0 (W y)) => Hy; first by exists y; split=> //; left.
    have [s [Hs1 Hs2]] := IH ltac:(lra). by exists s; split=> //; right. }
  split=> //. split=> //. apply: Rdiv_lt_0_compat.
  - rewrite (total_ext _ W) // => s _. exact: sgn_abs.
  - case: EX => s [Hs HW]. move: Hs. rewrite /total. elim: (fields _) => [|y ys IH] //=.
    have T0 : Rle R0 (List.fold_right Rplus R0 (List.map (fun s => Rabs (W s)) ys)).
    { elim: (ys) => [|z zs IH'] /=; first exact: Rle_refl. apply: Rplus_le_le_0_compat => //. exact: Rabs_pos. }
    move=> [->|Hf]; first by apply: Rplus_lt_le_0_compat => //; apply: Rabs_pos_lt; lra.
    apply: Rplus_le_lt_0_compat; [exact: Rabs_pos|exact: IH].
Qed.
Print Assumptions C64_total_weight_positive.

(** the two sites of the example above satisfy all hypotheses of C63, with both kinds of measurements *)
Example C63_case : exists la k st EV EK, lapack_ok la /\ syev_converges la /\ well_formed pair_params /\ valid_params pair_params /\
  kinetic_exponential la (fun _ => R0) pair_params = Some k /\
  fill_stratonovich 1 [:: 4%coqR] (1/8)%coqR [:: R0] = Some st /\
  is_exp (- (1/8)%coqR *: interaction pair_params) EV /\ is_exp (- (1/8)%coqR *: kinetic_energy pair_params) EK /\
  (0 < sp_nuneqlt pair_params)%Z /\
  (forall s, List.In s (fields 8) -> weight 2 4 k st s <> 0) /\
  Rlt 0 (mean_result pair_params la (fun _ => R0) (fun _ => 7%Z) (weight 2 4 k st) (fun r => m_sign (fst r))) /\
  Rdiv (mean_result pair_params la (fun _ => R0) (fun _ => 7%Z) (weight 2 4 k st) (fun r => val (m_arr (fst r) grfun_u) 2))
       (mean_result pair_params la (fun _ => R0) (fun _ => 7%Z) (weight 2 4 k st) (fun r => m_sign (fst r))) =
  thermal EV EK 4 0 (cann up (ord0 : 'I_2) *m cdag up (Ordinal (isT : (1 < 2)%N))) 1%:M.
Proof.
  have [la [LA SC]] := lapack_converges. have [EV [EK [HV HK]]] := C61_exponentials_exist pair_wf.
  have [k [Ek [KO [KN [KC [HE _]]]]]] := kinetic_exponential_ok (fun _ => R0) LA SC pair_wf.
  have [st Est] := @fill_defined 1 [:: 4%coqR] (1/8)%coqR [:: R0] Z.le_0_1 erefl erefl pair_U.
  have NZ : forall s, List.In s (fields 8) -> weight 2 4 k st s <> 0.
  { move=> s Hs. apply: (@pair_weight_nz k st [:: R0] KO KN HE erefl Est). by apply/(fields_in 8 s). }
  have [_ [H1 [H2 _]]] := @C63_results_unbiased la (fun _ => R0) (fun _ => 7%Z) pair_params k st EV EK LA SC pair_wf pair_valid erefl pair_U
    (proj1 pair_counts) (proj1 (proj2 pair_counts)) (proj1 (proj2 (proj2 pair_counts))) (proj2 (proj2 (proj2 pair_counts))) Ek Est HV HK NZ.
  exists la, k, st, EV, EK. split; first exact: LA. split; first exact: SC. split; first exact: pair_wf. split; first exact: pair_valid. split; first exact: Ek.
  split; first exact: Est. split; first exact: HV. split; first exact: HK. split; first exact Z.lt_0_1. split; first exact: NZ. split; first exact: H1.
  have G := @te_green_u _ _ _ _ _ H2 0%Z 1%Z (conj (Z.le_refl 0) Z.lt_0_2) (conj Z.le_0_1 Z.lt_1_2).
  have E1 : cann_at 2 (up, 0%Z) = cann up (ord0 : 'I_2).
  { rewrite /cann_at /=. case: insubP => [u _ E|] //. congr cann. exact: val_inj. }
  have E2 : cdag_at 2 (up, 1%Z) = cdag up (Ordinal (isT : (1 < 2)%N)).
  { rewrite /cdag_at. case: insubP => [u _ E|] //. congr cdag. exact: val_inj. }
  rewrite -E1 -E2. exact: G.
Qed.
