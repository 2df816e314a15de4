(** C68: the error of the time discretisation. *)
From Coq Require Import ZArith List Reals Lia Lra.
From mathcomp Require Import all_ssreflect fingroup perm ssralg matrix.
From Verif Require Import Base MatProd RField MatSpec MatFacts TimeStep TimeStepSpec Strat StratSpec StratFacts Lapack LapackSpec GreenConstruct SimParams ParamSpec KineticSpec KineticExp
  KineticExpSpec KineticExpFacts RandSource SweepSpec WickSpec Measure MeasureSpec UMeasure UMeasureSpec SimulationSpec Simulation IdealSpec IdealFacts LapackSyev SimulationCase
  FockSpec FockFacts HubbardSpec ThermalSpec P_Fock P_Thermal TrotterPos TrotterSpec TrotterNorm TrotterResults.
Set Implicit Arguments.
Unset Strict Implicit.
Unset Printing Implicit Defensive.
Local Open Scope ring_scope.
Import GRing.Theory.

(** C68: fix the lattice, the Hamiltonian and the inverse temperature.  Then there are constants such that for all numbers of time
    steps and all other settings of the simulation, the mean of each result divided by the mean sign differs from the exact thermal
    expectation value, with exp(-beta (K + V)), by at most a constant times dt; for the densities, double occupancies and the
    density and spin correlations at equal times by at most a constant times dt^2. *)
Theorem C68_time_step_error : forall p0 beta, well_formed p0 -> Rlt 0 beta ->
  exists C C2, Rle 0 C /\ Rle 0 C2 /\
  forall la junk ijunk p k st EV EK expH,
  same_model p p0 -> Rmult (IZR (sp_L p)) (sp_dt p) = beta ->
  lapack_ok la -> syev_converges la -> well_formed p -> valid_params p ->
  Z.of_nat (List.length (sp_U p)) = sp_Norb p ->
  (forall o, (0 <= o < sp_Norb p)%Z -> Rle 0 (Rmult (sp_dt p) (List.nth (Z.to_nat o) (sp_U p) R0))) ->
  (0 <= sp_nequil p)%Z -> (0 < sp_nsampl p)%Z -> (0 < sp_neqlt p <= sp_L p)%Z ->
  ((0 < sp_nuneqlt p)%Z -> (2 * sp_prodBlen p <= sp_L p)%Z /\
     exists t, (sp_nequil p <= t < sp_nequil p + sp_nsampl p)%Z /\ (sp_nuneqlt p | t)%Z) ->
  kinetic_exponential la junk p = Some k ->
  fill_stratonovich (sp_Norb p) (sp_U p) (sp_dt p) (fresh junk (sp_Norb p)) = Some st ->
  is_exp (- sp_dt p *: interaction p) EV -> is_exp (- sp_dt p *: kinetic_energy p) EK ->
  (forall t, is_exp (- t *: (kinetic_energy p + interaction p)) (expH t)) ->
  let n := sites p in let L := Z.to_nat (sp_L p) in let W := weight n L k st in
  (forall s, List.In s (fields (L * n)) -> W s <> 0) ->
  let mean := mean_result p la junk ijunk W in
  let equal f e := Rdiv (mean (fun r => val (m_arr (fst r) f) e)) (mean (fun r => m_sign (fst r))) in
  thermal_equal_time (within (Rmult C (sp_dt p))) (fun O : fock n => exact expH beta 0 O 1%:M) equal /\
  thermal_static (within (Rmult C2 (Rmult (sp_dt p) (sp_dt p)))) (fun O : fock n => exact expH beta 0 O 1%:M) equal /\
  ((0 < sp_nuneqlt p)%Z ->
     let usign (r : meas * option umeas) := match snd r with Some u => u_sign u | None => R0 end in
     let uval f e (r : meas * option umeas) := match snd r with Some u => val (u_arr u f) e | None => R0 end in
     thermal_unequal_time (p := p) (within (Rmult C (sp_dt p))) (fun l : nat => exact expH beta (Rmult (INR l) (sp_dt p)))
       (fun f e => Rdiv (mean (uval f e)) (mean usign))).
Proof.
  move=> p0 beta WF0 Hb. have [C [PC HC]] := model_bound_ex WF0 Hb.
  exists (32 * (C / beta))%coqR, (32 * (C / (beta * beta)))%coqR.
  have PI : Rlt 0 (/ beta)%coqR by exact: Rinv_0_lt_compat.
  have PB : Rle 0 (C / beta)%coqR by apply: Rmult_le_pos => //; left.
  have PB2 : Rle 0 (C / (beta * beta))%coqR by apply: Rmult_le_pos => //; left; apply: Rinv_0_lt_compat; exact: Rmult_lt_0_compat.
  split; first lra. split; first lra.
  move=> la junk ijunk p k st EV EK expH SM EB LA SC WF VP HU Hpos Hq Hs Hn Hun Ek Est HV HK HX n L W NZ mean equal.
  have [_ [_ [HE HUn]]] := @C63_results_unbiased la junk ijunk p k st EV EK LA SC WF VP HU Hpos Hq Hs Hn Hun Ek Est HV HK NZ.
  have HLz : (0 < sp_L p)%Z by lia.
  have EL : INR L = IZR (sp_L p) by rewrite INR_IZR_INZ /L Z2Nat.id //; lia.
  have HLp : Rlt 0 (INR L) by rewrite EL; exact: IZR_lt.
  have Edt : (beta / INR L)%coqR = sp_dt p by rewrite -EB -EL; field; lra.
  have Hdt : Rlt 0 (sp_dt p) by rewrite -Edt; exact: Rdiv_lt_0_compat.
  have HL : (0 < L)%N by apply/ltP; rewrite /L; lia.
  have Hc : (0 < sp_Nx p * sp_Ny p)%Z by case: WF => H1 [H2 [H3 _]]; nia.
  have [||B1 B2] := model_bound_same SM HC HX HL (EV := EV) (EK := EK); try by rewrite Edt.
  rewrite Edt in B1.
  have -> : (32 * (C / beta) * sp_dt p = 32 * (C / beta * sp_dt p))%coqR by ring.
  have -> : (32 * (C / (beta * beta)) * (sp_dt p * sp_dt p) = 32 * (C / (beta * beta) * (sp_dt p * sp_dt p)))%coqR by ring.
  have T1 l O O' o o' : (l <= L)%N -> Rle 0 o -> Rle 0 o' -> rows_le O o -> rows_le O' o' ->
    Rle (Rabs (thermal EV EK L l O O' - exact expH beta (INR l * sp_dt p)%coqR O O')%coqR) (o * o' * (C / beta * sp_dt p))%coqR.
  { move=> H1 H2 H3 H4 H5. have := B1 l O O' o o' H1 H2 H3 H4 H5.
    have -> : (C * (o * o') / INR L = o * o' * (C / beta * sp_dt p))%coqR by rewrite -Edt; field; split; lra. exact. }
  have EP : Rle 0 (C / beta * sp_dt p)%coqR by apply: Rmult_le_pos => //; left.
  split; [|split].
  - apply: equal_close HE => // O o H1 H2. have := T1 0%N O 1%:M o 1%coqR (leq0n _) H1 Rle_0_1 H2 (@bnd_1 _).
    rewrite /= Rmult_0_l Rmult_1_r. exact.
  - apply: static_close HE => //.
    + apply: Rmult_le_pos => //. left. exact: Rmult_lt_0_compat.
    + move=> O o H1 H2 H3. have := B2 O o H1 H2 H3.
      have -> : (C * o / (INR L * INR L) = o * (C / (beta * beta) * (sp_dt p * sp_dt p)))%coqR by rewrite -Edt; field; split; lra. exact.
  - move=> Hp usign uval. have [_ HU2] := HUn Hp. apply: unequal_close HU2 => //.
Qed.
Print Assumptions C68_time_step_error.

(** the same two sites with eight time steps in place of four *)
Definition pair_params8 : sim_params :=
  mk_sim_params 1 2 1 0 (mk_bonds [:: 0] [:: 1] [:: 0] [:: 0] [:: 0])%coqR [:: 4%coqR] [:: R0] R0 false
    (mk_phonon_params [:: R0] [:: R0] R0 0 R0 0) (1/16)%coqR 8 2 2 1 2 2 1 1 0.
(** the hypotheses hold for [pair_params], with the constants chosen for [pair_params8]; in particular the density of the simulation
    differs from the exact value by at most a constant times 1/64 *)
Example C68_case : exists C2, Rle 0 C2 /\ exists la k st EV EK expH,
  same_model pair_params pair_params8 /\ Rmult (IZR (sp_L pair_params)) (sp_dt pair_params) = (1/2)%coqR /\
  lapack_ok la /\ syev_converges la /\
  kinetic_exponential la (fun _ => R0) pair_params = Some k /\
  fill_stratonovich 1 [:: 4%coqR] (1/8)%coqR [:: R0] = Some st /\
  is_exp (- (1/8)%coqR *: interaction pair_params) EV /\ is_exp (- (1/8)%coqR *: kinetic_energy pair_params) EK /\
  (forall t, is_exp (- t *: (kinetic_energy pair_params + interaction pair_params)) (expH t)) /\
  (forall s, List.In s (fields 8) -> weight 2 4 k st s <> 0) /\
  let mean := mean_result pair_params la (fun _ => R0) (fun _ => 7%Z) (weight 2 4 k st) in
  within (C2 * (1/8 * (1/8)))%coqR (Rdiv (mean (fun r => val (m_arr (fst r) density_u) 0)) (mean (fun r => m_sign (fst r))))
    (average 2 (fun i => exact expH (1/2)%coqR 0 (bilinear_op 2 (number up i)) 1%:M)).
Proof.
  have wf8 : well_formed pair_params8 by unfold well_formed; cbn; repeat split; try lia; repeat constructor.
  have Hb : Rlt 0 (1/2)%coqR by lra.
  have [C [C2 [_ [PC2 H]]]] := C68_time_step_error wf8 Hb. exists C2. split; first exact: PC2.
  have [la [LA SC]] := lapack_converges. have [EV [EK [HV HK]]] := C61_exponentials_exist pair_wf.
  have [k [Ek [KO [KN [KC [HE _]]]]]] := kinetic_exponential_ok (fun _ => R0) LA SC pair_wf.
  have [st Est] := @fill_defined 1 [:: 4%coqR] (1/8)%coqR [:: R0] Z.le_0_1 erefl erefl pair_U.
  have NZ : forall s, List.In s (fields 8) -> weight 2 4 k st s <> 0.
  { move=> s Hs. apply: (@pair_weight_nz k st [:: R0] KO KN HE erefl Est). by apply/(fields_in 8 s). }
  have SH : (kinetic_energy pair_params + interaction pair_params)^T = kinetic_energy pair_params + interaction pair_params
    by rewrite linearD /= interaction_sym (kinetic_sym pair_wf).
  have [expH HX] := exp_family SH. have SM : same_model pair_params pair_params8 by rewrite /same_model /=.
  have EB : Rmult (IZR (sp_L pair_params)) (sp_dt pair_params) = (1/2)%coqR by rewrite /=; lra.
  exists la, k, st, EV, EK, expH. split; first exact: SM. split; first exact: EB. split; first exact: LA. split; first exact: SC. split; first exact: Ek.
  split; first exact: Est. split; first exact: HV. split; first exact: HK. split; first exact: HX. split; first exact: NZ. move=> mean.
  have [_ [R _]] := H la (fun _ => R0) (fun _ => 7%Z) pair_params k st EV EK expH SM EB LA SC pair_wf pair_valid erefl pair_U
    (proj1 pair_counts) (proj1 (proj2 pair_counts)) (proj1 (proj2 (proj2 pair_counts))) (proj2 (proj2 (proj2 pair_counts))) Ek Est HV HK HX NZ.
  have := @ts_density _ _ _ _ R density_u up 0%Z (or_introl erefl) (conj (Z.le_refl 0) Z.lt_0_1).
  rewrite /within /average /sum /=. exact.
Qed.
