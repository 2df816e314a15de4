(** C77: systems without interaction are computed exactly. *)
From Coq Require Import ZArith List Reals Lia Lra.
From mathcomp Require Import all_ssreflect fingroup perm ssralg matrix.
From Verif Require Import Base MatProd RField MatSpec MatFacts TimeStep TimeStepSpec Strat StratSpec StratFacts Lapack LapackSpec GreenConstruct SimParams ParamSpec KineticSpec KineticExp
  KineticExpSpec KineticExpFacts RandSource SweepSpec WickSpec Measure MeasureSpec UMeasure UMeasureSpec SimulationSpec SimulationRun Simulation IdealSpec LapackSyev SimulationCase
  FockSpec HubbardSpec ThermalSpec ThermalResults TrotterPos TrotterSpec TrotterResults SpinSymSpec P_Simulation FreeFacts.
Set Implicit Arguments.
Unset Strict Implicit.
Unset Printing Implicit Defensive.
Local Open Scope ring_scope.
Import GRing.Theory.

(** C77: for U = 0 and no phonons, every complete simulation with valid parameters is defined, whatever the start field; and unless a
    rejection loop of the generator never returns, the mean sign is 1 and every result array holds exactly the thermal expectation
    values with exp(-beta H): no statistical error, no matter how short the run is and which random numbers are drawn, and no error of
    the time discretisation. *)
Theorem C77_free_system_exact : forall (RS : Type) (rng : rand_source RS) valid la junk ijunk p seed expH,
  rand_ok rng valid -> valid seed -> lapack_ok la -> syev_converges la -> well_formed p -> valid_params p ->
  Z.of_nat (List.length (sp_U p)) = sp_Norb p -> no_repulsion p ->
  (0 <= sp_nequil p)%Z -> (0 < sp_nsampl p)%Z -> (0 < sp_neqlt p <= sp_L p)%Z ->
  ((0 < sp_nuneqlt p)%Z -> (2 * sp_prodBlen p <= sp_L p)%Z /\
     exists t, (sp_nequil p <= t < sp_nequil p + sp_nsampl p)%Z /\ (sp_nuneqlt p | t)%Z) ->
  (forall t, is_exp (- t *: kinetic_energy p) (expH t)) ->
  let beta := Rmult (IZR (sp_L p)) (sp_dt p) in
  simulation rng la junk ijunk p seed = Some None \/
  exists m u, simulation rng la junk ijunk p seed = Some (Some (m, u)) /\
    m_sign m = R1 /\
    thermal_equal_time (@eq R) (fun O : fock (sites p) => exact expH beta 0 O 1%:M) (fun f e => val (m_arr m f) e) /\
    match u with
    | None => (sp_nuneqlt p <= 0)%Z
    | Some u => (0 < sp_nuneqlt p)%Z /\ u_sign u = R1 /\
        thermal_unequal_time (p := p) (@eq R) (fun l : nat => exact expH beta (Rmult (INR l) (sp_dt p))) (fun f e => val (u_arr u f) e)
    end.
Proof.
  move=> RS rng valid la junk ijunk p seed expH RO Hv LA SC WF VP HU NU Hq Hs Hn Hun HX beta.
  have Hpos o : (0 <= o < sp_Norb p)%Z -> Rle 0 (Rmult (sp_dt p) (List.nth (Z.to_nat o) (sp_U p) R0)).
  { move=> _. have -> : List.nth (Z.to_nat o) (sp_U p) R0 = R0; last lra. move: NU. rewrite /no_repulsion.
    elim: (sp_U p) (Z.to_nat _) => [|x xs IH] [|q] //= H; inversion H; subst => //. exact: IH. }
  have [k [st [s0 [seed1 [Ek [_ [Est [E0 HC]]]]]]]] := C56_results_are_means_over_chain junk ijunk RO Hv LA SC WF VP HU Hpos Hq Hs Hn Hun.
  have Hf0 : field_ok (sites p) (Z.to_nat (sp_L p)) s0.
  { have [s1 [sd [E1 [_ [L1 [F1 _]]]]]] := random_fieldE ijunk (Z.to_nat (sp_L p) * sites p) RO Hv. move: E1. rewrite E0 => -[? _]. subst s1. by split. }
  have W0 : weight (sites p) (Z.to_nat (sp_L p)) k st s0 <> 0 by have := W_pos NU LA SC WF HU Ek Est Hf0; rewrite -R0E; lra.
  have [[[[[seed2 s2] eq] un]|] [_ HR]] := HC W0; last by left.
  have [m [u [x [Es [Neq [Feq [Fun [_ [Sm [Rm [Hu _]]]]]]]]]]] := HR. right. exists m, u. split => //.
  have NE : eq <> nil.
  { move=> E. move: Neq. rewrite E /=. have := Z.div_le_lower_bound (sp_L p) (sp_neqlt p) 1 ltac:(lia) ltac:(lia). nia. }
  have NZ := all_nz NU LA SC WF HU Ek Est.
  split; first by rewrite Sm; exact: (eq_sign NU LA SC WF HU Ek Est NE Feq).
  split.
  - apply: (exact_equal NU LA SC WF HU Hn Ek Est HX). apply: (equal_time_entries ijunk LA SC WF HU Hn Ek Est NZ) => f e F y H1 H2.
    rewrite (H1 _ _ Rm). apply: (eq_const NU LA SC WF HU Ek Est NE Feq). exact: (H2 0%N (leq0n _)).
  - case: u {HC HR Es} Hu => [u|] // [Hp [Nun [_ [Su Ru]]]]. split => //.
    have NE' : un <> nil.
    { move=> E. have := ThermalRun.multiples_pos Hs Hun Hp. rewrite -Nun E. exact. }
    split; first by rewrite Su; exact: (un_sign NU LA SC WF HU Ek Est NE' Fun).
    apply: (exact_unequal NU LA SC WF HU Hn Ek Est HX). apply: (unequal_time_entries LA SC WF HU Ek Est NZ) => f e l F y H1 H2.
    rewrite (H1 _ _ Ru). exact: (un_const NU LA SC WF HU Ek Est NE' Fun H2).
Qed.
Print Assumptions C77_free_system_exact.

(** two sites with hopping, not half filled, with U = 0 *)
Definition free_pair : sim_params :=
  mk_sim_params 1 2 1 0 (mk_bonds [:: 0] [:: 1] [:: 0] [:: 0] [:: 0])%coqR [:: R0] [:: R0] 1%coqR false
    (mk_phonon_params [:: R0] [:: R0] R0 0 R0 0) (1/8)%coqR 4 2 2 1 2 2 1 1 0.
Lemma free_wf : well_formed free_pair.
Proof. unfold well_formed; cbn; repeat split; try lia; repeat constructor. Qed.
Lemma free_valid : valid_params free_pair.
Proof.
  constructor; cbn; try lia.
  - move=> i Hi. have -> : i = 0%Z by lia. by [].
  - by exists 2%Z.
  - by exists 1%Z.
Qed.
(** with random numbers that make all loops return: the simulation returns with the exact values, both at equal and at unequal times *)
Example C77_case : exists la m u expH, lapack_ok la /\ syev_converges la /\ no_repulsion free_pair /\
  (forall t, is_exp (- t *: kinetic_energy free_pair) (expH t)) /\
  simulation calm_source la (fun _ => R0) (fun _ => 7%Z) free_pair tt = Some (Some (m, Some u)) /\ m_nsampl m = 4%Z /\
  val (m_arr m grfun_u) 1 = exact expH (1/2)%coqR 0 (cann_at 2 (up, 1%Z) *m cdag_at 2 (up, 0%Z)) 1%:M /\
  u_sign u = R1.
Proof.
  have [la [LA SC]] := lapack_converges. have [expH HX] := exp_family (kinetic_sym free_wf).
  have NU : no_repulsion free_pair by repeat constructor.
  have Hpos o : (0 <= o < 1)%Z -> Rle 0 (Rmult (1/8) (List.nth (Z.to_nat o) [:: R0] R0)).
  { move=> Ho. have -> : o = 0%Z by lia. cbn. lra. }
  have [C1 [C2 [C3 C4]]] := pair_counts.
  have [k [st [s0 [seed1 [Ek [_ [Est [E0 HC]]]]]]]] := @C56_results_are_means_over_chain _ _ _ la (fun _ => R0) (fun _ => 7%Z) free_pair tt
    calm_ok I LA SC free_wf free_valid erefl Hpos C1 C2 C3 C4.
  have Hf0 : field_ok 2 4 s0.
  { have [s1 [sd [E1 [_ [L1 [F1 _]]]]]] := @random_fieldE _ _ _ (fun _ => 7%Z) 8 calm_ok tt I.
    have [? _] : Some (s1, sd) = Some (s0, seed1) by rewrite -E1; exact: E0. subst s1. by split. }
  have W0 : weight 2 4 k st s0 <> 0.
  { have H : Rlt R0 (weight 2 4 k st s0) := W_pos NU LA SC free_wf erefl Ek Est Hf0. rewrite -R0E. lra. }
  have [[[[[seed2 s2] eq] un]|] [Hh HR]] := HC W0; last by case: (@chain_returns _ calm_source _ _ _ calm_returns free_pair _ seed1 s0 pair_total Hh).
  case: HR => m [[u|] [x [E [Eq [_ [_ [Em [_ [_ [HU _]]]]]]]]]]; last by case: HU.
  have [E'|[m' [u' [E' [_ [TE TU]]]]]] := @C77_free_system_exact _ _ _ la (fun _ => R0) (fun _ => 7%Z) free_pair tt expH
    calm_ok I LA SC free_wf free_valid erefl NU C1 C2 C3 C4 HX; first by rewrite E' in E; discriminate E.
  rewrite E' in E. case: E => ? ?. subst m' u'. exists la, m, u, expH.
  split; first exact: LA. split; first exact: SC. split; first exact: NU. split; first exact: HX. split; first exact: E'.
  split; first by rewrite Em; exact: Eq.
  split; last by case: TU => _ [].
  have G := te_green_u TE (i := 1%Z) (j := 0%Z) ltac:(cbn; lia) ltac:(cbn; lia).
  have EB : Rmult (IZR (sp_L free_pair)) (sp_dt free_pair) = (1/2)%coqR by cbn; lra.
  rewrite EB in G. exact: G.
Qed.
