(** C82: complete simulations of the program that records every site. *)
From Coq Require Import ZArith List Reals Lia Lra.
From mathcomp Require Import all_ssreflect ssralg matrix.
From Verif Require Import Base BaseFacts MatProd RField BlasFacts MatSpec MatFacts TimeStep TimeStepSpec TimeStepFacts Strat StratSpec StratFacts GreenSpec GreenFacts
  Lapack LapackSpec GreenConstruct SimParams ParamParser ParamSpec KineticSpec KineticExp KineticExpSpec KineticExpFacts RandSource Sweep SweepSpec SweepFacts
  WickSpec Measure MeasureSpec MeasureSeqFacts UMeasure UMeasureSpec UMeasureSeqFacts UnequalTime UnequalTimeSpec UnequalTimeFacts
  ConfigFacts Simulation SimulationSpec SimulationFacts SimulationRun Random RandomSpec P_Random LapackSyev SimulationCase
  LatticeSpec FMeasure FMeasureSpec FSimulation FSimulationSpec FSimulationAvg FSimulationBoth.
Set Implicit Arguments.
Unset Strict Implicit.
Unset Printing Implicit Defensive.
Local Open Scope ring_scope.
Import GRing.Theory.

(** C82: what C56 says about the program in its default form holds for the program built with
    measurement_full.c, with the same Metropolis chain: for all valid parameters without phonons for which
    something is measured, the whole run is defined if the initial field has non-zero weight, and unless a
    rejection loop of the generator never returns, every entry of every array is the mean, over the
    configurations visited at the times of the measurements, of the sign of the weight times the
    expectation value for its site, pair of sites or pair of cells. *)
Theorem C82_site_results_are_means_over_chain : forall (RS : Type) (rng : rand_source RS) valid la junk ijunk p seed,
  rand_ok rng valid -> valid seed -> lapack_ok la -> syev_converges la -> well_formed p -> valid_params p ->
  Z.of_nat (List.length (sp_U p)) = sp_Norb p ->
  (forall o, (0 <= o < sp_Norb p)%Z -> Rle 0 (Rmult (sp_dt p) (List.nth (Z.to_nat o) (sp_U p) R0))) ->
  (0 <= sp_nequil p)%Z -> (0 < sp_nsampl p)%Z -> (0 < sp_neqlt p <= sp_L p)%Z ->
  ((0 < sp_nuneqlt p)%Z -> (2 * sp_prodBlen p <= sp_L p)%Z /\
     exists t, (sp_nequil p <= t < sp_nequil p + sp_nsampl p)%Z /\ (sp_nuneqlt p | t)%Z) ->
  let n := sites p in let L := Z.to_nat (sp_L p) in
  exists k st s0 seed1,
    kinetic_exponential la junk p = Some k /\ is_exp (- sp_dt p *: hamiltonian p) (mat n (expK k)) /\
    fill_stratonovich (sp_Norb p) (sp_U p) (sp_dt p) (fresh junk (sp_Norb p)) = Some st /\
    random_field rng (L * n) seed = Some (s0, seed1) /\
    let W := weight n L k st in
    (W s0 <> 0 -> exists h, chain rng n W L p (raw_ints ijunk (Z.of_nat n)) seed1 s0 = Some h /\
      match h with
      | None => fsimulation rng la junk ijunk p seed = Some None
      | Some (seed2, s2, eq, un) => exists m u x,
          fsimulation rng la junk ijunk p seed = Some (Some (m, u)) /\
          Z.of_nat (List.length eq) = (sp_nsampl p * (sp_L p / sp_neqlt p))%Z /\
          List.Forall (fun x => (fst x <= L)%N /\ field_ok n L (snd x) /\ W (snd x) <> 0) eq /\
          List.Forall (fun s => field_ok n L s /\ W s <> 0) un /\
          m_nsampl m = Z.of_nat (List.length eq) /\
          m_sign m = list_mean (fun x => sgn (W (snd x))) eq /\
          site_results p (eq_mean n L k st eq) m /\
          match u with
          | None => (sp_nuneqlt p <= 0)%Z
          | Some u => (0 < sp_nuneqlt p)%Z /\
              Z.of_nat (List.length un) = multiples (sp_nuneqlt p) (sp_nequil p) (sp_nequil p + sp_nsampl p) /\
              u_nsampl u = Z.of_nat (List.length un) /\
              u_sign u = list_mean (fun s => sgn (W s)) un /\
              site_unequal_results p (un_mean n L k st un) u
          end /\
          fsim_run rng la junk ijunk p seed = Some (Some x) /\ mc_seed (sm_mc x) = seed2 /\ mc_s (sm_mc x) = s2
      end).
Proof.
  move=> RS rng valid la junk ijunk p seed RO Hv LA SC WF VP HU Hpos Hq Hs Hn Hun n L.
  have [k [st [s0 [seed1 [Ek [HE [Est [E0 HA]]]]]]]] := @site_run RS rng valid la junk ijunk p seed RO Hv LA SC WF VP HU Hpos Hq Hs Hn Hun.
  exists k, st, s0, seed1. do 4 split => //. move=> W HW. have [h [Eh {}HA]] := HA HW. exists h. split => //.
  case: h HA {Eh} => [[[[seed2 s2] eq] un]|] // [m [u [x [E [A1 [A2 [A3 [A4 [A5 [A6 [_ [A7 A8]]]]]]]]]]]].
  exists m, u, x. do 7 split => //. by case: u A7 {E} => // u [B1 [B2 [B3 [B4 [B5 _]]]]].
Qed.
Print Assumptions C82_site_results_are_means_over_chain.

(** the two forms of the program are about the same chain: the results of the default form are the averages
    over all cells of the results recorded for every site *)
Theorem C82_default_results_are_averages : forall (RS : Type) (rng : rand_source RS) valid la junk ijunk p seed,
  rand_ok rng valid -> valid seed -> lapack_ok la -> syev_converges la -> well_formed p -> valid_params p ->
  Z.of_nat (List.length (sp_U p)) = sp_Norb p ->
  (forall o, (0 <= o < sp_Norb p)%Z -> Rle 0 (Rmult (sp_dt p) (List.nth (Z.to_nat o) (sp_U p) R0))) ->
  (0 <= sp_nequil p)%Z -> (0 < sp_nsampl p)%Z -> (0 < sp_neqlt p <= sp_L p)%Z ->
  ((0 < sp_nuneqlt p)%Z -> (2 * sp_prodBlen p <= sp_L p)%Z /\
     exists t, (sp_nequil p <= t < sp_nequil p + sp_nsampl p)%Z /\ (sp_nuneqlt p | t)%Z) ->
  let n := sites p in let L := Z.to_nat (sp_L p) in
  exists k st s0 seed1,
    kinetic_exponential la junk p = Some k /\ is_exp (- sp_dt p *: hamiltonian p) (mat n (expK k)) /\
    fill_stratonovich (sp_Norb p) (sp_U p) (sp_dt p) (fresh junk (sp_Norb p)) = Some st /\
    random_field rng (L * n) seed = Some (s0, seed1) /\
    (weight n L k st s0 <> 0 ->
      (simulation rng la junk ijunk p seed = Some None /\ fsimulation rng la junk ijunk p seed = Some None) \/
      (exists a s ua us x y, simulation rng la junk ijunk p seed = Some (Some (a, ua)) /\ fsimulation rng la junk ijunk p seed = Some (Some (s, us)) /\
        averages_of (sp_Norb p) (sp_Nx p) (sp_Ny p) (sp_pbc_shift p) a s /\
        match ua, us with
        | None, None => (sp_nuneqlt p <= 0)%Z
        | Some ua, Some us => (0 < sp_nuneqlt p)%Z /\ u_averages_of (sp_Norb p) (sp_Nx p) (sp_Ny p) (sp_pbc_shift p) (sp_L p) ua us
        | _, _ => False
        end /\
        sim_run rng la junk ijunk p seed = Some (Some x) /\ fsim_run rng la junk ijunk p seed = Some (Some y) /\
        mc_seed (sm_mc x) = mc_seed (sm_mc y) /\ mc_s (sm_mc x) = mc_s (sm_mc y))).
Proof.
  move=> RS rng valid la junk ijunk p seed RO Hv LA SC WF VP HU Hpos Hq Hs Hn Hun n L.
  have [k [st [s0 [seed1 [Ek [HE [Est [E0 HA]]]]]]]] := @default_run RS rng valid la junk ijunk p seed RO Hv LA SC WF VP HU Hpos Hq Hs Hn Hun.
  have [k' [st' [s0' [seed1' [Ek' [_ [Est' [E0' HB]]]]]]]] := @site_run RS rng valid la junk ijunk p seed RO Hv LA SC WF VP HU Hpos Hq Hs Hn Hun.
  move: Ek' Est' E0'. rewrite Ek Est E0 => -[?] [?] [? ?]. subst k' st' s0' seed1'.
  exists k, st, s0, seed1. do 4 split => //. move=> HW.
  have [h [Eh {}HA]] := HA HW. have [h' [Eh' {}HB]] := HB HW.
  move: Eh'. rewrite Eh => -[?]. subst h'. case: h {Eh} HA HB => [[[[seed2 s2] eq] un]|]; last by left.
  case=> a [ua [x [Ea [_ [_ [_ [Na [Sa [Ra [Ca [Ua [Xa [X1 X2]]]]]]]]]]]]] [s [us [y [Es [_ [_ [_ [Ns [Ss [Rs [Cs [Us [Ys [Y1 Y2]]]]]]]]]]]]]].
  right. exists a, s, ua, us, x, y. case: (WF) => H1 [H2 [H3 _]].
  split => //. split => //. split.
  { apply: (@results_averages p H2 H3 _ a s (@eq_mean_commutes n L k st eq) Ra Rs Ca Cs); [by rewrite Sa Ss|by rewrite Na Ns]. }
  split; last by rewrite X1 X2 Y1 Y2.
  case: ua us Ua Us {Ea Es} => [ua|] [us|] //.
  - case=> Hp [_ [N1 [S1 [R1' C1]]]] [_ [_ [N2 [S2 [R2' C2]]]]]. split => //.
    apply: (@unequal_results_averages p H2 H3 (un_mean n L k st un) ua us (@un_mean_commutes n L k st un) R1' R2' C1 C2); [by rewrite S1 S2|by rewrite N1 N2].
  - by move=> [Hp _] /(Zlt_not_le _ _ Hp).
  - by move=> Hp [/Zlt_not_le Hp' _].
Qed.
Print Assumptions C82_default_results_are_averages.

(** two sites: with random numbers that make all loops return, the simulation ends with four samples of the
    equal time data and two of the unequal time data *)
Example C82_case : exists la m u, lapack_ok la /\ syev_converges la /\ exists k st s0 seed1,
  kinetic_exponential la (fun _ => R0) pair_params = Some k /\
  fill_stratonovich 1 [:: 4%coqR] (1/8)%coqR [:: R0] = Some st /\
  random_field calm_source 8 tt = Some (s0, seed1) /\ weight 2 4 k st s0 <> 0 /\
  fsimulation calm_source la (fun _ => R0) (fun _ => 7%Z) pair_params tt = Some (Some (m, Some u)) /\
  m_nsampl m = 4%Z /\ u_nsampl u = 2%Z.
Proof.
  have [la [LA SC]] := lapack_converges.
  have [k [st [s0 [seed1 [Ek [HE [Est [E0 HC]]]]]]]] := @C82_site_results_are_means_over_chain _ _ _ la (fun _ => R0) (fun _ => 7%Z) pair_params tt
    calm_ok I LA SC pair_wf pair_valid erefl pair_U
    (proj1 pair_counts) (proj1 (proj2 pair_counts)) (proj1 (proj2 (proj2 pair_counts))) (proj2 (proj2 (proj2 pair_counts))).
  have [k' [Ek' [KO [KN _]]]] := kinetic_exponential_ok (fun _ => R0) LA SC pair_wf. move: Ek'. rewrite Ek => -[?]. subst k'.
  have [s0' [seed1' [E0' [_ [L0 [F0 _]]]]]] := @random_fieldE _ _ _ (fun _ => 7%Z) 8 calm_ok tt I.
  have E0'' : random_field calm_source 8 tt = Some (s0, seed1) by exact: E0.
  have [E1 E2] : Some (s0', seed1') = Some (s0, seed1) by rewrite -E0' -E0''.
  subst s0' seed1'.
  have HW := @pair_weight_nz k st [:: R0] KO KN HE erefl Est s0 (conj L0 F0).
  have [[[[[seed2 s2] eq] un]|] [Hh HR]] := HC HW; last by case: (@chain_returns _ calm_source _ _ _ calm_returns pair_params _ seed1 s0 pair_total Hh).
  case: HR => m [[u|] [x [E [Eq [_ [_ [Em [_ [_ [HU _]]]]]]]]]]; last by case: HU.
  case: HU => _ [Eun [Eu _]]. exists la, m, u.
  split; first exact: LA. split; first exact: SC. exists k, st, s0, seed1. split; first exact: Ek. split; first exact: Est. split; first exact: E0''.
  split; first exact: HW. split; first exact: E. split; [rewrite Em; exact: Eq|rewrite Eu; exact: Eun].
Qed.

(** the same for the averages *)
Example C82_case_averages : exists la a s ua us, lapack_ok la /\
  simulation calm_source la (fun _ => R0) (fun _ => 7%Z) pair_params tt = Some (Some (a, Some ua)) /\
  fsimulation calm_source la (fun _ => R0) (fun _ => 7%Z) pair_params tt = Some (Some (s, Some us)) /\
  averages_of 1 2 1 0 a s /\ u_averages_of 1 2 1 0 4 ua us.
Proof.
  have [la [m0 [u0 [LA [SC [k0 [st0 [s00 [seed0 [Ek0 [Est0 [E00 [HW0 [EF _]]]]]]]]]]]]]] := C82_case.
  have [k [st [s0 [seed1 [Ek [_ [Est [E0 HC]]]]]]]] := @C82_default_results_are_averages _ _ _ la (fun _ => R0) (fun _ => 7%Z) pair_params tt
    calm_ok I LA SC pair_wf pair_valid erefl pair_U
    (proj1 pair_counts) (proj1 (proj2 pair_counts)) (proj1 (proj2 (proj2 pair_counts))) (proj2 (proj2 (proj2 pair_counts))).
  have E0' : random_field calm_source 8 tt = Some (s0, seed1) by exact: E0.
  have Est' : fill_stratonovich 1 [:: 4%coqR] (1/8)%coqR [:: R0] = Some st by exact: Est.
  move: Ek0 Est0 E00. rewrite Ek Est' E0' => -[?] [?] [? ?]. subst k0 st0 s00 seed0.
  have [[_ E]|[a [s [ua [us [x [y [Ea [Es [HA [HU _]]]]]]]]]]] := HC HW0.
  - by move: E; rewrite EF.
  - case: ua us Ea Es HU => [ua|] [us|] Ea Es //.
    move=> [_ HU]. exists la, a, s, ua, us. by split; [exact: LA|split; [exact: Ea|split; [exact: Es|split]]].
Qed.
