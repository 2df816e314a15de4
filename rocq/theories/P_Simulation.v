(** C56: complete simulations. *)
From Coq Require Import ZArith List Reals Lia Lra.
From mathcomp Require Import all_ssreflect ssralg matrix.
From Verif Require Import Base BaseFacts MatProd RField BlasFacts MatSpec MatFacts TimeStep TimeStepSpec TimeStepFacts Strat StratSpec StratFacts GreenSpec GreenFacts
  Lapack LapackSpec GreenConstruct SimParams ParamParser ParamSpec KineticSpec KineticExp KineticExpSpec KineticExpFacts RandSource Sweep SweepSpec SweepFacts
  WickSpec Measure MeasureSpec MeasureSeqFacts UMeasure UMeasureSpec UMeasureSeqFacts UnequalTime UnequalTimeSpec UnequalTimeFacts
  ConfigFacts Simulation SimulationSpec SimulationFacts SimulationRun Random RandomSpec P_Random LapackSyev SimulationCase.
Set Implicit Arguments.
Unset Strict Implicit.
Unset Printing Implicit Defensive.
Local Open Scope ring_scope.
Import GRing.Theory.

(** C56: for all valid parameters without phonons for which something is measured, every generator and every
    linear algebra library that meet their contracts, and all contents of uninitialised memory: the
    program's Hamiltonian, tables and initial field exist, and if the initial field has non-zero weight, the
    whole run is defined (no access outside of an array, no division by zero).  Unless a rejection loop of
    the generator never returns, the results are exactly the means over the configurations that the
    Metropolis chain for the weight det det visits after the equilibration: at every neqlt-th slice of every
    sweep for the equal time data, after every sweep with a number divisible by nuneqlt for the unequal time
    data.  Every configuration enters with the sign of its weight times the expectation value computed with
    its exact Green's functions; the weight of all measured configurations is different from zero.  The generator and the field stored at the end are those of the chain. *)
Theorem C56_results_are_means_over_chain : forall (RS : Type) (rng : rand_source RS) valid la junk ijunk p seed,
  rand_ok rng valid -> valid seed -> lapack_ok la -> syev_converges la -> well_formed p -> valid_params p ->
  Z.of_nat (List.length (sp_U p)) = sp_Norb p ->
  (forall o, (0 <= o < sp_Norb p)%Z -> Rle 0 (Rmult (sp_dt p) (List.nth (Z.to_nat o) (sp_U p) R0))) ->
  (0 <= sp_nequil p)%Z -> (0 < sp_nsampl p)%Z -> (0 < sp_neqlt p <= sp_L p)%Z ->
  ((0 < sp_nuneqlt p)%Z -> (2 * sp_prodBlen p <= sp_L p)%Z /\
     exists t, (sp_nequil p <= t < sp_nequil p + sp_nsampl p)%Z /\ (sp_nuneqlt p | t)%Z) ->
  let n := sites p in let L := Z.to_nat (sp_L p) in
  exists k st s0 seed1,
    kinetic_exponential la junk p = Some k /\ is_exp (- sp_dt p *: hamiltonian p) (mat n (expK k)) /\
    fill_stratonovich (sp_Norb p) (sp_U p) (sp_dt p) (fresh junk (sp_Norb p)) = Some st /\
    random_field rng (L * n) seed = Some (s0, seed1) /\
    let W := weight n L k st in
    (W s0 <> 0 -> exists h, chain rng n W L p (raw_ints ijunk (Z.of_nat n)) seed1 s0 = Some h /\
      match h with
      | None => simulation rng la junk ijunk p seed = Some None
      | Some (seed2, s2, eq, un) => exists m u x,
          simulation rng la junk ijunk p seed = Some (Some (m, u)) /\
          Z.of_nat (List.length eq) = (sp_nsampl p * (sp_L p / sp_neqlt p))%Z /\
          List.Forall (fun x => (fst x <= L)%N /\ field_ok n L (snd x) /\ W (snd x) <> 0) eq /\
          List.Forall (fun s => field_ok n L s /\ W s <> 0) un /\
          m_nsampl m = Z.of_nat (List.length eq) /\
          m_sign m = list_mean (fun x => sgn (W (snd x))) eq /\
          equal_time_results p (eq_mean n L k st eq) m /\
          match u with
          | None => (sp_nuneqlt p <= 0)%Z
          | Some u => (0 < sp_nuneqlt p)%Z /\
              Z.of_nat (List.length un) = multiples (sp_nuneqlt p) (sp_nequil p) (sp_nequil p + sp_nsampl p) /\
              u_nsampl u = Z.of_nat (List.length un) /\
              u_sign u = list_mean (fun s => sgn (W s)) un /\
              unequal_time_results p (un_mean n L k st un) u
          end /\
          sim_run rng la junk ijunk p seed = Some (Some x) /\ mc_seed (sm_mc x) = seed2 /\ mc_s (sm_mc x) = s2
      end).
Proof.
  move=> RS rng valid la junk ijunk p seed RO Hv LA SC WF VP HU Hpos Hq Hs Hn Hun n L.
  have [k [Ek [KO [KN [_ [HE _]]]]]] := kinetic_exponential_ok junk LA SC WF.
  case: (WF) => H1 [H2 [H3 [H4 _]]].
  have LJ : Z.of_nat (List.length (fresh junk (sp_Norb p))) = sp_Norb p by rewrite /fresh !map_length seq_length; lia.
  have [st Est] := fill_defined (sp_Norb p) (sp_U p) (sp_dt p) (fresh junk (sp_Norb p)) ltac:(lia) HU LJ Hpos.
  have SO : strat_ok (k_Norb k) st by rewrite KN; apply: (fill_strat_ok _ HU LJ Est); lia.
  have [s0 [seed1 [E0 [V1 [L0 [F0 I0]]]]]] := random_fieldE ijunk (L * n) RO Hv.
  exists k, st, s0, seed1. do 4 split => //. move=> W HW.
  have Hf : field_ok n L s0 by split.
  have [m0 [Em0 [M0 [S0 N0]]]] := allocate_meas_ok (sp_Norb p) (sp_Nx p) (sp_Ny p) (sp_pbc_shift p) H1 H2 H3 H4 ijunk.
  have HLp := v_L _ VP. have Hbp := v_prodBlen _ VP.
  have [u0 [Eu0 [U0 [SU0 NU0]]]] := allocate_umeas_ok (sp_Norb p) (sp_Nx p) (sp_Ny p) (sp_pbc_shift p) (sp_L p) H1 H2 H3 H4 HLp ijunk.
  set b := Z.to_nat (sp_prodBlen p).
  have NE : (sp_Norb p * (sp_Nx p * sp_Ny p))%Z = Z.of_nat n by rewrite (nE WF).
  have LE : sp_L p = Z.of_nat L by rewrite (LZ VP).
  have BE : sp_prodBlen p = Z.of_nat b by rewrite (bZ VP).
  have [H0 [EH SH]] : exists H0, temp_matrix junk p (Z.of_nat n) = Some H0 /\ square (n * (L %/ b)) H0.
  { rewrite /temp_matrix LE BE UnequalTimeFacts.cdivE; last exact: b_pos VP. cbn [obind]. eexists. split; first reflexivity.
    rewrite /square /lenZ /fresh !map_length seq_length -multE. nia. }
  have HM : exists g, meas_ok (sp_Norb p) (sp_Nx p) (sp_Ny p) (sp_pbc_shift p) m0 g by eexists; exact: M0.
  have EL : L = (L %/ b * b)%N by rewrite (divnK (b_L VP)).
  have Lo : List.length (raw_ints ijunk (Z.of_nat n)) = n by rewrite /raw_ints !map_length seq_length Nat2Z.id.
  have [m1 [E1 [C1 [Es1 [Ed1 Ema]]]]] := @dqmc_setup_ok RS meas valid la LA junk
    (fun m => exists g, meas_ok (sp_Norb p) (sp_Nx p) (sp_Ny p) (sp_pbc_shift p) m g) n L b k st (n_pos WF) KO SO (L %/ b)%N
    seed1 (raw_ints ijunk (Z.of_nat n)) s0 m0 EL (L_pos VP) V1 Lo Hf HM HW.
  have Hun1 : (0 < sp_nuneqlt p)%Z -> (2 * sp_prodBlen p <= sp_L p)%Z by case/Hun.
  have [r [r' [Er [Er' HR]]]] := run_loop RO LA junk ijunk WF VP Hun1 KO SO U0 SH SH ltac:(lia) C1 Ema.
  rewrite Es1 Ed1 in Er'.
  have ER : sim_run rng la junk ijunk p seed = Some r.
  { rewrite /sim_run Em0. cbn [obind]. rewrite Eu0. cbn [obind]. rewrite NE EH. cbn [obind].
    have -> : (sp_L p * Z.of_nat n)%Z = Z.of_nat (L * n) by rewrite -multE LE; lia.
    rewrite I0. cbn [obind]. rewrite Ek. cbn [obind]. rewrite Est. cbn [obind]. rewrite {1}LE BE E1. cbn [obind]. exact: Er. }
  exists r'. split => //. rewrite /simulation ER. cbn [obind].
  case: r r' HR ER Er' {Er} => [x|] [[[[seed2 s2] eq] un]|] // HR ER Er'.
  have [C2 C3] := chain_count Hq ltac:(lia) (proj1 Hn) Er'. rewrite /= -LE in C2 C3.
  case: HR => /= R1 R2 _ R4 R5.
  have F1 := recorded_ok KO SO R4. have F2 : List.Forall (fun s => field_ok n L s /\ W s <> 0) un by case: R5 => xs [/samples_ok].
  have Heq : eq <> [::].
  { move=> E. move: C2. rewrite E /=. have := Z.div_le_lower_bound (sp_L p) (sp_neqlt p) 1 ltac:(lia) ltac:(lia). nia. }
  have [m [Em [Nm [Sm Rm]]]] := eq_all WF KO SO M0 R4 S0 N0 Heq.
  rewrite Em. cbn [obind]. case: Z.ltb_spec => Hu.
  - have [_ [t [Ht [j Hj]]]] := Hun Hu.
    have C4 := C3 Hu.
    have Hne : un <> [::].
    { move=> E. move: C4. rewrite E /= /multiples. set q := sp_nuneqlt p in Hu Hj *.
      have A1 : ((sp_nequil p + q - 1) / q <= j)%Z.
      { have : ((sp_nequil p + q - 1) / q < j + 1)%Z by apply: Z.div_lt_upper_bound; nia. lia. }
      have A2 : (j + 1 <= (sp_nequil p + sp_nsampl p + q - 1) / q)%Z by apply: Z.div_le_lower_bound; nia.
      lia. }
    have [u [Eu [Nu [Su Ru]]]] := un_all LA WF VP Hun1 U0 SH SH R5 Hu SU0 NU0 Hne.
    rewrite Eu. cbn [obind]. exists m, (Some u), x. by do 7 split => //.
  - exists m, None, x. by do 7 split => //.
Qed.
Print Assumptions C56_results_are_means_over_chain.

(** two sites with the program's generator: the initial field has non-zero weight and the chain exists *)
Example C56_case : exists la k st s0 seed1 h, lapack_ok la /\ syev_converges la /\ well_formed pair_params /\ valid_params pair_params /\
  kinetic_exponential la (fun _ => R0) pair_params = Some k /\
  fill_stratonovich 1 [:: 4%coqR] (1/8)%coqR [:: R0] = Some st /\
  random_field (xorshift_source 100) 8 (seed_init 1) = Some (s0, seed1) /\ weight 2 4 k st s0 <> 0 /\
  chain (xorshift_source 100) 2 (weight 2 4 k st) 4 pair_params [:: 7; 7]%Z seed1 s0 = Some h.
Proof.
  have [la [LA SC]] := lapack_converges. have [V1 _] := C03_example.
  have [k [st [s0 [seed1 [Ek [HE [Est [E0 HC]]]]]]]] := @C56_results_are_means_over_chain _ _ _ la (fun _ => R0) (fun _ => 7%Z) pair_params _
    (xorshift_ok 100) V1 LA SC pair_wf pair_valid erefl pair_U
    (proj1 pair_counts) (proj1 (proj2 pair_counts)) (proj1 (proj2 (proj2 pair_counts))) (proj2 (proj2 (proj2 pair_counts))).
  have [k' [Ek' [KO [KN _]]]] := kinetic_exponential_ok (fun _ => R0) LA SC pair_wf. move: Ek'. rewrite Ek => -[?]. subst k'.
  have [s0' [seed1' [E0' [_ [L0 [F0 _]]]]]] := random_fieldE (fun _ => 7%Z) 8 (xorshift_ok 100) V1.
  have E0'' : random_field (xorshift_source 100) 8 (seed_init 1) = Some (s0, seed1) by exact: E0.
  have [E1 E2] : Some (s0', seed1') = Some (s0, seed1) by rewrite -E0' -E0''.
  subst s0' seed1'.
  have HW := @pair_weight_nz k st [:: R0] KO KN HE erefl Est s0 (conj L0 F0).
  have [h [Hh _]] := HC HW. exists la, k, st, s0, seed1, h.
  exact (conj LA (conj SC (conj pair_wf (conj pair_valid (conj Ek (conj Est (conj E0'' (conj HW Hh)))))))).
Qed.

(** with random numbers that make all loops return, the simulation of the two sites ends with four
    samples of the equal time data and two of the unequal time data *)
Example C56_case_returns : exists la m u, lapack_ok la /\ syev_converges la /\ exists k st s0 seed1,
  kinetic_exponential la (fun _ => R0) pair_params = Some k /\
  fill_stratonovich 1 [:: 4%coqR] (1/8)%coqR [:: R0] = Some st /\
  random_field calm_source 8 tt = Some (s0, seed1) /\ weight 2 4 k st s0 <> 0 /\
  simulation calm_source la (fun _ => R0) (fun _ => 7%Z) pair_params tt = Some (Some (m, Some u)) /\
  m_nsampl m = 4%Z /\ u_nsampl u = 2%Z.
Proof.
  have [la [LA SC]] := lapack_converges.
  have [k [st [s0 [seed1 [Ek [HE [Est [E0 HC]]]]]]]] := @C56_results_are_means_over_chain _ _ _ la (fun _ => R0) (fun _ => 7%Z) pair_params tt
    calm_ok I LA SC pair_wf pair_valid erefl pair_U
    (proj1 pair_counts) (proj1 (proj2 pair_counts)) (proj1 (proj2 (proj2 pair_counts))) (proj2 (proj2 (proj2 pair_counts))).
  have [k' [Ek' [KO [KN _]]]] := kinetic_exponential_ok (fun _ => R0) LA SC pair_wf. move: Ek'. rewrite Ek => -[?]. subst k'.
  have [s0' [seed1' [E0' [_ [L0 [F0 _]]]]]] := @random_fieldE _ _ _ (fun _ => 7%Z) 8 calm_ok tt I.
  have E0'' : random_field calm_source 8 tt = Some (s0, seed1) by exact: E0.
  have [E1 E2] : Some (s0', seed1') = Some (s0, seed1) by rewrite -E0' -E0''.
  subst s0' seed1'.
  have HW := @pair_weight_nz k st [:: R0] KO KN HE erefl Est s0 (conj L0 F0).
  have [[[[[seed2 s2] eq] un]|] [Hh HR]] := HC HW; last by case: (@chain_returns _ calm_source _ _ _ calm_returns pair_params _ seed1 s0 pair_total Hh).
  case: HR => m [[u|] [x [E [Eq [_ [_ [Em [_ [_ [HU _]]]]]]]]]]; last by case: HU.
  case: HU => _ [Eun [Eu _]]. exists la, m, u.
  split; first exact: LA. split; first exact: SC. exists k, st, s0, seed1. split; first exact: Ek. split; first exact: Est. split; first exact: E0''.
  split; first exact: HW. split; first exact: E. split; [rewrite Em; exact: Eq|rewrite Eu; exact: Eun].
Qed.
