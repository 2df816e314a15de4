(** Proofs about complete simulations of the two forms of the program. *)
From Coq Require Import ZArith List Reals Lia Lra.
From mathcomp Require Import all_ssreflect ssralg matrix.
From Verif Require Import Base BaseFacts MatProd RField BlasFacts MatSpec MatFacts TimeStep TimeStepSpec TimeStepFacts Strat StratSpec StratFacts GreenSpec GreenFacts
  Lapack LapackSpec GreenConstruct SimParams ParamParser ParamSpec KineticSpec KineticExp KineticExpSpec KineticExpFacts RandSource Sweep SweepSpec SweepFacts
  WickSpec Measure MeasureSpec MeasureSeqFacts UMeasure UMeasureSpec UMeasureSeqFacts UnequalTime UnequalTimeSpec UnequalTimeFacts
  ConfigFacts Simulation SimulationSpec SimulationFacts SimulationRun
  LatticeSpec Sums FMeasure FMeasureSpec FMeasureFacts FUMeasureFacts FSimulation FSimulationSpec FSimulationAvg FSimulationRun.
Set Implicit Arguments.
Unset Strict Implicit.
Unset Printing Implicit Defensive.
Local Open Scope ring_scope.
Import GRing.Theory.

Section Code.
Variables (la : lapack) (LA : lapack_ok la).
Variables (p : sim_params) (WF : well_formed p) (VP : valid_params p).
Hypothesis HUneq : (0 < sp_nuneqlt p)%Z -> (2 * sp_prodBlen p <= sp_L p)%Z.
Variables (k : kinetic) (st : strat).
Let n := sites p.
Let L := Z.to_nat (sp_L p).
Let b := Z.to_nat (sp_prodBlen p).
Hypotheses (KO : kinetic_ok n k) (SO : strat_ok (k_Norb k) st).
Notation Norb := (sp_Norb p).
Notation Nx := (sp_Nx p).
Notation Ny := (sp_Ny p).
Notation sh := (sp_pbc_shift p).
Let nE' := nE' WF.
Variables (m0 : meas) (u0 : umeas) (Hu0 Hd0 : list R).
Hypotheses (M0 : meas_ok Norb Nx Ny sh m0 (fun _ _ => R0)) (U0 : umeas_ok Norb Nx Ny sh (sp_L p) u0 (fun _ _ => R0)).
Hypotheses (Su0 : square (n * (L %/ b)) Hu0) (Sd0 : square (n * (L %/ b)) Hd0).

Lemma eq_code_ok eq d m : recorded accumulate n L k st eq m0 d -> m_sign m0 = R0 -> m_nsampl m0 = 0%Z -> eq <> [::] ->
  normalize d = Some m -> eq_code p (eq_mean n L k st eq) m.
Proof.
  move=> HR S0 N0 Hne Em. have [m' [E' [_ [_ [_ HV]]]]] := eq_results WF KO SO M0 HR S0 N0 Hne. move: E'. rewrite Em => -[?]. subst m'.
  case: (WF) => H1 [H2 [H3 _]].
  have RS' : forall i o, (0 <= i < Nx * Ny)%Z -> (0 <= o < Norb)%Z -> (0 <= site (Nx * Ny) i o < Zn n)%Z.
  { move=> i o Hi Ho. rewrite nE'. exact: MeasureFacts.site_range. }
  have RP : forall a c, (0 <= cell_plus Nx Ny sh a c < Nx * Ny)%Z by move=> a c; exact: MeasureFacts.plus_range.
  have RT : forall a c, (0 <= cell_step Nx Ny 0 a c < Nx * Ny)%Z by move=> a c; exact: MeasureFacts.step_range.
  move=> f o dd Hf Ho Hd. apply: HV.
  - have R : (0 <= dd + Nx * Ny * o < Nx * Ny * Norb)%Z by nia.
    by repeat (destruct Hf as [<-|Hf]; [exact R|]).
  - move=> x g Hx. rewrite inc_pair // (pair_sign KO SO Hx). congr (Rmult _ _). apply: FRecoverFacts.average_ext => i Hi. cbv zeta.
    rewrite -nE'. apply: (agree_pair_shape _ _ _ (pair_agree Hx)) => //; try (move=> *; apply: RS' => //); exact: RS'.
Qed.

Lemma un_code_ok un Hu Hd d u : (exists xs, List.Forall2 (@sample_at p k st) un xs /\ measure_samples la xs Hu0 Hd0 u0 = Some (Hu, Hd, d)) ->
  (0 < sp_nuneqlt p)%Z -> u_sign u0 = R0 -> u_nsampl u0 = 0%Z -> un <> [::] -> unormalize d = Some u -> un_code p (un_mean n L k st un) u.
Proof.
  move=> HR Hp S0 N0 Hne Eu. have [u' [E' [_ [_ HV]]]] := un_results LA WF VP HUneq U0 Su0 Sd0 HR Hp S0 N0 Hne. move: E'. rewrite Eu => -[?]. subst u'.
  case: (WF) => H1 [H2 [H3 _]].
  have HLz : (0 < sp_L p)%Z by exact: v_L VP.
  have RS' : forall i o, (0 <= i < Nx * Ny)%Z -> (0 <= o < Norb)%Z -> (0 <= site (Nx * Ny) i o < Zn n)%Z.
  { move=> i o Hi Ho. rewrite nE'. exact: MeasureFacts.site_range. }
  have RP : forall a c, (0 <= cell_plus Nx Ny sh a c < Nx * Ny)%Z by move=> a c; exact: MeasureFacts.plus_range.
  have RT : forall a c, (0 <= cell_step Nx Ny 0 a c < Nx * Ny)%Z by move=> a c; exact: MeasureFacts.step_range.
  move=> f l o dd Hf Hl Ho Hd'. apply: HV.
  - apply/ltP. rewrite /L. lia.
  - have R : (0 <= dd + (Nx * Ny * o + Nx * Ny * Norb * l) < Nx * Ny * Norb * sp_L p)%Z.
    { clear -H1 H2 H3 Hl Ho Hd'. have A1 : (0 <= dd + Nx * Ny * o < Nx * Ny * Norb)%Z by nia. nia. }
    by repeat (destruct Hf as [<-|Hf]; [exact R|]).
  - move=> c s. rewrite Z2Nat.id; last lia. move=> HA. rewrite uinc_bond //. congr (Rmult _ _). apply: FRecoverFacts.average_ext => i Hi. cbv zeta.
    rewrite -nE'. apply: (agree_ubond_code _ _ _ HA); try (move=> *; apply: RS' => //); exact: RS'.
Qed.
End Code.

Lemma default_run : forall (RS : Type) (rng : rand_source RS) valid la junk ijunk p seed,
  rand_ok rng valid -> valid seed -> lapack_ok la -> syev_converges la -> well_formed p -> valid_params p ->
  Z.of_nat (List.length (sp_U p)) = sp_Norb p ->
  (forall o, (0 <= o < sp_Norb p)%Z -> Rle 0 (Rmult (sp_dt p) (List.nth (Z.to_nat o) (sp_U p) R0))) ->
  (0 <= sp_nequil p)%Z -> (0 < sp_nsampl p)%Z -> (0 < sp_neqlt p <= sp_L p)%Z ->
  ((0 < sp_nuneqlt p)%Z -> (2 * sp_prodBlen p <= sp_L p)%Z /\
     exists t, (sp_nequil p <= t < sp_nequil p + sp_nsampl p)%Z /\ (sp_nuneqlt p | t)%Z) ->
  let n := sites p in let L := Z.to_nat (sp_L p) in
  exists k st s0 seed1,
    kinetic_exponential la junk p = Some k /\ is_exp (- sp_dt p *: hamiltonian p) (mat n (expK k)) /\
    fill_stratonovich (sp_Norb p) (sp_U p) (sp_dt p) (fresh junk (sp_Norb p)) = Some st /\
    random_field rng (L * n) seed = Some (s0, seed1) /\
    let W := weight n L k st in
    (W s0 <> 0 -> exists h, chain rng n W L p (raw_ints ijunk (Z.of_nat n)) seed1 s0 = Some h /\
      match h with
      | None => simulation rng la junk ijunk p seed = Some None
      | Some (seed2, s2, eq, un) => exists m u x,
          simulation rng la junk ijunk p seed = Some (Some (m, u)) /\
          Z.of_nat (List.length eq) = (sp_nsampl p * (sp_L p / sp_neqlt p))%Z /\
          List.Forall (fun x => (fst x <= L)%N /\ field_ok n L (snd x) /\ W (snd x) <> 0) eq /\
          List.Forall (fun s => field_ok n L s /\ W s <> 0) un /\
          m_nsampl m = Z.of_nat (List.length eq) /\
          m_sign m = list_mean (fun x => sgn (W (snd x))) eq /\
          equal_time_results p (eq_mean n L k st eq) m /\ eq_code p (eq_mean n L k st eq) m /\
          match u with
          | None => (sp_nuneqlt p <= 0)%Z
          | Some u => (0 < sp_nuneqlt p)%Z /\
              Z.of_nat (List.length un) = multiples (sp_nuneqlt p) (sp_nequil p) (sp_nequil p + sp_nsampl p) /\
              u_nsampl u = Z.of_nat (List.length un) /\
              u_sign u = list_mean (fun s => sgn (W s)) un /\
              unequal_time_results p (un_mean n L k st un) u /\ un_code p (un_mean n L k st un) u
          end /\
          sim_run rng la junk ijunk p seed = Some (Some x) /\ mc_seed (sm_mc x) = seed2 /\ mc_s (sm_mc x) = s2
      end).
Proof.
  move=> RS rng valid la junk ijunk p seed RO Hv LA SC WF VP HU Hpos Hq Hs Hn Hun n L.
  have [k [Ek [KO [KN [_ [HE _]]]]]] := kinetic_exponential_ok junk LA SC WF.
  case: (WF) => H1 [H2 [H3 [H4 _]]].
  have LJ : Z.of_nat (List.length (fresh junk (sp_Norb p))) = sp_Norb p by rewrite /fresh !map_length seq_length; lia.
  have [st Est] := fill_defined (sp_Norb p) (sp_U p) (sp_dt p) (fresh junk (sp_Norb p)) ltac:(lia) HU LJ Hpos.
  have SO : strat_ok (k_Norb k) st by rewrite KN; apply: (fill_strat_ok _ HU LJ Est); lia.
  have [s0 [seed1 [E0 [V1 [L0 [F0 I0]]]]]] := random_fieldE ijunk (L * n) RO Hv.
  exists k, st, s0, seed1. do 4 split => //. move=> W HW.
  have Hf : field_ok n L s0 by split.
  have [m0 [Em0 [M0 [S0 N0]]]] := allocate_meas_ok (sp_Norb p) (sp_Nx p) (sp_Ny p) (sp_pbc_shift p) H1 H2 H3 H4 ijunk.
  have HLp := v_L _ VP. have Hbp := v_prodBlen _ VP.
  have [u0 [Eu0 [U0 [SU0 NU0]]]] := allocate_umeas_ok (sp_Norb p) (sp_Nx p) (sp_Ny p) (sp_pbc_shift p) (sp_L p) H1 H2 H3 H4 HLp ijunk.
  set b := Z.to_nat (sp_prodBlen p).
  have NE : (sp_Norb p * (sp_Nx p * sp_Ny p))%Z = Z.of_nat n by rewrite (nE WF).
  have LE : sp_L p = Z.of_nat L by rewrite (LZ VP).
  have BE : sp_prodBlen p = Z.of_nat b by rewrite (bZ VP).
  have [H0 [EH SH]] : exists H0, temp_matrix junk p (Z.of_nat n) = Some H0 /\ square (n * (L %/ b)) H0.
  { rewrite /temp_matrix LE BE UnequalTimeFacts.cdivE; last exact: b_pos VP. cbn [obind]. eexists. split; first reflexivity.
    rewrite /square /lenZ /fresh !map_length seq_length -multE. nia. }
  have HM : exists g, meas_ok (sp_Norb p) (sp_Nx p) (sp_Ny p) (sp_pbc_shift p) m0 g by eexists; exact: M0.
  have EL : L = (L %/ b * b)%N by rewrite (divnK (b_L VP)).
  have Lo : List.length (raw_ints ijunk (Z.of_nat n)) = n by rewrite /raw_ints !map_length seq_length Nat2Z.id.
  have [m1 [E1 [C1 [Es1 [Ed1 Ema]]]]] := @dqmc_setup_ok RS meas valid la LA junk
    (fun m => exists g, meas_ok (sp_Norb p) (sp_Nx p) (sp_Ny p) (sp_pbc_shift p) m g) n L b k st (n_pos WF) KO SO (L %/ b)%N
    seed1 (raw_ints ijunk (Z.of_nat n)) s0 m0 EL (L_pos VP) V1 Lo Hf HM HW.
  have Hun1 : (0 < sp_nuneqlt p)%Z -> (2 * sp_prodBlen p <= sp_L p)%Z by case/Hun.
  have [r [r' [Er [Er' HR]]]] := run_loop RO LA junk ijunk WF VP Hun1 KO SO U0 SH SH ltac:(lia) C1 Ema.
  rewrite Es1 Ed1 in Er'.
  have ER : sim_run rng la junk ijunk p seed = Some r.
  { rewrite /sim_run Em0. cbn [obind]. rewrite Eu0. cbn [obind]. rewrite NE EH. cbn [obind].
    have -> : (sp_L p * Z.of_nat n)%Z = Z.of_nat (L * n) by rewrite -multE LE; lia.
    rewrite I0. cbn [obind]. rewrite Ek. cbn [obind]. rewrite Est. cbn [obind]. rewrite {1}LE BE E1. cbn [obind]. exact: Er. }
  exists r'. split => //. rewrite /simulation ER. cbn [obind].
  case: r r' HR ER Er' {Er} => [x|] [[[[seed2 s2] eq] un]|] // HR ER Er'.
  have [C2 C3] := chain_count Hq ltac:(lia) (proj1 Hn) Er'. rewrite /= -LE in C2 C3.
  case: HR => /= R1 R2 _ R4 R5.
  have F1 := recorded_ok KO SO R4. have F2 : List.Forall (fun s => field_ok n L s /\ W s <> 0) un by case: R5 => xs [/samples_ok].
  have Heq : eq <> [::].
  { move=> E. move: C2. rewrite E /=. have := Z.div_le_lower_bound (sp_L p) (sp_neqlt p) 1 ltac:(lia) ltac:(lia). nia. }
  have [m [Em [Nm [Sm Rm]]]] := eq_all WF KO SO M0 R4 S0 N0 Heq.
  have Cm := eq_code_ok WF KO SO M0 R4 S0 N0 Heq Em. rewrite Em. cbn [obind]. case: Z.ltb_spec => Hu.
  - have [_ [t [Ht [j Hj]]]] := Hun Hu.
    have C4 := C3 Hu.
    have Hne : un <> [::].
    { move=> E. move: C4. rewrite E /= /multiples. set q := sp_nuneqlt p in Hu Hj *.
      have A1 : ((sp_nequil p + q - 1) / q <= j)%Z.
      { have : ((sp_nequil p + q - 1) / q < j + 1)%Z by apply: Z.div_lt_upper_bound; nia. lia. }
      have A2 : (j + 1 <= (sp_nequil p + sp_nsampl p + q - 1) / q)%Z by apply: Z.div_le_lower_bound; nia.
      lia. }
    have [u [Eu [Nu [Su Ru]]]] := un_all LA WF VP Hun1 U0 SH SH R5 Hu SU0 NU0 Hne.
    have Cu := un_code_ok LA WF VP Hun1 U0 SH SH R5 Hu SU0 NU0 Hne Eu.
    rewrite Eu. cbn [obind]. exists m, (Some u), x. by do 8 split => //.
  - exists m, None, x. by do 8 split => //.
Qed.

Lemma site_run : forall (RS : Type) (rng : rand_source RS) valid la junk ijunk p seed,
  rand_ok rng valid -> valid seed -> lapack_ok la -> syev_converges la -> well_formed p -> valid_params p ->
  Z.of_nat (List.length (sp_U p)) = sp_Norb p ->
  (forall o, (0 <= o < sp_Norb p)%Z -> Rle 0 (Rmult (sp_dt p) (List.nth (Z.to_nat o) (sp_U p) R0))) ->
  (0 <= sp_nequil p)%Z -> (0 < sp_nsampl p)%Z -> (0 < sp_neqlt p <= sp_L p)%Z ->
  ((0 < sp_nuneqlt p)%Z -> (2 * sp_prodBlen p <= sp_L p)%Z /\
     exists t, (sp_nequil p <= t < sp_nequil p + sp_nsampl p)%Z /\ (sp_nuneqlt p | t)%Z) ->
  let n := sites p in let L := Z.to_nat (sp_L p) in
  exists k st s0 seed1,
    kinetic_exponential la junk p = Some k /\ is_exp (- sp_dt p *: hamiltonian p) (mat n (expK k)) /\
    fill_stratonovich (sp_Norb p) (sp_U p) (sp_dt p) (fresh junk (sp_Norb p)) = Some st /\
    random_field rng (L * n) seed = Some (s0, seed1) /\
    let W := weight n L k st in
    (W s0 <> 0 -> exists h, chain rng n W L p (raw_ints ijunk (Z.of_nat n)) seed1 s0 = Some h /\
      match h with
      | None => fsimulation rng la junk ijunk p seed = Some None
      | Some (seed2, s2, eq, un) => exists m u x,
          fsimulation rng la junk ijunk p seed = Some (Some (m, u)) /\
          Z.of_nat (List.length eq) = (sp_nsampl p * (sp_L p / sp_neqlt p))%Z /\
          List.Forall (fun x => (fst x <= L)%N /\ field_ok n L (snd x) /\ W (snd x) <> 0) eq /\
          List.Forall (fun s => field_ok n L s /\ W s <> 0) un /\
          m_nsampl m = Z.of_nat (List.length eq) /\
          m_sign m = list_mean (fun x => sgn (W (snd x))) eq /\
          site_results p (eq_mean n L k st eq) m /\ eq_site_code p (eq_mean n L k st eq) m /\
          match u with
          | None => (sp_nuneqlt p <= 0)%Z
          | Some u => (0 < sp_nuneqlt p)%Z /\
              Z.of_nat (List.length un) = multiples (sp_nuneqlt p) (sp_nequil p) (sp_nequil p + sp_nsampl p) /\
              u_nsampl u = Z.of_nat (List.length un) /\
              u_sign u = list_mean (fun s => sgn (W s)) un /\
              site_unequal_results p (un_mean n L k st un) u /\ un_site_code p (un_mean n L k st un) u
          end /\
          fsim_run rng la junk ijunk p seed = Some (Some x) /\ mc_seed (sm_mc x) = seed2 /\ mc_s (sm_mc x) = s2
      end).
Proof.
  move=> RS rng valid la junk ijunk p seed RO Hv LA SC WF VP HU Hpos Hq Hs Hn Hun n L.
  have [k [Ek [KO [KN [_ [HE _]]]]]] := kinetic_exponential_ok junk LA SC WF.
  case: (WF) => H1 [H2 [H3 [H4 _]]].
  have LJ : Z.of_nat (List.length (fresh junk (sp_Norb p))) = sp_Norb p by rewrite /fresh !map_length seq_length; lia.
  have [st Est] := fill_defined (sp_Norb p) (sp_U p) (sp_dt p) (fresh junk (sp_Norb p)) ltac:(lia) HU LJ Hpos.
  have SO : strat_ok (k_Norb k) st by rewrite KN; apply: (fill_strat_ok _ HU LJ Est); lia.
  have [s0 [seed1 [E0 [V1 [L0 [F0 I0]]]]]] := random_fieldE ijunk (L * n) RO Hv.
  exists k, st, s0, seed1. do 4 split => //. move=> W HW.
  have Hf : field_ok n L s0 by split.
  have [m0 [Em0 [M0 [S0 N0]]]] := f_allocate_ok (sp_Norb p) (sp_Nx p) (sp_Ny p) H1 H2 H3 ijunk (sp_pbc_shift p).
  have HLp := v_L _ VP. have Hbp := v_prodBlen _ VP.
  have [u0 [Eu0 [U0 [SU0 NU0]]]] := fu_allocate_ok (sp_Norb p) (sp_Nx p) (sp_Ny p) (sp_L p) H1 H2 H3 HLp ijunk (sp_pbc_shift p).
  set b := Z.to_nat (sp_prodBlen p).
  have NE : (sp_Norb p * (sp_Nx p * sp_Ny p))%Z = Z.of_nat n by rewrite (nE WF).
  have LE : sp_L p = Z.of_nat L by rewrite (LZ VP).
  have BE : sp_prodBlen p = Z.of_nat b by rewrite (bZ VP).
  have [H0 [EH SH]] : exists H0, temp_matrix junk p (Z.of_nat n) = Some H0 /\ square (n * (L %/ b)) H0.
  { rewrite /temp_matrix LE BE UnequalTimeFacts.cdivE; last exact: b_pos VP. cbn [obind]. eexists. split; first reflexivity.
    rewrite /square /lenZ /fresh !map_length seq_length -multE. nia. }
  have HM : exists g, fmeas_ok (sp_Norb p) (sp_Nx p) (sp_Ny p) m0 g by eexists; exact: M0.
  have EL : L = (L %/ b * b)%N by rewrite (divnK (b_L VP)).
  have Lo : List.length (raw_ints ijunk (Z.of_nat n)) = n by rewrite /raw_ints !map_length seq_length Nat2Z.id.
  have [m1 [E1 [C1 [Es1 [Ed1 Ema]]]]] := @dqmc_setup_ok RS meas valid la LA junk
    (fun m => exists g, fmeas_ok (sp_Norb p) (sp_Nx p) (sp_Ny p) m g) n L b k st (n_pos WF) KO SO (L %/ b)%N
    seed1 (raw_ints ijunk (Z.of_nat n)) s0 m0 EL (L_pos VP) V1 Lo Hf HM HW.
  have Hun1 : (0 < sp_nuneqlt p)%Z -> (2 * sp_prodBlen p <= sp_L p)%Z by case/Hun.
  have [r [r' [Er [Er' HR]]]] := f_run_loop RO LA junk ijunk WF VP Hun1 KO SO U0 SH SH ltac:(lia) C1 Ema.
  rewrite Es1 Ed1 in Er'.
  have ER : fsim_run rng la junk ijunk p seed = Some r.
  { rewrite /fsim_run Em0. cbn [obind]. rewrite Eu0. cbn [obind]. rewrite NE EH. cbn [obind].
    have -> : (sp_L p * Z.of_nat n)%Z = Z.of_nat (L * n) by rewrite -multE LE; lia.
    rewrite I0. cbn [obind]. rewrite Ek. cbn [obind]. rewrite Est. cbn [obind]. rewrite {1}LE BE E1. cbn [obind]. exact: Er. }
  exists r'. split => //. rewrite /fsimulation ER. cbn [obind].
  case: r r' HR ER Er' {Er} => [x|] [[[[seed2 s2] eq] un]|] // HR ER Er'.
  have [C2 C3] := chain_count Hq ltac:(lia) (proj1 Hn) Er'. rewrite /= -LE in C2 C3.
  case: HR => /= R1 R2 _ R4 R5.
  have F1 := recorded_ok KO SO R4. have F2 : List.Forall (fun s => field_ok n L s /\ W s <> 0) un by case: R5 => xs [/samples_ok].
  have Heq : eq <> [::].
  { move=> E. move: C2. rewrite E /=. have := Z.div_le_lower_bound (sp_L p) (sp_neqlt p) 1 ltac:(lia) ltac:(lia). nia. }
  have [m [Em [Nm [Sm Rm]]]] := f_eq_all WF VP KO SO M0 R4 S0 N0 Heq.
  have Cm := f_eq_code WF KO SO M0 R4 S0 N0 Heq Em. rewrite Em. cbn [obind]. case: Z.ltb_spec => Hu.
  - have [_ [t [Ht [j Hj]]]] := Hun Hu.
    have C4 := C3 Hu.
    have Hne : un <> [::].
    { move=> E. move: C4. rewrite E /= /multiples. set q := sp_nuneqlt p in Hu Hj *.
      have A1 : ((sp_nequil p + q - 1) / q <= j)%Z.
      { have : ((sp_nequil p + q - 1) / q < j + 1)%Z by apply: Z.div_lt_upper_bound; nia. lia. }
      have A2 : (j + 1 <= (sp_nequil p + sp_nsampl p + q - 1) / q)%Z by apply: Z.div_le_lower_bound; nia.
      lia. }
    have [u [Eu [Nu [Su Ru]]]] := f_un_all LA WF VP Hun1 U0 SH SH R5 Hu SU0 NU0 Hne.
    have Cu := f_un_code LA WF VP Hun1 U0 SH SH R5 Hu SU0 NU0 Hne Eu.
    rewrite Eu. cbn [obind]. exists m, (Some u), x. by do 8 split => //.
  - exists m, None, x. by do 8 split => //.
Qed.
