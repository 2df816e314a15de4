(** C78: complete simulations with phonons. *)
From Coq Require Import ZArith List Reals Lia Lra.
From mathcomp Require Import all_ssreflect ssralg matrix.
From Verif Require Import Base BaseFacts MatProd RField BlasFacts MatSpec MatFacts TimeStep TimeStepSpec Strat StratSpec StratFacts GreenSpec
  Lapack LapackSpec GreenConstruct SimParams ParamParser ParamSpec KineticSpec KineticExp KineticExpSpec KineticExpFacts RandSource Sweep SweepSpec SweepFacts
  WickSpec Measure MeasureSpec MeasureSeqFacts UMeasure UMeasureSpec UMeasureSeqFacts UnequalTime UnequalTimeSpec UnequalTimeFacts
  Simulation SimulationSpec SimulationFacts SimulationRun PhononSweep PhononSpec PhononFacts PMeasure PMeasureSpec PMeasureFacts
  PSimulation PSimulationSpec PSimulationFacts PSimulationRun LapackSyev SimulationCase PSimulationCase.
Set Implicit Arguments.
Unset Strict Implicit.
Unset Printing Implicit Defensive.
Local Open Scope ring_scope.
Import GRing.Theory.

(** C78: for all valid parameters with phonons for which something is measured, every generator and every linear algebra library that
    meet their contracts, and all contents of uninitialised memory: Hamiltonian, tables and initial fields exist.  If the initial fields
    have non-zero weight, then either some configuration has weight zero and the run divides by zero, or the whole run is defined (no
    access outside of an array, in particular not outside of the histories).  In this case, unless a rejection loop of the generator never
    returns, the results are exactly the means over the configurations which the Metropolis chain for the weight det det exp(- dt E)
    visits after the equilibration: at every neqlt-th slice of every sweep for the equal time and phonon data, after every sweep with a
    number divisible by nuneqlt for the unequal time data.  The updates of the auxiliary field are left out exactly if all U are zero. *)
Theorem C78_phonon_results_are_means_over_chain : forall (RS : Type) (rng : rand_source RS) valid la junk ijunk p seed,
  rand_ok rng valid -> valid seed -> lapack_ok la -> syev_converges la -> well_formed p -> valid_params p ->
  Z.of_nat (List.length (sp_U p)) = sp_Norb p ->
  (forall o, (0 <= o < sp_Norb p)%Z -> Rle 0 (Rmult (sp_dt p) (List.nth (Z.to_nat o) (sp_U p) R0))) ->
  phonon_ok (sp_Norb p) (sp_phonon p) -> sp_dt p <> R0 -> (2 <= sp_L p)%Z -> (Z.of_nat (sites p) < 2^64)%Z ->
  (0 <= sp_nequil p)%Z -> (0 < sp_nsampl p)%Z -> (0 < sp_neqlt p <= sp_L p)%Z ->
  ((0 < sp_nuneqlt p)%Z -> (2 * sp_prodBlen p <= sp_L p)%Z /\
     exists t, (sp_nequil p <= t < sp_nequil p + sp_nsampl p)%Z /\ (sp_nuneqlt p | t)%Z) ->
  let n := sites p in let L := Z.to_nat (sp_L p) in
  exists k st s0 seed1 X0 seed2 noHS,
    kinetic_exponential la junk p = Some k /\ is_exp (- sp_dt p *: hamiltonian p) (mat n (expK k)) /\
    fill_stratonovich (sp_Norb p) (sp_U p) (sp_dt p) (fresh junk (sp_Norb p)) = Some st /\
    random_field rng (L * n) seed = Some (s0, seed1) /\
    init_phonon_field rng junk (sp_phonon p) (sp_dt p) (sp_Nx p * sp_Ny p) (Z.of_nat n) (sp_L p) seed1 =
      Some (seed2, (X0, exp_field n k (sp_phonon p) (sp_dt p) X0)) /\
    (noHS = true <-> List.Forall (fun u => u = R0) (sp_U p)) /\
    let W c := phonon_weight n L k st (sp_phonon p) (sp_dt p) (fst c) (snd c) in
    let good c := field_ok n L (fst c) /\ List.length (snd c) = (L * n)%N in
    (W (s0, X0) <> 0 ->
      (psimulation rng la junk ijunk p seed = None /\ exists c, good c /\ W c = 0) \/
      exists h, pchain rng n L k st p noHS (raw_ints ijunk (Z.of_nat n)) seed2 (s0, X0) = Some h /\
      match h with
      | None => psimulation rng la junk ijunk p seed = Some None
      | Some (seed3, c3, eq, un) => exists m u e cnt x,
          psimulation rng la junk ijunk p seed = Some (Some (m, u, e, cnt)) /\
          Z.of_nat (List.length eq) = (sp_nsampl p * (sp_L p / sp_neqlt p))%Z /\
          List.Forall (fun x => (0 < fst x <= L)%N /\ good (snd x) /\ W (snd x) <> 0) eq /\
          List.Forall (fun c => good c /\ W c <> 0) un /\
          m_nsampl m = Z.of_nat (List.length eq) /\
          m_sign m = list_mean (fun x => sgn (W (snd x))) eq /\
          equal_time_results p (peq_mean n L k st p eq) m /\
          phonon_results n L k st p eq e /\
          match u with
          | None => (sp_nuneqlt p <= 0)%Z
          | Some u => (0 < sp_nuneqlt p)%Z /\
              Z.of_nat (List.length un) = multiples (sp_nuneqlt p) (sp_nequil p) (sp_nequil p + sp_nsampl p) /\
              u_nsampl u = Z.of_nat (List.length un) /\
              u_sign u = list_mean (fun c => sgn (W c)) un /\
              unequal_time_results p (pun_mean n L k st p un) u
          end /\
          psim_run rng la junk ijunk p seed = Some (Some x) /\ mc_seed (p_mc (ps_ph x)) = seed3 /\
          mc_s (p_mc (ps_ph x)) = fst c3 /\ p_X (ps_ph x) = snd c3 /\ p_cnt (ps_ph x) = cnt
      end).
Proof.
  move=> RS rng valid la junk ijunk p seed RO Hv LA SC WF VP HU Hpos PO Hdt HL2 Hn64 Hq Hs Hn Hun n L.
  have [k [Ek [KO [KN [KC [HE _]]]]]] := kinetic_exponential_ok junk LA SC WF.
  case: (WF) => H1 [H2 [H3 [H4 _]]].
  have LJ : Z.of_nat (List.length (fresh junk (sp_Norb p))) = sp_Norb p by rewrite /fresh !map_length seq_length; lia.
  have [st Est] := fill_defined (sp_Norb p) (sp_U p) (sp_dt p) (fresh junk (sp_Norb p)) ltac:(lia) HU LJ Hpos.
  have SO : strat_ok (k_Norb k) st by rewrite KN; apply: (fill_strat_ok _ HU LJ Est); lia.
  have [s0 [seed1 [E0 [V1 [L0 [F0 I0]]]]]] := random_fieldE ijunk (L * n) RO Hv.
  have PO' : phonon_ok (k_Norb k) (sp_phonon p) by rewrite KN.
  have [seed2 [X0 [EX [V2 [LX _]]]]] := init_phonon_field_ok RO junk L (sp_dt p) KO PO' V1. rewrite KC (LZ VP) in EX.
  have [noHS [EN HN]] := no_hs_ok (Z.lt_le_incl _ _ H1) HU.
  exists k, st, s0, seed1, X0, seed2, noHS. do 6 split => //. move=> W good HW.
  have Hf : field_ok n L s0 by split.
  have [m0 [Em0 [M0 [S0 N0]]]] := allocate_meas_ok (sp_Norb p) (sp_Nx p) (sp_Ny p) (sp_pbc_shift p) H1 H2 H3 H4 ijunk.
  have HLp := v_L _ VP. have Hbp := v_prodBlen _ VP.
  have [u0 [Eu0 [U0 [SU0 NU0]]]] := allocate_umeas_ok (sp_Norb p) (sp_Nx p) (sp_Ny p) (sp_pbc_shift p) (sp_L p) H1 H2 H3 H4 HLp ijunk.
  set mx := (sp_nsampl p * sp_L p / sp_neqlt p)%Z. have Hmx : (0 <= mx)%Z by apply: Z.div_pos; nia.
  have Hcap := run_bound (sp_L p) (sp_nsampl p) (sp_neqlt p) ltac:(lia) ltac:(lia).
  have [e0 [Ee0 [P0 [PS0 PN0]]]] := allocate_pmeas_ok (sp_Norb p) (sp_Nx p * sp_Ny p) (sp_L p) mx H1 (sp_Nx p) (sp_Ny p) erefl Hmx.
  set b := Z.to_nat (sp_prodBlen p).
  have NE : (sp_Norb p * (sp_Nx p * sp_Ny p))%Z = Z.of_nat n by rewrite (nE WF).
  have LE : sp_L p = Z.of_nat L by rewrite (LZ VP).
  have BE : sp_prodBlen p = Z.of_nat b by rewrite (bZ VP).
  have HL2' : (2 <= L)%N by apply/leP; rewrite /L; lia.
  have [H0 [EH SH]] : exists H0, temp_matrix junk p (Z.of_nat n) = Some H0 /\ square (n * (L %/ b)) H0.
  { rewrite /temp_matrix LE BE UnequalTimeFacts.cdivE; last exact: b_pos VP. cbn [obind]. eexists. split; first reflexivity.
    rewrite /square /lenZ /fresh !map_length seq_length -multE. nia. }
  have HM : exists g, meas_ok (sp_Norb p) (sp_Nx p) (sp_Ny p) (sp_pbc_shift p) m0 g by eexists; exact: M0.
  have EL : L = (L %/ b * b)%N by rewrite (divnK (b_L VP)).
  have Lo : List.length (raw_ints ijunk (Z.of_nat n)) = n by rewrite /raw_ints !map_length seq_length Nat2Z.id.
  have [x1 [E1 [C1 [Es1 [Ex1 [Ed1 _]]]]]] := @phonon_setup_ok RS meas pmeas valid la LA junk
    (fun m => exists g, meas_ok (sp_Norb p) (sp_Nx p) (sp_Ny p) (sp_pbc_shift p) m g) (fun _ => True) n L b k st (sp_phonon p) (sp_dt p)
    (n_pos WF) KO SO (L %/ b)%N seed2 (raw_ints ijunk (Z.of_nat n)) s0 X0 no_updates m0 e0 EL (L_pos VP) V2 Lo Hf LX HM I HW.
  have [Ema Ema'] : mc_meas (p_mc x1) = m0 /\ p_meas x1 = e0.
  { move: E1. rewrite /phonon_setup. do 5 (case: (X in obind X) => [?|] //; cbn [obind]). by case=> <-. }
  have Hun1 : (0 < sp_nuneqlt p)%Z -> (2 * sp_prodBlen p <= sp_L p)%Z by case/Hun.
  have HMX : (sp_nsampl p * (Zn (Z.to_nat (sp_L p)) / sp_neqlt p) <= mx)%Z by rewrite -/L -LE.
  have RL := ph_run_loop RO LA junk ijunk WF VP Hun1 noHS KO SO PO KN Hdt HL2' Hn64 U0 P0 PN0 PS0 SH SH (proj1 Hn) Hq (Z.lt_le_incl _ _ Hs) HMX ltac:(lia) C1 Ema Ema'.
  cbv zeta in RL. rewrite Es1 Ed1 Ex1 in RL.
  have ER : psim_run rng la junk ijunk p seed =
    for_range 0 (sp_nequil p + sp_nsampl p) (fun it => may_hang (psim_iteration rng la junk ijunk p k noHS st it)) (Some (mk_psim x1 H0 H0 u0)).
  { rewrite /psim_run Em0. cbn [obind]. rewrite Eu0. cbn [obind]. rewrite NE EH. cbn [obind].
    rewrite /allocate_for_run /cdiv. have -> : (sp_neqlt p =? 0)%Z = false by apply/Z.eqb_neq; lia. cbn [obind].
    rewrite Z.quot_div_nonneg; [|nia|lia]. rewrite Ee0. cbn [obind].
    have -> : (sp_L p * Z.of_nat n)%Z = Z.of_nat (L * n) by rewrite -multE LE; lia.
    rewrite I0. cbn [obind]. rewrite EX. cbn [obind]. rewrite Ek. cbn [obind]. rewrite EN. cbn [obind]. rewrite Est. cbn [obind fst snd].
    by rewrite {1}LE BE E1. }
  rewrite /psimulation ER. case: RL => [[r [r' [Er [Er' HR]]]]|[-> [s' [X' [F1 [F2 F3]]]]]]; last first.
  { left. split => //. by exists (s', X'). }
  rewrite Er in ER *. right. exists r'. split => //. cbn [obind].
  case: r r' HR ER Er' {Er} => [x|] [[[[seed3 [s3 X3]] eq] un]|] // HR ER Er'.
  case: HR => /= R1 [R2 R3] _ R4 R5 C2 C3. rewrite -/L -LE in C2 C3.
  have C2' : Z.of_nat (List.length eq) = (sp_nsampl p * (sp_L p / sp_neqlt p))%Z by rewrite C2 Z.max_r; [congr Z.mul; lia|lia].
  have Hfit : (Z.of_nat (List.length eq) <= mx)%Z by rewrite C2'.
  have Heq : eq <> [::].
  { move=> E. move: C2'. rewrite E /=. have := Z.div_le_lower_bound (sp_L p) (sp_neqlt p) 1 ltac:(lia) ltac:(lia). nia. }
  have F1 : List.Forall (fun x => (0 < fst x <= L)%N /\ good (snd x) /\ W (snd x) <> 0) eq.
  { case: R4 => gs [HF _]. clear -HF KO SO WF. elim: HF => [|y g ys zs Hy _ IH]; constructor => //.
    have HW := pair_weight KO SO Hy. case: Hy => G1 [G2 [G3 _]]. by split. }
  have F2 : List.Forall (fun c => good c /\ W c <> 0) un.
  { case: R5 => xs [HF _]. clear -HF. elim: HF => [|y g ys zs [[G1 [G2 [G3 _]]] _] _ IH]; constructor => //. }
  have R4' : exists gs, List.Forall2 (ph_pair n L k st p) eq gs /\ measure_list accumulate gs m0 = Some (mc_meas (p_mc (ps_ph x))) by case: R4 => gs [G1 [G2 _]]; exists gs.
  have [m [Em [Nm [Sm Rm]]]] := ph_eq_all WF KO SO M0 R4' S0 N0 Heq.
  have [e [Ee Re]] := ph_all junk WF VP KO SO PO Hdt P0 PN0 PS0 R4 Hfit Heq.
  rewrite Em. cbn [obind]. case: Z.ltb_spec => Hu.
  - have [_ [t [Ht [j Hj]]]] := Hun Hu.
    have C4 := C3 Hu. rewrite Z.max_l in C4; last lia.
    have Hne : un <> [::].
    { move=> E. move: C4. rewrite E /= /multiples. set q := sp_nuneqlt p in Hu Hj *.
      have A1 : ((sp_nequil p + q - 1) / q <= j)%Z.
      { have : ((sp_nequil p + q - 1) / q < j + 1)%Z by apply: Z.div_lt_upper_bound; nia. lia. }
      have A2 : (j + 1 <= (sp_nequil p + sp_nsampl p + q - 1) / q)%Z by apply: Z.div_le_lower_bound; nia.
      lia. }
    have [u [Eu [Nu [Su Ru]]]] := ph_un_all LA WF VP Hun1 U0 SH SH R5 Hu SU0 NU0 Hne.
    rewrite Eu. cbn [obind]. rewrite Ee. cbn [obind]. exists m, (Some u), e, (p_cnt (ps_ph x)), x. by do 8 split => //.
  - rewrite Ee. cbn [obind]. exists m, None, e, (p_cnt (ps_ph x)), x. by do 8 split => //.
Qed.
Print Assumptions C78_phonon_results_are_means_over_chain.

(** two sites with phonons and repulsion u, with random numbers that make all loops return: no weight is zero, and the simulation ends with
    four samples of the equal time and phonon data and two of the unequal time data *)
Example C78_case : forall u, Rle 0 u -> exists la m um e cnt, lapack_ok la /\ syev_converges la /\ exists k st,
  kinetic_exponential la (fun _ => R0) (phonon_pair u) = Some k /\
  fill_stratonovich 1 [:: u] (1/8)%coqR [:: R0] = Some st /\
  (forall s X, field_ok 2 4 s -> List.length X = 8%N -> phonon_weight 2 4 k st (sp_phonon (phonon_pair u)) (1/8)%coqR s X <> 0) /\
  psimulation calm_source la (fun _ => R0) (fun _ => 7%Z) (phonon_pair u) tt = Some (Some (m, Some um, e, cnt)) /\
  m_nsampl m = 4%Z /\ u_nsampl um = 2%Z /\ p_nsampl e = 4%Z.
Proof.
  move=> u Hu. have [la [LA SC]] := lapack_converges. have [Q1 [Q2 [Q3 Q4]]] := ppair_counts u.
  have [k [st [s0 [seed1 [X0 [seed2 [noHS [Ek [HE [Est [E0 [EX [_ HC]]]]]]]]]]]]] :=
    @C78_phonon_results_are_means_over_chain _ _ _ la (fun _ => R0) (fun _ => 7%Z) (phonon_pair u) tt
    calm_ok I LA SC (ppair_wf u) (ppair_valid u) erefl (ppair_U Hu) (ppair_phonon u) (@ppair_dt u) ltac:(by []) ltac:(by []) Q1 Q2 Q3 Q4.
  have [k' [Ek' [KO [KN _]]]] := kinetic_exponential_ok (fun _ => R0) LA SC (ppair_wf u). move: Ek'. rewrite Ek => -[?]. subst k'.
  have HW := @ppair_weight_nz u k st [:: R0] KO KN HE erefl Est.
  have [s0' [seed1' [E0' [_ [L0 [F0 _]]]]]] := @random_fieldE _ _ _ (fun _ => 7%Z) 8 calm_ok tt I.
  have E0'' : random_field calm_source 8 tt = Some (s0, seed1) by exact: E0.
  have [E1 E2] : Some (s0', seed1') = Some (s0, seed1) by rewrite -E0' -E0''.
  subst s0' seed1'.
  have PO' : phonon_ok (k_Norb k) (sp_phonon (phonon_pair u)) by rewrite KN; exact: ppair_phonon.
  have KC : k_Ncell k = 2%Z by have [k' [Ek' [_ [_ [KC _]]]]] := kinetic_exponential_ok (fun _ => R0) LA SC (ppair_wf u); move: Ek'; rewrite Ek => -[->].
  have [seed2' [X0' [EX' [_ [LX _]]]]] := @init_phonon_field_ok _ calm_source _ calm_ok (fun _ => R0) 2 4 k (sp_phonon (phonon_pair u)) (1/8)%coqR KO PO' seed1 I.
  rewrite KC in EX'. have [E3 E4] : Some (seed2', X0') = Some (seed2, X0).
  { have : Some (seed2', (X0', exp_field 2 k (sp_phonon (phonon_pair u)) (1/8)%coqR X0')) = Some (seed2, (X0, exp_field 2 k (sp_phonon (phonon_pair u)) (1/8)%coqR X0)) by rewrite -EX' -EX. by case=> -> ->. }
  subst seed2' X0'.
  have [[_ [[s' X'] [[F1 F2] F3]]]|[[[[[seed3 c3] eq] un]|] [Hh HR]]] := HC (HW s0 X0 (conj L0 F0) LX).
  - by case: (HW s' X' F1 F2).
  - case: HR => m [[um|] [e [cnt [x [E [Eq [_ [_ [Em [_ [_ [Re [HU _]]]]]]]]]]]]]; last by case: HU.
    case: HU => _ [Eun [Eu _]]. exists la, m, um, e, cnt. split; first exact: LA. split; first exact: SC. exists k, st.
    split; first exact: Ek. split; first exact: Est. split; first exact: HW. split; first exact: E.
    split; first by rewrite Em; exact: Eq. split; first by rewrite Eu; exact: Eun. rewrite (pr_nsampl Re). exact: Eq.
  - by case: (@pchain_returns _ calm_source _ _ k st calm_returns (fun _ _ => ltac:(discriminate)) (phonon_pair u) noHS _ seed2 (s0, X0) (@ppair_total u) ltac:(by []) Hh).
Qed.
