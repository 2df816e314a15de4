(** C83: complete simulations with phonons of the program that records every site. *)
From Coq Require Import ZArith List Reals Lia Lra.
From mathcomp Require Import all_ssreflect ssralg matrix.
From Verif Require Import Base BaseFacts MatProd RField BlasFacts MatSpec MatFacts TimeStep TimeStepSpec Strat StratSpec StratFacts GreenSpec
  Lapack LapackSpec GreenConstruct SimParams ParamParser ParamSpec KineticSpec KineticExp KineticExpSpec KineticExpFacts RandSource Sweep SweepSpec SweepFacts
  WickSpec Measure MeasureSpec MeasureSeqFacts UMeasure UMeasureSpec UMeasureSeqFacts UnequalTime UnequalTimeSpec UnequalTimeFacts
  Simulation SimulationSpec SimulationFacts SimulationRun PhononSweep PhononSpec PhononFacts PMeasure PMeasureSpec PMeasureFacts
  PSimulation PSimulationSpec PSimulationFacts PSimulationRun LapackSyev SimulationCase PSimulationCase
  LatticeSpec FMeasure FMeasureSpec FSimulationSpec FSimulationAvg FPMeasure FPSimulation FPSimulationSpec FPSimulationBoth.
Set Implicit Arguments.
Unset Strict Implicit.
Unset Printing Implicit Defensive.
Local Open Scope ring_scope.
Import GRing.Theory.

(** C83: for all valid parameters with phonons for which something is measured, every generator and every linear algebra library that
    meet their contracts, and all contents of uninitialised memory: as C78, but the results of the equal and unequal time measurements are
    recorded for every site, pair of sites or pair of cells.  Of the phonon data this form of the program records the average of the
    field, of its square and the histories. *)
Theorem C83_site_phonon_results_are_means_over_chain : forall (RS : Type) (rng : rand_source RS) valid la junk ijunk mem p seed,
  rand_ok rng valid -> valid seed -> lapack_ok la -> syev_converges la -> well_formed p -> valid_params p ->
  Z.of_nat (List.length (sp_U p)) = sp_Norb p ->
  (forall o, (0 <= o < sp_Norb p)%Z -> Rle 0 (Rmult (sp_dt p) (List.nth (Z.to_nat o) (sp_U p) R0))) ->
  phonon_ok (sp_Norb p) (sp_phonon p) -> sp_dt p <> R0 -> (2 <= sp_L p)%Z -> (Z.of_nat (sites p) < 2^64)%Z ->
  (0 <= sp_nequil p)%Z -> (0 < sp_nsampl p)%Z -> (0 < sp_neqlt p <= sp_L p)%Z ->
  ((0 < sp_nuneqlt p)%Z -> (2 * sp_prodBlen p <= sp_L p)%Z /\
     exists t, (sp_nequil p <= t < sp_nequil p + sp_nsampl p)%Z /\ (sp_nuneqlt p | t)%Z) ->
  let n := sites p in let L := Z.to_nat (sp_L p) in
  exists k st s0 seed1 X0 seed2 noHS,
    kinetic_exponential la junk p = Some k /\ is_exp (- sp_dt p *: hamiltonian p) (mat n (expK k)) /\
    fill_stratonovich (sp_Norb p) (sp_U p) (sp_dt p) (fresh junk (sp_Norb p)) = Some st /\
    random_field rng (L * n) seed = Some (s0, seed1) /\
    init_phonon_field rng junk (sp_phonon p) (sp_dt p) (sp_Nx p * sp_Ny p) (Z.of_nat n) (sp_L p) seed1 =
      Some (seed2, (X0, exp_field n k (sp_phonon p) (sp_dt p) X0)) /\
    (noHS = true <-> List.Forall (fun u => u = R0) (sp_U p)) /\
    let W c := phonon_weight n L k st (sp_phonon p) (sp_dt p) (fst c) (snd c) in
    let good c := field_ok n L (fst c) /\ List.length (snd c) = (L * n)%N in
    (W (s0, X0) <> 0 ->
      (fpsimulation rng la junk ijunk mem p seed = None /\ exists c, good c /\ W c = 0) \/
      exists h, pchain rng n L k st p noHS (raw_ints ijunk (Z.of_nat n)) seed2 (s0, X0) = Some h /\
      match h with
      | None => fpsimulation rng la junk ijunk mem p seed = Some None
      | Some (seed3, c3, eq, un) => exists m u e cnt x,
          fpsimulation rng la junk ijunk mem p seed = Some (Some (m, u, e, cnt)) /\
          Z.of_nat (List.length eq) = (sp_nsampl p * (sp_L p / sp_neqlt p))%Z /\
          List.Forall (fun x => (0 < fst x <= L)%N /\ good (snd x) /\ W (snd x) <> 0) eq /\
          List.Forall (fun c => good c /\ W c <> 0) un /\
          m_nsampl m = Z.of_nat (List.length eq) /\
          m_sign m = list_mean (fun x => sgn (W (snd x))) eq /\
          site_results p (peq_mean n L k st p eq) m /\
          site_phonon_results n L k st p eq e /\
          match u with
          | None => (sp_nuneqlt p <= 0)%Z
          | Some u => (0 < sp_nuneqlt p)%Z /\
              Z.of_nat (List.length un) = multiples (sp_nuneqlt p) (sp_nequil p) (sp_nequil p + sp_nsampl p) /\
              u_nsampl u = Z.of_nat (List.length un) /\
              u_sign u = list_mean (fun c => sgn (W c)) un /\
              site_unequal_results p (pun_mean n L k st p un) u
          end /\
          fpsim_run rng la junk ijunk mem p seed = Some (Some x) /\ mc_seed (p_mc (fps_ph x)) = seed3 /\
          mc_s (p_mc (fps_ph x)) = fst c3 /\ p_X (fps_ph x) = snd c3 /\ p_cnt (fps_ph x) = cnt
      end).
Proof.
  move=> RS rng valid la junk ijunk mem p seed RO Hv LA SC WF VP HU Hpos PO Hdt HL2 Hn64 Hq Hs Hn Hun n L.
  have [k [st [s0 [seed1 [X0 [seed2 [noHS [Ek [HE [Est [E0 [EX [HN H]]]]]]]]]]]]] :=
    @ph_site_run RS rng valid la junk ijunk mem p seed RO Hv LA SC WF VP HU Hpos PO Hdt HL2 Hn64 Hq Hs Hn Hun.
  exists k, st, s0, seed1, X0, seed2, noHS. do 6 split => //. move=> W good HW.
  have [Hl|[h [Eh {}H]]] := H HW; first by left. right. exists h. split => //.
  case: h H {Eh} => [[[[seed3 c3] eq] un]|] //.
  case=> m [u [e [cnt [x [A1 [A2 [A3 [A4 [A5 [A6 [A7 [_ [A8 [A9 A10]]]]]]]]]]]]]].
  exists m, u, e, cnt, x. do 8 split => //. split => //. by case: u A9 {A1} => // u [B1 [B2 [B3 [B4 [B5 _]]]]].
Qed.
Print Assumptions C83_site_phonon_results_are_means_over_chain.

(** the two forms of the program are about the same chain: unless some configuration has weight zero, both return or both hang, the
    equal and unequal time results of the default form are the averages over all cells of those recorded for every site, and the phonon
    data which both record are equal *)
Theorem C83_default_phonon_results_are_averages : forall (RS : Type) (rng : rand_source RS) valid la junk ijunk mem p seed,
  rand_ok rng valid -> valid seed -> lapack_ok la -> syev_converges la -> well_formed p -> valid_params p ->
  Z.of_nat (List.length (sp_U p)) = sp_Norb p ->
  (forall o, (0 <= o < sp_Norb p)%Z -> Rle 0 (Rmult (sp_dt p) (List.nth (Z.to_nat o) (sp_U p) R0))) ->
  phonon_ok (sp_Norb p) (sp_phonon p) -> sp_dt p <> R0 -> (2 <= sp_L p)%Z -> (Z.of_nat (sites p) < 2^64)%Z ->
  (0 <= sp_nequil p)%Z -> (0 < sp_nsampl p)%Z -> (0 < sp_neqlt p <= sp_L p)%Z ->
  ((0 < sp_nuneqlt p)%Z -> (2 * sp_prodBlen p <= sp_L p)%Z /\
     exists t, (sp_nequil p <= t < sp_nequil p + sp_nsampl p)%Z /\ (sp_nuneqlt p | t)%Z) ->
  let n := sites p in let L := Z.to_nat (sp_L p) in
  exists k st s0 seed1 X0 seed2 noHS,
    kinetic_exponential la junk p = Some k /\ is_exp (- sp_dt p *: hamiltonian p) (mat n (expK k)) /\
    fill_stratonovich (sp_Norb p) (sp_U p) (sp_dt p) (fresh junk (sp_Norb p)) = Some st /\
    random_field rng (L * n) seed = Some (s0, seed1) /\
    init_phonon_field rng junk (sp_phonon p) (sp_dt p) (sp_Nx p * sp_Ny p) (Z.of_nat n) (sp_L p) seed1 =
      Some (seed2, (X0, exp_field n k (sp_phonon p) (sp_dt p) X0)) /\
    (noHS = true <-> List.Forall (fun u => u = R0) (sp_U p)) /\
    let W c := phonon_weight n L k st (sp_phonon p) (sp_dt p) (fst c) (snd c) in
    let good c := field_ok n L (fst c) /\ List.length (snd c) = (L * n)%N in
    (W (s0, X0) <> 0 ->
      (exists c, good c /\ W c = 0) \/
      (psimulation rng la junk ijunk p seed = Some None /\ fpsimulation rng la junk ijunk mem p seed = Some None) \/
      exists a ua ea ca s us es cs x y,
        psimulation rng la junk ijunk p seed = Some (Some (a, ua, ea, ca)) /\ fpsimulation rng la junk ijunk mem p seed = Some (Some (s, us, es, cs)) /\
        averages_of (sp_Norb p) (sp_Nx p) (sp_Ny p) (sp_pbc_shift p) a s /\
        match ua, us with
        | None, None => (sp_nuneqlt p <= 0)%Z
        | Some ua, Some us => (0 < sp_nuneqlt p)%Z /\ u_averages_of (sp_Norb p) (sp_Nx p) (sp_Ny p) (sp_pbc_shift p) (sp_L p) ua us
        | _, _ => False
        end /\
        fp_sign es = p_sign ea /\ fp_nsampl es = p_nsampl ea /\
        (forall o, (0 <= o < sp_Norb p)%Z ->
          val (fp_arr es fX_avg) o = val (p_arr ea X_avg) o /\ val (fp_arr es fX_sq_avg) o = val (p_arr ea X_sq_avg) o) /\
        (forall o j, (0 <= o < sp_Norb p)%Z -> (0 <= j < p_nsampl ea)%Z ->
          val (fp_arr es fiteration_X_avg) (o + j * sp_Norb p) = val (p_arr ea iteration_X_avg) (o + j * sp_Norb p) /\
          val (fp_arr es fiteration_X0) (o + j * sp_Norb p) = val (p_arr ea iteration_X0) (o + j * sp_Norb p)) /\
        psim_run rng la junk ijunk p seed = Some (Some x) /\ fpsim_run rng la junk ijunk mem p seed = Some (Some y) /\
        mc_seed (p_mc (ps_ph x)) = mc_seed (p_mc (fps_ph y)) /\ mc_s (p_mc (ps_ph x)) = mc_s (p_mc (fps_ph y)) /\ p_X (ps_ph x) = p_X (fps_ph y)).
Proof.
  move=> RS rng valid la junk ijunk mem p seed RO Hv LA SC WF VP HU Hpos PO Hdt HL2 Hn64 Hq Hs Hn Hun n L.
  have [k [st [s0 [seed1 [X0 [seed2 [noHS [Ek [HE [Est [E0 [EX [HN HA]]]]]]]]]]]]] :=
    @ph_default_run RS rng valid la junk ijunk p seed RO Hv LA SC WF VP HU Hpos PO Hdt HL2 Hn64 Hq Hs Hn Hun.
  have [k' [st' [s0' [seed1' [X0' [seed2' [noHS' [Ek' [_ [Est' [E0' [EX' [HN' HB]]]]]]]]]]]]] :=
    @ph_site_run RS rng valid la junk ijunk mem p seed RO Hv LA SC WF VP HU Hpos PO Hdt HL2 Hn64 Hq Hs Hn Hun.
  move: Ek' Est' E0'. rewrite Ek Est E0 => -[?] [?] [? ?]. subst k' st' s0' seed1'.
  move: EX'. rewrite EX => -[? ? _]. subst seed2' X0'.
  have ? : noHS' = noHS by apply/idP/idP => H; [exact (proj2 HN (proj1 HN' H))|exact (proj2 HN' (proj1 HN H))].
  subst noHS'. exists k, st, s0, seed1, X0, seed2, noHS. do 6 split => //. move=> W good HW.
  have [[_ Hl]|[h [Eh {}HA]]] := HA HW; first by left.
  have [[_ Hl]|[h' [Eh' {}HB]]] := HB HW; first by left.
  right. move: Eh'. rewrite Eh => -[?]. subst h'. case: h {Eh} HA HB => [[[[seed3 c3] eq] un]|]; last by left.
  case=> a [ua [ea [ca [x [Ea [_ [_ [_ [Na [Sa [Ra [Ca [Pa [Ua [Xa [X1 [X2 [X3 _]]]]]]]]]]]]]]]]]].
  case=> s [us [es [cs [y [Es [_ [_ [_ [Ns [Ss [Rs [Cs [Ps [Us [Ys [Y1 [Y2 [Y3 _]]]]]]]]]]]]]]]]]].
  right. exists a, ua, ea, ca, s, us, es, cs, x, y. case: (WF) => H1 [H2 [H3 _]].
  split => //. split => //. split.
  { apply: (@results_averages p H2 H3 _ a s (@peq_mean_commutes n L k st p eq) Ra Rs Ca Cs); [by rewrite Sa Ss|by rewrite Na Ns]. }
  split.
  { case: ua us Ua Us {Ea Es} => [ua|] [us|] //.
    - case=> Hp [_ [N1 [S1 [R1' C1]]]] [_ [_ [N2 [S2 [R2' C2]]]]]. split => //.
      apply: (@unequal_results_averages p H2 H3 (pun_mean n L k st p un) ua us (@pun_mean_commutes n L k st p un) R1' R2' C1 C2); [by rewrite S1 S2|by rewrite N1 N2].
    - by move=> [Hp _] /(Zlt_not_le _ _ Hp).
    - by move=> Hp [/Zlt_not_le Hp' _]. }
  split; first by rewrite (spr_sign Ps) (pr_sign Pa). split; first by rewrite (spr_nsampl Ps) (pr_nsampl Pa). split.
  { move=> o Ho. by rewrite (spr_X Ps Ho) (spr_X_sq Ps Ho) (pr_X Pa Ho) (pr_X_sq Pa Ho). }
  split; last by rewrite X1 X2 X3 Y1 Y2 Y3.
  move=> o j Ho. rewrite (pr_nsampl Pa) => Hj. rewrite -(Z2Nat.id j); last lia.
  case E : (nth_error eq (Z.to_nat j)) => [z|]; last by move/nth_error_None: E; lia.
  have [-> ->] := spr_history Ps Ho E. by have [-> ->] := pr_history Pa Ho E.
Qed.
Print Assumptions C83_default_phonon_results_are_averages.

(** two sites with phonons and repulsion u, with random numbers that make all loops return: no weight is zero, and the simulation ends with
    four samples of the equal time and phonon data and two of the unequal time data *)
Example C83_case : forall u, Rle 0 u -> exists la m um e cnt, lapack_ok la /\ syev_converges la /\ exists k st,
  kinetic_exponential la (fun _ => R0) (phonon_pair u) = Some k /\
  fill_stratonovich 1 [:: u] (1/8)%coqR [:: R0] = Some st /\
  (forall s X, field_ok 2 4 s -> List.length X = 8%N -> phonon_weight 2 4 k st (sp_phonon (phonon_pair u)) (1/8)%coqR s X <> 0) /\
  fpsimulation calm_source la (fun _ => R0) (fun _ => 7%Z) (mk_counts 5 7 0 0 0 0) (phonon_pair u) tt = Some (Some (m, Some um, e, cnt)) /\
  m_nsampl m = 4%Z /\ u_nsampl um = 2%Z /\ fp_nsampl e = 4%Z.
Proof.
  move=> u Hu. have [la [LA SC]] := lapack_converges. have [Q1 [Q2 [Q3 Q4]]] := ppair_counts u.
  have [k [st [s0 [seed1 [X0 [seed2 [noHS [Ek [HE [Est [E0 [EX [_ HC]]]]]]]]]]]]] :=
    @C83_site_phonon_results_are_means_over_chain _ _ _ la (fun _ => R0) (fun _ => 7%Z) (mk_counts 5 7 0 0 0 0) (phonon_pair u) tt
    calm_ok I LA SC (ppair_wf u) (ppair_valid u) erefl (ppair_U Hu) (ppair_phonon u) (@ppair_dt u) ltac:(by []) ltac:(by []) Q1 Q2 Q3 Q4.
  have [k' [Ek' [KO [KN _]]]] := kinetic_exponential_ok (fun _ => R0) LA SC (ppair_wf u). move: Ek'. rewrite Ek => -[?]. subst k'.
  have HW := @ppair_weight_nz u k st [:: R0] KO KN HE erefl Est.
  have [s0' [seed1' [E0' [_ [L0 [F0 _]]]]]] := @random_fieldE _ _ _ (fun _ => 7%Z) 8 calm_ok tt I.
  have E0'' : random_field calm_source 8 tt = Some (s0, seed1) by exact: E0.
  have [E1 E2] : Some (s0', seed1') = Some (s0, seed1) by rewrite -E0' -E0''.
  subst s0' seed1'.
  have PO' : phonon_ok (k_Norb k) (sp_phonon (phonon_pair u)) by rewrite KN; exact: ppair_phonon.
  have KC : k_Ncell k = 2%Z by have [k' [Ek' [_ [_ [KC _]]]]] := kinetic_exponential_ok (fun _ => R0) LA SC (ppair_wf u); move: Ek'; rewrite Ek => -[->].
  have [seed2' [X0' [EX' [_ [LX _]]]]] := @init_phonon_field_ok _ calm_source _ calm_ok (fun _ => R0) 2 4 k (sp_phonon (phonon_pair u)) (1/8)%coqR KO PO' seed1 I.
  rewrite KC in EX'. have [E3 E4] : Some (seed2', X0') = Some (seed2, X0).
  { have : Some (seed2', (X0', exp_field 2 k (sp_phonon (phonon_pair u)) (1/8)%coqR X0')) = Some (seed2, (X0, exp_field 2 k (sp_phonon (phonon_pair u)) (1/8)%coqR X0)) by rewrite -EX' -EX. by case=> -> ->. }
  subst seed2' X0'.
  have [[_ [[s' X'] [[F1 F2] F3]]]|[[[[[seed3 c3] eq] un]|] [Hh HR]]] := HC (HW s0 X0 (conj L0 F0) LX).
  - by case: (HW s' X' F1 F2).
  - case: HR => m [[um|] [e [cnt [x [E [Eq [_ [_ [Em [_ [_ [Re [HU _]]]]]]]]]]]]]; last by case: HU.
    case: HU => _ [Eun [Eu _]]. exists la, m, um, e, cnt. split; first exact: LA. split; first exact: SC. exists k, st.
    split; first exact: Ek. split; first exact: Est. split; first exact: HW. split; first exact: E.
    split; first by rewrite Em; exact: Eq. split; first by rewrite Eu; exact: Eun. rewrite (spr_nsampl Re). exact: Eq.
  - by case: (@pchain_returns _ calm_source _ _ k st calm_returns (fun _ _ => ltac:(discriminate)) (phonon_pair u) noHS _ seed2 (s0, X0) (@ppair_total u) ltac:(by []) Hh).
Qed.

(** the same for the averages *)
Example C83_case_averages : forall u, Rle 0 u -> exists la a ua ea ca s us es cs, lapack_ok la /\
  psimulation calm_source la (fun _ => R0) (fun _ => 7%Z) (phonon_pair u) tt = Some (Some (a, Some ua, ea, ca)) /\
  fpsimulation calm_source la (fun _ => R0) (fun _ => 7%Z) (mk_counts 5 7 0 0 0 0) (phonon_pair u) tt = Some (Some (s, Some us, es, cs)) /\
  averages_of 1 2 1 0 a s /\ u_averages_of 1 2 1 0 4 ua us /\ val (fp_arr es fX_avg) 0 = val (p_arr ea X_avg) 0.
Proof.
  move=> u Hu. have [la [m0 [um0 [e0 [cnt0 [LA [SC [k0 [st0 [Ek0 [Est0 [HW [EF _]]]]]]]]]]]]] := C83_case Hu.
  have [Q1 [Q2 [Q3 Q4]]] := ppair_counts u.
  have [k [st [s0 [seed1 [X0 [seed2 [noHS [Ek [HE [Est [E0 [EX [_ HC]]]]]]]]]]]]] :=
    @C83_default_phonon_results_are_averages _ _ _ la (fun _ => R0) (fun _ => 7%Z) (mk_counts 5 7 0 0 0 0) (phonon_pair u) tt
    calm_ok I LA SC (ppair_wf u) (ppair_valid u) erefl (ppair_U Hu) (ppair_phonon u) (@ppair_dt u) ltac:(by []) ltac:(by []) Q1 Q2 Q3 Q4.
  have Est' : fill_stratonovich 1 [:: u] (1/8)%coqR [:: R0] = Some st by exact: Est.
  move: Ek0 Est0. rewrite Ek Est' => -[?] [?]. subst k0 st0.
  have [k' [Ek' [KO [KN [KC _]]]]] := kinetic_exponential_ok (fun _ => R0) LA SC (ppair_wf u). move: Ek'. rewrite Ek => -[?]. subst k'.
  have [s0' [seed1' [E0' [_ [L0 [F0 _]]]]]] := @random_fieldE _ _ _ (fun _ => 7%Z) 8 calm_ok tt I.
  have E0'' : random_field calm_source 8 tt = Some (s0, seed1) by exact: E0.
  have [E1 E2] : Some (s0', seed1') = Some (s0, seed1) by rewrite -E0' -E0''.
  subst s0' seed1'.
  have PO' : phonon_ok (k_Norb k) (sp_phonon (phonon_pair u)) by rewrite KN; exact: ppair_phonon.
  have [seed2' [X0' [EX' [_ [LX _]]]]] := @init_phonon_field_ok _ calm_source _ calm_ok (fun _ => R0) 2 4 k (sp_phonon (phonon_pair u)) (1/8)%coqR KO PO' seed1 I.
  have KC' : k_Ncell k = 2%Z by exact: KC.
  rewrite KC' in EX'. have [E3 E4] : Some (seed2', X0') = Some (seed2, X0).
  { have : Some (seed2', (X0', exp_field 2 k (sp_phonon (phonon_pair u)) (1/8)%coqR X0')) = Some (seed2, (X0, exp_field 2 k (sp_phonon (phonon_pair u)) (1/8)%coqR X0)) by rewrite -EX' -EX. by case=> -> ->. }
  subst seed2' X0'.
  have [[[s' X'] [[F1 F2] F3]]|[[_ E]|[a [ua [ea [ca [s [us [es [cs [x [y [Ea [Es [HA [HU [_ [_ [HX _]]]]]]]]]]]]]]]]]]] := HC (HW s0 X0 (conj L0 F0) LX).
  - by case: (HW s' X' F1 F2).
  - by move: E; rewrite EF.
  - case: ua us Ea Es HU => [ua|] [us|] Ea Es //.
    move=> [_ HU]. exists la, a, ua, ea, ca, s, us, es, cs. split; first exact: LA. split; first exact: Ea. split; first exact: Es. split; first exact: HA.
    split; first exact: HU. exact: (proj1 (HX 0%Z ltac:(by []))).
Qed.
