(** C57: no sign problem at half filling. *)
From Coq Require Import ZArith List Reals Lia Lra.
From mathcomp Require Import all_ssreflect ssralg matrix.
From Verif Require Import Base BaseFacts MatProd RField MatSpec MatFacts TimeStep TimeStepSpec Strat StratSpec StratFacts GreenSpec
  Lapack LapackSpec LapackSyev GreenConstruct SimParams ParamSpec LatticeSpec KineticSpec KineticExp KineticExpSpec KineticExpFacts RandSource SweepSpec SweepFacts
  WickSpec Measure MeasureSpec UMeasure UnequalTimeSpec Simulation SimulationSpec SimulationFacts SimulationRun SimulationCase P_Simulation
  HalfFillSpec HalfFillFacts.
Set Implicit Arguments.
Unset Strict Implicit.
Unset Printing Implicit Defensive.
Local Open Scope ring_scope.
Import GRing.Theory.

(** C57: if the Hamiltonian connects only sites of different colours, then the product of the two
    determinants is not negative for any field *)
Theorem C57_weight_not_negative : forall la junk p colour k st L s, lapack_ok la -> syev_converges la -> well_formed p ->
  Z.of_nat (List.length (sp_U p)) = sp_Norb p -> bipartite (p := p) colour ->
  kinetic_exponential la junk p = Some k ->
  fill_stratonovich (sp_Norb p) (sp_U p) (sp_dt p) (fresh junk (sp_Norb p)) = Some st ->
  field_ok (sites p) L s -> Rle R0 (weight (sites p) L k st s).
Proof.
  move=> la junk p colour k st L s LA SC WF HU HB Ek Est Hf.
  have [k' [Ek' [KO [KN [_ [HE _]]]]]] := kinetic_exponential_ok junk LA SC WF. move: Ek'. rewrite Ek => -[?]. subst k'.
  have LJ : Z.of_nat (List.length (fresh junk (sp_Norb p))) = sp_Norb p by case: WF => ? _; rewrite /fresh !map_length seq_length; lia.
  exact: (weight_nonneg WF KO KN HE HU LJ Est HB Hf).
Qed.
Print Assumptions C57_weight_not_negative.

(** the average sign of every simulation is exactly 1, the density of every orbital is exactly one
    electron per site, and the Green's functions of the two spins determine each other *)
Theorem C57_no_sign_problem : forall (RS : Type) (rng : rand_source RS) valid la junk ijunk p colour seed k st s0 seed1 m u,
  rand_ok rng valid -> valid seed -> lapack_ok la -> syev_converges la -> well_formed p -> valid_params p ->
  Z.of_nat (List.length (sp_U p)) = sp_Norb p ->
  (forall o, (0 <= o < sp_Norb p)%Z -> Rle 0 (Rmult (sp_dt p) (List.nth (Z.to_nat o) (sp_U p) R0))) ->
  (0 <= sp_nequil p)%Z -> (0 < sp_nsampl p)%Z -> (0 < sp_neqlt p <= sp_L p)%Z ->
  ((0 < sp_nuneqlt p)%Z -> (2 * sp_prodBlen p <= sp_L p)%Z /\
     exists t, (sp_nequil p <= t < sp_nequil p + sp_nsampl p)%Z /\ (sp_nuneqlt p | t)%Z) ->
  bipartite (p := p) colour ->
  kinetic_exponential la junk p = Some k ->
  fill_stratonovich (sp_Norb p) (sp_U p) (sp_dt p) (fresh junk (sp_Norb p)) = Some st ->
  random_field rng (Z.to_nat (sp_L p) * sites p) seed = Some (s0, seed1) ->
  weight (sites p) (Z.to_nat (sp_L p)) k st s0 <> 0 ->
  simulation rng la junk ijunk p seed = Some (Some (m, u)) ->
  m_sign m = R1 /\ (forall v, u = Some v -> u_sign v = R1) /\
  (forall o, (0 <= o < sp_Norb p)%Z -> Rplus (val (m_arr m density_u) o) (val (m_arr m density_d) o) = R1) /\
  (forall i j : 'I_(sites p), let N := Z.of_nat (sites p) in
     val (m_arr m grfun_d) (Z.of_nat i + N * Z.of_nat j) =
     Rminus (if i == j then R1 else R0) (Rmult (stagger colour i j) (val (m_arr m grfun_u) (Z.of_nat j + N * Z.of_nat i)))).
Proof.
  move=> RS rng valid la junk ijunk p colour seed k st s0 seed1 m u RO Hv LA SC WF VP HU Hpos Hq Hs Hn Hun HB Ek Est E0 HW Em.
  have [k' [Ek' [KO [KN [_ [HE _]]]]]] := kinetic_exponential_ok junk LA SC WF. move: (Ek'). rewrite Ek => -[Hk]. subst k'.
  have LJ : Z.of_nat (List.length (fresh junk (sp_Norb p))) = sp_Norb p by case: (WF) => ? _; rewrite /fresh !map_length seq_length; lia.
  have [k1 [st1 [s1 [sd1 [Ek1 [_ [Est1 [E1 HC]]]]]]]] := C56_results_are_means_over_chain junk ijunk RO Hv LA SC WF VP HU Hpos Hq Hs Hn Hun.
  move: Ek1 Est1 E1. rewrite Ek Est E0 => -[?] -[?] -[? ?]. subst k1 st1 s1 sd1.
  have [[[[[seed2 s2] eq] un]|] [_ HR]] := HC HW; last by move: HR; rewrite Em.
  case: HR => m' [u' [x [Em' [Neq [F1 [F2 [Nm [Sm [ER [HUN _]]]]]]]]]].
  move: Em'. rewrite Em => -[? ?]. subst m' u'.
  set n := sites p in F1 F2 Sm HUN *. set L := Z.to_nat (sp_L p) in F1 F2 Sm ER HUN *.
  have NW : forall s, field_ok n L s -> Rle R0 (weight n L k st s) by move=> s Hf; exact: (weight_nonneg WF KO KN HE HU LJ Est HB Hf).
  have SG : forall s, field_ok n L s -> sgn (weight n L k st s) = R1.
  { move=> s Hf. rewrite /sgn. case: Rlt_dec => // H. exfalso. have := NW s Hf. lra. }
  have Heq : eq <> [::].
  { move=> E. move: Neq. rewrite E /=. have := Z.div_le_lower_bound (sp_L p) (sp_neqlt p) 1 ltac:(lia) ltac:(lia). nia. }
  have GH : forall y, (fst y <= L)%N /\ field_ok n L (snd y) /\ weight n L k st (snd y) <> 0 -> forall i j : 'I_n,
    entry_of (green_eqlt (steps_of n k st (snd y) dn) L (fst y)) (Z.of_nat i) (Z.of_nat j) =
    Rminus (if i == j then R1 else R0) (Rmult (stagger colour i j) (entry_of (green_eqlt (steps_of n k st (snd y) up) L (fst y)) (Z.of_nat j) (Z.of_nat i))).
  { move=> [l s] /= [Hl [Hf Hw]] i j. rewrite !entry_ofE. exact: (green_half WF KO KN HE HU LJ Est HB Hf i j Hl Hw). }
  split.
  - rewrite Sm. apply: mean_one => //. apply: List.Forall_impl F1 => y [_ [Hf _]]. exact: SG.
  split.
  - move=> v Ev. rewrite Ev in HUN. case: HUN => Hp [Nun [_ [-> _]]]. apply: mean_one.
    + move=> E. have [_ [t [Ht [q Hq']]]] := Hun Hp. move: Nun. rewrite E /= /multiples. set w := sp_nuneqlt p in Hp Hq' *.
      have A1 : ((sp_nequil p + w - 1) / w <= q)%Z.
      { have : ((sp_nequil p + w - 1) / w < q + 1)%Z by apply: Z.div_lt_upper_bound; nia. lia. }
      have A2 : (q + 1 <= (sp_nequil p + sp_nsampl p + w - 1) / w)%Z by apply: Z.div_le_lower_bound; nia.
      lia.
    + apply: List.Forall_impl F2 => s [Hf _]. exact: SG.
  split.
  - move=> o Ho. rewrite (er_density_u ER Ho) (er_density_d ER Ho) /eq_mean -mean_plus. apply: mean_one => //.
    apply: List.Forall_impl F1 => y Hy. rewrite (SG _ (proj1 (proj2 Hy))) !Rmult_1_l.
    case: (WF) => H1 [H2 [H3 _]]. have HN : (0 < sp_Nx p * sp_Ny p)%Z by nia.
    rewrite /average -Rdiv_plus_distr -SumsFacts.sum_plus.
    set f := (fun i => Rplus _ _). have Ef : Sums.sum 0 (sp_Nx p * sp_Ny p) f = Sums.sum 0 (sp_Nx p * sp_Ny p) (fun _ => R1).
    { apply: SumsFacts.sum_ext => c Hc. rewrite /f. have Hsi : (0 <= site (sp_Nx p * sp_Ny p) c o < Z.of_nat n)%Z by rewrite (nE' WF); exact: MeasureFacts.site_range.
      have [i ->] := ord_of Hsi.
      have G := GH y Hy i i. rewrite eqxx /stagger eqxx in G.
      rewrite /expect_00 /lsum /= /cdag_c_00 /= /delta Z.eqb_refl /only /=. rewrite /state_at /equal_time /= G. move: (entry_of _ _ _) => z. lra. }
    rewrite Ef SumsFacts.sum_const; last lia. rewrite Z.sub_0_r Rmult_1_r. apply: Rinv_r. apply: not_0_IZR. lia.
  - move=> i j N.
    have Ri : forall i : 'I_(sites p), (0 <= Z.of_nat i < sp_Norb p * (sp_Nx p * sp_Ny p))%Z by move=> i'; rewrite -(nE WF); have /ltP := ltn_ord i'; lia.
    have EU := er_green_u ER (Ri j) (Ri i). have ED := er_green_d ER (Ri i) (Ri j). rewrite -(nE WF) in EU ED.
    rewrite /N EU ED /eq_mean.
    set c := if i == j then R1 else R0. set sg := stagger colour i j.
    set F := (fun x => Rmult _ (g00 _ up _ _)).
    have -> : Rminus c (Rmult sg (list_mean F eq)) = list_mean (fun y => Rplus ((fun _ => c) y) (Rmult (Ropp sg) (F y))) eq.
    { rewrite mean_plus mean_scal (mean_const c Heq). lra. }
    apply: mean_ext. apply: List.Forall_impl F1 => y Hy.
    rewrite /F (SG _ (proj1 (proj2 Hy))) !Rmult_1_l /state_at /equal_time /= (GH y Hy i j) -/c -/sg. move: (entry_of _ _ _) => z. lra.
Qed.
Print Assumptions C57_no_sign_problem.

(** the square lattice with one orbital, even Nx, Ny + pbc_shift even, hopping between nearest neighbours
    and mu equal to the site energy is an instance *)
Theorem C57_square_lattice : forall p, well_formed p -> sp_Norb p = 1%Z ->
  Z.even (sp_Nx p) = true -> Z.even (sp_Ny p + sp_pbc_shift p) = true ->
  t_ad (sp_t p) = [:: R0] -> t_bc (sp_t p) = [:: R0] -> sp_eps p = [:: sp_mu p] ->
  bipartite (fun i : 'I_(sites p) => Z.even (Z.of_nat i mod sp_Nx p + Z.of_nat i / sp_Nx p)).
Proof. exact: square_bipartite. Qed.
Print Assumptions C57_square_lattice.

(** the two sites of C56_case are bipartite, and the simulation that returns has average sign 1 *)
Example C57_case : bipartite (p := pair_params) (fun i : 'I_2 => i == ord0) /\ exists la m u,
  simulation calm_source la (fun _ => R0) (fun _ => 7%Z) pair_params tt = Some (Some (m, Some u)) /\
  m_sign m = R1 /\ u_sign u = R1 /\ Rplus (val (m_arr m density_u) 0) (val (m_arr m density_d) 0) = R1.
Proof.
  split; first exact: pair_half.
  have [la [m [u [LA [SC [k [st [s0 [seed1 [Ek [Est [E0 [HW [E _]]]]]]]]]]]]]] := C56_case_returns. exists la, m, u. split; first exact: E.
  have [S1 [S2 [S3 _]]] := @C57_no_sign_problem _ _ _ la (fun _ => R0) (fun _ => 7%Z) pair_params _ tt k st s0 seed1 m (Some u)
    calm_ok I LA SC pair_wf pair_valid erefl pair_U
    (proj1 pair_counts) (proj1 (proj2 pair_counts)) (proj1 (proj2 (proj2 pair_counts))) (proj2 (proj2 (proj2 pair_counts)))
    pair_half Ek Est E0 HW E.
  split; first exact: S1. split; first exact: (S2 u erefl). exact: (S3 0%Z (conj (Z.le_refl 0) Z.lt_0_1)).
Qed.

(** a 4 x 6 lattice with hopping along x and y and shifted boundary *)
Example C57_case_lattice : let p := mk_sim_params 1 4 6 2 (mk_bonds [:: 0] [:: 1] [:: 3] [:: 0] [:: 0])%coqR [:: 4%coqR] [:: 2%coqR] 2%coqR false
    (mk_phonon_params [:: R0] [:: R0] R0 0 R0 0) (1/8)%coqR 4 2 2 1 2 2 1 1 0 in
  sites p = 24%N /\ bipartite (fun i : 'I_(sites p) => Z.even (Z.of_nat i mod 4 + Z.of_nat i / 4)).
Proof.
  move=> p. split; first by []. apply: (C57_square_lattice (p := p)) => //.
  unfold well_formed; cbn; repeat split; try lia; repeat constructor.
Qed.
