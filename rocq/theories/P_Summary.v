(** C65: the summary of the equal time data. *)
From Coq Require Import ZArith List Reals Lia Lra.
From mathcomp Require Import all_ssreflect ssralg matrix.
From Verif Require Import Base BaseFacts MatProd RField MatSpec MatFacts TimeStep TimeStepSpec TimeStepFacts Strat StratSpec Lapack LapackSpec GreenConstruct
  SimParams ParamSpec KineticSpec KineticExp KineticExpSpec KineticExpFacts ConfigFacts RandSource Sweep SweepSpec WickSpec Measure MeasureSpec
  Simulation SimulationSpec SimulationFacts SimulationRun LapackSyev SimulationCase P_Simulation HalfFillSpec P_HalfFill Summary SummarySpec SummaryFacts.
Set Implicit Arguments.
Unset Strict Implicit.
Unset Printing Implicit Defensive.
Local Open Scope ring_scope.
Import GRing.Theory.

(** C65: under the assumptions of C56, if the chain ends with the configurations [eq] measured at equal times, the
    summary printed from the results of the program shows the mean of the signs and, for every orbital and
    quantity, the sign-weighted average over these configurations of the expectation value that the text of the line
    names, averaged over the unit cells.  If the signs add up to zero, the program divides by zero. *)
Theorem C65_summary : forall (RS : Type) (rng : rand_source RS) valid la junk ijunk p seed k st s0 seed1 seed2 s2 eq un,
  rand_ok rng valid -> valid seed -> lapack_ok la -> syev_converges la -> well_formed p -> valid_params p ->
  Z.of_nat (List.length (sp_U p)) = sp_Norb p ->
  (forall o, (0 <= o < sp_Norb p)%Z -> Rle 0 (Rmult (sp_dt p) (List.nth (Z.to_nat o) (sp_U p) R0))) ->
  (0 <= sp_nequil p)%Z -> (0 < sp_nsampl p)%Z -> (0 < sp_neqlt p <= sp_L p)%Z ->
  ((0 < sp_nuneqlt p)%Z -> (2 * sp_prodBlen p <= sp_L p)%Z /\
     exists t, (sp_nequil p <= t < sp_nequil p + sp_nsampl p)%Z /\ (sp_nuneqlt p | t)%Z) ->
  let n := sites p in let L := Z.to_nat (sp_L p) in
  kinetic_exponential la junk p = Some k ->
  fill_stratonovich (sp_Norb p) (sp_U p) (sp_dt p) (fresh junk (sp_Norb p)) = Some st ->
  random_field rng (L * n) seed = Some (s0, seed1) ->
  let W := weight n L k st in
  W s0 <> 0 -> chain rng n W L p (raw_ints ijunk (Z.of_nat n)) seed1 s0 = Some (Some (seed2, s2, eq, un)) ->
  let sign_sum := lsum (fun x => sgn (W (snd x))) eq in
  let Ncell := Z.mul (sp_Nx p) (sp_Ny p) in
  exists m u, simulation rng la junk ijunk p seed = Some (Some (m, u)) /\ m_sign m = list_mean (fun x => sgn (W (snd x))) eq /\
    (sign_sum <> R0 -> let lines := summary_lines (sp_Norb p) Ncell (m_sign m) (sign_average n L k st eq) in
       print_summary m = Some lines /\
       forall o v, In (Some o, average_local_moment, v) lines -> Rmult v (m_sign m) = val (m_arr m zz_corr) (entry (sp_Norb p) Ncell o o 0)) /\
    (sign_sum = R0 -> print_summary m = None).
Proof.
  move=> RS rng valid la junk ijunk p seed k st s0 seed1 seed2 s2 eq un RO Hv LA SC WF VP HU Hpos Hq Hs Hn Hun n L Ek Est E0 W HW Hc sg Ncell.
  have [k1 [st1 [s1 [sd1 [Ek1 [_ [Est1 [E1 HC]]]]]]]] := C56_results_are_means_over_chain junk ijunk RO Hv LA SC WF VP HU Hpos Hq Hs Hn Hun.
  move: Ek1 Est1 E1 HC. rewrite Ek Est E0 => -[?] -[?] -[? ?]. subst k1 st1 s1 sd1. move=> /(_ HW) [h [Hh HR]].
  move: Hh. rewrite Hc => -[?]. subst h.
  case: HR => m [u [x [Em [Neq [_ [_ [_ [Sm [ER _]]]]]]]]]. exists m, u. split; first exact: Em.
  have Heq : eq <> [::].
  { move=> E. move: Neq. rewrite E /=. have := Z.div_le_lower_bound (sp_L p) (sp_neqlt p) 1 ltac:(lia) ltac:(lia). nia. }
  case: (WF) => H1 [H2 [H3 _]]. split; first exact: Sm. split=> Hz.
  - split; first exact: (lines_ok ER Heq H1 Sm Hz). move=> o v Hi. exact: (moment_is_correlation ER Heq H2 H3 Sm Hz Hi).
  - exact: (lines_undefined ER Heq H1 Sm Hz).
Qed.
Print Assumptions C65_summary.

(** the two sites of C56_case_returns: the simulation ends, the signs do not cancel, and the program prints
    the sign 1 and six more lines *)
Example C65_case : exists la m u rest, simulation calm_source la (fun _ => R0) (fun _ => 7%Z) pair_params tt = Some (Some (m, u)) /\
  print_summary m = Some ((None, average_sign, R1) :: rest) /\ List.length rest = 6%N.
Proof.
  have [la [LA SC]] := lapack_converges.
  have [k [st [s0 [seed1 [Ek [HE [Est [E0 HC]]]]]]]] := @C56_results_are_means_over_chain _ _ _ la (fun _ => R0) (fun _ => 7%Z) pair_params tt
    calm_ok I LA SC pair_wf pair_valid erefl pair_U
    (proj1 pair_counts) (proj1 (proj2 pair_counts)) (proj1 (proj2 (proj2 pair_counts))) (proj2 (proj2 (proj2 pair_counts))).
  have [k' [Ek' [KO [KN _]]]] := kinetic_exponential_ok (fun _ => R0) LA SC pair_wf. move: Ek'. rewrite Ek => -[?]. subst k'.
  have [s0' [seed1' [E0' [_ [L0 [F0 _]]]]]] := @random_fieldE _ _ _ (fun _ => 7%Z) 8 calm_ok tt I.
  have E0'' : random_field calm_source 8 tt = Some (s0, seed1) by exact: E0.
  have [E1 E2] : Some (s0', seed1') = Some (s0, seed1) by rewrite -E0' -E0''.
  subst s0' seed1'.
  have HW := @pair_weight_nz k st [:: R0] KO KN HE erefl Est s0 (conj L0 F0).
  have [[[[[seed2 s2] eq] un]|] [Hh _]] := HC HW; last by case: (@chain_returns _ calm_source _ _ _ calm_returns pair_params _ seed1 s0 pair_total Hh).
  have [m [u [Em [Sm [HL HZ]]]]] := @C65_summary _ _ _ la (fun _ => R0) (fun _ => 7%Z) pair_params tt k st s0 seed1 seed2 s2 eq un
    calm_ok I LA SC pair_wf pair_valid erefl pair_U
    (proj1 pair_counts) (proj1 (proj2 pair_counts)) (proj1 (proj2 (proj2 pair_counts))) (proj2 (proj2 (proj2 pair_counts)))
    Ek Est E0 HW Hh.
  have [S1 _] := @C57_no_sign_problem _ _ _ la (fun _ => R0) (fun _ => 7%Z) pair_params _ tt k st s0 seed1 m u
    calm_ok I LA SC pair_wf pair_valid erefl pair_U
    (proj1 pair_counts) (proj1 (proj2 pair_counts)) (proj1 (proj2 (proj2 pair_counts))) (proj2 (proj2 (proj2 pair_counts)))
    pair_half Ek Est E0 HW Em.
  have HS : lsum (fun x => sgn (weight 2 4 k st (snd x))) eq <> R0.
  { move=> E. move: S1. rewrite Sm /list_mean. rewrite (_ : lsum _ eq = R0); last exact: E. rewrite /Rdiv Rmult_0_l. by move/esym/R1_neq_R0. }
  have [EL _] := HL HS. exists la, m, u. eexists. split; first exact: Em. split; [rewrite EL S1; reflexivity|reflexivity].
Qed.
