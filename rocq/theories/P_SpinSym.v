(** C76: no sign problem and no preferred spin direction without repulsion. *)
From Coq Require Import ZArith List Reals Lia Lra.
From mathcomp Require Import all_ssreflect fingroup perm ssralg matrix.
From Verif Require Import Base MatProd RField MatSpec MatFacts TimeStep TimeStepSpec Strat StratSpec StratFacts Lapack LapackSpec GreenConstruct SimParams ParamSpec KineticSpec KineticExpSpec RandSource Sweep SweepSpec
  PhononSpec WickSpec Measure MeasureSpec UMeasure Simulation PMeasure PhononSweep PSimulation LapackSyev KineticExp KineticExpFacts SimulationCase SpinSymSpec SpinSymRun FreeFacts P_Free PSimulationCase P_PSimulation.
Set Implicit Arguments.
Unset Strict Implicit.
Unset Printing Implicit Defensive.
Local Open Scope ring_scope.
Import GRing.Theory.

(** C76: with U = 0 for all orbitals, every complete simulation that returns has mean sign exactly 1, and the results do not depend on
    the direction of the spin.  Nothing is assumed about the random numbers and the linear algebra library, and the parameters are
    arbitrary. *)
Theorem C76_spin_symmetric_results : forall (RS : Type) (rng : rand_source RS) la junk ijunk p seed m u,
  no_repulsion p -> simulation rng la junk ijunk p seed = Some (Some (m, u)) ->
  spin_symmetric m /\ (forall u', u = Some u' -> u_spin_symmetric u').
Proof.
  move=> RS rng la junk ijunk p seed m u NU E. have [H1 H2] := @simulation_sym _ rng la junk ijunk p NU seed m u E.
  split => // u' Eu. by rewrite Eu in H2.
Qed.
Print Assumptions C76_spin_symmetric_results.

(** C76: the same with phonons, for all couplings, including the sign counted with the phonon data *)
Theorem C76_spin_symmetric_results_phonons : forall (RS : Type) (rng : rand_source RS) la junk ijunk p seed m u e c,
  no_repulsion p -> psimulation rng la junk ijunk p seed = Some (Some (m, u, e, c)) ->
  spin_symmetric m /\ (forall u', u = Some u' -> u_spin_symmetric u') /\ p_sign e = R1.
Proof.
  move=> RS rng la junk ijunk p seed m u e c NU E. have [H1 [H2 H3]] := @psimulation_sym _ rng la junk ijunk p NU seed m u e c E.
  split => //. split => // u' Eu. by rewrite Eu in H2.
Qed.
Print Assumptions C76_spin_symmetric_results_phonons.

(** C76: the weight of a configuration with phonons is never negative, and does not depend on the auxiliary field; so it is the same
    whether the updates of this field are skipped or not *)
Theorem C76_weight_not_negative : forall p k st jv ph L s s' X,
  no_repulsion p -> kinetic_ok (sites p) k -> k_Norb k = sp_Norb p ->
  Z.of_nat (List.length (sp_U p)) = sp_Norb p -> Z.of_nat (List.length jv) = sp_Norb p ->
  fill_stratonovich (sp_Norb p) (sp_U p) (sp_dt p) jv = Some st ->
  field_ok (sites p) L s -> field_ok (sites p) L s' ->
  Rle 0 (phonon_weight (sites p) L k st ph (sp_dt p) s X) /\
  phonon_weight (sites p) L k st ph (sp_dt p) s X = phonon_weight (sites p) L k st ph (sp_dt p) s' X.
Proof.
  move=> p k st jv ph L s s' X NU KO KN HU LJ Est Hf Hf'. split.
  - rewrite /phonon_weight (dets_square _ NU Est) expr2 -!RmultE. apply: Rmult_le_pos; [nra|left; exact: exp_pos].
  - by rewrite /phonon_weight (dets_any_field NU KO KN HU LJ Est ph X Hf Hf').
Qed.
Print Assumptions C76_weight_not_negative.

(** two sites away from half filling, where the sign is not protected by particle-hole symmetry *)
Example C76_case : exists la m u, no_repulsion free_pair /\
  simulation calm_source la (fun _ => R0) (fun _ => 7%Z) free_pair tt = Some (Some (m, Some u)) /\
  m_sign m = R1 /\ u_sign u = R1 /\ m_nsampl m = 4%Z /\ m_arr m zz_corr = m_arr m xx_corr.
Proof.
  have [la [m [u [expH [_ [_ [NU [_ [E [N4 _]]]]]]]]]] := C77_case. exists la, m, u.
  have [[S1 [_ [_ [_ [S2 _]]]]] H2] := C76_spin_symmetric_results NU E. have [S3 _] := H2 u erefl.
  split; first exact: NU. split; first exact: E. split; first exact: S1. split; first exact: S3. split; first exact: N4. exact: S2.
Qed.

Lemma free_U o : (0 <= o < 1)%Z -> Rle 0 (Rmult (1/8) (List.nth (Z.to_nat o) [:: R0] R0)).
Proof. move=> Ho. have -> : o = 0%Z by lia. cbn. lra. Qed.
(** a coupled phonon field on these sites *)
Example C76_weight_case : exists k st, let ph := mk_phonon_params [:: 1%coqR] [:: 1%coqR] 1%coqR 0 1%coqR 0 in
  kinetic_ok 2 k /\ fill_stratonovich 1 [:: R0] (1/8)%coqR [:: R0] = Some st /\
  let W := phonon_weight 2 1 k st ph (1/8)%coqR in
  Rle 0 (W [:: 0; 1]%Z [:: 1; -3]%coqR) /\ W [:: 0; 1]%Z [:: 1; -3]%coqR = W [:: 1; 1]%Z [:: 1; -3]%coqR.
Proof.
  have [la [LA SC]] := lapack_converges.
  have [k [Ek [KO [KN _]]]] := kinetic_exponential_ok (fun _ => R0) LA SC free_wf.
  have [st Est] := fill_defined 1 [:: R0] (1/8)%coqR [:: R0] ltac:(lia) erefl erefl
    (fun o (Ho : (0 <= o < 1)%Z) => free_U Ho).
  exists k, st. split; first exact: KO. split; first exact: Est.
  have NU : no_repulsion free_pair by repeat constructor.
  apply: (@C76_weight_not_negative free_pair k st [:: R0] _ 1 _ _ _ NU KO KN erefl erefl Est).
  - by split=> //; do 2 (constructor; first by auto).
  - by split=> //; do 2 (constructor; first by auto).
Qed.

(** two sites with phonons and without repulsion *)
Example C76_phonon_case : exists la m u e cnt, no_repulsion (phonon_pair R0) /\
  psimulation calm_source la (fun _ => R0) (fun _ => 7%Z) (phonon_pair R0) tt = Some (Some (m, Some u, e, cnt)) /\
  m_sign m = R1 /\ u_sign u = R1 /\ p_sign e = R1 /\ m_nsampl m = 4%Z /\ m_arr m zz_corr = m_arr m xx_corr.
Proof.
  have [la [m [u [e [cnt [_ [_ [k [st [_ [_ [_ [E [N4 _]]]]]]]]]]]]]] := C78_case (Rle_refl 0). exists la, m, u, e, cnt.
  have NU : no_repulsion (phonon_pair R0) by repeat constructor.
  have [[S1 [_ [_ [_ [S2 _]]]]] [H2 S4]] := C76_spin_symmetric_results_phonons NU E. have [S3 _] := H2 u erefl.
  split; first exact: NU. split; first exact: E. split; first exact: S1. split; first exact: S3. split; first exact: S4. split; first exact: N4. exact: S2.
Qed.
