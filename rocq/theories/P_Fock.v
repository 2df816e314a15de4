(** C61, C62: the determinants and Green's functions of the code as traces over the Fock space of the Hubbard model. *)
From Coq Require Import ZArith List Reals Lia Lra.
From mathcomp Require Import all_ssreflect fingroup perm ssralg matrix.
From Verif Require Import Base RField MatSpec MatFacts TimeStep TimeStepSpec Strat StratSpec StratFacts Lapack LapackSpec GreenConstruct SimParams KineticSpec KineticExp
  KineticExpSpec KineticExpFacts SweepSpec WickSpec UnequalTimeSpec SimulationSpec IdealSpec IdealFacts LapackSyev SimulationCase
  FockSpec FockFacts HubbardSpec HubbardFacts HubbardLink.
Set Implicit Arguments.
Unset Strict Implicit.
Unset Printing Implicit Defensive.
Local Open Scope ring_scope.
Import GRing.Theory.

(** C61: the sum of the weights of all auxiliary fields is the trace of the Trotter product
    (exp(-dt V) exp(-dt K))^L over the Fock space, with the Hubbard Hamiltonian K + V of the given lattice, hopping,
    site energies and interactions, times a factor that depends on dt and U only. *)
Theorem C61_partition_function : forall la junk p k st jv EV EK L,
  lapack_ok la -> syev_converges la -> well_formed p ->
  Z.of_nat (List.length (sp_U p)) = sp_Norb p -> Z.of_nat (List.length jv) = sp_Norb p ->
  kinetic_exponential la junk p = Some k -> fill_stratonovich (sp_Norb p) (sp_U p) (sp_dt p) jv = Some st ->
  is_exp (- sp_dt p *: interaction p) EV -> is_exp (- sp_dt p *: kinetic_energy p) EK ->
  total (weight (sites p) L k st) (fields (L * sites p)) =
  (\prod_(i < sites p) (Rmult 2 (exp (Rdiv (Rmult (sp_dt p) (@site_U p i)) 4)))) ^+ L * \tr (mpow (EV *m EK) L).
Proof.
  move=> la junk p k st jv EV EK L LA SC WF HU LJ Ek Est HV HK.
  have [KO [KN [KC [HE _]]]] := tables_ok LA SC WF HU LJ Ek Est.
  have -> := is_exp_uniq HV (@EV_exp p). have -> := is_exp_uniq HK (EK_exp WF HE).
  by rewrite totalE (partition_function KO KN KC HU LJ Est).
Qed.
Print Assumptions C61_partition_function.

(** C61 (existence): both exponentials exist *)
Theorem C61_exponentials_exist : forall p, well_formed p -> exists EV EK,
  is_exp (- sp_dt p *: interaction p) EV /\ is_exp (- sp_dt p *: kinetic_energy p) EK.
Proof.
  move=> p WF. have [la [LA SC]] := lapack_converges.
  have [k [_ [_ [_ [_ [HE _]]]]]] := kinetic_exponential_ok (fun _ => R0) LA SC WF.
  exists (HubbardFacts.EV p), (HubbardFacts.EK p k). split; [exact: EV_exp|exact: EK_exp].
Qed.
Print Assumptions C61_exponentials_exist.

(** C62: for every field of non-zero weight, the weight and all expectation values computed with the Green's functions of
    the field are traces over the Fock space of the product of the operators of all slices: the exponential of
    the field, diagonal in the occupation numbers, times exp(-dt K).  The operators of the expectation value are inserted after
    slice [l] and before slice 0. *)
Theorem C62_expectations_are_traces : forall la junk p k st jv EK L,
  lapack_ok la -> syev_converges la -> well_formed p ->
  Z.of_nat (List.length (sp_U p)) = sp_Norb p -> Z.of_nat (List.length jv) = sp_Norb p ->
  kinetic_exponential la junk p = Some k -> fill_stratonovich (sp_Norb p) (sp_U p) (sp_dt p) jv = Some st ->
  is_exp (- sp_dt p *: kinetic_energy p) EK ->
  let n := sites p in
  forall s, let F := field_op k st EK s in let W := weight n L k st s in
  W = \tr (oprod F 0 L) /\
  (field_ok n L s -> W <> 0 -> forall l A B, (l <= L)%N -> on_lattice n A -> on_lattice n B ->
   let w := states_at n L k st l s in let w1 := state_at n L k st (l, s) in
   W * expect_tt w A = trace_at F L l (bilinear_op n A) 1%:M /\
   W * expect_00 w A = trace_at F L l 1%:M (bilinear_op n A) /\
   W * correlation w A B = trace_at F L l (bilinear_op n A) (bilinear_op n B) /\
   W * pair_correlation w A B = trace_at F L l (pairing_op n A) (pairing_op n B)^T /\
   W * expect_tt w1 A = trace_at F L l (bilinear_op n A) 1%:M /\
   W * correlation w1 A B = trace_at F L l (bilinear_op n A *m bilinear_op n B) 1%:M /\
   W * pair_correlation w1 A B = trace_at F L l (pairing_op n A *m (pairing_op n B)^T) 1%:M).
Proof.
  move=> la junk p k st jv EK L LA SC WF HU LJ Ek Est HK n s F W.
  have [KO [KN [KC [HE SO]]]] := tables_ok LA SC WF HU LJ Ek Est.
  rewrite /F /W. have -> := is_exp_uniq HK (EK_exp WF HE). split; first exact: weight_fock.
  move=> FO HW l A B Hl HA HB. split; first exact: link_tt. split; first exact: link_00. split; first exact: link_corr.
  split; first exact: link_pair. split; first exact: link_eq. split; first exact: link_eq_corr. exact: link_eq_pair.
Qed.
Print Assumptions C62_expectations_are_traces.

(** the operators of the theorems: products of creation and annihilation operators obey the anticommutation relations *)
Theorem C62_anticommutation : forall n (s t : spin) (i j : 'I_n),
  cdag s i *m cdag t j + cdag t j *m cdag s i = 0 /\ cann s i *m cann t j + cann t j *m cann s i = 0 /\
  cdag s i *m cann t j + cann t j *m cdag s i = (match s, t with up, up | dn, dn => (i == j)%:R | _, _ => 0 end)%:M.
Proof. exact: mode_anticommutation. Qed.
Print Assumptions C62_anticommutation.

(** the two sites of the example above: all hypotheses hold, every one of the 256 fields has non-zero weight, and the sum
    of the weights is the trace *)
Example C61_case : exists la k st EV EK, lapack_ok la /\ syev_converges la /\ well_formed pair_params /\
  kinetic_exponential la (fun _ => R0) pair_params = Some k /\
  fill_stratonovich 1 [:: 4%coqR] (1/8)%coqR [:: R0] = Some st /\
  is_exp (- (1/8)%coqR *: interaction pair_params) EV /\ is_exp (- (1/8)%coqR *: kinetic_energy pair_params) EK /\
  (forall s, List.In s (fields 8) -> weight 2 4 k st s <> 0) /\
  total (weight 2 4 k st) (fields 8) = (\prod_(i < 2) (Rmult 2 (exp (Rdiv (Rmult (1/8)%coqR 4) 4)))) ^+ 4 * \tr (mpow (EV *m EK) 4).
Proof.
  have [la [LA SC]] := lapack_converges. have [EV [EK [HV HK]]] := C61_exponentials_exist pair_wf.
  have [k [Ek [KO [KN [KC [HE _]]]]]] := kinetic_exponential_ok (fun _ => R0) LA SC pair_wf.
  have [st Est] := @fill_defined 1 [:: 4%coqR] (1/8)%coqR [:: R0] Z.le_0_1 erefl erefl pair_U.
  exists la, k, st, EV, EK. split; first exact: LA. split; first exact: SC. split; first exact: pair_wf. split; first exact: Ek.
  split; first exact: Est. split; first exact: HV. split; first exact: HK. split.
  - move=> s /fields_in [H1 H2]. exact (@pair_weight_nz k st [:: R0] KO KN HE erefl Est s (conj H1 H2)).
  - have := @C61_partition_function la (fun _ => R0) pair_params k st [:: R0] EV EK 4 LA SC pair_wf erefl erefl Ek Est HV HK.
    rewrite (_ : \prod_i _ = \prod_(i < 2) (Rmult 2 (exp (Rdiv (Rmult (1/8)%coqR 4) 4)))) //.
    apply: eq_bigr => i _. by case: i => [[|[|//]] Hi].
Qed.

(** the spin correlation of the two sites at different times, in any field *)
Example C62_case : exists la k st EK, lapack_ok la /\ syev_converges la /\
  kinetic_exponential la (fun _ => R0) pair_params = Some k /\
  fill_stratonovich 1 [:: 4%coqR] (1/8)%coqR [:: R0] = Some st /\ is_exp (- (1/8)%coqR *: kinetic_energy pair_params) EK /\
  on_lattice 2 (spin_z 0) /\ on_lattice 2 (spin_z 1) /\
  forall s, List.In s (fields 8) -> weight 2 4 k st s <> 0 /\
    weight 2 4 k st s * correlation (states_at 2 4 k st 3 s) (spin_z 0) (spin_z 1) =
    trace_at (field_op k st EK s) 4 3 (bilinear_op 2 (spin_z 0)) (bilinear_op 2 (spin_z 1)).
Proof.
  have [la [LA SC]] := lapack_converges. have [EV [EK [_ HK]]] := C61_exponentials_exist pair_wf.
  have [k [Ek [KO [KN [KC [HE _]]]]]] := kinetic_exponential_ok (fun _ => R0) LA SC pair_wf.
  have [st Est] := @fill_defined 1 [:: 4%coqR] (1/8)%coqR [:: R0] Z.le_0_1 erefl erefl pair_U.
  exists la, k, st, EK. split; first exact: LA. split; first exact: SC. split; first exact: Ek. split; first exact: Est.
  split; first exact: HK.
  have H0 : on_lattice 2 (spin_z 0) by repeat constructor.
  have H1 : on_lattice 2 (spin_z 1) by repeat constructor.
  split; first exact: H0. split; first exact: H1. move=> s /fields_in Hs.
  have HW := @pair_weight_nz k st [:: R0] KO KN HE erefl Est s Hs. split; first exact: HW.
  have [_ H] := @C62_expectations_are_traces la (fun _ => R0) pair_params k st [:: R0] EK 4 LA SC pair_wf erefl erefl Ek Est HK s.
  have [_ [_ [H2 _]]] := H Hs HW 3%N _ _ erefl H0 H1. exact: H2.
Qed.
