(** The expectation values computed from the Green's functions of a field, as traces over the Fock space. *)
From Coq Require Import ZArith List Reals Lia Lra.
From mathcomp Require Import all_ssreflect fingroup perm ssralg matrix.
From Verif Require Import Base RField MatSpec MatFacts TimeStep TimeStepSpec TimeStepFacts Strat StratSpec StratFacts GreenSpec GreenFacts Lapack LapackSpec GreenConstruct SimParams KineticSpec KineticExp KineticExpSpec
  KineticExpFacts TimeFlowFacts SweepSpec SweepFacts WickSpec UnequalTimeSpec SimulationSpec SimulationRun FockSpec FockFacts FockWick FockExp HubbardSpec HubbardFacts HubbardWick.
Set Implicit Arguments.
Unset Strict Implicit.
Unset Printing Implicit Defensive.
Local Open Scope ring_scope.
Import GRing.Theory.

Lemma tables_ok la junk p k st jv : lapack_ok la -> syev_converges la -> well_formed p ->
  Z.of_nat (List.length (sp_U p)) = sp_Norb p -> Z.of_nat (List.length jv) = sp_Norb p ->
  kinetic_exponential la junk p = Some k -> fill_stratonovich (sp_Norb p) (sp_U p) (sp_dt p) jv = Some st ->
  kinetic_ok (sites p) k /\ k_Norb k = sp_Norb p /\ k_Ncell k = (sp_Nx p * sp_Ny p)%Z /\
  is_exp (- sp_dt p *: hamiltonian p) (mat (sites p) (expK k)) /\ strat_ok (k_Norb k) st.
Proof.
  move=> LA SC WF HU LJ Ek Est. have [k' [Ek' [KO [KN [KC [HE _]]]]]] := kinetic_exponential_ok junk LA SC WF.
  move: Ek'. rewrite Ek => -[?]. subst k'. do 4 split => //.
  case: (WF) => H1 _. rewrite KN. by apply: (fill_strat_ok _ HU LJ Est); lia.
Qed.

Lemma place_inj n (s t : spin) (i j : 'I_n) :
  (place s i == place t j)%:R = match s, t with up, up | dn, dn => (i == j)%:R | _, _ => 0 end :> R.
Proof.
  case: s; case: t; rewrite /place /=; first by rewrite (inj_eq (@lshift_inj _ _)).
  - by rewrite eq_lrshift.
  - by rewrite eq_rlshift.
  - by rewrite (inj_eq (@rshift_inj _ _)).
Qed.
Lemma mode_anticommutation n (s t : spin) (i j : 'I_n) :
  cdag s i *m cdag t j + cdag t j *m cdag s i = 0 /\ cann s i *m cann t j + cann t j *m cann s i = 0 /\
  cdag s i *m cann t j + cann t j *m cdag s i = (match s, t with up, up | dn, dn => (i == j)%:R | _, _ => 0 end)%:M.
Proof.
  split; first by rewrite /cdag car_cc addNr. split; first by rewrite /cann an_an addNr.
  by rewrite /cdag /cann car_ca place_inj.
Qed.

Section Link.
Variables (n L : nat) (k : kinetic) (st : strat).
Hypotheses (KO : kinetic_ok n k) (SO : strat_ok (k_Norb k) st).
Notation expk := (mat n (expK k)).
Notation F s := (field_op k st (second (both expk expk)) s).

Lemma field_opE s l : F s l = second (both (steps_of n k st s up l) (steps_of n k st s dn l)).
Proof.
  rewrite /field_op /steps_of /step_mx -both_mul second_mul. congr (_ *m _).
  have -> : both (diag_mx (\row_(i < n) field_factor n (k_Ncell k) (expVu st) s l i)) (diag_mx (\row_(i < n) field_factor n (k_Ncell k) (expVd st) s l i)) =
    diag_mx (row_mx (\row_(i < n) field_factor n (k_Ncell k) (expVu st) s l i) (\row_(i < n) field_factor n (k_Ncell k) (expVd st) s l i)).
  { by rewrite diag_mx_row. }
  rewrite second_diag !occ_states. apply: on_states_ext => S. apply: eq_bigr => j _. rewrite mxE.
  case: fintype.splitP => i E; by rewrite mxE.
Qed.

Lemma weight_fock s : weight n L k st s = \tr (oprod (F s) 0 L).
Proof.
  transitivity (\det (both (1%:M + oprod (steps_of n k st s up) 0 L) (1%:M + oprod (steps_of n k st s dn) 0 L))).
  { by rewrite both_det /weight /cyclic_flow !oprod0 !mul1mx subn0. }
  have -> : both (1%:M + oprod (steps_of n k st s up) 0 L) (1%:M + oprod (steps_of n k st s dn) 0 L) =
    1%:M + oprod (fun l => both (steps_of n k st s up l) (steps_of n k st s dn l)) 0 L.
  { by rewrite both_oprod -both1 both_add. }
  rewrite -trace_second second_oprod. congr (\tr _). apply: oprod_ext => i _. by rewrite field_opE.
Qed.

Section Field.
Variable s : list Z.
Hypotheses (FO : field_ok n L s) (HW : weight n L k st s <> 0).
Notation M := (steps_of n k st s).

Lemma steps_unit sp l : (l < L)%N -> M sp l \in unitmx.
Proof. move=> Hl. case: sp; apply: (step_unit KO _ FO Hl); [exact: (so_u SO)|exact: (so_d SO)]. Qed.
Lemma steps_det sp : \det (1%:M + oprod (M sp) 0 L) <> 0.
Proof.
  move=> E. apply: HW. rewrite /weight /cyclic_flow !oprod0 !mul1mx subn0. case: sp E => E.
  - rewrite (_ : \det (1%:M + oprod (step_mx n k (expVu st) s) 0 L) = 0) //; exact: Rmult_0_l.
  - rewrite (_ : \det (1%:M + oprod (step_mx n k (expVd st) s) 0 L) = 0) //; exact: Rmult_0_r.
Qed.
Lemma trace_ext l (O O' : fock n) : trace_at (fun j => second (both (M up j) (M dn j))) L l O O' = trace_at (F s) L l O O'.
Proof. rewrite /trace_at. congr (\tr (_ *m _ *m _ *m _)); apply: oprod_ext => i _; by rewrite field_opE. Qed.
Lemma weight_flow : weight n L k st s = \tr (oprod (fun j => second (both (M up j) (M dn j)) : fock n) 0 L).
Proof. rewrite weight_fock. congr (\tr _). apply: oprod_ext => i _. by rewrite field_opE. Qed.

Section At.
Variable l : nat.
Hypothesis Hl : (l <= L)%N.
Notation W := (weight n L k st s).

Lemma link_tt A : on_lattice n A -> W * expect_tt (states_at n L k st l s) A = trace_at (F s) L l (bilinear_op n A) 1%:M.
Proof. move=> HA. by rewrite weight_flow -trace_ext -(config_tt steps_unit steps_det Hl HA). Qed.
Lemma link_00 A : on_lattice n A -> W * expect_00 (states_at n L k st l s) A = trace_at (F s) L l 1%:M (bilinear_op n A).
Proof. move=> HA. by rewrite weight_flow -trace_ext -(config_00 steps_det Hl HA). Qed.
Lemma link_corr A B : on_lattice n A -> on_lattice n B ->
  W * correlation (states_at n L k st l s) A B = trace_at (F s) L l (bilinear_op n A) (bilinear_op n B).
Proof. move=> HA HB. by rewrite weight_flow -trace_ext -(config_corr steps_unit steps_det Hl HA HB). Qed.
Lemma link_pair A B : on_lattice n A -> on_lattice n B ->
  W * pair_correlation (states_at n L k st l s) A B = trace_at (F s) L l (pairing_op n A) (pairing_op n B)^T.
Proof. move=> HA HB. by rewrite weight_flow -trace_ext -(config_pair steps_det Hl HA HB). Qed.
Lemma link_eq A : on_lattice n A -> W * expect_tt (state_at n L k st (l, s)) A = trace_at (F s) L l (bilinear_op n A) 1%:M.
Proof. move=> HA. by rewrite weight_flow -trace_ext -(config_eq_tt steps_unit steps_det Hl HA). Qed.
Lemma link_eq_corr A B : on_lattice n A -> on_lattice n B ->
  W * correlation (state_at n L k st (l, s)) A B = trace_at (F s) L l (bilinear_op n A *m bilinear_op n B) 1%:M.
Proof. move=> HA HB. by rewrite weight_flow -trace_ext -(config_eq_corr steps_unit steps_det Hl HA HB). Qed.
Lemma link_eq_pair A B : on_lattice n A -> on_lattice n B ->
  W * pair_correlation (state_at n L k st (l, s)) A B = trace_at (F s) L l (pairing_op n A *m (pairing_op n B)^T) 1%:M.
Proof. move=> HA HB. by rewrite weight_flow -trace_ext -(config_eq_pair steps_unit steps_det Hl HA HB). Qed.
Lemma link_green sp (i j : 'I_n) : W * gt0 (states_at n L k st l s) sp (Z.of_nat i) (Z.of_nat j) = trace_at (F s) L l (cann sp i) (cdag sp j).
Proof. by rewrite weight_flow -trace_ext -(config_green steps_det Hl). Qed.
Lemma link_green' sp (i j : 'I_n) : l <> 0%N ->
  W * g0t (states_at n L k st l s) sp (Z.of_nat i) (Z.of_nat j) = - trace_at (F s) L l (cdag sp j) (cann sp i).
Proof.
  move=> H0. rewrite -trace_ext -(config_green' steps_unit steps_det Hl) -weight_flow -mulrN. congr (_ * _).
  rewrite /cdag_c_t0 /= (_ : same_spin _ _ = true); last by case: sp.
  rewrite (_ : (l == 0%N) = false) /=; last by apply/eqP. by rewrite -RoppE Ropp_minus_distr Rminus_0_r.
Qed.
Lemma green_delta (w : config) sp i j : gtt w sp i j = Rminus (delta j i) (expect_tt w [:: (R1, (sp, j), (sp, i))]).
Proof. rewrite /expect_tt /lsum /= /cdag_c_tt /= (_ : same_spin _ _ = true) /=; last by case: sp. ring. Qed.
Lemma swap_op sp (i j : 'I_n) : cann sp i *m cdag sp j = (i == j)%:R%:M - bilinear_op n [:: (R1, (sp, Z.of_nat j), (sp, Z.of_nat i))].
Proof.
  rewrite /bilinear_op big_seq1 /= scale1r. have [_ [_ H]] := mode_anticommutation sp sp j i.
  have -> : cdag_at n (sp, Z.of_nat j) = cdag sp j by rewrite /cdag_at /= Nat2Z.id valK.
  have -> : cann_at n (sp, Z.of_nat i) = cann sp i by rewrite /cann_at /= Nat2Z.id valK.
  move: H. rewrite (_ : match sp with up => _ | dn => _ end = (j == i)%:R); last by case: sp. rewrite (eq_sym i j) => <-. by rewrite addrC addKr.
Qed.
Lemma lat1 sp (i j : 'I_n) : on_lattice n [:: (R1, (sp, Z.of_nat j), (sp, Z.of_nat i))].
Proof. have /ltP H1 := ltn_ord i. have /ltP H2 := ltn_ord j. repeat constructor; cbn; lia. Qed.
Lemma trace_atB (G : nat -> fock n) (O1 O2 O' : fock n) : trace_at G L l (O1 - O2) O' = trace_at G L l O1 O' - trace_at G L l O2 O'.
Proof. by rewrite /trace_at mulmxBr !mulmxBl raddfB. Qed.
Lemma trace_at_c (c : R) : trace_at (F s) L l c%:M 1%:M = W * c.
Proof.
  rewrite /trace_at mulmx1 mul_mx_scalar -scalemxAl mxtraceZ weight_fock mulrC. congr (\tr _ * _). by rewrite -[in RHS](subnKC Hl) oprod_cat add0n.
Qed.
Lemma link_gtt_of (w : config) sp (i j : 'I_n) :
  W * expect_tt w [:: (R1, (sp, Z.of_nat j), (sp, Z.of_nat i))] = trace_at (F s) L l (bilinear_op n [:: (R1, (sp, Z.of_nat j), (sp, Z.of_nat i))]) 1%:M ->
  W * gtt w sp (Z.of_nat i) (Z.of_nat j) = trace_at (F s) L l (cann sp i *m cdag sp j) 1%:M.
Proof.
  move=> E. rewrite green_delta RminusE mulrBr E swap_op trace_atB trace_at_c. congr (_ * _ - _).
  rewrite /delta. case: Z.eqb_spec => [/Nat2Z.inj/ord_inj ->|H]; first by rewrite eqxx. case: eqP => // E'. by rewrite E' in H.
Qed.
Lemma link_gtt sp (i j : 'I_n) : W * gtt (states_at n L k st l s) sp (Z.of_nat i) (Z.of_nat j) = trace_at (F s) L l (cann sp i *m cdag sp j) 1%:M.
Proof. apply: link_gtt_of. exact: link_tt (lat1 _ _ _). Qed.
Lemma link_eq_gtt sp (i j : 'I_n) : W * gtt (state_at n L k st (l, s)) sp (Z.of_nat i) (Z.of_nat j) = trace_at (F s) L l (cann sp i *m cdag sp j) 1%:M.
Proof. apply: link_gtt_of. exact: link_eq (lat1 _ _ _). Qed.
End At.
End Field.
End Link.
