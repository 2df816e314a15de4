(** Means over fields with probability proportional to |weight| and Trotterised thermal expectation values. *)
From Coq Require Import ZArith List Reals Lia Lra.
From mathcomp Require Import all_ssreflect fingroup perm ssralg matrix.
From Verif Require Import Base RField MatSpec MatFacts TimeStep TimeStepSpec Strat StratSpec StratFacts GreenSpec GreenFacts Lapack LapackSpec GreenConstruct SimParams KineticSpec KineticExp KineticExpSpec
  KineticExpFacts TimeFlowFacts SweepSpec SweepFacts LatticeSpec WickSpec Sums SumsFacts Measure MeasureSpec MeasureFacts UMeasure UMeasureSpec UnequalTimeSpec SimulationSpec SimulationRun
  IdealSpec IdealFacts FockSpec FockFacts FockWick FockExp HubbardSpec HubbardFacts HubbardWick HubbardLink TrotterPos ThermalSpec.
Set Implicit Arguments.
Unset Strict Implicit.
Unset Printing Implicit Defensive.
Local Open Scope ring_scope.
Import GRing.Theory.

Lemma sgn_abs x : Rmult (Rabs x) (sgn x) = x.
Proof. rewrite /sgn. case: Rlt_dec => H /=; [rewrite Rabs_left //|rewrite Rabs_right]; lra. Qed.

Section Model.
Variables (p : sim_params) (k : kinetic) (st : strat) (jv : list R) (L : nat).
Hypotheses (WF : well_formed p) (KO : kinetic_ok (sites p) k) (KN : k_Norb k = sp_Norb p) (KC : k_Ncell k = (sp_Nx p * sp_Ny p)%Z).
Hypothesis HE : is_exp (- sp_dt p *: hamiltonian p) (mat (sites p) (expK k)).
Hypotheses (HU : Z.of_nat (List.length (sp_U p)) = sp_Norb p) (LJ : Z.of_nat (List.length jv) = sp_Norb p).
Hypothesis Est : fill_stratonovich (sp_Norb p) (sp_U p) (sp_dt p) jv = Some st.
Hypothesis SO : strat_ok (k_Norb k) st.
Notation n := (sites p).
Notation W := (weight n L k st).
Notation F s := (field_op k st (EK p k) s).
Notation B := (EV p *m EK p k).
Hypothesis NZ : forall s, List.In s (fields (L * n)) -> W s <> 0.

Definition zc : R := field_const p ^+ L * \tr (mpow B L).
Lemma trB_pos : Rlt R0 (\tr (mpow B L)).
Proof. apply: (hubbard_pos WF); [exact: EV_exp|exact: EK_exp]. Qed.
Lemma const_pos : Rlt R0 (field_const p ^+ L).
Proof.
  have H : Rlt R0 (field_const p).
  { rewrite /field_const. apply: (big_ind (fun x => Rlt R0 x)) => [|x y Hx Hy|i _]; first exact: Rlt_0_1.
    - rewrite -RmultE. exact: Rmult_lt_0_compat.
    - rewrite /site_const. have := exp_pos (sp_dt p * site_U i / 4)%coqR. move: (exp _) => e He. lra. }
  elim: L => [|j IH]; first by rewrite expr0; exact: Rlt_0_1. rewrite exprS -RmultE. exact: Rmult_lt_0_compat.
Qed.
Lemma zc_pos : Rlt R0 zc.
Proof. rewrite /zc. apply: Rmult_lt_0_compat; [exact: const_pos|exact: trB_pos]. Qed.

Lemma weights_total : total W (fields (L * n)) = zc.
Proof. by rewrite totalE (partition_function KO KN KC HU LJ Est). Qed.

(** a functional of functions of the field *)
Definition lam (f : list Z -> R) : R := total (fun s => Rmult (Rabs (W s)) (Rmult (sgn (W s)) (f s))) (fields (L * n)).
Lemma lamE f : lam f = total (fun s => Rmult (W s) (f s)) (fields (L * n)).
Proof. apply: total_ext => s _. by rewrite -Rmult_assoc sgn_abs. Qed.
Lemma lam_one : lam (fun _ => R1) = zc.
Proof. rewrite lamE -weights_total. apply: total_ext => s _. exact: Rmult_1_r. Qed.
Lemma lam_plus f g : lam (fun s => Rplus (f s) (g s)) = Rplus (lam f) (lam g).
Proof. rewrite !lamE -total_plus. apply: total_ext => s _. exact: Rmult_plus_distr_l. Qed.
Lemma lam_scal c f : lam (fun s => Rmult c (f s)) = Rmult c (lam f).
Proof. rewrite !lamE -total_scal. apply: total_ext => s _. ring. Qed.
Lemma lam_ext f g : (forall s, List.In s (fields (L * n)) -> f s = g s) -> lam f = lam g.
Proof. move=> H. apply: total_ext => s /H ->. by []. Qed.
Lemma lam_zero : lam (fun _ => R0) = R0.
Proof. rewrite (@lam_ext _ (fun _ => Rmult R0 R0)); last by move=> *; rewrite Rmult_0_l. by rewrite lam_scal Rmult_0_l. Qed.
Lemma lam_sum lo hi (f : Z -> list Z -> R) : lam (fun s => sum lo hi (fun i => f i s)) = sum lo hi (fun i => lam (f i)).
Proof.
  rewrite /sum. move: (Z.to_nat _) => c. elim: c lo => [|c IH] lo /=; first exact: lam_zero. by rewrite lam_plus IH.
Qed.
Lemma lam_average N (f : Z -> list Z -> R) x : (forall i, (0 <= i < N)%Z -> lam (f i) = Rmult zc (x i)) ->
  lam (fun s => average N (fun i => f i s)) = Rmult zc (average N x).
Proof.
  move=> H. rewrite /average (@lam_ext _ (fun s => Rmult (Rinv (IZR N)) (sum 0%Z N (fun i => f i s)))); last by move=> s _; rewrite /Rdiv Rmult_comm.
  rewrite lam_scal lam_sum (SumsFacts.sum_ext _ _ H) sum_scal /Rdiv. ring.
Qed.
Lemma lam_plus_of f g x y : lam f = Rmult zc x -> lam g = Rmult zc y -> lam (fun s => Rplus (f s) (g s)) = Rmult zc (Rplus x y).
Proof. move=> E1 E2. rewrite lam_plus E1 E2. ring. Qed.
Lemma lam_opp_of f x : lam f = Rmult zc x -> lam (fun s => Ropp (f s)) = Rmult zc (Ropp x).
Proof.
  move=> E. rewrite (@lam_ext _ (fun s => Rmult (Ropp R1) (f s))); last by move=> s _; ring. rewrite lam_scal E. ring.
Qed.

(** operators at slice [l] and at time 0 *)
Lemma lam_trace l (O O' : fock n) (f : list Z -> R) : (l <= L)%N ->
  (forall s, field_ok n L s -> W s <> 0 -> W s * f s = trace_at (F s) L l O O') -> lam f = Rmult zc (thermal (EV p) (EK p k) L l O O').
Proof.
  move=> Hl H. rewrite lamE totalE.
  have -> : \sum_(s <- fields (L * n)) Rmult (W s) (f s) = \sum_(s <- fields (L * n)) \tr (oprod (flow_op p k st s) l (L - l) *m O *m oprod (flow_op p k st s) 0 l *m O').
  { apply: sum_In => s Hs. have Hf : field_ok n L s by apply/fields_in. rewrite RmultE (H s Hf (NZ Hs)) /trace_at.
    congr (\tr (_ *m _ *m _ *m _)); apply: oprod_ext => i _; exact: field_opE. }
  rewrite -raddf_sum /= -mulmx_suml (sum_flow_at KO KN KC HU LJ Est _ Hl) -scalemxAl mxtraceZ /thermal /zc.
  rewrite -RmultE. have := trB_pos. move: (\tr (mpow _ L)) => z Hz. field. lra.
Qed.
Lemma thermal_cyclic l (O : fock n) : (l <= L)%N -> thermal (EV p) (EK p k) L l O 1%:M = thermal (EV p) (EK p k) L 0 O 1%:M.
Proof.
  move=> Hl. rewrite /thermal. congr Rdiv. rewrite !mulmx1 mxtrace_mulC mulmxA -mpowD subnKC // subn0 /=. by rewrite ?mulmx1.
Qed.

Section Equal.
Variable l : nat.
Hypothesis Hl : (l <= L)%N.
Notation w s := (state_at n L k st (l, s)).
Notation T O := (thermal (EV p) (EK p k) L 0 O 1%:M).
Lemma eq_expect A : on_lattice n A -> lam (fun s => expect_00 (w s) A) = Rmult zc (T (bilinear_op n A)).
Proof. move=> HA. rewrite -(thermal_cyclic _ Hl). apply: lam_trace => // s Hf Hw. by rewrite -link_eq. Qed.
Lemma eq_corr A A' : on_lattice n A -> on_lattice n A' -> lam (fun s => correlation (w s) A A') = Rmult zc (T (bilinear_op n A *m bilinear_op n A')).
Proof. move=> HA HB. rewrite -(thermal_cyclic _ Hl). apply: lam_trace => // s Hf Hw. by rewrite -link_eq_corr. Qed.
Lemma eq_pair A A' : on_lattice n A -> on_lattice n A' ->
  lam (fun s => pair_correlation (w s) A A') = Rmult zc (T (pairing_op n A *m (pairing_op n A')^T)).
Proof. move=> HA HB. rewrite -(thermal_cyclic _ Hl). apply: lam_trace => // s Hf Hw. by rewrite -link_eq_pair. Qed.
Lemma at_ord sp (i : 'I_n) : cann_at n (sp, Z.of_nat i) = cann sp i /\ cdag_at n (sp, Z.of_nat i) = cdag sp i.
Proof. by rewrite /cann_at /cdag_at /= Nat2Z.id valK. Qed.
Lemma eq_green sp i j : (0 <= i < Z.of_nat n)%Z -> (0 <= j < Z.of_nat n)%Z ->
  lam (fun s => g00 (w s) sp i j) = Rmult zc (T (cann_at n (sp, i) *m cdag_at n (sp, j))).
Proof.
  move=> /ord_of [i' ->] /ord_of [j' ->]. rewrite -(thermal_cyclic _ Hl). apply: lam_trace => // s Hf Hw.
  by rewrite (at_ord sp i').1 (at_ord sp j').2 -link_eq_gtt.
Qed.
End Equal.

Section Unequal.
Variable l : nat.
Hypothesis Hl : (l <= L)%N.
Notation w s := (states_at n L k st l s).
Notation T := (thermal (EV p) (EK p k) L l).
Lemma un_corr A A' : on_lattice n A -> on_lattice n A' -> lam (fun s => correlation (w s) A A') = Rmult zc (T (bilinear_op n A) (bilinear_op n A')).
Proof. move=> HA HB. apply: lam_trace => // s Hf Hw. by rewrite -link_corr. Qed.
Lemma un_pair A A' : on_lattice n A -> on_lattice n A' ->
  lam (fun s => pair_correlation (w s) A A') = Rmult zc (T (pairing_op n A) (pairing_op n A')^T).
Proof. move=> HA HB. apply: lam_trace => // s Hf Hw. by rewrite -link_pair. Qed.
Variables (sp : spin) (i j : Z).
Hypotheses (Hi : (0 <= i < Z.of_nat n)%Z) (Hj : (0 <= j < Z.of_nat n)%Z).
Lemma un_gtt : lam (fun s => gtt (w s) sp i j) = Rmult zc (T (cann_at n (sp, i) *m cdag_at n (sp, j)) 1%:M).
Proof.
  move: Hi Hj => /ord_of [i' ->] /ord_of [j' ->]. apply: lam_trace => // s Hf Hw.
  by rewrite (at_ord sp i').1 (at_ord sp j').2 -link_gtt.
Qed.
Lemma un_gt0 : lam (fun s => gt0 (w s) sp i j) = Rmult zc (T (cann_at n (sp, i)) (cdag_at n (sp, j))).
Proof.
  move: Hi Hj => /ord_of [i' ->] /ord_of [j' ->]. apply: lam_trace => // s Hf Hw.
  by rewrite (at_ord sp i').1 (at_ord sp j').2 -link_green.
Qed.
Lemma un_g0t : lam (fun s => g0t (w s) sp i j) =
  Rmult zc (if l == 0%N then T (cann_at n (sp, i) *m cdag_at n (sp, j)) 1%:M else Ropp (T (cdag_at n (sp, j)) (cann_at n (sp, i)))).
Proof.
  case: eqP => H0.
  - rewrite -un_gtt. apply: lam_ext => s _. by rewrite /= H0 /green_0tau /green_eqlt /cyclic_flow oprod0 mul1mx subn0.
  - rewrite (@lam_ext _ (fun s => Ropp (Ropp (g0t (w s) sp i j)))); last by move=> s _; rewrite Ropp_involutive.
    apply: lam_opp_of. move: Hi Hj => /ord_of [i' ->] /ord_of [j' ->]. apply: lam_trace => // s Hf Hw.
    rewrite (at_ord sp i').1 (at_ord sp j').2 RoppE mulrN (link_green' KO SO Hf Hw Hl) // opprK. by [].
Qed.
End Unequal.
End Model.
