(** Systems without repulsion: weights, and exact results without phonons. *)
From Coq Require Import ZArith List Reals Lia Lra FunctionalExtensionality.
From mathcomp Require Import all_ssreflect fingroup perm ssralg matrix.
From Verif Require Import Base MatProd RField MatSpec MatFacts TimeStep TimeStepSpec TimeStepFacts Strat StratSpec StratFacts GreenSpec GreenFacts Lapack LapackSpec GreenConstruct SimParams ParamSpec KineticSpec KineticExp KineticExpSpec
  KineticExpFacts TimeFlowFacts RandSource Sweep SweepSpec SweepFacts PhononSpec HalfFillFacts LatticeSpec WickSpec Measure MeasureSpec UMeasure UMeasureSpec UnequalTime UnequalTimeSpec SimulationSpec Simulation
  IdealSpec IdealFacts FockSpec FockFacts FockExp HubbardSpec HubbardFacts RClosed Spectral TrotterPos TrotterSpec TrotterFacts TrotterResults ThermalSpec ThermalFacts ThermalResults SpinSymSpec SpinSymFacts.
Set Implicit Arguments.
Unset Strict Implicit.
Unset Printing Implicit Defensive.
Local Open Scope ring_scope.
Import GRing.Theory.

Section Weight.
Variables (p : sim_params) (k : kinetic) (st : strat) (jv : list R).
Hypothesis NU : no_repulsion p.
Hypotheses (WF : well_formed p) (KO : kinetic_ok (sites p) k) (KN : k_Norb k = sp_Norb p).
Hypotheses (HU : Z.of_nat (List.length (sp_U p)) = sp_Norb p) (LJ : Z.of_nat (List.length jv) = sp_Norb p).
Hypothesis Est : fill_stratonovich (sp_Norb p) (sp_U p) (sp_dt p) jv = Some st.
Notation n := (sites p).
Variable L : nat.

Lemma same_tables : expVu st = expVd st.
Proof. by have [] := @fill_zero _ _ _ _ _ NU Est. Qed.

(** all factors of the auxiliary field are 1 *)
Lemma factor_one s l (i : 'I_n) : field_ok n L s -> field_factor n (k_Ncell k) (expVu st) s l i = 1.
Proof.
  move=> [_ Hf]. pose z := List.repeat 0%Z (l.+1 * n).
  have Hz : field_ok n l.+1 z by split; [exact: repeat_length|apply/List.Forall_forall => x Hx; left; exact: (List.repeat_spec _ _ _ Hx)].
  have [P1 [_ P3]] := @factors p k st jv KO KN HU LJ Est l.+1 z Hz l i (ltnSn l).
  have -> : field_factor n (k_Ncell k) (expVu st) s l i = field_factor n (k_Ncell k) (expVu st) z l i.
  { have [_ [[r Er] _]] := @fill_zero _ _ _ _ _ NU Est. rewrite /field_factor Er.
    have V t q : List.Forall (fun v => v = 0%Z \/ v = 1%Z) t -> nth [::] [:: r; r] (Z.to_nat (nth 0%Z t q)) = r.
    { move=> Ht. suff [->|->] : nth 0%Z t q = 0%Z \/ nth 0%Z t q = 1%Z by []. elim: Ht q => [|x t' Hx _ IH] [|q] //=; by left. }
    by rewrite !V //; case: Hz. }
  move: P3. rewrite -same_tables -RmultE => P3. rewrite /GRing.one /= in P3 *. nra.
Qed.

Lemma free_step s l : field_ok n L s -> step_mx n k (expVu st) s l = mat n (expK k).
Proof.
  move=> Hf. rewrite /step_mx (_ : diag_mx _ = 1%:M) ?mul1mx //. apply/matrixP => i j. by rewrite !mxE factor_one.
Qed.
Lemma free_steps s sp : field_ok n L s -> steps_of n k st s sp = fun _ => mat n (expK k).
Proof.
  move=> Hf. apply: functional_extensionality => l. rewrite /steps_of. case: sp; rewrite -?same_tables; exact: free_step.
Qed.

Lemma free_phonon_step s s' X l : field_ok n L s -> field_ok n L s' ->
  phonon_step_mx n k (expVu st) s X l = phonon_step_mx n k (expVu st) s' X l.
Proof.
  move=> Hf Hf'. rewrite /phonon_step_mx. congr (diag_mx _ *m _). apply/rowP => i. by rewrite !mxE !factor_one.
Qed.

Lemma dets_square ph s X : phonon_dets n L k st ph (sp_dt p) s X =
  \det (1%:M + cyclic_flow (phonon_step_mx n k (expVu st) s (exp_field n k ph (sp_dt p) X)) L 0) ^+ 2.
Proof. by rewrite /phonon_dets -same_tables expr2. Qed.

Lemma dets_any_field ph s s' X : field_ok n L s -> field_ok n L s' ->
  phonon_dets n L k st ph (sp_dt p) s X = phonon_dets n L k st ph (sp_dt p) s' X.
Proof.
  move=> Hf Hf'. rewrite !dets_square. congr (\det (_ + cyclic_flow _ _ _) ^+ 2). apply: functional_extensionality => j. exact: free_phonon_step.
Qed.

Notation E := (mat n (expK k)).
Hypothesis HE : is_exp (- sp_dt p *: hamiltonian p) E.

Lemma oprod_const m (A : 'M[R]_m) lo len : oprod (fun _ => A) lo len = mpow A len.
Proof.
  elim: len lo => [|len IH] lo; first by rewrite oprod0. by rewrite oprodS IH.
Qed.

Lemma free_det : Rlt R0 (\det (1%:M + mpow E L)).
Proof.
  have HA : (- sp_dt p *: hamiltonian p)^T = - sp_dt p *: hamiltonian p by rewrite linearZ /= ham_sym.
  have [U [d [HUo HD]]] := @spectral R_rcfType n _ HA. have HE' := HE. rewrite HD in HE'.
  have -> : E = expd U d U^T by exact: (is_exp_uniq HE' (is_exp_expd _ HUo)).
  rewrite /expd mpow_conj // mpow_diag. set D := diag_mx _.
  have -> : 1%:M + U *m D *m U^T = U *m (1%:M + D) *m U^T by rewrite mulmxDr mulmxDl mulmx1 (mulmx1C HUo).
  rewrite !det_mulmx mulrAC -det_mulmx (mulmx1C HUo) det1 mul1r.
  have -> : 1%:M + D = diag_mx (\row_j (Rplus 1 (pow (exp (d ord0 j)) L))).
  { apply/matrixP => i j. rewrite /D !mxE. case: (i =P j) => [->|_]; [by rewrite !mulr1n|by rewrite !mulr0n addr0]. }
  rewrite det_diag. apply: prod_pos => i. rewrite !mxE. have := pow_lt _ L (exp_pos (d ord0 i)). lra.
Qed.

Lemma free_flow s l sp : field_ok n L s -> (l <= L)%N -> cyclic_flow (steps_of n k st s sp) L l = mpow E L.
Proof. move=> Hf Hl. by rewrite free_steps // /cyclic_flow !oprod_const -mpowD subnKC. Qed.

Lemma free_weight s : field_ok n L s -> weight n L k st s = \det (1%:M + mpow E L) ^+ 2.
Proof.
  move=> Hf. have Hu := free_flow up Hf (leq0n L). have Hd := free_flow dn Hf (leq0n L).
  rewrite /steps_of in Hu, Hd. by rewrite /weight Hu Hd expr2.
Qed.
Lemma free_weight_pos s : field_ok n L s -> Rlt R0 (weight n L k st s).
Proof. move=> Hf. rewrite free_weight // expr2 -RmultE. have := free_det. nra. Qed.

(** the same state for all fields and slices *)
Lemma free_state s s' l l' : field_ok n L s -> field_ok n L s' -> (l <= L)%N -> (l' <= L)%N ->
  state_at n L k st (l, s) = state_at n L k st (l', s').
Proof.
  move=> Hf Hf' Hl Hl'. rewrite /state_at /=. congr equal_time. apply: functional_extensionality => sp.
  by rewrite /green_eqlt !free_flow.
Qed.
Lemma free_states s s' l : field_ok n L s -> field_ok n L s' -> states_at n L k st l s = states_at n L k st l s'.
Proof. move=> Hf Hf'. rewrite /states_at. congr mk_config; apply: functional_extensionality => sp; by rewrite !free_steps. Qed.
End Weight.

Lemma is_exp_0 m : is_exp (0 : 'M[R]_m) 1%:M.
Proof.
  have H := @is_exp_expd m 1%:M 1%:M 0 (mulmx1 _). rewrite !mul1mx mulmx1 linear0 in H. rewrite (_ : 1%:M = expd 1%:M 0 1%:M) //.
  rewrite /expd mul1mx mulmx1. apply/matrixP => i j. by rewrite !mxE exp_0.
Qed.

(** sums over lists of equal numbers *)
Lemma mean_const (A : Type) (f : A -> R) c xs : xs <> nil -> List.Forall (fun x => f x = c) xs -> list_mean f xs = c.
Proof.
  move=> Hx H. have Hl : INR (List.length xs) <> R0.
  { case: xs Hx {H} => // x xs _. rewrite [List.length _]/=. exact: not_0_INR. }
  rewrite /list_mean. have -> : lsum f xs = Rmult (INR (List.length xs)) c; last by field.
  elim: H {Hx Hl} => [|x l Hx _ IH]; first by rewrite /lsum /=; ring.
  cbn [List.length]. rewrite S_INR. rewrite /lsum /= in IH *. rewrite Hx IH. ring.
Qed.

Section Exact.
Variables (la : lapack) (junk : Z -> R) (ijunk : Z -> Z) (p : sim_params) (k : kinetic) (st : strat).
Hypothesis NU : no_repulsion p.
Hypotheses (LA : lapack_ok la) (SC : syev_converges la) (WF : well_formed p).
Hypothesis HU : Z.of_nat (List.length (sp_U p)) = sp_Norb p.
Hypothesis Hn : (0 < sp_neqlt p <= sp_L p)%Z.
Hypotheses (Ek : kinetic_exponential la junk p = Some k)
  (Est : fill_stratonovich (sp_Norb p) (sp_U p) (sp_dt p) (fresh junk (sp_Norb p)) = Some st).
Notation n := (sites p).
Notation L := (Z.to_nat (sp_L p)).
Notation W := (weight n L k st).
Variable expH : R -> fock n.
Hypothesis HX : forall t, is_exp (- t *: kinetic_energy p) (expH t).
Let dt := sp_dt p.
Let beta := Rmult (IZR (sp_L p)) dt.

Lemma W_pos s : field_ok n L s -> Rlt R0 (W s).
Proof. have [KO [KN [KC [HE SO]]]] := tables LA SC WF HU Ek Est. move=> Hf. exact: (free_weight_pos NU WF KO KN HU (LJ junk WF) Est HE Hf). Qed.

Lemma sgn_one s : field_ok n L s -> sgn (W s) = R1.
Proof. move=> /W_pos H. rewrite /sgn. case: Rlt_dec => // ?. lra. Qed.
Lemma all_nz s : List.In s (fields (L * n)) -> W s <> 0.
Proof. move=> /fields_in H. have := W_pos H. rewrite -R0E. lra. Qed.

(** exp(-dt V) = 1, and the powers of exp(-dt K) *)
Lemma no_V : EV p = 1%:M.
Proof.
  apply: (is_exp_uniq (@EV_exp p)). have -> : interaction p = 0.
  { rewrite /interaction. apply: big1 => i _. rewrite /site_U. set u := List.nth _ _ _. have -> : u = 0; last by rewrite scale0r.
    rewrite /u. move: NU. rewrite /no_repulsion. elim: (sp_U p) (Z.to_nat _) => [|x xs IH] [|q] //=; move=> H; inversion H; subst => //. exact: IH. }
  rewrite scaler0. exact: is_exp_0.
Qed.

Lemma powK l : mpow (EK p k) l = expH (Rmult (INR l) dt).
Proof.
  have [KO [KN [KC [HE SO]]]] := tables LA SC WF HU Ek Est.
  symmetry. apply: (@sym_exp_pow _ (kinetic_energy p) _ _ (- dt) l (kinetic_sym WF)); first exact: (EK_exp WF HE).
  have -> : Rmult (INR l) (- dt) = - (Rmult (INR l) dt) by rewrite -!RoppE; ring. exact: HX.
Qed.

Lemma thermal_exact l (O O' : fock n) : (l <= L)%N -> thermal (EV p) (EK p k) L l O O' = exact expH beta (Rmult (INR l) dt) O O'.
Proof.
  move=> Hl. rewrite /thermal /exact no_V mul1mx !powK. have EL : INR L = IZR (sp_L p) by rewrite INR_IZR_INZ Z2Nat.id //; lia.
  have -> : INR (L - l) = Rminus (INR L) (INR l) by rewrite -minusE minus_INR //; apply/leP.
  rewrite EL /beta. by rewrite (_ : Rmult (Rminus _ _) _ = Rminus (Rmult (IZR (sp_L p)) dt) (Rmult (INR l) dt)); last by ring.
Qed.

(** equal results where the expectation values agree *)
Lemma within_zero x y : within (32 * 0)%coqR x y -> x = y.
Proof. rewrite /within => H. have H1 := Rabs_pos (x - y)%coqR. have H2 : Rabs (x - y)%coqR = R0 by lra. case: (Req_dec (x - y)%coqR 0) => [|/Rabs_no_R0]; lra. Qed.
Lemma cells : (0 < sp_Nx p * sp_Ny p)%Z.
Proof. case: WF => H1 [H2 [H3 _]]. nia. Qed.
Lemma exact_equal value : thermal_equal_time (@Logic.eq R) (fun O : fock n => thermal (EV p) (EK p k) L 0 O 1%:M) value ->
  thermal_equal_time (@Logic.eq R) (fun O : fock n => exact expH beta 0 O 1%:M) value.
Proof.
  have -> // : (fun O : fock n => thermal (EV p) (EK p k) L 0 O 1%:M) = (fun O : fock n => exact expH beta 0 O 1%:M).
  apply: functional_extensionality => O. by rewrite thermal_exact // /= Rmult_0_l.
Qed.
Lemma exact_unequal value : thermal_unequal_time (p := p) (@Logic.eq R) (thermal (EV p) (EK p k) L) value ->
  thermal_unequal_time (p := p) (@Logic.eq R) (fun l : nat => exact expH beta (Rmult (INR l) dt)) value.
Proof.
  move=> H. have [H1 H2] := @unequal_close p cells R0 (Rle_refl _) L (thermal (EV p) (EK p k) L) (fun l : nat => exact expH beta (Rmult (INR l) dt)) erefl
    ltac:(move=> l O O' o o' Hl _ _ _ _; rewrite (thermal_exact _ _ Hl) Rminus_diag_eq // Rabs_R0; lra) value H.
  constructor.
  - move=> f l o q d ? ? ? ? ?. apply: within_zero. exact: H1.
  - move=> f l o d ? ? ? ? ? ?. apply: within_zero. exact: H2.
Qed.

Variables (eq : eq_record) (un : list (list Z)).
Hypotheses (NE : eq <> nil) (FE : List.Forall (fun x => (fst x <= L)%N /\ field_ok n L (snd x) /\ W (snd x) <> 0) eq).

Lemma eq_const F x : lam p k st L (fun s => F (state_at n L k st (0%N, s))) = Rmult (zc p k L) x -> eq_mean n L k st eq F = x.
Proof.
  have [KO [KN [KC [HE SO]]]] := tables LA SC WF HU Ek Est. have ZP := zc_pos' (junk := junk) LA SC WF HU Ek Est.
  have [s0 Hf0] : exists s, field_ok n L s.
  { exists (List.repeat 0%Z (L * n)). split; first exact: repeat_length. apply/List.Forall_forall => y Hy; left. exact: (List.repeat_spec _ _ _ Hy). }
  set c := F (state_at n L k st (0%N, s0)).
  have FS l s : field_ok n L s -> (l <= L)%N -> F (state_at n L k st (l, s)) = c.
  { move=> Hf Hl. by rewrite (free_state NU KO KN HU (LJ junk WF) Est Hf Hf0 Hl (leq0n L)). }
  move=> H. have Hc : Rmult (zc p k L) c = Rmult (zc p k L) x.
  { rewrite -H -(lam_one L KO KN KC HU (LJ junk WF) Est) Rmult_comm -lam_scal. apply: total_ext => s Hs.
    have Hf : field_ok n L s by apply/fields_in. by rewrite (FS 0%N s Hf (leq0n L)) Rmult_1_r. }
  have {Hc} <- : c = x by apply: Rmult_eq_reg_l Hc _; lra.
  apply: mean_const NE _. apply: List.Forall_impl FE => -[l s] [/= Hl [Hf _]]. by rewrite FS // sgn_one // Rmult_1_l.
Qed.
Lemma eq_sign : list_mean (fun x => sgn (W (snd x))) eq = R1.
Proof. apply: mean_const NE _. apply: List.Forall_impl FE => -[l s] [/= Hl [Hf _]]. exact: sgn_one. Qed.

Hypotheses (NU' : un <> nil) (FU : List.Forall (fun s => field_ok n L s /\ W s <> 0) un).
Lemma un_const l F x : lam p k st L (fun s => F (states_at n L k st l s)) = Rmult (zc p k L) x -> un_mean n L k st un l F = x.
Proof.
  have [KO [KN [KC [HE SO]]]] := tables LA SC WF HU Ek Est. have ZP := zc_pos' (junk := junk) LA SC WF HU Ek Est.
  have [s0 Hf0] : exists s, field_ok n L s.
  { exists (List.repeat 0%Z (L * n)). split; first exact: repeat_length. apply/List.Forall_forall => y Hy; left. exact: (List.repeat_spec _ _ _ Hy). }
  set c := F (states_at n L k st l s0).
  have FS s : field_ok n L s -> F (states_at n L k st l s) = c.
  { move=> Hf. by rewrite (free_states NU KO KN HU (LJ junk WF) Est l Hf Hf0). }
  move=> H. have Hc : Rmult (zc p k L) c = Rmult (zc p k L) x.
  { rewrite -H -(lam_one L KO KN KC HU (LJ junk WF) Est) Rmult_comm -lam_scal. apply: total_ext => s Hs.
    have Hf : field_ok n L s by apply/fields_in. by rewrite (FS s Hf) Rmult_1_r. }
  have {Hc} <- : c = x by apply: Rmult_eq_reg_l Hc _; lra.
  apply: mean_const NU' _. apply: List.Forall_impl FU => s [Hf _]. by rewrite FS // sgn_one // Rmult_1_l.
Qed.
Lemma un_sign : list_mean (fun s => sgn (W s)) un = R1.
Proof. apply: mean_const NU' _. apply: List.Forall_impl FU => s [Hf _]. exact: sgn_one. Qed.
End Exact.
