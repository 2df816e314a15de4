(** The entries of the result arrays, averaged over complete simulations, are thermal expectation values. *)
From Coq Require Import ZArith List Reals Lia Lra.
From mathcomp Require Import all_ssreflect fingroup perm ssralg matrix.
From Verif Require Import Base MatProd RField MatSpec MatFacts TimeStep TimeStepSpec Strat StratSpec StratFacts GreenSpec GreenFacts Lapack LapackSpec GreenConstruct SimParams ParamSpec KineticSpec KineticExp KineticExpSpec
  KineticExpFacts TimeFlowFacts RandSource Sweep SweepSpec SweepFacts LatticeSpec LatticeFacts WickSpec Sums SumsFacts Measure MeasureSpec MeasureFacts UMeasure UMeasureSpec UnequalTime UnequalTimeSpec SimulationSpec SimulationRun Simulation
  IdealSpec IdealFacts IdealLink IdealChain FockSpec FockFacts FockWick FockExp HubbardSpec HubbardFacts HubbardWick HubbardLink TrotterPos ThermalSpec ThermalFacts ThermalRun.
Set Implicit Arguments.
Unset Strict Implicit.
Unset Printing Implicit Defensive.
Local Open Scope ring_scope.
Import GRing.Theory.

Section Lattice.
Variable n : nat.
Notation inr i := (0 <= i < Z.of_nat n)%Z.
Notation inl l := (List.Forall (fun x => (0 <= snd x < Z.of_nat n)%Z) l).
Lemma lat_number s i : inr i -> on_lattice n (number s i).
Proof. by repeat constructor; cbn; lia. Qed.
Lemma lat_charge i : inr i -> on_lattice n (charge i).
Proof. by repeat constructor; cbn; lia. Qed.
Lemma lat_spin_z i : inr i -> on_lattice n (spin_z i).
Proof. by repeat constructor; cbn; lia. Qed.
Lemma lat_spin_x i : inr i -> on_lattice n (spin_x i).
Proof. by repeat constructor; cbn; lia. Qed.
Lemma lat_current i j : inr i -> inr j -> on_lattice n (current i j).
Proof. by repeat constructor; cbn; lia. Qed.
Lemma lat_pair i (l : list (R * Z)) : inr i -> inl l -> on_lattice n (pair_op i l).
Proof. move=> Hi. elim => [|[x j] l' H _ IH]; constructor => //=; cbn in *; lia. Qed.
Lemma lat_hop i (l : list (R * Z)) : inr i -> inl l -> on_lattice n (hop_op i l).
Proof. move=> Hi. elim => [|[x j] l' H _ IH]; first constructor. rewrite /hop_op /=. do 2 (constructor; first by cbn in *; lia). exact: IH. Qed.
Lemma shape_range f nb : (forall d, inr (nb d)) -> inl (pair_shape f nb).
Proof. move=> H. case: f => /=; repeat (apply: List.Forall_cons; first exact: H); exact: List.Forall_nil. Qed.
Lemma b2g_range nb : (forall d, inr (nb d)) -> inl (b2g_shape nb).
Proof. move=> H. repeat (apply: List.Forall_cons; first exact: H); exact: List.Forall_nil. Qed.
Lemma b1g_range nb : (forall d, inr (nb d)) -> inl (b1g_shape nb).
Proof. move=> H. repeat (apply: List.Forall_cons; first exact: H); exact: List.Forall_nil. Qed.
End Lattice.

Section Results.
Variables (la : lapack) (junk : Z -> R) (ijunk : Z -> Z) (p : sim_params) (k : kinetic) (st : strat).
Hypotheses (LA : lapack_ok la) (SC : syev_converges la) (WF : well_formed p) (VP : valid_params p).
Hypothesis HU : Z.of_nat (List.length (sp_U p)) = sp_Norb p.
Hypothesis Hpos : forall o, (0 <= o < sp_Norb p)%Z -> Rle 0 (Rmult (sp_dt p) (List.nth (Z.to_nat o) (sp_U p) R0)).
Hypotheses (Hq : (0 <= sp_nequil p)%Z) (Hs : (0 < sp_nsampl p)%Z) (Hn : (0 < sp_neqlt p <= sp_L p)%Z).
Hypothesis Hun : (0 < sp_nuneqlt p)%Z -> (2 * sp_prodBlen p <= sp_L p)%Z /\
     exists t, (sp_nequil p <= t < sp_nequil p + sp_nsampl p)%Z /\ (sp_nuneqlt p | t)%Z.
Hypotheses (Ek : kinetic_exponential la junk p = Some k)
  (Est : fill_stratonovich (sp_Norb p) (sp_U p) (sp_dt p) (fresh junk (sp_Norb p)) = Some st).
Notation n := (sites p).
Notation L := (Z.to_nat (sp_L p)).
Notation W := (weight n L k st).
Hypothesis NZ : forall s, List.In s (fields (L * n)) -> W s <> 0.
Notation mean Phi := (mean_result p la junk ijunk W Phi).
Notation TW := (total (fun s => Rabs (W s)) (fields (L * n))).
Notation zc := (zc p k L).
Notation lam := (lam p k st L).

Lemma LJ : Z.of_nat (List.length (fresh junk (sp_Norb p))) = sp_Norb p.
Proof. rewrite /fresh !map_length seq_length. case: WF => ? _. lia. Qed.
Lemma TW_pos : Rlt R0 TW.
Proof.
  have [s Hf] : exists s, List.In s (fields (L * n)).
  { exists (List.repeat 0%Z (L * n)). apply/fields_in. split; first exact: repeat_length. apply/List.Forall_forall => x H; rewrite (List.repeat_spec _ _ _ H). by left. }
  have HW := Rabs_pos_lt _ (NZ Hf). move: Hf HW. rewrite /total. elim: (fields _) => [|y ys IH] //=.
  have T0 : Rle R0 (List.fold_right Rplus R0 (List.map (fun s => Rabs (W s)) ys)).
  { elim: (ys) => [|z zs IH'] /=; first exact: Rle_refl. apply: Rplus_le_le_0_compat => //. exact: Rabs_pos. }
  move=> [->|Hf] HW; first exact: Rplus_lt_le_0_compat. apply: Rplus_le_lt_0_compat; [exact: Rabs_pos|exact: IH].
Qed.

Lemma cellR c o : (0 <= c < sp_Nx p * sp_Ny p)%Z -> (0 <= o < sp_Norb p)%Z -> (0 <= site (sp_Nx p * sp_Ny p) c o < Z.of_nat n)%Z.
Proof. move=> H1 H2. rewrite (nE' WF). apply: (MeasureFacts.site_range (sp_Norb p) (sp_Nx p) (sp_Ny p)) => //; case: WF => ? [? [? _]]; lia. Qed.
Lemma plusR d i : (0 <= cell_plus (sp_Nx p) (sp_Ny p) (sp_pbc_shift p) d i < sp_Nx p * sp_Ny p)%Z.
Proof. case: WF => ? [? [? _]]. apply: wrap_range; lia. Qed.
Lemma stepR d i : (0 <= cell_step (sp_Nx p) (sp_Ny p) (sp_pbc_shift p) d i < sp_Nx p * sp_Ny p)%Z.
Proof. case: WF => ? [? [? _]]. apply: wrap_range; lia. Qed.

Lemma tables : kinetic_ok n k /\ k_Norb k = sp_Norb p /\ k_Ncell k = (sp_Nx p * sp_Ny p)%Z /\
  is_exp (- sp_dt p *: hamiltonian p) (mat n (expK k)) /\ strat_ok (k_Norb k) st.
Proof. exact: (tables_ok LA SC WF HU LJ Ek Est). Qed.

Lemma mean_sign : mean (fun r => m_sign (fst r)) = Rdiv zc TW.
Proof.
  have [KO [KN [KC [HE SO]]]] := tables.
  apply: (mean_eq LA SC WF VP HU Hpos Hq Hs Hn Hun Ek Est NZ) => [s t r eq un HR|l Hl]; first exact: (ir_sign HR).
  rewrite -(lam_one L KO KN KC HU LJ Est). apply: total_ext => s _. rewrite /=. ring.
Qed.
Lemma zc_pos' : Rlt R0 zc.
Proof. have [KO [KN [KC [HE SO]]]] := tables. exact: zc_pos. Qed.

Notation usign r := (match snd r with Some u => u_sign u | None => R0 end).
Lemma mean_usign : (0 < sp_nuneqlt p)%Z -> mean (fun r => usign r) = Rdiv zc TW.
Proof.
  have [KO [KN [KC [HE SO]]]] := tables. move=> Hp.
  apply: (mean_un LA SC WF VP HU Hpos Hq Hs Hn Hun Ek Est NZ (g := fun s => sgn (W s)) Hp) => [s t r eq un u HR Eu|].
  - rewrite Eu. have := ir_u HR. rewrite Eu. by move=> [_ [_ [-> _]]].
  - rewrite -(lam_one L KO KN KC HU LJ Est). apply: total_ext => s _. rewrite /=. ring.
Qed.

(** one array entry *)
Lemma eq_entry (Phi : meas * option umeas -> R) (f : config -> R) (x : R) :
  (forall s t r eq un, is_run la junk ijunk p k st s t r eq un -> Phi r = eq_mean n L k st eq f) ->
  (forall l, (l <= L)%N -> lam (fun s => f (state_at n L k st (l, s))) = Rmult zc x) ->
  Rdiv (mean Phi) (mean (fun r => m_sign (fst r))) = x.
Proof.
  move=> H1 H2. rewrite mean_sign.
  rewrite (mean_eq LA SC WF VP HU Hpos Hq Hs Hn Hun Ek Est NZ (Phi := Phi) (g := fun x => Rmult (sgn (W (snd x))) (f (state_at n L k st x))) (X := Rmult zc x)) //.
  have := zc_pos'. have := TW_pos. move: TW zc => T Z HT HZ. field. split; lra.
Qed.
Lemma un_entry (Phi : meas * option umeas -> R) l (f : config -> R) (x : R) : (0 < sp_nuneqlt p)%Z ->
  (forall s t r eq un u, is_run la junk ijunk p k st s t r eq un -> snd r = Some u -> Phi r = un_mean n L k st un l f) ->
  lam (fun s => f (states_at n L k st l s)) = Rmult zc x ->
  Rdiv (mean Phi) (mean (fun r => usign r)) = x.
Proof.
  move=> Hp H1 H2. rewrite (mean_usign Hp).
  rewrite (mean_un LA SC WF VP HU Hpos Hq Hs Hn Hun Ek Est NZ (Phi := Phi) (g := fun s => Rmult (sgn (W s)) (f (states_at n L k st l s))) (X := Rmult zc x) Hp) //.
  have := zc_pos'. have := TW_pos. move: TW zc => T Z HT HZ. field. split; lra.
Qed.

Lemma thermalD EV EK Lx l (O1 O2 O' : fock n) : thermal EV EK Lx l (O1 + O2) O' = Rplus (thermal EV EK Lx l O1 O') (thermal EV EK Lx l O2 O').
Proof. rewrite /thermal -Rdiv_plus_distr. congr Rdiv. by rewrite mulmxDr !mulmxDl raddfD. Qed.

(** all entries of the equal time arrays, for any way of reading a value off an entry *)
Theorem equal_time_entries (V : Type) (close : V -> R -> Prop) (value : mfield -> Z -> V) :
  (forall f e F x, (forall m mean, equal_time_results p mean m -> val (m_arr m f) e = mean F) ->
     (forall l, (l <= L)%N -> lam (fun s => F (state_at n L k st (l, s))) = Rmult zc x) -> close (value f e) x) ->
  thermal_equal_time close (fun O : fock n => thermal (EV p) (EK p k) L 0 O 1%:M) value.
Proof.
  move=> H. have [KO [KN [KC [HE SO]]]] := tables.
  have EQ := fun l Hl => eq_expect WF KO KN KC HE HU LJ Est SO NZ (l := l) Hl.
  have CO := fun l Hl => eq_corr WF KO KN KC HE HU LJ Est SO NZ (l := l) Hl.
  have PA := fun l Hl => eq_pair WF KO KN KC HE HU LJ Est SO NZ (l := l) Hl.
  have GR := fun l Hl => eq_green WF KO KN KC HE HU LJ Est SO NZ (l := l) Hl.
  constructor.
  - move=> f o q d Hf Ho Hq' Hd. apply: H => [m mean HR|l Hl].
    { apply: (er_two_point HR) => //. move: Hf. rewrite /two_point_fields /=. tauto. }
    apply: lam_average => i Hi. have R1 := cellR Hi Ho. have R2 := cellR (plusR d i) Hq'.
    move: (site _ _ _) (site _ _ _) R1 R2 => a b R1 R2.
    case: Hf => [<-|[<-|[<-|[<-|[<-|[]]]]]] ; rewrite /two_point /two_point_op ?thermalD; try (apply: lam_plus_of);
      apply: CO => //; solve [exact: lat_number|exact: lat_spin_z|exact: lat_spin_x].
  - move=> o Ho. apply: H => [m mean HR|l Hl]; first exact: (er_density_u HR).
    apply: lam_average => i Hi. apply: EQ => //. exact: (lat_number _ (cellR Hi Ho)).
  - move=> o Ho. apply: H => [m mean HR|l Hl]; first exact: (er_density_d HR).
    apply: lam_average => i Hi. apply: EQ => //. exact: (lat_number _ (cellR Hi Ho)).
  - move=> o Ho. apply: H => [m mean HR|l Hl]; first exact: (er_doubleocc HR).
    apply: lam_average => i Hi. apply: CO => //; exact: (lat_number _ (cellR Hi Ho)).
  - move=> i j Hi Hj. apply: H => [m mean HR|l Hl]; first exact: (er_green_u HR).
    apply: (GR l Hl up i j); rewrite (nE WF) //.
  - move=> i j Hi Hj. apply: H => [m mean HR|l Hl]; first exact: (er_green_d HR).
    apply: (GR l Hl dn i j); rewrite (nE WF) //.
  - move=> f o d Hsh Hf Ho Hd. apply: H => [m mean HR|l Hl]; first exact: (er_pair HR).
    apply: lam_average => i Hi /=. apply: PA => //; apply: lat_pair; try exact: cellR; try (apply: (cellR _ Ho); exact: plusR);
      apply: shape_range => d'; apply: (cellR _ Ho); exact: stepR.
Qed.

Theorem unequal_time_entries (V : Type) (close : V -> R -> Prop) (value : ufield -> Z -> V) :
  (forall f e l F x, (forall u mean, unequal_time_results p mean u -> val (u_arr u f) e = mean l F) ->
     lam (fun s => F (states_at n L k st l s)) = Rmult zc x -> close (value f e) x) ->
  thermal_unequal_time (p := p) close (thermal (EV p) (EK p k) L) value.
Proof.
  have [KO [KN [KC [HE SO]]]] := tables. move=> H.
  have CO := fun l Hl => un_corr WF KO KN KC HE HU LJ Est SO NZ (l := l) Hl.
  have PA := fun l Hl => un_pair WF KO KN KC HE HU LJ Est NZ (l := l) Hl.
  have G1 := fun l Hl => un_gtt WF KO KN KC HE HU LJ Est SO NZ (l := l) Hl.
  have G2 := fun l Hl => un_gt0 WF KO KN KC HE HU LJ Est NZ (l := l) Hl.
  have G3 := fun l Hl => un_g0t WF KO KN KC HE HU LJ Est SO NZ (l := l) Hl.
  constructor.
  - move=> f l o q d Hf Hl Ho Hq' Hd. apply: (H _ _ (Z.to_nat l)) => [u mean UR|].
    { exact: (ur_two_point UR). }
    have Hl' : (Z.to_nat l <= L)%N by apply/leP; lia.
    apply: lam_average => i Hi. have R1 := cellR Hi Ho. have R2 := cellR (plusR d i) Hq'.
    move: (site _ _ _) (site _ _ _) R1 R2 => a b R1 R2.
    case: Hf => [<-|[<-|[<-|[<-|[<-|[<-|[<-|[<-|[<-|[]]]]]]]]]];
      try exact: (G1 _ Hl' _ _ _ R1 R2); try exact: (G2 _ Hl' _ _ _ R1 R2); try exact: (G3 _ Hl' _ _ _ R1 R2);
      apply: CO => //; solve [exact: lat_charge|exact: lat_spin_z|exact: lat_spin_x].
  - move=> f l o d Hsh Hf Hb Hl Ho Hd. apply: (H _ _ (Z.to_nat l)) => [u mean UR|].
    { exact: (ur_bond UR). }
    have Hl' : (Z.to_nat l <= L)%N by apply/leP; lia.
    apply: lam_average => i Hi. cbv zeta.
    set j := cell_plus _ _ _ _ _. have Hj : (0 <= j < sp_Nx p * sp_Ny p)%Z by exact: plusR.
    have R1 := cellR Hi Ho. have R2 := cellR Hj Ho.
    have R3 := fun d => cellR (stepR d i) Ho. have R4 := fun d => cellR (stepR d j) Ho.
    have P := fun c => PA _ Hl' _ _ (lat_pair R1 (shape_range c R3)) (lat_pair R2 (shape_range c R4)).
    case: Hf => [<-|[<-|[<-|[<-|[<-|[<-|[<-|[]]]]]]]] //; try exact: P; rewrite /u_bond /bond_time.
    + apply: lam_opp_of. apply: CO => //; exact: lat_current.
    + apply: lam_opp_of. apply: CO => //; exact: lat_current.
    + apply: CO => //; apply: lat_hop => //; exact: b1g_range.
    + apply: CO => //; apply: lat_hop => //; exact: b2g_range.
Qed.

Theorem equal_time_thermal : thermal_equal_time (@eq R) (fun O : fock n => thermal (EV p) (EK p k) L 0 O 1%:M)
  (fun f e => Rdiv (mean (fun r => val (m_arr (fst r) f) e)) (mean (fun r => m_sign (fst r)))).
Proof. apply: equal_time_entries => f e F x H1 H2. apply: (eq_entry (f := F)) => // s t r eq un HR. exact: (H1 _ _ (ir_res HR)). Qed.
Theorem unequal_time_thermal : (0 < sp_nuneqlt p)%Z -> thermal_unequal_time (p := p) (@eq R) (thermal (EV p) (EK p k) L)
  (fun f e => Rdiv (mean (fun r => match snd r with Some u => val (u_arr u f) e | None => R0 end)) (mean (fun r => usign r))).
Proof.
  move=> Hp. apply: unequal_time_entries => f e l F x H1 H2. apply: (un_entry (l := l) (f := F) Hp) => // s t r eq un u HR Eu.
  rewrite Eu. have := ir_u HR. rewrite Eu => -[_ [_ [_ UR]]]. exact: (H1 _ _ UR).
Qed.
End Results.
