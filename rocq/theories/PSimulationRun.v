(** Proofs about complete simulations with phonons: the whole run and what the measured data contain. *)
From Coq Require Import ZArith List Reals Lia Lra.
From mathcomp Require Import all_ssreflect ssralg matrix.
From Verif Require Import Base BaseFacts RField BlasFacts MatSpec MatFacts TimeStep TimeStepSpec TimeStepFacts Strat StratSpec StratFacts GreenSpec GreenFacts
  Lapack LapackSpec GreenConstruct SimParams ParamParser ParamSpec KineticSpec KineticExp KineticExpSpec KineticExpFacts RandSource Sweep SweepSpec SweepFacts
  WickSpec Measure MeasureSpec MeasureSeqFacts UMeasure UMeasureSpec UMeasureSeqFacts UnequalTime UnequalTimeSpec UnequalTimeFacts
  ConfigFacts Simulation SimulationSpec SimulationFacts SimulationRun
  PhononSweep PhononSpec PhononFieldFacts PhononLoopFacts PhononFacts PMeasure PMeasureSpec PMeasureFacts PSimulation PSimulationSpec PSimulationFacts.
Set Implicit Arguments.
Unset Strict Implicit.
Unset Printing Implicit Defensive.
Local Open Scope ring_scope.
Import GRing.Theory.

Lemma sgn_scale x e : (0 < e)%coqR -> sgn (x * e)%coqR = sgn x.
Proof. move=> He. rewrite /sgn. case: Rlt_dec => A; case: Rlt_dec => B //; exfalso; nra. Qed.

Section Run.
Context {RS : Type}.
Variables (rng : rand_source RS) (valid : RS -> Prop).
Hypothesis RO : rand_ok rng valid.
Variables (la : lapack) (LA : lapack_ok la) (junk : Z -> R) (ijunk : Z -> Z).
Variables (p : sim_params) (WF : well_formed p) (VP : valid_params p).
Hypothesis HUneq : (0 < sp_nuneqlt p)%Z -> (2 * sp_prodBlen p <= sp_L p)%Z.
Variables (k : kinetic) (st : strat) (noHS : bool).
Let n := sites p.
Let L := Z.to_nat (sp_L p).
Let b := Z.to_nat (sp_prodBlen p).
Let nw := Z.to_nat (sp_nwraps p).
Let ph := sp_phonon p.
Let dt := sp_dt p.
Hypotheses (KO : kinetic_ok n k) (SO : strat_ok (k_Norb k) st) (PO : phonon_ok (sp_Norb p) ph) (KN : k_Norb k = sp_Norb p)
  (Hdt : dt <> R0) (HL2 : (2 <= L)%N) (Hn64 : (Zn n < 2^64)%Z).

Notation Norb := (sp_Norb p).
Notation Nx := (sp_Nx p).
Notation Ny := (sp_Ny p).
Notation sh := (sp_pbc_shift p).
Notation W := (phonon_weight n L k st ph dt).
Notation PR := (ph_pair n L k st p).
Notation PS := (psgn n L k st p).
Notation EM := (peq_mean n L k st p).
Notation UM := (pun_mean n L k st p).
Let MI (m : meas) := exists g, meas_ok Norb Nx Ny sh m g.
Let order := raw_ints ijunk (Zn n).

Lemma ph_unit c sp j : field_ok n L (fst c) -> List.length (snd c) = (L * n)%N -> (j < L)%N -> psteps_of n k st p c sp j \in unitmx.
Proof.
  move=> Hf HX Hj. have := @SMX_unit n L k st ph dt KO SO (snd c) (match sp with up => expVu st | dn => expVd st end) (fst c) j HX. apply => //.
  by case: sp; [left|right].
Qed.

Lemma dets_sgn c : PS c = sgn (phonon_dets n L k st ph dt (fst c) (snd c)).
Proof. rewrite /psgn /phonon_weight. apply: sgn_scale. exact: exp_pos. Qed.
Lemma dets_nz s X : phonon_dets n L k st ph dt s X <> 0 -> W s X <> 0.
Proof.
  rewrite /phonon_weight => H /eqP. rewrite mulf_eq0 => /orP [/eqP //|/eqP E].
  have := exp_pos (Ropp (Rmult dt (phonon_energy n L k ph dt X))). rewrite E. exact: Rlt_irrefl.
Qed.

Lemma pair_sign x g : PR x g -> sign_of (fst g) (snd g) = PS (snd x).
Proof.
  case: x g => l c [Gu Gd] [/= Hf [HX [Hl [H1 H2]]]]. rewrite dets_sgn. move/andP: Hl => [_ Hl].
  have Hu : forall j, (j < L)%N -> psteps_of n k st p c up j \in unitmx by move=> j; exact: ph_unit.
  have Hd : forall j, (j < L)%N -> psteps_of n k st p c dn j \in unitmx by move=> j; exact: ph_unit.
  have D1 := green_det H1. have D2 := green_det H2. rewrite det_cyclic // in D1. rewrite det_cyclic // in D2.
  case: H1 D1 => _ _ _ S1 <- D1. case: H2 D2 => _ _ _ S2 <- D2.
  apply: (sgn_det S1 S2 (exp_pos _) (exp_pos _)); [exact: D1|exact: D2].
Qed.
Lemma pair_weight x g : PR x g -> W (fst (snd x)) (snd (snd x)) <> 0.
Proof.
  case: x g => l c [Gu Gd] [/= Hf [HX [Hl [H1 H2]]]]. move/andP: Hl => [_ Hl].
  have Hu : forall j, (j < L)%N -> psteps_of n k st p c up j \in unitmx by move=> j; exact: ph_unit.
  have Hd : forall j, (j < L)%N -> psteps_of n k st p c dn j \in unitmx by move=> j; exact: ph_unit.
  have D1 := green_nz H1. have D2 := green_nz H2. rewrite det_cyclic // in D1. rewrite det_cyclic // in D2.
  apply: dets_nz. rewrite /phonon_dets => /eqP. rewrite mulf_eq0 => /orP [/eqP|/eqP]; [exact: D1|exact: D2].
Qed.
Lemma pair_agree x g : PR x g -> agree (Zn n) (equal_time (greens_of (Zn n) (fst g) (snd g))) (pstate_at n L k st p x).
Proof.
  case: x g => l s [Gu Gd] [/= Hf [HX [Hl [H1 H2]]]]. split => // sp i j Hi Hj.
  suff E : greens_of (Zn n) Gu Gd sp i j = entry_of (green_eqlt (psteps_of n k st p s sp) L l) i j by [].
  have [i' ->] := ord_of Hi. have [j' ->] := ord_of Hj. rewrite entry_ofE /greens_of /val /green_eqlt.
  have -> : Z.to_nat (Zn i' + Zn n * Zn j') = (i' + j' * n)%N by rewrite -plusE -multE; lia.
  case: sp; [rewrite -(green_entries H1)|rewrite -(green_entries H2)]; by rewrite mxE nthE.
Qed.
Lemma pair_dims x g : PR x g -> Zn (List.length (gf_mat (fst g))) = (Zn n * Zn n)%Z /\ Zn (List.length (gf_mat (snd g))) = (Zn n * Zn n)%Z.
Proof. by case=> _ [_ [_ [[_ H1 _ _ _] [_ H2 _ _ _]]]]; rewrite H1 H2 -multE; lia. Qed.

(** a sample of the unequal time measurements belongs to the fields [s] *)
Definition ph_sample_at (s : fields) (x : sample) : Prop :=
  (field_ok n L (fst s) /\ List.length (snd s) = (L * n)%N /\ W (fst s) (snd s) <> 0 /\ sa_sign x = PS s) /\
  sample_of L b (psteps_of n k st p s up) (psteps_of n k st p s dn) x.

Variables (m0 : meas) (u0 : umeas) (e0 : pmeas) (Hu0 Hd0 : list R) (mx : Z).
Hypotheses (M0 : meas_ok Norb Nx Ny sh m0 (fun _ _ => R0)) (U0 : umeas_ok Norb Nx Ny sh (sp_L p) u0 (fun _ _ => R0)).
Hypotheses (P0 : pmeas_ok Norb (Nx * Ny) (sp_L p) mx e0 (fun _ _ => R0)) (PN0 : p_nsampl e0 = 0%Z) (PS0 : p_sign e0 = R0).
Hypotheses (Su0 : square (n * (L %/ b)) Hu0) (Sd0 : square (n * (L %/ b)) Hd0).

(** * Results *)
Lemma ph_eq_results eq d : (exists gs, List.Forall2 PR eq gs /\ measure_list accumulate gs m0 = Some d) -> m_sign m0 = R0 -> m_nsampl m0 = 0%Z -> eq <> [::] ->
  exists m, normalize d = Some m /\ m_nsampl m = Zn (List.length eq) /\
    m_sign m = list_mean (fun x => PS (snd x)) eq /\
    (m_Norb m = Norb /\ m_Ncell m = (Nx * Ny)%Z /\ forall f, Z.of_nat (List.length (m_arr m f)) = mfield_len Norb (Nx * Ny) f) /\
    forall f idx F, (0 <= idx < mfield_len Norb (Nx * Ny) f)%Z ->
      (forall x g, PR x g -> inc Norb Nx Ny sh (fst g) (snd g) f idx = Rmult (PS (snd x)) (F (pstate_at n L k st p x))) ->
      val (m_arr m f) idx = EM eq F.
Proof.
  move=> [gs [HF Eg]] S0 N0 Hne. case: (WF) => H1 [H2 [H3 _]].
  have Hlen : List.length gs = List.length eq by exact: Forall2_len HF.
  have HG : forall g, In g gs -> good Norb Nx Ny (fst g) /\ good Norb Nx Ny (snd g).
  { move=> g Hg. have [x Hx] : exists x, PR x g.
    { clear -HF Hg. elim: HF Hg => [//|x y xs ys Hxy _ IH] /= [<-|Hi]; [by exists x|exact: IH]. }
    rewrite /good /lenZ -(nE' WF). exact: pair_dims Hx. }
  have [d' [Ed [Md [Sd Nd]]]] := accumulate_all_ok Norb Nx Ny sh H1 H2 H3 gs m0 _ HG M0.
  have {Ed} Ed' : d' = d by move: Eg; rewrite /measure_list -/(accumulate_all gs m0) Ed => -[].
  subst d'. rewrite N0 Z.add_0_l Hlen in Nd.
  have Hn0 : m_nsampl d <> 0%Z by rewrite Nd; case: (eq) Hne => //= *; lia.
  have [m [Em [Mm [Sm Nm]]]] := normalize_ok Norb Nx Ny sh H1 H2 H3 d _ Hn0 Md.
  exists m. split => //. split; first by rewrite Nm. split.
  - rewrite Sm Sd S0 Rplus_0_l Nd /list_mean INR_IZR_INZ. congr (Rdiv _ _).
    apply: lsum_Forall2 HF _ => x g Hx. exact: pair_sign Hx.
  - split; last first.
    { move=> f idx F Hi HI. change (val (m_arr m f)) with (SumsFacts.rat (m_arr m f)).
    rewrite (SumsFacts.arr_get (mo_arr _ _ _ _ _ _ Mm f) Hi) Rplus_0_l Nd /peq_mean /list_mean INR_IZR_INZ. congr (Rdiv _ _).
    exact: lsum_Forall2 HF HI. }
    case: Mm => E1 E2 _ A. split=> //. split=> // f. exact: proj1 (A f).
Qed.

Lemma ph_eq_all eq d : (exists gs, List.Forall2 PR eq gs /\ measure_list accumulate gs m0 = Some d) -> m_sign m0 = R0 -> m_nsampl m0 = 0%Z -> eq <> [::] ->
  exists m, normalize d = Some m /\ m_nsampl m = Zn (List.length eq) /\
    m_sign m = list_mean (fun x => PS (snd x)) eq /\ equal_time_results p (EM eq) m.
Proof.
  move=> HR S0 N0 Hne. have [m [E [En [Es [HSh HV]]]]] := ph_eq_results HR S0 N0 Hne. exists m. do 3 split => //.
  case: (WF) => H1 [H2 [H3 _]].
  have RS' : forall i o, (0 <= i < Nx * Ny)%Z -> (0 <= o < Norb)%Z -> (0 <= site (Nx * Ny) i o < Zn n)%Z.
  { move=> i o Hi Ho. rewrite (nE' WF). exact: MeasureFacts.site_range. }
  have RP : forall a c, (0 <= cell_plus Nx Ny sh a c < Nx * Ny)%Z by move=> a c; exact: MeasureFacts.plus_range.
  have RT : forall a c, (0 <= cell_step Nx Ny 0 a c < Nx * Ny)%Z by move=> a c; exact: MeasureFacts.step_range.
  have AV : forall f g, (forall i, (0 <= i < Nx * Ny)%Z -> f i = g i) -> average (Nx * Ny) f = average (Nx * Ny) g.
  { move=> f g Hfg. rewrite /average. congr (Rdiv _ _). exact: SumsFacts.sum_ext. }
  constructor; first exact: HSh.
  - move=> f o q dd Hf Ho Hq Hd. apply: HV.
    + have R := MeasureFacts.entry_range Norb Nx Ny H1 H2 H3 o q dd Ho Hq Hd. rewrite /entry.
      by repeat (destruct Hf as [<-|Hf]; [exact R|]).
    + move=> x g Hx. rewrite inc_two_point // (pair_sign Hx). congr (Rmult _ _). apply: AV => i Hi.
      rewrite -(nE' WF). apply: (agree_two_point _ _ _ (pair_agree Hx)); exact: RS'.
  - move=> o Ho. apply: HV => // x g Hx. have [-> _] := inc_density Norb Nx Ny sh H2 H3 (fst g) (snd g) o.
    rewrite (pair_sign Hx). congr (Rmult _ _). apply: AV => i Hi. rewrite -(nE' WF). apply: (agree_number _ _ _ (pair_agree Hx)); exact: RS'.
  - move=> o Ho. apply: HV => // x g Hx. have [_ [-> _]] := inc_density Norb Nx Ny sh H2 H3 (fst g) (snd g) o.
    rewrite (pair_sign Hx). congr (Rmult _ _). apply: AV => i Hi. rewrite -(nE' WF). apply: (agree_number _ _ _ (pair_agree Hx)); exact: RS'.
  - move=> o Ho. apply: HV => // x g Hx. have [_ [_ ->]] := inc_density Norb Nx Ny sh H2 H3 (fst g) (snd g) o.
    rewrite (pair_sign Hx). congr (Rmult _ _). apply: AV => i Hi. rewrite -(nE' WF). apply: (agree_doubleocc _ _ _ (pair_agree Hx)); exact: RS'.
  - move=> i j Hi Hj. rewrite -(nE WF) in Hi Hj *. apply: (HV grfun_u _ (fun w => g00 w up i j)).
    + rewrite /= -(nE' WF). nia.
    + move=> x g Hx. have [-> _] := inc_grfun Norb Nx Ny sh (fst g) (snd g) (i + Zn n * j). rewrite (pair_sign Hx). congr (Rmult _ _).
      by have [_ [E00 _]] := proj2 (pair_agree Hx) up i j Hi Hj.
  - move=> i j Hi Hj. rewrite -(nE WF) in Hi Hj *. apply: (HV grfun_d _ (fun w => g00 w dn i j)).
    + rewrite /= -(nE' WF). nia.
    + move=> x g Hx. have [_ ->] := inc_grfun Norb Nx Ny sh (fst g) (snd g) (i + Zn n * j). rewrite (pair_sign Hx). congr (Rmult _ _).
      by have [_ [E00 _]] := proj2 (pair_agree Hx) dn i j Hi Hj.
  - move=> f o dd Hmod Hf Ho Hd. apply: HV.
    + have R : (0 <= dd + Nx * Ny * o < Nx * Ny * Norb)%Z by nia.
      by repeat (destruct Hf as [<-|Hf]; [exact R|]).
    + move=> x g Hx. rewrite inc_pair // (pair_sign Hx). congr (Rmult _ _). apply: AV => i Hi. cbv zeta.
      rewrite !(shift_shape WF) //.
      rewrite -(nE' WF). apply: (agree_pair_shape _ _ _ (pair_agree Hx)) => //; try (move=> *; apply: RS' => //); exact: RS'.
Qed.

Lemma ph_un_results un Hu Hd d : (exists xs, List.Forall2 ph_sample_at un xs /\ measure_samples la xs Hu0 Hd0 u0 = Some (Hu, Hd, d)) ->
  (0 < sp_nuneqlt p)%Z -> u_sign u0 = R0 -> u_nsampl u0 = 0%Z -> un <> [::] ->
  exists u, unormalize d = Some u /\ u_nsampl u = Zn (List.length un) /\
    u_sign u = list_mean (fun s => PS s) un /\
    forall f idx l F, (l < L)%N -> (0 <= idx < ufield_len Norb (Nx * Ny) (sp_L p) f)%Z ->
      (forall c s, agree (Zn n) (uconfig (Zn n) (sp_L p) (Zn l) c) (pstates_at n L k st p l s) ->
         uinc Norb Nx Ny sh (sp_L p) (PS s) c f idx = Rmult (PS s) (F (pstates_at n L k st p l s))) ->
      val (u_arr u f) idx = UM un l F.
Proof.
  move=> [xs [HF Ex]] Hp S0 N0 Hne. case: (WF) => H1 [H2 [H3 _]].
  have HLb : (2 * b <= L)%N by apply/leP; move: (HUneq Hp); rewrite -(bZ VP) -(LZ VP) -multE; lia.
  have U0' := U0. rewrite -(LZ VP) in U0'.
  have HX : Forall (fun x => exists Mu Md : nat -> 'M[R]_n, sample_of L b Mu Md x) xs.
  { clear -HF. elim: HF => [|s z ss zs [_ H] _ IH]; constructor => //. by eexists; eexists; exact: H. }
  have [Hu' [Hd' [u' [cs [Em [_ [_ [HM [HC EA]]]]]]]]] := measure_ok H1 H2 H3 (nE' WF) LA (b_pos VP) HLb U0' HX Su0 Sd0.
  move: Em. rewrite Ex => -[_ _ Eu]. subst u'.
  have HLz : (0 < Zn L)%Z by have := (L_pos VP); move/ltP; lia.
  have [d' [Ed [Md [Sd Nd]]]] := uaccumulate_all_ok Norb Nx Ny sh (Zn L) H1 H2 H3 HLz cs u0 _ HC U0'.
  move: Ed. rewrite EA => -[Ed]. subst d'.
  have HJ : List.Forall2 (fun s c => fst c = PS s /\ greens_match L (psteps_of n k st p s up) (psteps_of n k st p s dn) (snd c)) un cs.
  { clear -HF HM. elim: HF cs HM => [|s x ss xs' [[_ [_ [_ E1]]] E2] _ IH] cs HM; inversion HM as [|x1 c1 xs1 cs1 [F1 F2] F3]; subst; constructor.
    - split; first by rewrite F1. exact: F2.
    - exact: IH. }
  have Hlen : List.length cs = List.length un by exact: Forall2_len HJ.
  rewrite N0 Z.add_0_l Hlen in Nd.
  have Hn0 : u_nsampl d <> 0%Z by rewrite Nd; case: (un) Hne => //= *; lia.
  have [u [Eu [Mu [Su Nu]]]] := unormalize_ok Norb Nx Ny sh (Zn L) H1 H2 H3 HLz d _ Hn0 Md.
  exists u. split => //. split; first by rewrite Nu. split.
  - rewrite Su Sd S0 Rplus_0_l Nd /list_mean INR_IZR_INZ. congr (Rdiv _ _).
    by apply: lsum_Forall2 HJ _ => s c [].
  - move=> f idx l F Hl Hi HI. change (val (u_arr u f)) with (SumsFacts.rat (u_arr u f)). rewrite -(LZ VP) in Hi.
    rewrite (SumsFacts.arr_get (uo_arr _ _ _ _ _ _ _ Mu f) Hi) Rplus_0_l Nd /pun_mean /list_mean INR_IZR_INZ. congr (Rdiv _ _).
    apply: lsum_Forall2 HJ _ => s c [-> Hc]. rewrite (LZ VP). apply: HI. rewrite -(LZ VP). split.
    { rewrite /=. apply/idP/idP => H; [move/Z.eqb_eq: H => H; apply/eqP; lia|move/eqP: H => ->; by []]. }
    move=> sp i j Hi' Hj'. have [i' ->] := ord_of Hi'. have [j' ->] := ord_of Hj'.
    have [-> [-> [-> ->]]] := Hc l i' j' Hl sp.
    by case: sp; (split; [|split; [|split]]); symmetry; exact: entry_ofE.
Qed.

Lemma ph_un_all un Hu Hd d : (exists xs, List.Forall2 ph_sample_at un xs /\ measure_samples la xs Hu0 Hd0 u0 = Some (Hu, Hd, d)) ->
  (0 < sp_nuneqlt p)%Z -> u_sign u0 = R0 -> u_nsampl u0 = 0%Z -> un <> [::] ->
  exists u, unormalize d = Some u /\ u_nsampl u = Zn (List.length un) /\
    u_sign u = list_mean (fun s => PS s) un /\ unequal_time_results p (UM un) u.
Proof.
  move=> HR Hp S0 N0 Hne. have [u [E [En [Es HV]]]] := ph_un_results HR Hp S0 N0 Hne. exists u. do 3 split => //.
  case: (WF) => H1 [H2 [H3 _]].
  have HLz : (0 < sp_L p)%Z by exact: v_L VP.
  have RS' : forall i o, (0 <= i < Nx * Ny)%Z -> (0 <= o < Norb)%Z -> (0 <= site (Nx * Ny) i o < Zn n)%Z.
  { move=> i o Hi Ho. rewrite (nE' WF). exact: MeasureFacts.site_range. }
  have RP : forall a c, (0 <= cell_plus Nx Ny sh a c < Nx * Ny)%Z by move=> a c; exact: MeasureFacts.plus_range.
  have RT : forall a c, (0 <= cell_step Nx Ny 0 a c < Nx * Ny)%Z by move=> a c; exact: MeasureFacts.step_range.
  have AV : forall f g, (forall i, (0 <= i < Nx * Ny)%Z -> f i = g i) -> average (Nx * Ny) f = average (Nx * Ny) g.
  { move=> f g Hfg. rewrite /average. congr (Rdiv _ _). exact: SumsFacts.sum_ext. }
  constructor.
  - move=> f l o q dd Hf Hl Ho Hq Hd'. apply: HV.
    + apply/ltP. rewrite /L. lia.
    + have R := UMeasureFacts.uentry_range Norb Nx Ny (sp_L p) H1 H2 H3 HLz l o q dd Hl Ho Hq Hd'.
      by repeat (destruct Hf as [<-|Hf]; [exact R|]).
    + move=> c s. rewrite Z2Nat.id; last lia. move=> HA. rewrite uinc_two_point //. congr (Rmult _ _). apply: AV => i Hi.
      rewrite -(nE' WF). apply: (agree_u_two_point _ _ _ HA); exact: RS'.
  - move=> f l o dd Hmod Hf Hnb Hl Ho Hd'. have EN : (Norb * (Nx * Ny) = Nx * Ny * Norb)%Z by lia. rewrite EN. apply: HV.
    + apply/ltP. rewrite /L. lia.
    + have R : (0 <= dd + (Nx * Ny * o + Nx * Ny * Norb * l) < Nx * Ny * Norb * sp_L p)%Z.
      { clear -H1 H2 H3 Hl Ho Hd'. have A1 : (0 <= dd + Nx * Ny * o < Nx * Ny * Norb)%Z by nia. nia. }
      by repeat (destruct Hf as [<-|Hf]; [exact R|]).
    + move=> c s. rewrite Z2Nat.id; last lia. move=> HA. rewrite uinc_bond //. congr (Rmult _ _). apply: AV => i Hi. cbv zeta.
      have EB : UMeasureFacts.ubond_code f (uconfig (Nx * Ny * Norb) (sp_L p) l c) (site (Nx * Ny) i o)
        (site (Nx * Ny) (cell_plus Nx Ny sh dd i) o) (fun d => site (Nx * Ny) (cell_step Nx Ny 0 d i) o)
        (fun d => site (Nx * Ny) (cell_step Nx Ny 0 d (cell_plus Nx Ny sh dd i)) o) =
        u_bond f (uconfig (Nx * Ny * Norb) (sp_L p) l c) (site (Nx * Ny) i o)
        (site (Nx * Ny) (cell_plus Nx Ny sh dd i) o) (fun d => site (Nx * Ny) (cell_step Nx Ny 0 d i) o)
        (fun d => site (Nx * Ny) (cell_step Nx Ny 0 d (cell_plus Nx Ny sh dd i)) o).
      { clear -H2 H3 Hl Hi Hd' Hnb. case: (ufield_eq_dec f ram_b1g) => Ef; last by case: (f) Ef.
        rewrite Ef. exact (UMeasureFacts.b1g_code Norb Nx Ny sh (sp_L p) H2 H3 c l o i dd Hl Hi Hd' (Hnb Ef)). }
      rewrite EB.
      rewrite -(nE' WF) (agree_u_bond _ _ _ HA) //; try (move=> *; apply: RS' => //); try exact: RS'.
      apply: u_bond_ext => d1; by rewrite (shift_steps WF).
Qed.


(** * The whole run *)
Lemma accumulate_ph_ok : SweepSpec.measure_ok n accumulate MI.
Proof.
  move=> Au Ad Gu Gd d [_ L1 _ _ _] [_ L2 _ _ _] [g Hg]. case: (WF) => H1 [H2 [H3 _]].
  have D : forall G, List.length (gf_mat G) = (n * n)%N -> good Norb Nx Ny G.
  { move=> G HG. rewrite /good /lenZ HG -(nE' WF) -multE. lia. }
  have [m' [E [Hm' _]]] := accumulate_ok Norb Nx Ny sh H1 H2 H3 Gu Gd d g (D _ L1) (D _ L2) Hg.
  exists m'. split => //. by eexists; exact: Hm'.
Qed.

Lemma samples_fit eq gs : List.Forall2 PR eq gs -> List.Forall (psample_ok Norb (Nx * Ny) (sp_L p)) (ph_samples eq gs).
Proof.
  elim=> [|x g xs ys H _ IH]; first by constructor. apply: List.Forall_cons => //.
  have [D1 D2] := pair_dims H. case: H => _ [HX [/andP [H1 H2] _]]. rewrite /psample_ok -(nE' WF) /= -(LZ VP).
  split => //. split => //. split; first by rewrite HX -multE; lia. cbn [ps_l]. move: H1 H2 => /ltP H1 /leP H2. move: H1 H2. rewrite -/L. move: (fst x) (L) => i j. lia.
Qed.
Lemma ph_samples_len eq gs : List.Forall2 PR eq gs -> List.length (ph_samples eq gs) = List.length eq.
Proof. elim=> [//|x g xs ys _ _ IH]. by rewrite /ph_samples /= -[in RHS]IH. Qed.
Lemma all_phonons eq gs : List.Forall2 PR eq gs -> (Zn (List.length eq) <= mx)%Z ->
  exists e, paccumulate_all dt (ph_omega ph) (ph_samples eq gs) e0 = Some e /\
    pmeas_ok Norb (Nx * Ny) (sp_L p) mx e (fun f i => (0 + pincs Norb (Nx * Ny) (sp_L p) dt (ph_omega ph) 0 (ph_samples eq gs) f i)%coqR) /\
    p_sign e = lsum psign (ph_samples eq gs) /\ p_nsampl e = Zn (List.length eq).
Proof.
  move=> HF Hm. case: (WF) => H1 [H2 [H3 _]].
  have [e [E [P [S N]]]] := paccumulate_all_ok Norb (Nx * Ny) (sp_L p) mx dt (ph_omega ph) H1 ltac:(nia) (v_L _ VP) Hdt (proj2 PO)
    (ph_samples eq gs) e0 _ (samples_fit HF) P0 ltac:(lia) ltac:(rewrite PN0 (ph_samples_len HF); lia).
  exists e. rewrite PN0 in P N. rewrite PS0 Rplus_0_l in S. rewrite (ph_samples_len HF) in N. by split.
Qed.
Lemma ph_capacity eq gs : List.Forall2 PR eq gs -> (Zn (List.length eq) <= mx)%Z ->
  exists e, paccumulate_all dt (ph_omega ph) (ph_samples eq gs) e0 = Some e.
Proof. move=> HF Hm. have [e [E _]] := all_phonons HF Hm. by exists e. Qed.

Hypotheses (HQ : (0 < sp_neqlt p)%Z) (HE : (0 <= sp_nequil p)%Z) (HS : (0 <= sp_nsampl p)%Z) (HMX : (sp_nsampl p * (Zn L / sp_neqlt p) <= mx)%Z).
Notation consistent := (@ph_consistent n L k st ph dt RS meas pmeas valid MI (fun _ => True) b).

Record ph_run_inv (it : Z) (h : phistory (RS := RS)) (x : psimstate (RS := RS)) : Prop := {
  pi_seed : fst (fst (fst h)) = mc_seed (p_mc (ps_ph x));
  pi_fields : snd (fst (fst h)) = (mc_s (p_mc (ps_ph x)), p_X (ps_ph x));
  pi_mc : consistent (ps_ph x);
  pi_eq : ph_recorded accumulate n L k st p (snd (fst h)) m0 e0 (ps_ph x);
  pi_un : exists xs, List.Forall2 ph_sample_at (snd h) xs /\ measure_samples la xs Hu0 Hd0 u0 = Some (ps_Hu x, ps_Hd x, ps_un x);
  pi_eq_count : Zn (List.length (snd (fst h))) = (Z.max 0 (it - sp_nequil p) * (Zn L / sp_neqlt p))%Z;
  pi_un_count : (0 < sp_nuneqlt p)%Z -> Zn (List.length (snd h)) = multiples (sp_nuneqlt p) (sp_nequil p) (Z.max it (sp_nequil p)) }.

Lemma ph_consistent_sample x : consistent x ->
  ph_sample_at (mc_s (p_mc x), p_X x) (mk_sample junk (IZR (gf_sgndet (mc_Gu (p_mc x)) * gf_sgndet (mc_Gd (p_mc x)))) (mc_tu (p_mc x)) (mc_td (p_mc x))).
Proof.
  case=> H1 H2 H3 HX HE' H4 H5 H6 H7 H8 H9. rewrite HE' in H4 H5 H6 H7.
  have N1 := green_nz H6. have N2 := green_nz H7.
  have HP : PR (L, (mc_s (p_mc x), p_X x)) (mc_Gu (p_mc x), mc_Gd (p_mc x)).
  { split => //. split => //. split; first by rewrite (L_pos VP) leqnn. by rewrite !cyclic_end. }
  rewrite /cyclic_flow oprod0 mul1mx subn0 in N1. rewrite /cyclic_flow oprod0 mul1mx subn0 in N2.
  split.
  - split => //. split => //. split; [exact: (pair_weight HP)|exact: (pair_sign HP)].
  - split => //. split => //. split; rewrite unitmxE unitfE; exact/eqP.
Qed.

Lemma multiples_step it : (0 < sp_nuneqlt p)%Z -> (0 <= it)%Z ->
  multiples (sp_nuneqlt p) (sp_nequil p) (Z.max (it + 1) (sp_nequil p)) =
  (multiples (sp_nuneqlt p) (sp_nequil p) (Z.max it (sp_nequil p)) + (if (sp_nequil p <=? it)%Z && due_at (sp_nuneqlt p) it then 1 else 0))%Z.
Proof.
  move=> Hu Hit. case: Z.leb_spec => Hle; cbn [andb]; last by rewrite !Z.max_r; lia.
  rewrite !Z.max_l; try lia. rewrite /multiples.
  have D := due_step Hu (t := (it + sp_nuneqlt p - 1)%Z) ltac:(lia).
  have -> : (it + 1 + sp_nuneqlt p - 1 = it + sp_nuneqlt p - 1 + 1)%Z by lia. rewrite D.
  have -> : due_at (sp_nuneqlt p) (it + sp_nuneqlt p - 1 + 1) = due_at (sp_nuneqlt p) it.
  { rewrite /due_at. have -> : (it + sp_nuneqlt p - 1 + 1 = it + 1 * sp_nuneqlt p)%Z by lia. by rewrite Z_mod_plus_full. }
  lia.
Qed.

Lemma ph_iteration_inv it h x : (0 <= it < sp_nequil p + sp_nsampl p)%Z -> ph_run_inv it h x ->
  (exists r r', psim_iteration rng la junk ijunk p k noHS st it x = Some r /\
    pchain_iteration rng n L k st p noHS order it h = Some r' /\
    match r, r' with
    | None, None => True
    | Some x', Some h' => ph_run_inv (it + 1) h' x'
    | _, _ => False
    end) \/ (psim_iteration rng la junk ijunk p k noHS st it x = None /\ zero_weight n L k st ph dt).
Proof.
  case: h => [[[seed [s X]] eq] un] Hit [/= -> [-> ->] Hmc Heq [xs [Hxs Exs]] Hce Hcu]. rewrite /psim_iteration /pchain_iteration.
  have EN : ts_N (mc_tu (p_mc (ps_ph x))) = Zn n by case: (phc_tu Hmc) => [[]].
  rewrite EN -(nwZ VP). set neqlt := (if _ then sp_neqlt p else 0%Z).
  have Hmc' : consistent (new_ph_order ijunk (Zn n) (ps_ph x)).
  { case: Hmc => *; constructor => //=. by rewrite /raw_ints !map_length seq_length Nat2Z.id. }
  have Heq' : ph_recorded accumulate n L k st p eq m0 e0 (new_ph_order ijunk (Zn n) (ps_ph x)) by [].
  have HLq : (0 <= Zn L / sp_neqlt p)%Z by apply: Z.div_pos; lia.
  have Hcount : (Zn (List.length eq) + measured neqlt (Zn L) = Z.max 0 (it + 1 - sp_nequil p) * (Zn L / sp_neqlt p))%Z.
  { rewrite Hce /neqlt /measured. case: Z.leb_spec => Hle.
    - have -> : (0 <? sp_neqlt p)%Z = true by apply/Z.ltb_lt. rewrite !Z.max_r; lia.
    - rewrite Z.ltb_irrefl !Z.max_l; lia. }
  have Hcap : (Zn (List.length eq) + measured neqlt (Zn L) <= mx)%Z.
  { rewrite Hcount. clear -HMX HLq Hit HS. have : (Z.max 0 (it + 1 - sp_nequil p) <= sp_nsampl p)%Z by lia. nia. }
  have PO' : phonon_ok (k_Norb k) (sp_phonon p) by rewrite KN.
  have [[r [r' [-> [E2 HR]]]]|[-> HZ]] := ph_iteration_recorded RO LA junk noHS (n_pos WF) Hn64 HL2 KO SO PO' Hdt accumulate_ph_ok ph_capacity
     (neqlt := neqlt) (nw_pos VP) (b_nw VP) Hmc' Heq' Hcap; last by right.
  left. cbn [obind]. have -> : pchain_sweep rng n L k st p noHS neqlt (mc_seed (p_mc (ps_ph x)), order, mc_s (p_mc (ps_ph x)), p_X (ps_ph x), eq) = Some r' by exact: E2.
  cbn [obind]. case: r r' HR {E2} => [y|] [[c eq1]|] //; last by exists None, None.
  case=> -> [Hy [Hr Hlen]]. rewrite {1}/cfg. rewrite /pmeasure_unequal /due_at.
  cbn [ps_ph ps_Hu ps_Hd ps_un].
  have Hms := fun H => multiples_step H (proj1 Hit). rewrite Hcount in Hlen.
  case Ed : ((sp_nequil p <=? it)%Z && ((0 <? sp_nuneqlt p)%Z && (it mod sp_nuneqlt p =? 0)%Z)).
  - move/andP: Ed => [Hq /andP [Hp Hm]]. move/Z.ltb_lt: (Hp) => Hp'. rewrite /measure_unequal Hq Hp. cbn [andb sm_mc sm_Hu sm_Hd sm_un].
    rewrite /cmod. have -> : (sp_nuneqlt p =? 0)%Z = false by apply/Z.eqb_neq; lia.
    cbn [obind]. rewrite Z.rem_mod_nonneg; try lia. rewrite Hm.
    set z := mk_sample junk (IZR (gf_sgndet (mc_Gu (p_mc y)) * gf_sgndet (mc_Gd (p_mc y)))) (mc_tu (p_mc y)) (mc_td (p_mc y)).
    have Hz : ph_sample_at (mc_s (p_mc y), p_X y) z by exact: ph_consistent_sample.
    have HF : List.Forall2 ph_sample_at (un ++ [:: (mc_s (p_mc y), p_X y)]) (xs ++ [:: z]) by apply: Forall2_app => //; constructor.
    case: (WF) => H1 [H2 [H3 _]].
    have HLb : (2 * b <= L)%N by apply/leP; move: (HUneq Hp'); rewrite -(bZ VP) -(LZ VP) -multE; lia.
    have U0' := U0. rewrite -(LZ VP) in U0'.
    have HX : Forall (fun x => exists Mu Md : nat -> 'M[R]_n, sample_of L b Mu Md x) (xs ++ [:: z]).
    { clear -HF. elim: HF => [|s z' ss zs [_ H] _ IH]; constructor => //. by eexists; eexists; exact: H. }
    have [Hu' [Hd' [u' [cs [Em _]]]]] := measure_ok H1 H2 H3 (nE' WF) LA (b_pos VP) HLb U0' HX Su0 Sd0.
    move: (Em). rewrite measure_samples_snoc Exs. cbn [obind measure_samples].
    rewrite [sa_junk _]/= [sa_sign _]/= [sa_up _]/= [sa_dn _]/=.
    case: (accumulate_unequal_time _ _ _ _ _ _ _ _) => [[[Hu1 Hd1] u1]|] //. cbn [obind]. case=> E1 E2 E3.
    do 2 eexists. split; first reflexivity. split; first reflexivity. constructor => //=.
    + exists (xs ++ [:: z]). split => //. by rewrite Em E1 E2 E3.
    + move=> Hu. rewrite (Hms Hu) -(Hcu Hu) /due_at Hq Hp Hm app_length /=. lia.
  - have -> : measure_unequal la junk p it (mk_sim (p_mc y) (ps_Hu x) (ps_Hd x) (ps_un x)) = Some (mk_sim (p_mc y) (ps_Hu x) (ps_Hd x) (ps_un x)).
    { rewrite /measure_unequal. move: Ed. case: Z.leb_spec => Hq //=. case: Z.ltb_spec => Hp //= Hm. rewrite /cmod.
      have -> : (sp_nuneqlt p =? 0)%Z = false by apply/Z.eqb_neq; lia. cbn [obind]. rewrite Z.rem_mod_nonneg; try lia. by rewrite Hm. }
    cbn [obind]. do 2 eexists. split; first reflexivity. split; first reflexivity. constructor => //=.
    + by exists xs.
    + move=> Hu. rewrite (Hms Hu) -(Hcu Hu) /due_at Ed. lia.
Qed.

Lemma ph_run_loop x : (0 <= sp_nequil p + sp_nsampl p)%Z -> consistent x -> mc_meas (p_mc x) = m0 -> p_meas x = e0 ->
  let run := for_range 0 (sp_nequil p + sp_nsampl p) (fun it => may_hang (psim_iteration rng la junk ijunk p k noHS st it)) (Some (mk_psim x Hu0 Hd0 u0)) in
  (exists r r', run = Some r /\
    pchain rng n L k st p noHS order (mc_seed (p_mc x)) (mc_s (p_mc x), p_X x) = Some r' /\
    match r, r' with
    | None, None => True
    | Some x', Some h' => ph_run_inv (sp_nequil p + sp_nsampl p) h' x'
    | _, _ => False
    end) \/ (run = None /\ zero_weight n L k st ph dt).
Proof.
  move=> Hle Hm Em Ee. rewrite /pchain.
  apply: (@for_range_sim_or _ _ (fun it o o' => match o, o' with None, None => True | Some x', Some h' => ph_run_inv it h' x' | _, _ => False end)) => //.
  - move=> it [y|] [h|] // Hit; last by move=> _; left; exists None, None.
    move=> Hy. exact: ph_iteration_inv.
  - constructor => //=.
    + exists [::]. split; first by constructor. by rewrite /measure_list /paccumulate_all /= Em Ee.
    + by exists [::].
    + by rewrite Z.max_l; lia.
    + move=> Hu. rewrite Z.max_r // /multiples. lia.
Qed.

(** * Phonon data *)
Lemma lsum_combine eq gs (F : psample -> R) (G : nat * fields -> R) : List.Forall2 PR eq gs ->
  (forall x g, PR x g -> F (mk_psample (fst g) (snd g) (Zn (fst x) - 1) (snd (snd x))) = G x) -> lsum F (ph_samples eq gs) = lsum G eq.
Proof.
  move=> HF HG. elim: HF => [//|x g xs ys Hxy _ IH]. rewrite /lsum /= (HG _ _ Hxy) -[fold_right _ _ _]/(lsum F (ph_samples xs ys)) IH. by [].
Qed.
Lemma nth_samples eq gs j x : List.Forall2 PR eq gs -> nth_error eq j = Some x ->
  exists g, PR x g /\ nth_error (ph_samples eq gs) j = Some (mk_psample (fst g) (snd g) (Zn (fst x) - 1) (snd (snd x))).
Proof.
  move=> HF. elim: HF j => [|y g xs ys Hxy HF' IH] [|j] //=; last exact: IH. case=> E. rewrite -E. by exists g.
Qed.
Lemma sgn_sq c : (PS c ^ 2 = 1)%coqR.
Proof. rewrite /psgn /sgn. destruct (Rlt_dec _ _); cbn; lra. Qed.

Lemma ph_all eq (x : phstate RS meas pmeas) : ph_recorded accumulate n L k st p eq m0 e0 x -> (Zn (List.length eq) <= mx)%Z -> eq <> [::] ->
  exists e, pnormalize (p_meas x) = Some e /\ phonon_results n L k st p eq e.
Proof.
  move=> [gs [HF [_ Ee]]] Hm Hne. case: (WF) => H1 [H2 [H3 _]].
  have [e1 [Ee1 [P1 [S1 N1]]]] := all_phonons HF Hm. move: Ee1. rewrite Ee => -[?]. subst e1.
  have Hnz : p_nsampl (p_meas x) <> 0%Z by rewrite N1; case: (eq) Hne => //= *; lia.
  have [e [En [P2 [S2 N2]]]] := pnormalize_ok Norb (Nx * Ny) (sp_L p) mx H1 (p_meas x) _ Hnz P1. exists e. split => //.
  have [c HA] := po_arr _ _ _ _ _ _ P2. rewrite N1 in S2 N2 HA.
  have V : forall f i, In f orbital_fields -> (0 <= i < Norb)%Z ->
    val (p_arr e f) i = (pincs Norb (Nx * Ny) (sp_L p) dt (ph_omega ph) 0 (ph_samples eq gs) f i / INR (List.length eq))%coqR.
  { move=> f i Hf Hi. change (val (p_arr e f) i) with (SumsFacts.rat (p_arr e f) i). rewrite INR_IZR_INZ.
    have Hi' : (0 <= i < pfield_len Norb mx f)%Z by clear -Hf Hi; repeat (destruct Hf as [<-|Hf]; [exact Hi|]).
    rewrite (SumsFacts.arr_get (HA f) Hi'). clear -Hf. by repeat (destruct Hf as [<-|Hf]; [rewrite Rplus_0_l|]). }
  have VP' : forall f i (G : nat * fields -> R), In f orbital_fields -> (0 <= i < Norb)%Z ->
    (forall y g j, PR y g -> pinc Norb (Nx * Ny) (sp_L p) dt (ph_omega ph) j (mk_psample (fst g) (snd g) (Zn (fst y) - 1) (snd (snd y))) f i = G y) ->
    val (p_arr e f) i = list_mean G eq.
  { move=> f i G Hf Hi HG. rewrite V // /list_mean. congr (Rdiv _ _).
    have : forall j, pincs Norb (Nx * Ny) (sp_L p) dt (ph_omega ph) j (ph_samples eq gs) f i = lsum G eq; last by apply.
    clear -HF HG. elim: HF => [//|y g ys zs Hy _ IH] j. rewrite /= -/(ph_samples ys zs) (HG _ _ _ Hy) IH. by []. }
  have HSg : forall y g, PR y g -> psign (mk_psample (fst g) (snd g) (Zn (fst y) - 1) (snd (snd y))) = PS (snd y) by move=> y g; exact: pair_sign.
  have VH : forall f o j, In f [:: iteration_X_avg; iteration_X0] -> (0 <= o < Norb)%Z -> (j < List.length eq)%coq_nat ->
    val (p_arr e f) (o + Zn j * Norb) = pincs Norb (Nx * Ny) (sp_L p) dt (ph_omega ph) 0 (ph_samples eq gs) f (o + Zn j * Norb).
  { move=> f o j Hf Ho Hj. have Hk : (0 <= o + Zn j * Norb < Norb * mx)%Z by clear -Ho Hj Hm; nia.
    change (val (p_arr e f) (o + Zn j * Norb)) with (SumsFacts.rat (p_arr e f) (o + Zn j * Norb)).
    have Hi' : (0 <= o + Zn j * Norb < pfield_len Norb mx f)%Z by clear -Hf Hk; repeat (destruct Hf as [<-|Hf]; [exact Hk|]).
    rewrite (SumsFacts.arr_get (HA f) Hi'). clear -Hf. by repeat (destruct Hf as [<-|Hf]; [rewrite Rplus_0_l|]). }
  constructor.
  - rewrite S2 S1 /list_mean INR_IZR_INZ. congr (Rdiv _ _). exact: lsum_combine HF HSg.
  - exact: N2.
  - move=> o Ho. apply: VP' => //; first by cbn; tauto. move=> y g j Hy. by rewrite /pinc (HSg _ _ Hy).
  - move=> o Ho. apply: VP' => //; first by cbn; tauto. move=> y g j Hy. by rewrite /pinc (HSg _ _ Hy).
  - move=> o Ho. apply: VP' => //; first by cbn; tauto. move=> y g j Hy. by rewrite /pinc (HSg _ _ Hy).
  - move=> o Ho. apply: VP' => //; first by cbn; tauto. move=> y g j Hy. by rewrite /pinc (HSg _ _ Hy).
  - move=> o Ho. apply: VP' => //; first by cbn; tauto. move=> y g j Hy. by rewrite /pinc (HSg _ _ Hy).
  - move=> H1o. apply: VP'; [by cbn; tauto|by rewrite H1o|]. move=> y g j Hy. rewrite /pinc (HSg _ _ Hy) Z.eqb_refl H1o. rewrite /dt. cbn [ps_X]. unfold Rdiv. ring.
  - move=> o Ho. apply: VP' => //; first by cbn; tauto. move=> y g j Hy. rewrite /pinc (HSg _ _ Hy). cbn [ps_X]. rewrite Rpow_mult_distr sgn_sq Rmult_1_l. by [].
  - move=> o Ho. apply: VP' => //; first by cbn; tauto. move=> y g j Hy. rewrite /pinc (HSg _ _ Hy) /observable. congr (Rmult _ _).
    cbn [ps_X ps_Gu ps_Gd ps_l]. rewrite /average. congr (Rdiv _ _). apply: SumsFacts.sum_ext => i Hi. congr (Rmult _ _).
    have Hs : (0 <= site (Nx * Ny) i o < Zn n)%Z by rewrite (nE' WF); exact: MeasureFacts.site_range.
    rewrite -(agree_number _ _ _ (pair_agree Hy) up) // -(agree_number _ _ _ (pair_agree Hy) dn) //. rewrite /electrons -(nE' WF).
    rewrite /expect_00 /number /lsum /cdag_c_00 /= /delta !Z.eqb_refl /greens_of /= /val. rewrite !Rmult_1_l !Rplus_0_r. by [].
  - move=> o j y Ho Hj. have [g [Hy Eg]] := nth_samples HF Hj.
    have Hlt : (j < List.length eq)%coq_nat by apply/nth_error_Some; rewrite Hj.
    have PH := fun f Hf => pincs_history Norb (Nx * Ny) (sp_L p) dt (ph_omega ph) f o Hf Ho (ph_samples eq gs) 0 j.
    split; rewrite VH //; try (by cbn; tauto).
    + have := PH iteration_X_avg ltac:(cbn; tauto). rewrite Z.add_0_l Eg (HSg _ _ Hy) => ->. by [].
    + have := PH iteration_X0 ltac:(cbn; tauto). rewrite Z.add_0_l Eg (HSg _ _ Hy) => ->. by [].
Qed.
End Run.

(** the updates of the Hubbard-Stratonovich field are switched off exactly if U = 0 for all orbitals *)
Lemma no_hs_ok (Norb : Z) (U : list R) : (0 <= Norb)%Z -> Z.of_nat (List.length U) = Norb ->
  exists flag, no_hs Norb U = Some flag /\ (flag = true <-> List.Forall (fun u => u = R0) U).
Proof.
  move=> HN HU. rewrite /no_hs.
  have [flag [E I]] : exists flag, for_range 0 Norb (fun o (flag : bool) =>
      if flag then let* u := aget U o in Some (match Req_EM_T u R0 with left _ => true | right _ => false end) else Some false) true = Some flag /\
    (flag = true <-> forall i, (0 <= i < Norb)%Z -> SumsFacts.rat U i = R0).
  { apply: (@for_range_inv _ (fun o (flag : bool) => flag = true <-> forall i, (0 <= i < o)%Z -> SumsFacts.rat U i = R0)) => //.
    - move=> o [] Ho I.
      + have -> : aget U o = Some (SumsFacts.rat U o) by apply: aget_nth; lia.
        cbn [obind]. eexists. split; first reflexivity. destruct (Req_EM_T (SumsFacts.rat U o) R0) as [Hz|Hz]; split => // H.
        * move=> i Hi. case: (Z.eq_dec i o) => [->|Hne]; first exact: Hz. apply: (proj1 I erefl). lia.
        * exfalso. apply: Hz. apply: (H o). lia.
      + exists false. split => //. split => // H. apply/I => i Hi. apply: H. lia.
    - split; [move=> _ i Hi; lia|done]. }
  exists flag. split; first exact: E. apply: (iff_trans I). split => H.
  - apply/List.Forall_forall => u Hu. have [j [Hj <-]] := List.In_nth _ _ R0 Hu. have := H (Zn j) ltac:(lia). by rewrite /SumsFacts.rat Nat2Z.id.
  - move=> i Hi. rewrite /SumsFacts.rat. move/List.Forall_forall: H. apply. apply: List.nth_In. lia.
Qed.
