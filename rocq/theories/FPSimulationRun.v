(** Proofs about complete simulations with phonons of the program that records every site: the whole run and what the measured data contain. *)
From Coq Require Import ZArith List Reals Lia Lra.
From mathcomp Require Import all_ssreflect ssralg matrix.
From Verif Require Import Base BaseFacts RField BlasFacts MatSpec MatFacts TimeStep TimeStepSpec TimeStepFacts Strat StratSpec StratFacts GreenSpec GreenFacts
  Lapack LapackSpec GreenConstruct SimParams ParamParser ParamSpec KineticSpec KineticExp KineticExpSpec KineticExpFacts RandSource Sweep SweepSpec SweepFacts
  LatticeSpec WickSpec Measure MeasureSpec MeasureSeqFacts UMeasure UMeasureSpec UMeasureSeqFacts UnequalTime UnequalTimeSpec UnequalTimeFacts
  ConfigFacts Simulation SimulationSpec SimulationFacts SimulationRun
  FMeasure FMeasureSpec FMeasureFacts FUMeasureFacts FRecoverFacts FSimulation FSimulationSpec FSimulationAvg FSimulationRun
  PhononSweep PhononSpec PhononFieldFacts PhononLoopFacts PhononFacts PMeasure PMeasureSpec PMeasureFacts PSimulation PSimulationSpec PSimulationFacts PSimulationRun
  FPMeasure FPMeasureFacts FPSimulation FPSimulationSpec FPSimulationFacts.
Set Implicit Arguments.
Unset Strict Implicit.
Unset Printing Implicit Defensive.
Local Open Scope ring_scope.
Import GRing.Theory.

Section Run.
Context {RS : Type}.
Variables (rng : rand_source RS) (valid : RS -> Prop).
Hypothesis RO : rand_ok rng valid.
Variables (la : lapack) (LA : lapack_ok la) (junk : Z -> R) (ijunk : Z -> Z).
Variables (p : sim_params) (WF : well_formed p) (VP : valid_params p).
Hypothesis HUneq : (0 < sp_nuneqlt p)%Z -> (2 * sp_prodBlen p <= sp_L p)%Z.
Variables (k : kinetic) (st : strat) (noHS : bool).
Let n := sites p.
Let L := Z.to_nat (sp_L p).
Let b := Z.to_nat (sp_prodBlen p).
Let nw := Z.to_nat (sp_nwraps p).
Let ph := sp_phonon p.
Let dt := sp_dt p.
Hypotheses (KO : kinetic_ok n k) (SO : strat_ok (k_Norb k) st) (PO : phonon_ok (sp_Norb p) ph) (KN : k_Norb k = sp_Norb p)
  (Hdt : dt <> R0) (HL2 : (2 <= L)%N) (Hn64 : (Zn n < 2^64)%Z).

Notation Norb := (sp_Norb p).
Notation Nx := (sp_Nx p).
Notation Ny := (sp_Ny p).
Notation sh := (sp_pbc_shift p).
Notation W := (phonon_weight n L k st ph dt).
Notation PR := (ph_pair n L k st p).
Notation PS := (psgn n L k st p).
Notation EM := (peq_mean n L k st p).
Notation UM := (pun_mean n L k st p).
Let MI (m : meas) := exists g, fmeas_ok Norb Nx Ny m g.
Let order := raw_ints ijunk (Zn n).

Notation ph_sample_at := (@ph_sample_at p k st).
Let nE' := nE' WF.
Let b_pos := b_pos VP.
Let L_pos := L_pos VP.
Let LZ := LZ VP.
Let bZ := bZ VP.

Variables (m0 : meas) (u0 : umeas) (e0 : fpmeas) (Hu0 Hd0 : list R) (mx : Z).
Hypotheses (M0 : fmeas_ok Norb Nx Ny m0 (fun _ _ => R0)) (U0 : fumeas_ok Norb Nx Ny (sp_L p) u0 (fun _ _ => R0)).
Hypotheses (P0 : fpmeas_ok Norb (Nx * Ny) (sp_L p) mx e0 (fun _ _ => R0)) (PN0 : fp_nsampl e0 = 0%Z) (PS0 : fp_sign e0 = R0).
Hypotheses (Su0 : square (n * (L %/ b)) Hu0) (Sd0 : square (n * (L %/ b)) Hd0).

(** * Results *)
Lemma fph_eq_results eq d : (exists gs, List.Forall2 PR eq gs /\ measure_list f_accumulate gs m0 = Some d) -> m_sign m0 = R0 -> m_nsampl m0 = 0%Z -> eq <> [::] ->
  exists m, f_normalize d = Some m /\ m_nsampl m = Zn (List.length eq) /\
    m_sign m = list_mean (fun x => PS (snd x)) eq /\
    (m_Norb m = Norb /\ m_Ncell m = (Nx * Ny)%Z /\ forall f, Z.of_nat (List.length (m_arr m f)) = fmfield_len Norb (Nx * Ny) f) /\
    forall f idx F, (0 <= idx < fmfield_len Norb (Nx * Ny) f)%Z ->
      (forall x g, PR x g -> finc Norb Nx Ny (fst g) (snd g) f idx = Rmult (PS (snd x)) (F (pstate_at n L k st p x))) ->
      val (m_arr m f) idx = EM eq F.
Proof.
  move=> [gs [HF Eg]] S0 N0 Hne. case: (WF) => H1 [H2 [H3 _]].
  have Hlen : List.length gs = List.length eq by exact: Forall2_len HF.
  have HG : forall g, In g gs -> good Norb Nx Ny (fst g) /\ good Norb Nx Ny (snd g).
  { move=> g Hg. have [x Hx] : exists x, PR x g.
    { clear -HF Hg. elim: HF Hg => [//|x y xs ys Hxy _ IH] /= [<-|Hi]; [by exists x|exact: IH]. }
    rewrite /good /lenZ -nE'. exact: pair_dims Hx. }
  have [d' [Ed [Md [Sd Nd]]]] := f_accumulate_all_ok Norb Nx Ny H1 H2 H3 gs m0 _ HG M0.
  have {Ed} Ed' : d' = d by move: Eg; rewrite /measure_list -/(f_accumulate_all gs m0) Ed => -[].
  subst d'. rewrite N0 Z.add_0_l Hlen in Nd.
  have Hn0 : m_nsampl d <> 0%Z by rewrite Nd; case: (eq) Hne => //= *; lia.
  have [m [Em [Mm [Sm Nm]]]] := f_normalize_ok Norb Nx Ny H1 H2 H3 d _ Hn0 Md.
  exists m. split => //. split; first by rewrite Nm. split.
  - rewrite Sm Sd S0 Rplus_0_l Nd /list_mean INR_IZR_INZ. congr (Rdiv _ _).
    apply: lsum_Forall2 HF _ => x g Hx. exact: (pair_sign KO SO Hx).
  - split; last first.
    { move=> f idx F Hi HI. change (val (m_arr m f)) with (SumsFacts.rat (m_arr m f)).
    rewrite (SumsFacts.arr_get (fo_arr _ _ _ _ _ Mm f) Hi) Rplus_0_l Nd /peq_mean /list_mean INR_IZR_INZ. congr (Rdiv _ _).
    exact: lsum_Forall2 HF HI. }
    case: Mm => E1 E2 _ A. split=> //. split=> // f. exact: proj1 (A f).
Qed.

Lemma fph_un_results un Hu Hd d : (exists xs, List.Forall2 ph_sample_at un xs /\ f_measure_samples la xs Hu0 Hd0 u0 = Some (Hu, Hd, d)) ->
  (0 < sp_nuneqlt p)%Z -> u_sign u0 = R0 -> u_nsampl u0 = 0%Z -> un <> [::] ->
  exists u, fu_normalize d = Some u /\ u_nsampl u = Zn (List.length un) /\
    u_sign u = list_mean (fun s => PS s) un /\
    forall f idx l F, (l < L)%N -> (0 <= idx < fufield_len Norb (Nx * Ny) (sp_L p) f)%Z -> existsb (ufield_eqb f) [:: Jcorr_x; Jcorr_y] = false ->
      (forall c s, agree (Zn n) (uconfig (Zn n) (sp_L p) (Zn l) c) (pstates_at n L k st p l s) ->
         fuinc Norb Nx Ny (sp_L p) (PS s) c f idx = Rmult (PS s) (F (pstates_at n L k st p l s))) ->
      val (u_arr u f) idx = UM un l F.
Proof.
  move=> [xs [HF Ex]] Hp S0 N0 Hne. case: (WF) => H1 [H2 [H3 _]].
  have HLb : (2 * b <= L)%N by apply/leP; move: (HUneq Hp); rewrite -bZ -LZ -multE; lia.
  have U0' := U0. rewrite -LZ in U0'.
  have HX : List.Forall (fun x => exists Mu Md : nat -> 'M[R]_n, sample_of L b Mu Md x) xs.
  { clear -HF. elim: HF => [|s z ss zs [_ H] _ IH]; constructor => //. by eexists; eexists; exact: H. }
  have [Hu' [Hd' [u' [cs [Em [_ [_ [HM [HC EA]]]]]]]]] := f_measure_ok H1 H2 H3 nE' LA b_pos HLb U0' HX Su0 Sd0.
  move: Em. rewrite Ex => -[_ _ Eu]. subst u'.
  have HLz : (0 < Zn L)%Z by have := L_pos; move/ltP; lia.
  have [d' [Ed [Md [Sd Nd]]]] := fu_accumulate_all_ok Norb Nx Ny (Zn L) H1 H2 H3 HLz cs u0 _ HC U0'.
  move: Ed. rewrite EA => -[Ed]. subst d'.
  have HJ : List.Forall2 (fun s c => fst c = PS s /\ greens_match L (psteps_of n k st p s up) (psteps_of n k st p s dn) (snd c)) un cs.
  { clear -HF HM. elim: HF cs HM => [|s x ss xs' [[_ [_ [_ E1]]] E2] _ IH] cs HM; inversion HM as [|x1 c1 xs1 cs1 [F1 F2] F3]; subst; constructor.
    - split; first by rewrite F1. exact: F2.
    - exact: IH. }
  have Hlen : List.length cs = List.length un by exact: Forall2_len HJ.
  rewrite N0 Z.add_0_l Hlen in Nd.
  have Hn0 : u_nsampl d <> 0%Z by rewrite Nd; case: (un) Hne => //= *; lia.
  have [u [Eu [Mu [Su Nu]]]] := fu_normalize_ok Norb Nx Ny (Zn L) H1 H2 H3 HLz d _ Hn0 Md.
  exists u. split => //. split; first by rewrite Nu. split.
  - rewrite Su Sd S0 Rplus_0_l Nd /list_mean INR_IZR_INZ. congr (Rdiv _ _).
    by apply: lsum_Forall2 HJ _ => s c [].
  - move=> f idx l F Hl Hi HfJ HI. change (val (u_arr u f)) with (SumsFacts.rat (u_arr u f)). rewrite -LZ in Hi.
    rewrite (SumsFacts.arr_get (fuo_arr _ _ _ _ _ _ Mu f) Hi). cbv beta. rewrite HfJ. rewrite Rplus_0_l Nd /pun_mean /list_mean INR_IZR_INZ. congr (Rdiv _ _).
    apply: lsum_Forall2 HJ _ => s c [-> Hc]. rewrite LZ. apply: HI. rewrite -LZ. split.
    { rewrite /=. apply/idP/idP => H; [move/Z.eqb_eq: H => H; apply/eqP; lia|move/eqP: H => ->; by []]. }
    move=> sp i j Hi' Hj'. have [i' ->] := ord_of Hi'. have [j' ->] := ord_of Hj'.
    have [-> [-> [-> ->]]] := Hc l i' j' Hl sp.
    by case: sp; (split; [|split; [|split]]); symmetry; exact: entry_ofE.
Qed.

Lemma fph_eq_all eq d : (exists gs, List.Forall2 PR eq gs /\ measure_list f_accumulate gs m0 = Some d) -> m_sign m0 = R0 -> m_nsampl m0 = 0%Z -> eq <> [::] ->
  exists m, f_normalize d = Some m /\ m_nsampl m = Zn (List.length eq) /\
    m_sign m = list_mean (fun x => PS (snd x)) eq /\ site_results p (EM eq) m.
Proof.
  move=> HR S0 N0 Hne. have [m [E [En [Es [HSh HV]]]]] := fph_eq_results HR S0 N0 Hne. exists m. do 3 split => //.
  case: (WF) => H1 [H2 [H3 _]].
  have RS' : forall i o, (0 <= i < Nx * Ny)%Z -> (0 <= o < Norb)%Z -> (0 <= site (Nx * Ny) i o < Zn n)%Z.
  { move=> i o Hi Ho. rewrite nE'. exact: MeasureFacts.site_range. }
  have RT : forall a c, (0 <= cell_step Nx Ny 0 a c < Nx * Ny)%Z by move=> a c; exact: MeasureFacts.step_range.
  have RM : forall i j, (0 <= i < Zn n)%Z -> (0 <= j < Zn n)%Z -> (0 <= i + Zn n * j < Zn n * Zn n)%Z by move=> i j ? ?; nia.
  constructor; first exact: HSh.
  - move=> f i j Hf Hi Hj. rewrite -nE' in Hi Hj *. apply: HV.
    + have R := RM i j Hi Hj. rewrite nE' in R |- *.
      by repeat (destruct Hf as [<-|Hf]; [exact R|]).
    + move=> x g Hx. rewrite /pair_pos nE' finc_two_point //; try by rewrite -nE'. rewrite (pair_sign KO SO Hx). congr (Rmult _ _).
      rewrite -nE'. exact: (agree_two_point _ _ _ (pair_agree Hx)).
  - move=> i Hi. rewrite -nE' in Hi.
    split; [|split]; (apply: HV; first by rewrite /= -nE'); move=> x g Hx; have [Q1 [Q2 Q3]] := finc_density Norb Nx Ny (fst g) (snd g) i;
      rewrite ?Q1 ?Q2 ?Q3 (pair_sign KO SO Hx); congr (Rmult _ _); rewrite -nE'.
    + exact: (agree_number _ _ _ (pair_agree Hx)).
    + exact: (agree_number _ _ _ (pair_agree Hx)).
    + exact: (agree_doubleocc _ _ _ (pair_agree Hx)).
  - move=> i j Hi Hj. rewrite -nE' in Hi Hj *. split.
    + apply: (HV grfun_u _ (fun w => g00 w up i j)); first by rewrite /= -nE'; exact: RM.
      move=> x g Hx. have [-> _] := finc_grfun Norb Nx Ny (fst g) (snd g) (i + Zn n * j). rewrite (pair_sign KO SO Hx). congr (Rmult _ _).
      by have [_ [E00 _]] := proj2 (pair_agree Hx) up i j Hi Hj.
    + apply: (HV grfun_d _ (fun w => g00 w dn i j)); first by rewrite /= -nE'; exact: RM.
      move=> x g Hx. have [_ ->] := finc_grfun Norb Nx Ny (fst g) (snd g) (i + Zn n * j). rewrite (pair_sign KO SO Hx). congr (Rmult _ _).
      by have [_ [E00 _]] := proj2 (pair_agree Hx) dn i j Hi Hj.
  - move=> f o i j Hmod Hf Ho Hi Hj. apply: HV.
    + have R := cells_range Norb Nx Ny H2 H3 o i j Ho Hi Hj.
      by repeat (destruct Hf as [<-|Hf]; [exact R|]).
    + move=> x g Hx. rewrite /cells_pos finc_pair // (pair_sign KO SO Hx). congr (Rmult _ _).
      rewrite !(shift_shape WF) //.
      rewrite -nE'. apply: (agree_pair_shape _ _ _ (pair_agree Hx)) => //; try (move=> *; apply: RS' => //); exact: RS'.
Qed.

Lemma fph_un_all un Hu Hd d : (exists xs, List.Forall2 ph_sample_at un xs /\ f_measure_samples la xs Hu0 Hd0 u0 = Some (Hu, Hd, d)) ->
  (0 < sp_nuneqlt p)%Z -> u_sign u0 = R0 -> u_nsampl u0 = 0%Z -> un <> [::] ->
  exists u, fu_normalize d = Some u /\ u_nsampl u = Zn (List.length un) /\
    u_sign u = list_mean (fun s => PS s) un /\ site_unequal_results p (UM un) u.
Proof.
  move=> HR Hp S0 N0 Hne. have [u [E [En [Es HV]]]] := fph_un_results HR Hp S0 N0 Hne. exists u. do 3 split => //.
  case: (WF) => H1 [H2 [H3 _]].
  have HLz : (0 < sp_L p)%Z by exact: v_L VP.
  have RS' : forall i o, (0 <= i < Nx * Ny)%Z -> (0 <= o < Norb)%Z -> (0 <= site (Nx * Ny) i o < Zn n)%Z.
  { move=> i o Hi Ho. rewrite nE'. exact: MeasureFacts.site_range. }
  have RT : forall a c, (0 <= cell_step Nx Ny 0 a c < Nx * Ny)%Z by move=> a c; exact: MeasureFacts.step_range.
  constructor.
  - move=> f l i j Hf Hl Hi Hj. apply: HV.
    + apply/ltP. rewrite /L. lia.
    + exact: (upair_range Norb Nx Ny H1 H2 H3 (sp_L p) HLz f l i j Hf Hl Hi Hj).
    + by repeat (destruct Hf as [<-|Hf]; [reflexivity|]).
    + move=> c s. rewrite Z2Nat.id; last lia. move=> HA. rewrite fuinc_two_point //. congr (Rmult _ _).
      rewrite -nE' in Hi Hj *. exact: (agree_u_two_point _ _ _ HA).
  - move=> f l o i j Hmod Hf Hnb Hl Ho Hi Hj. apply: HV.
    + apply/ltP. rewrite /L. lia.
    + exact: (ucells_range Norb Nx Ny H1 H2 H3 (sp_L p) HLz f l o i j Hf Hl Ho Hi Hj).
    + by repeat (destruct Hf as [<-|Hf]; [reflexivity|]).
    + move=> c s. rewrite Z2Nat.id; last lia. move=> HA. rewrite /ucells_pos fuinc_bond //. congr (Rmult _ _).
      have EB : UMeasureFacts.ubond_code f (uconfig (Nx * Ny * Norb) (sp_L p) l c) (site (Nx * Ny) i o)
        (site (Nx * Ny) j o) (fun d => site (Nx * Ny) (cell_step Nx Ny 0 d i) o)
        (fun d => site (Nx * Ny) (cell_step Nx Ny 0 d j) o) =
        u_bond f (uconfig (Nx * Ny * Norb) (sp_L p) l c) (site (Nx * Ny) i o)
        (site (Nx * Ny) j o) (fun d => site (Nx * Ny) (cell_step Nx Ny 0 d i) o)
        (fun d => site (Nx * Ny) (cell_step Nx Ny 0 d j) o).
      { clear -H2 H3 Hl Hi Hj Hnb. case: (ufield_eq_dec f ram_b1g) => Ef; last by case: (f) Ef.
        rewrite Ef. exact (fu_b1g Norb Nx Ny (sp_L p) H2 H3 c l o i j Hl Hi Hj (Hnb Ef)). }
      rewrite EB.
      rewrite -nE' (agree_u_bond _ _ _ HA) //; try (move=> *; apply: RS' => //); try exact: RS'.
      apply: u_bond_ext => d1; by rewrite (shift_steps WF).
Qed.

Lemma faccumulate_ph_ok : SweepSpec.measure_ok n f_accumulate MI.
Proof.
  move=> Au Ad Gu Gd d [_ L1 _ _ _] [_ L2 _ _ _] [g Hg]. case: (WF) => H1 [H2 [H3 _]].
  have D : forall G, List.length (gf_mat G) = (n * n)%N -> good Norb Nx Ny G.
  { move=> G HG. rewrite /good /lenZ HG -nE' -multE. lia. }
  have [m' [E [Hm' _]]] := f_accumulate_ok Norb Nx Ny H1 H2 H3 Gu Gd d g (D _ L1) (D _ L2) Hg.
  exists m'. split => //. by eexists; exact: Hm'.
Qed.

Lemma fall_phonons eq gs : List.Forall2 PR eq gs -> (Zn (List.length eq) <= mx)%Z ->
  exists e, fpaccumulate_all (ph_samples eq gs) e0 = Some e /\
    fpmeas_ok Norb (Nx * Ny) (sp_L p) mx e (fun f i => (0 + pincs Norb (Nx * Ny) (sp_L p) dt (ph_omega ph) 0 (ph_samples eq gs) (dflt f) i)%coqR) /\
    fp_sign e = lsum psign (ph_samples eq gs) /\ fp_nsampl e = Zn (List.length eq).
Proof.
  move=> HF Hm. case: (WF) => H1 [H2 [H3 _]].
  have [e [E [P [S [N _]]]]] := fpaccumulate_all_ok Norb (Nx * Ny) (sp_L p) mx H1 ltac:(nia) (v_L _ VP) dt (ph_omega ph)
    (ph_samples eq gs) e0 _ (samples_fit WF VP HF) P0 ltac:(lia) ltac:(rewrite PN0 (ph_samples_len HF); lia).
  exists e. rewrite PN0 in P N. rewrite PS0 Rplus_0_l in S. rewrite (ph_samples_len HF) in N. by split.
Qed.
Lemma fph_capacity eq gs : List.Forall2 PR eq gs -> (Zn (List.length eq) <= mx)%Z ->
  exists e, fpaccumulate_all (ph_samples eq gs) e0 = Some e.
Proof. move=> HF Hm. have [e [E _]] := fall_phonons HF Hm. by exists e. Qed.

Hypotheses (HQ : (0 < sp_neqlt p)%Z) (HE : (0 <= sp_nequil p)%Z) (HS : (0 <= sp_nsampl p)%Z) (HMX : (sp_nsampl p * (Zn L / sp_neqlt p) <= mx)%Z).
Notation consistent := (@ph_consistent n L k st ph dt RS meas fpmeas valid MI (fun _ => True) b).

Record fph_run_inv (it : Z) (h : phistory (RS := RS)) (x : fpsimstate (RS := RS)) : Prop := {
  fpi_seed : fst (fst (fst h)) = mc_seed (p_mc (fps_ph x));
  fpi_fields : snd (fst (fst h)) = (mc_s (p_mc (fps_ph x)), p_X (fps_ph x));
  fpi_mc : consistent (fps_ph x);
  fpi_eq : fph_recorded f_accumulate n L k st p (snd (fst h)) m0 e0 (fps_ph x);
  fpi_un : exists xs, List.Forall2 ph_sample_at (snd h) xs /\ f_measure_samples la xs Hu0 Hd0 u0 = Some (fps_Hu x, fps_Hd x, fps_un x);
  fpi_eq_count : Zn (List.length (snd (fst h))) = (Z.max 0 (it - sp_nequil p) * (Zn L / sp_neqlt p))%Z;
  fpi_un_count : (0 < sp_nuneqlt p)%Z -> Zn (List.length (snd h)) = multiples (sp_nuneqlt p) (sp_nequil p) (Z.max it (sp_nequil p)) }.

Lemma fph_consistent_sample x : consistent x ->
  ph_sample_at (mc_s (p_mc x), p_X x) (mk_sample junk (IZR (gf_sgndet (mc_Gu (p_mc x)) * gf_sgndet (mc_Gd (p_mc x)))) (mc_tu (p_mc x)) (mc_td (p_mc x))).
Proof.
  case=> H1 H2 H3 HX HE' H4 H5 H6 H7 H8 H9. rewrite HE' in H4 H5 H6 H7.
  have N1 := green_nz H6. have N2 := green_nz H7.
  have HP : PR (L, (mc_s (p_mc x), p_X x)) (mc_Gu (p_mc x), mc_Gd (p_mc x)).
  { split => //. split => //. split; first by rewrite L_pos leqnn. by rewrite !cyclic_end. }
  rewrite /cyclic_flow oprod0 mul1mx subn0 in N1. rewrite /cyclic_flow oprod0 mul1mx subn0 in N2.
  split.
  - split => //. split => //. split; [exact: (pair_weight KO SO HP)|exact: (pair_sign KO SO HP)].
  - split => //. split => //. split; rewrite unitmxE unitfE; exact/eqP.
Qed.

Lemma fph_iteration_inv it h x : (0 <= it < sp_nequil p + sp_nsampl p)%Z -> fph_run_inv it h x ->
  (exists r r', fpsim_iteration rng la junk ijunk p k noHS st it x = Some r /\
    pchain_iteration rng n L k st p noHS order it h = Some r' /\
    match r, r' with
    | None, None => True
    | Some x', Some h' => fph_run_inv (it + 1) h' x'
    | _, _ => False
    end) \/ (fpsim_iteration rng la junk ijunk p k noHS st it x = None /\ zero_weight n L k st ph dt).
Proof.
  case: h => [[[seed [s X]] eq] un] Hit [/= -> [-> ->] Hmc Heq [xs [Hxs Exs]] Hce Hcu]. rewrite /fpsim_iteration /pchain_iteration.
  have EN : ts_N (mc_tu (p_mc (fps_ph x))) = Zn n by case: (phc_tu Hmc) => [[]].
  rewrite EN -(nwZ VP). set neqlt := (if _ then sp_neqlt p else 0%Z).
  have Hmc' : consistent (new_fph_order ijunk (Zn n) (fps_ph x)).
  { case: Hmc => *; constructor => //=. by rewrite /raw_ints !map_length seq_length Nat2Z.id. }
  have Heq' : fph_recorded f_accumulate n L k st p eq m0 e0 (new_fph_order ijunk (Zn n) (fps_ph x)) by [].
  have HLq : (0 <= Zn L / sp_neqlt p)%Z by apply: Z.div_pos; lia.
  have Hcount : (Zn (List.length eq) + measured neqlt (Zn L) = Z.max 0 (it + 1 - sp_nequil p) * (Zn L / sp_neqlt p))%Z.
  { rewrite Hce /neqlt /measured. case: Z.leb_spec => Hle.
    - have -> : (0 <? sp_neqlt p)%Z = true by apply/Z.ltb_lt. rewrite !Z.max_r; lia.
    - rewrite Z.ltb_irrefl !Z.max_l; lia. }
  have Hcap : (Zn (List.length eq) + measured neqlt (Zn L) <= mx)%Z.
  { rewrite Hcount. clear -HMX HLq Hit HS. have : (Z.max 0 (it + 1 - sp_nequil p) <= sp_nsampl p)%Z by lia. nia. }
  have PO' : phonon_ok (k_Norb k) (sp_phonon p) by rewrite KN.
  have [[r [r' [-> [E2 HR]]]]|[-> HZ]] := fph_iteration_recorded RO LA junk noHS (n_pos WF) Hn64 HL2 KO SO PO' Hdt faccumulate_ph_ok fph_capacity
     (neqlt := neqlt) (nw_pos VP) (b_nw VP) Hmc' Heq' Hcap; last by right.
  left. cbn [obind]. have -> : pchain_sweep rng n L k st p noHS neqlt (mc_seed (p_mc (fps_ph x)), order, mc_s (p_mc (fps_ph x)), p_X (fps_ph x), eq) = Some r' by exact: E2.
  cbn [obind]. case: r r' HR {E2} => [y|] [[c eq1]|] //; last by exists None, None.
  case=> -> [Hy [Hr Hlen]]. rewrite {1}/cfg. rewrite /fpmeasure_unequal /due_at.
  cbn [fps_ph fps_Hu fps_Hd fps_un].
  have Hms := fun H => multiples_step HUneq H (proj1 Hit). rewrite Hcount in Hlen.
  case Ed : ((sp_nequil p <=? it)%Z && ((0 <? sp_nuneqlt p)%Z && (it mod sp_nuneqlt p =? 0)%Z)).
  - move/andP: Ed => [Hq /andP [Hp Hm]]. move/Z.ltb_lt: (Hp) => Hp'. rewrite /f_measure_unequal Hq Hp. cbn [andb sm_mc sm_Hu sm_Hd sm_un].
    rewrite /cmod. have -> : (sp_nuneqlt p =? 0)%Z = false by apply/Z.eqb_neq; lia.
    cbn [obind]. rewrite Z.rem_mod_nonneg; try lia. rewrite Hm.
    set z := mk_sample junk (IZR (gf_sgndet (mc_Gu (p_mc y)) * gf_sgndet (mc_Gd (p_mc y)))) (mc_tu (p_mc y)) (mc_td (p_mc y)).
    have Hz : ph_sample_at (mc_s (p_mc y), p_X y) z by exact: fph_consistent_sample.
    have HF : List.Forall2 ph_sample_at (un ++ [:: (mc_s (p_mc y), p_X y)]) (xs ++ [:: z]) by apply: Forall2_app => //; constructor.
    case: (WF) => H1 [H2 [H3 _]].
    have HLb : (2 * b <= L)%N by apply/leP; move: (HUneq Hp'); rewrite -bZ -LZ -multE; lia.
    have U0' := U0. rewrite -LZ in U0'.
    have HX : Forall (fun x => exists Mu Md : nat -> 'M[R]_n, sample_of L b Mu Md x) (xs ++ [:: z]).
    { clear -HF. elim: HF => [|s z' ss zs [_ H] _ IH]; constructor => //. by eexists; eexists; exact: H. }
    have [Hu' [Hd' [u' [cs [Em _]]]]] := f_measure_ok H1 H2 H3 nE' LA b_pos HLb U0' HX Su0 Sd0.
    move: (Em). rewrite f_measure_samples_snoc Exs. cbn [obind f_measure_samples].
    rewrite [sa_junk _]/= [sa_sign _]/= [sa_up _]/= [sa_dn _]/=.
    case: (f_accumulate_unequal_time _ _ _ _ _ _ _ _) => [[[Hu1 Hd1] u1]|] //. cbn [obind]. case=> E1 E2 E3.
    do 2 eexists. split; first reflexivity. split; first reflexivity. constructor => //=.
    + exists (xs ++ [:: z]). split => //. by rewrite Em E1 E2 E3.
    + move=> Hu. rewrite (Hms Hu) -(Hcu Hu) /due_at Hq Hp Hm app_length /=. lia.
  - have -> : f_measure_unequal la junk p it (mk_sim (p_mc y) (fps_Hu x) (fps_Hd x) (fps_un x)) = Some (mk_sim (p_mc y) (fps_Hu x) (fps_Hd x) (fps_un x)).
    { rewrite /f_measure_unequal. move: Ed. case: Z.leb_spec => Hq //=. case: Z.ltb_spec => Hp //= Hm. rewrite /cmod.
      have -> : (sp_nuneqlt p =? 0)%Z = false by apply/Z.eqb_neq; lia. cbn [obind]. rewrite Z.rem_mod_nonneg; try lia. by rewrite Hm. }
    cbn [obind]. do 2 eexists. split; first reflexivity. split; first reflexivity. constructor => //=.
    + by exists xs.
    + move=> Hu. rewrite (Hms Hu) -(Hcu Hu) /due_at Ed. lia.
Qed.

Lemma fph_run_loop x : (0 <= sp_nequil p + sp_nsampl p)%Z -> consistent x -> mc_meas (p_mc x) = m0 -> p_meas x = e0 ->
  let run := for_range 0 (sp_nequil p + sp_nsampl p) (fun it => may_hang (fpsim_iteration rng la junk ijunk p k noHS st it)) (Some (mk_fpsim x Hu0 Hd0 u0)) in
  (exists r r', run = Some r /\
    pchain rng n L k st p noHS order (mc_seed (p_mc x)) (mc_s (p_mc x), p_X x) = Some r' /\
    match r, r' with
    | None, None => True
    | Some x', Some h' => fph_run_inv (sp_nequil p + sp_nsampl p) h' x'
    | _, _ => False
    end) \/ (run = None /\ zero_weight n L k st ph dt).
Proof.
  move=> Hle Hm Em Ee. rewrite /pchain.
  apply: (@for_range_sim_or _ _ (fun it o o' => match o, o' with None, None => True | Some x', Some h' => fph_run_inv it h' x' | _, _ => False end)) => //.
  - move=> it [y|] [h|] // Hit; last by move=> _; left; exists None, None.
    move=> Hy. exact: fph_iteration_inv.
  - constructor => //=.
    + exists [::]. split; first by constructor. by rewrite /measure_list /fpaccumulate_all /= Em Ee.
    + by exists [::].
    + by rewrite Z.max_l; lia.
    + move=> Hu. rewrite Z.max_r // /multiples. lia.
Qed.

(** * Phonon data *)
Lemma fph_all eq (x : phstate RS meas fpmeas) : fph_recorded f_accumulate n L k st p eq m0 e0 x -> (Zn (List.length eq) <= mx)%Z -> eq <> [::] ->
  exists e, fpnormalize (p_meas x) = Some e /\ site_phonon_results n L k st p eq e.
Proof.
  move=> [gs [HF [_ Ee]]] Hm Hne. case: (WF) => H1 [H2 [H3 _]].
  have [e1 [Ee1 [P1 [S1 N1]]]] := fall_phonons HF Hm. move: Ee1. rewrite Ee => -[?]. subst e1.
  have Hnz : fp_nsampl (p_meas x) <> 0%Z by rewrite N1; case: (eq) Hne => //= *; lia.
  have [e [En [P2 [S2 [N2 _]]]]] := fpnormalize_ok Norb (Nx * Ny) (sp_L p) mx H1 (p_meas x) _ Hnz P1. exists e. split => //.
  have HA := fpo_arr _ _ _ _ _ _ P2. rewrite N1 in S2 N2 HA.
  have HSg : forall y g, PR y g -> psign (mk_psample (fst g) (snd g) (Zn (fst y) - 1) (snd (snd y))) = PS (snd y) by move=> y g; exact: pair_sign.
  have VP' : forall f i (G : nat * fields -> R), In f [:: fX_avg; fX_sq_avg] -> (0 <= i < Norb)%Z ->
    (forall y g j, PR y g -> pinc Norb (Nx * Ny) (sp_L p) dt (ph_omega ph) j (mk_psample (fst g) (snd g) (Zn (fst y) - 1) (snd (snd y))) (dflt f) i = G y) ->
    val (fp_arr e f) i = list_mean G eq.
  { move=> f i G Hf Hi HG. change (val (fp_arr e f) i) with (SumsFacts.rat (fp_arr e f) i).
    have Hi' : (0 <= i < fpfield_len Norb mx f)%Z by clear -Hf Hi; repeat (destruct Hf as [<-|Hf]; [exact Hi|]).
    rewrite (SumsFacts.arr_get (HA f) Hi').
    have EV : (match f with fiteration_X_avg | fiteration_X0 => (0 + pincs Norb (Nx * Ny) (sp_L p) dt (ph_omega ph) 0 (ph_samples eq gs) (dflt f) i)%coqR
      | _ => ((0 + pincs Norb (Nx * Ny) (sp_L p) dt (ph_omega ph) 0 (ph_samples eq gs) (dflt f) i) / IZR (Zn (List.length eq)))%coqR end) =
      (pincs Norb (Nx * Ny) (sp_L p) dt (ph_omega ph) 0 (ph_samples eq gs) (dflt f) i / IZR (Zn (List.length eq)))%coqR.
    { clear -Hf. by repeat (destruct Hf as [<-|Hf]; [rewrite Rplus_0_l|]). }
    rewrite EV /list_mean INR_IZR_INZ. congr (Rdiv _ _).
    have : forall j, pincs Norb (Nx * Ny) (sp_L p) dt (ph_omega ph) j (ph_samples eq gs) (dflt f) i = lsum G eq; last by apply.
    clear -HF HG. elim: HF => [//|y g ys zs Hy _ IH] j. rewrite /= -/(ph_samples ys zs) (HG _ _ _ Hy) IH. by []. }
  have VH : forall f o j, In f [:: fiteration_X_avg; fiteration_X0] -> (0 <= o < Norb)%Z -> (j < List.length eq)%coq_nat ->
    val (fp_arr e f) (o + Zn j * Norb) = pincs Norb (Nx * Ny) (sp_L p) dt (ph_omega ph) 0 (ph_samples eq gs) (dflt f) (o + Zn j * Norb).
  { move=> f o j Hf Ho Hj. have Hk : (0 <= o + Zn j * Norb < Norb * mx)%Z by clear -Ho Hj Hm; nia.
    change (val (fp_arr e f) (o + Zn j * Norb)) with (SumsFacts.rat (fp_arr e f) (o + Zn j * Norb)).
    have Hi' : (0 <= o + Zn j * Norb < fpfield_len Norb mx f)%Z by clear -Hf Hk; repeat (destruct Hf as [<-|Hf]; [exact Hk|]).
    rewrite (SumsFacts.arr_get (HA f) Hi'). clear -Hf. by repeat (destruct Hf as [<-|Hf]; [rewrite Rplus_0_l|]). }
  constructor.
  - rewrite S2 S1 /list_mean INR_IZR_INZ. congr (Rdiv _ _). exact: lsum_combine HF HSg.
  - exact: N2.
  - move=> o Ho. apply: VP' => //; first by cbn; tauto. move=> y g j Hy. by rewrite /dflt /pinc (HSg _ _ Hy).
  - move=> o Ho. apply: VP' => //; first by cbn; tauto. move=> y g j Hy. by rewrite /dflt /pinc (HSg _ _ Hy).
  - move=> o j y Ho Hj. have [g [Hy Eg]] := nth_samples HF Hj.
    have Hlt : (j < List.length eq)%coq_nat by apply/nth_error_Some; rewrite Hj.
    have PH := fun f Hf => pincs_history Norb (Nx * Ny) (sp_L p) dt (ph_omega ph) f o Hf Ho (ph_samples eq gs) 0 j.
    split; rewrite VH //; try (by cbn; tauto); rewrite /dflt.
    + have := PH iteration_X_avg ltac:(cbn; tauto). rewrite Z.add_0_l Eg (HSg _ _ Hy) => ->. by [].
    + have := PH iteration_X0 ltac:(cbn; tauto). rewrite Z.add_0_l Eg (HSg _ _ Hy) => ->. by [].
Qed.

Lemma fph_eq_code eq d m : (exists gs, List.Forall2 PR eq gs /\ measure_list f_accumulate gs m0 = Some d) -> m_sign m0 = R0 -> m_nsampl m0 = 0%Z -> eq <> [::] ->
  f_normalize d = Some m -> eq_site_code p (EM eq) m.
Proof.
  move=> HR S0 N0 Hne Em. have [m' [E' [_ [_ [_ HV]]]]] := fph_eq_results HR S0 N0 Hne. move: E'. rewrite Em => -[?]. subst m'.
  case: (WF) => H1 [H2 [H3 _]].
  have RS' : forall i o, (0 <= i < Nx * Ny)%Z -> (0 <= o < Norb)%Z -> (0 <= site (Nx * Ny) i o < Zn n)%Z.
  { move=> i o Hi Ho. rewrite nE'. exact: MeasureFacts.site_range. }
  have RT : forall a c, (0 <= cell_step Nx Ny 0 a c < Nx * Ny)%Z by move=> a c; exact: MeasureFacts.step_range.
  move=> f o i j Hf Ho Hi Hj. apply: HV.
  - have R := cells_range Norb Nx Ny H2 H3 o i j Ho Hi Hj.
    by repeat (destruct Hf as [<-|Hf]; [exact R|]).
  - move=> x g Hx. rewrite /cells_pos finc_pair // (pair_sign KO SO Hx). congr (Rmult _ _).
    rewrite -nE'. apply: (agree_pair_shape _ _ _ (pair_agree Hx)) => //; try (move=> *; apply: RS' => //); exact: RS'.
Qed.

Lemma fph_un_code un Hu Hd d u : (exists xs, List.Forall2 ph_sample_at un xs /\ f_measure_samples la xs Hu0 Hd0 u0 = Some (Hu, Hd, d)) ->
  (0 < sp_nuneqlt p)%Z -> u_sign u0 = R0 -> u_nsampl u0 = 0%Z -> un <> [::] -> fu_normalize d = Some u -> un_site_code p (UM un) u.
Proof.
  move=> HR Hp S0 N0 Hne Eu. have [u' [E' [_ [_ HV]]]] := fph_un_results HR Hp S0 N0 Hne. move: E'. rewrite Eu => -[?]. subst u'.
  case: (WF) => H1 [H2 [H3 _]].
  have HLz : (0 < sp_L p)%Z by exact: v_L VP.
  have RS' : forall i o, (0 <= i < Nx * Ny)%Z -> (0 <= o < Norb)%Z -> (0 <= site (Nx * Ny) i o < Zn n)%Z.
  { move=> i o Hi Ho. rewrite nE'. exact: MeasureFacts.site_range. }
  have RT : forall a c, (0 <= cell_step Nx Ny 0 a c < Nx * Ny)%Z by move=> a c; exact: MeasureFacts.step_range.
  move=> f l o i j Hf Hl Ho Hi Hj. apply: HV.
  - apply/ltP. rewrite /L. lia.
  - exact: (ucells_range Norb Nx Ny H1 H2 H3 (sp_L p) HLz f l o i j Hf Hl Ho Hi Hj).
  - by repeat (destruct Hf as [<-|Hf]; [reflexivity|]).
  - move=> c s. rewrite Z2Nat.id; last lia. move=> HA. rewrite /ucells_pos fuinc_bond //. congr (Rmult _ _).
    rewrite -nE'. apply: (agree_ubond_code _ _ _ HA); try (move=> *; apply: RS' => //); exact: RS'.
Qed.

End Run.
