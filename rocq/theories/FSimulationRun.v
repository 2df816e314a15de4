(** Proofs about complete simulations of the program that records every site. *)
From Coq Require Import ZArith List Reals Lia Lra.
From mathcomp Require Import all_ssreflect ssralg matrix.
From Verif Require Import Base BaseFacts RField BlasFacts MatSpec MatFacts TimeStep TimeStepSpec TimeStepFacts Strat StratSpec StratFacts GreenSpec GreenFacts
  Lapack LapackSpec GreenConstruct SimParams ParamParser ParamSpec KineticSpec KineticExp KineticExpSpec KineticExpFacts RandSource Sweep SweepSpec SweepFacts
  LatticeSpec WickSpec Measure MeasureSpec MeasureSeqFacts UMeasure UMeasureSpec UMeasureSeqFacts UnequalTime UnequalTimeSpec UnequalTimeFacts
  ConfigFacts Simulation SimulationSpec SimulationFacts SimulationRun FMeasure FMeasureSpec FMeasureFacts FUMeasureFacts FRecoverFacts FSimulation FSimulationSpec FSimulationAvg.
Set Implicit Arguments.
Unset Strict Implicit.
Unset Printing Implicit Defensive.
Local Open Scope ring_scope.
Import GRing.Theory.

(** * Samples of the unequal time measurements *)
Fixpoint f_measure_samples (la : lapack) (xs : list sample) (Hu Hd : list R) (m : umeas) : option (list R * list R * umeas) :=
  match xs with
  | nil => Some (Hu, Hd, m)
  | cons x xs =>
    let* (HH, m) := f_accumulate_unequal_time la (sa_junk x) (sa_sign x) (sa_up x) (sa_dn x) Hu Hd m in
    let '(Hu, Hd) := HH in f_measure_samples la xs Hu Hd m
  end.
Lemma f_measure_samples_snoc la xs x : forall Hu Hd u, f_measure_samples la (xs ++ [:: x]) Hu Hd u =
  obind (f_measure_samples la xs Hu Hd u) (fun '(Hu, Hd, u) => f_measure_samples la [:: x] Hu Hd u).
Proof.
  elim: xs => [|y xs IH] Hu Hd u //=. case: (f_accumulate_unequal_time _ _ _ _ _ _ _ _) => [[[Hu1 Hd1] u1]|] //=.
Qed.

Section Seq.
Variables (Norb Nx Ny : Z) (n L b : nat) (la : Lapack.lapack).
Hypothesis HNorb : (0 < Norb)%Z.
Hypothesis HNx : (0 < Nx)%Z.
Hypothesis HNy : (0 < Ny)%Z.
Hypothesis HN : Zn n = (Nx * Ny * Norb)%Z.
Hypothesis LA : lapack_ok la.
Hypothesis Hb : (0 < b)%N.
Hypothesis HLb : (2 * b <= L)%N.

Lemma f_measure_ok xs : forall Hu Hd m g, fumeas_ok Norb Nx Ny (Zn L) m g ->
  List.Forall (fun x => exists Mu Md : nat -> 'M[R]_n, sample_of L b Mu Md x) xs ->
  square (n * (L %/ b)) Hu -> square (n * (L %/ b)) Hd ->
  exists Hu' Hd' m' cs, f_measure_samples la xs Hu Hd m = Some (Hu', Hd', m') /\
    square (n * (L %/ b)) Hu' /\ square (n * (L %/ b)) Hd' /\
    List.Forall2 (@sample_match n L b) xs cs /\ (forall s, In s cs -> cur_ok (Nx * Ny * Norb) (Zn L) (snd s)) /\ fu_accumulate_all cs m = Some m'.
Proof.
  have Hn : (0 < n)%N by apply/ltP; nia.
  have HL : (0 < L)%N by apply: leq_trans HLb; rewrite muln_gt0.
  have HLz : (0 < Zn L)%Z by move/ltP: HL; lia.
  elim: xs => [|x xs IH] Hu Hd m g Hm HX Su Sd.
  - exists Hu, Hd, m, nil. do 3!(split; first by []). split; first by constructor. by split.
  - have [Mu [Md HMx]] : exists Mu Md : nat -> 'M[R]_n, sample_of L b Mu Md x by inversion HX.
    have HX' : List.Forall (fun x => exists Mu Md : nat -> 'M[R]_n, sample_of L b Mu Md x) xs by inversion HX.
    case: (HMx) => Tu [Td [Uu Ud]].
    have [Hu1 [Hd1 [c [Ec [Su1 [Sd1 [GM CO]]]]]]] := current_ok (sa_junk x) LA Hn HLb HL Tu Td Uu Ud Su Sd.
    have CO' : cur_ok (Nx * Ny * Norb) (Zn L) c by rewrite -HN.
    have [m1 [Em [Hm1 _]]] := @fu_accumulate_ok Norb Nx Ny (Zn L) HNorb HNx HNy HLz (sa_sign x) c m g CO' Hm.
    have [Hu' [Hd' [m' [cs [Es [Su' [Sd' [F2 [Fc Ea]]]]]]]]] := IH _ _ _ _ Hm1 HX' Su1 Sd1.
    exists Hu', Hd', m', ((sa_sign x, c) :: cs).
    have EE : f_accumulate_unequal_time la (sa_junk x) (sa_sign x) (sa_up x) (sa_dn x) Hu Hd m = Some (Hu1, Hd1, m1).
    { rewrite /f_accumulate_unequal_time (fuo_Norb _ _ _ _ _ _ Hm) (fuo_Ncell _ _ _ _ _ _ Hm) (fuo_L _ _ _ _ _ _ Hm) -HN Ec. cbn [obind].
      by rewrite Em. }
    split; first by cbn [f_measure_samples]; rewrite EE; cbn [obind].
    split => //. split => //. split; last split.
    + apply: Forall2_cons => //. split; first by []. move=> Mu' Md' [Tu' [Td' [Uu' Ud']]].
      have [Hu2 [Hd2 [c2 [Ec2 [_ [_ [GM2 _]]]]]]] := current_ok (sa_junk x) LA Hn HLb HL Tu' Td' Uu' Ud' Su Sd.
      move: Ec2. rewrite Ec => -[_ _ ->]. exact: GM2.
    + move=> s [<-|Hs] //. exact: Fc.
    + move: Ea. rewrite /fu_accumulate_all /=. by rewrite Em.
Qed.
End Seq.

(** * The whole run *)
Section Run.
Context {RS : Type}.
Variables (rng : rand_source RS) (valid : RS -> Prop).
Hypothesis RO : rand_ok rng valid.
Variables (la : lapack) (LA : lapack_ok la) (SC : syev_converges la) (junk : Z -> R) (ijunk : Z -> Z).
Variables (p : sim_params) (WF : well_formed p) (VP : valid_params p).
Hypothesis HUneq : (0 < sp_nuneqlt p)%Z -> (2 * sp_prodBlen p <= sp_L p)%Z.
Variables (k : kinetic) (st : strat).
Let n := sites p.
Let L := Z.to_nat (sp_L p).
Let b := Z.to_nat (sp_prodBlen p).
Let nw := Z.to_nat (sp_nwraps p).
Hypotheses (KO : kinetic_ok n k) (SO : strat_ok (k_Norb k) st).

Notation Norb := (sp_Norb p).
Notation Nx := (sp_Nx p).
Notation Ny := (sp_Ny p).
Notation sh := (sp_pbc_shift p).
Notation W := (weight n L k st).
Let MI (m : meas) := exists g, fmeas_ok Norb Nx Ny m g.
Let order := raw_ints ijunk (Zn n).

Let nE := nE WF.
Let nE' := nE' WF.
Let n_pos := n_pos WF.
Let nw_pos := nw_pos VP.
Let b_pos := b_pos VP.
Let L_pos := L_pos VP.
Let b_nw := b_nw VP.
Let LZ := LZ VP.
Let bZ := bZ VP.
Let nwZ := nwZ VP.

Lemma f_accumulate_measure_ok : SweepSpec.measure_ok n f_accumulate MI.
Proof.
  move=> Au Ad Gu Gd d [_ L1 _ _ _] [_ L2 _ _ _] [g Hg]. case: (WF) => H1 [H2 [H3 _]].
  have D : forall G, List.length (gf_mat G) = (n * n)%N -> good Norb Nx Ny G.
  { move=> G HG. rewrite /good /lenZ HG -nE' -multE. lia. }
  have [m' [E [Hm' _]]] := f_accumulate_ok Norb Nx Ny H1 H2 H3 Gu Gd d g (D _ L1) (D _ L2) Hg.
  exists m'. split => //. by eexists; exact: Hm'.
Qed.

Notation sample_at := (@sample_at p k st).
Variables (m0 : meas) (u0 : umeas) (Hu0 Hd0 : list R).
Hypotheses (M0 : fmeas_ok Norb Nx Ny m0 (fun _ _ => R0)) (U0 : fumeas_ok Norb Nx Ny (sp_L p) u0 (fun _ _ => R0)).
Hypotheses (Su0 : square (n * (L %/ b)) Hu0) (Sd0 : square (n * (L %/ b)) Hd0).

Record frun_inv (h : history) (x : simstate (RS := RS)) : Prop := {
  fri_seed : fst (fst (fst h)) = mc_seed (sm_mc x);
  fri_s : snd (fst (fst h)) = mc_s (sm_mc x);
  fri_mc : mc_consistent valid MI n L b k st (sm_mc x);
  fri_eq : recorded f_accumulate n L k st (snd (fst h)) m0 (mc_meas (sm_mc x));
  fri_un : exists xs, List.Forall2 sample_at (snd h) xs /\
     f_measure_samples la xs Hu0 Hd0 u0 = Some (sm_Hu x, sm_Hd x, sm_un x) }.

Lemma f_consistent_sample m : mc_consistent valid MI n L b k st m ->
  sample_at (mc_s m) (mk_sample junk (IZR (gf_sgndet (mc_Gu m) * gf_sgndet (mc_Gd m))) (mc_tu m) (mc_td m)).
Proof.
  case=> H1 H2 H3 H4 H5 H6 H7 H8. split.
  - split => //. have HP : greens_pair n L k st (0%N, mc_s m) (mc_Gu m, mc_Gd m) by split.
    split; [exact: (pair_weight KO SO HP)|exact: (pair_sign KO SO HP)].
  - have N1 := green_nz H6. have N2 := green_nz H7.
    rewrite /cyclic_flow oprod0 mul1mx subn0 in N1. rewrite /cyclic_flow oprod0 mul1mx subn0 in N2.
    split => //. split => //. split; rewrite unitmxE unitfE; exact/eqP.
Qed.

Lemma f_iteration_inv it h x : (0 <= it)%Z -> frun_inv h x ->
  exists r r', fsim_iteration rng la junk ijunk p k st it x = Some r /\
    chain_iteration rng n W L p order it h = Some r' /\
    match r, r' with
    | None, None => True
    | Some x', Some h' => frun_inv h' x'
    | _, _ => False
    end.
Proof.
  case: h => [[[seed s] eq] un] Hit [/= -> -> Hmc Heq [xs [Hxs Exs]]]. rewrite /fsim_iteration /chain_iteration.
  have EN : ts_N (mc_tu (sm_mc x)) = Zn n by case: (mcc_tu Hmc) => [[]].
  rewrite EN -nwZ. set neqlt := (if _ then sp_neqlt p else 0%Z).
  have Hmc' : mc_consistent valid MI n L b k st (new_order ijunk (Zn n) (sm_mc x)).
  { case: Hmc => *; constructor => //=. by rewrite /raw_ints !map_length seq_length Nat2Z.id. }
  have [r [r' [-> [E2 HR]]]] := iteration_recorded RO LA junk n_pos KO SO f_accumulate_measure_ok neqlt nw_pos b_nw Hmc' Heq.
  cbn [obind]. have -> : chain_sweep rng n W L neqlt (mc_seed (sm_mc x), order, mc_s (sm_mc x), eq) = Some r' by exact: E2.
  cbn [obind]. case: r r' HR {E2} => [m|] [[[[seed1 o1] s1] eq1]|] //; last by exists None, None.
  case=> -[-> _ ->] [Hm Hr]. rewrite /f_measure_unequal /due_at.
  cbn [sm_mc sm_Hu sm_Hd sm_un].
  have Done : exists r r', Some (Some (mk_sim m (sm_Hu x) (sm_Hd x) (sm_un x))) = Some r /\ Some (Some (mc_seed m, mc_s m, eq1, un)) = Some r' /\
    match r, r' with None, None => True | Some x', Some h' => frun_inv h' x' | _, _ => False end.
  { do 2 eexists. split; first reflexivity. split; first reflexivity. constructor => //=. by exists xs. }
  case: Z.leb_spec => Hq; cbn [andb]; last exact: Done.
  case: Z.ltb_spec => Hp; cbn [andb]; last exact: Done.
  rewrite /cmod. have -> : (sp_nuneqlt p =? 0)%Z = false by apply/Z.eqb_neq; lia.
  cbn [obind]. rewrite Z.rem_mod_nonneg; try lia.
  case: (_ =? 0)%Z; last exact: Done.
  set y := mk_sample junk (IZR (gf_sgndet (mc_Gu m) * gf_sgndet (mc_Gd m))) (mc_tu m) (mc_td m).
  have Hy : sample_at (mc_s m) y by exact: f_consistent_sample.
  have HF : List.Forall2 sample_at (un ++ [:: mc_s m]) (xs ++ [:: y]) by apply: Forall2_app => //; constructor.
  case: (WF) => H1 [H2 [H3 _]].
  have HLb : (2 * b <= L)%N by apply/leP; move: (HUneq Hp); rewrite -bZ -LZ -multE; lia.
  have U0' := U0. rewrite -LZ in U0'.
  have HX : Forall (fun x => exists Mu Md : nat -> 'M[R]_n, sample_of L b Mu Md x) (xs ++ [:: y]).
  { clear -HF. elim: HF => [|s z ss zs [_ H] _ IH]; constructor => //. by eexists; eexists; exact: H. }
  have [Hu' [Hd' [u' [cs [Em _]]]]] := f_measure_ok H1 H2 H3 nE' LA b_pos HLb U0' HX Su0 Sd0.
  move: (Em). rewrite f_measure_samples_snoc Exs. cbn [obind f_measure_samples].
  rewrite [sa_junk _]/= [sa_sign _]/= [sa_up _]/= [sa_dn _]/=.
  case: (f_accumulate_unequal_time _ _ _ _ _ _ _ _) => [[[Hu1 Hd1] u1]|] //=. case=> E1 E2 E3.
  do 2 eexists. split; first reflexivity. split; first reflexivity. constructor => //=.
  exists (xs ++ [:: y]). split => //. by rewrite Em E1 E2 E3.
Qed.

Lemma f_run_loop m : (0 <= sp_nequil p + sp_nsampl p)%Z -> mc_consistent valid MI n L b k st m -> mc_meas m = m0 ->
  exists r r', for_range 0 (sp_nequil p + sp_nsampl p) (fun it => may_hang (fsim_iteration rng la junk ijunk p k st it)) (Some (mk_sim m Hu0 Hd0 u0)) = Some r /\
    chain rng n W L p order (mc_seed m) (mc_s m) = Some r' /\
    match r, r' with
    | None, None => True
    | Some x', Some h' => frun_inv h' x'
    | _, _ => False
    end.
Proof.
  move=> Hle Hm Em. rewrite /chain.
  have [||r [r' [E1 [E2 HR]]]] := @for_range_sim _ _ (fun _ o o' => match o, o' with None, None => True | Some x', Some h' => frun_inv h' x' | _, _ => False end)
    0%Z (sp_nequil p + sp_nsampl p)%Z (fun it => may_hang (fsim_iteration rng la junk ijunk p k st it))
    (fun it => may_hang (chain_iteration rng n W L p order it)) (Some (mk_sim m Hu0 Hd0 u0)) (Some (mc_seed m, mc_s m, [::], [::])) Hle.
  - move=> it [x|] [h|] // Hit; last by move=> _; exists None, None.
    move=> Hx. apply: f_iteration_inv => //. lia.
  - constructor => //=; last by exists [::].
    exists [::]. split; first by constructor. by rewrite /measure_list /= Em.
  exists r, r'. by split.
Qed.

(** * Results *)
Notation eq_mean := (eq_mean n L k st).
Notation un_mean := (un_mean n L k st).

Lemma f_eq_results eq d : recorded f_accumulate n L k st eq m0 d -> m_sign m0 = R0 -> m_nsampl m0 = 0%Z -> eq <> [::] ->
  exists m, f_normalize d = Some m /\ m_nsampl m = Zn (List.length eq) /\
    m_sign m = list_mean (fun x => sgn (W (snd x))) eq /\
    (m_Norb m = Norb /\ m_Ncell m = (Nx * Ny)%Z /\ forall f, Z.of_nat (List.length (m_arr m f)) = fmfield_len Norb (Nx * Ny) f) /\
    forall f idx F, (0 <= idx < fmfield_len Norb (Nx * Ny) f)%Z ->
      (forall x g, greens_pair n L k st x g -> finc Norb Nx Ny (fst g) (snd g) f idx = Rmult (sgn (W (snd x))) (F (state_at n L k st x))) ->
      val (m_arr m f) idx = eq_mean eq F.
Proof.
  move=> [gs [HF Eg]] S0 N0 Hne. case: (WF) => H1 [H2 [H3 _]].
  have Hlen : List.length gs = List.length eq by exact: Forall2_len HF.
  have HG : forall g, In g gs -> good Norb Nx Ny (fst g) /\ good Norb Nx Ny (snd g).
  { move=> g Hg. have [x Hx] : exists x, greens_pair n L k st x g.
    { clear -HF Hg. elim: HF Hg => [//|x y xs ys Hxy _ IH] /= [<-|Hi]; [by exists x|exact: IH]. }
    rewrite /good /lenZ -nE'. exact: pair_dims Hx. }
  have [d' [Ed [Md [Sd Nd]]]] := f_accumulate_all_ok Norb Nx Ny H1 H2 H3 gs m0 _ HG M0.
  have {Ed} Ed' : d' = d by move: Eg; rewrite /measure_list -/(f_accumulate_all gs m0) Ed => -[].
  subst d'. rewrite N0 Z.add_0_l Hlen in Nd.
  have Hn0 : m_nsampl d <> 0%Z by rewrite Nd; case: (eq) Hne => //= *; lia.
  have [m [Em [Mm [Sm Nm]]]] := f_normalize_ok Norb Nx Ny H1 H2 H3 d _ Hn0 Md.
  exists m. split => //. split; first by rewrite Nm. split.
  - rewrite Sm Sd S0 Rplus_0_l Nd /list_mean INR_IZR_INZ. congr (Rdiv _ _).
    apply: lsum_Forall2 HF _ => x g Hx. exact: pair_sign Hx.
  - split; last first.
    { move=> f idx F Hi HI. change (val (m_arr m f)) with (SumsFacts.rat (m_arr m f)).
    rewrite (SumsFacts.arr_get (fo_arr _ _ _ _ _ Mm f) Hi) Rplus_0_l Nd /SimulationSpec.eq_mean /list_mean INR_IZR_INZ. congr (Rdiv _ _).
    exact: lsum_Forall2 HF HI. }
    case: Mm => E1 E2 _ A. split=> //. split=> // f. exact: proj1 (A f).
Qed.

Lemma f_un_results un Hu Hd d : (exists xs, List.Forall2 sample_at un xs /\ f_measure_samples la xs Hu0 Hd0 u0 = Some (Hu, Hd, d)) ->
  (0 < sp_nuneqlt p)%Z -> u_sign u0 = R0 -> u_nsampl u0 = 0%Z -> un <> [::] ->
  exists u, fu_normalize d = Some u /\ u_nsampl u = Zn (List.length un) /\
    u_sign u = list_mean (fun s => sgn (W s)) un /\
    forall f idx l F, (l < L)%N -> (0 <= idx < fufield_len Norb (Nx * Ny) (sp_L p) f)%Z -> existsb (ufield_eqb f) [:: Jcorr_x; Jcorr_y] = false ->
      (forall c s, agree (Zn n) (uconfig (Zn n) (sp_L p) (Zn l) c) (states_at n L k st l s) ->
         fuinc Norb Nx Ny (sp_L p) (sgn (W s)) c f idx = Rmult (sgn (W s)) (F (states_at n L k st l s))) ->
      val (u_arr u f) idx = un_mean un l F.
Proof.
  move=> [xs [HF Ex]] Hp S0 N0 Hne. case: (WF) => H1 [H2 [H3 _]].
  have HLb : (2 * b <= L)%N by apply/leP; move: (HUneq Hp); rewrite -bZ -LZ -multE; lia.
  have U0' := U0. rewrite -LZ in U0'.
  have HX : List.Forall (fun x => exists Mu Md : nat -> 'M[R]_n, sample_of L b Mu Md x) xs.
  { clear -HF. elim: HF => [|s z ss zs [_ H] _ IH]; constructor => //. by eexists; eexists; exact: H. }
  have [Hu' [Hd' [u' [cs [Em [_ [_ [HM [HC EA]]]]]]]]] := f_measure_ok H1 H2 H3 nE' LA b_pos HLb U0' HX Su0 Sd0.
  move: Em. rewrite Ex => -[_ _ Eu]. subst u'.
  have HLz : (0 < Zn L)%Z by have := L_pos; move/ltP; lia.
  have [d' [Ed [Md [Sd Nd]]]] := fu_accumulate_all_ok Norb Nx Ny (Zn L) H1 H2 H3 HLz cs u0 _ HC U0'.
  move: Ed. rewrite EA => -[Ed]. subst d'.
  have HJ : List.Forall2 (fun s c => fst c = sgn (W s) /\ greens_match L (steps_of n k st s up) (steps_of n k st s dn) (snd c)) un cs.
  { clear -HF HM. elim: HF cs HM => [|s x ss xs' [[_ [_ E1]] E2] _ IH] cs HM; inversion HM as [|x1 c1 xs1 cs1 [F1 F2] F3]; subst; constructor.
    - split; first by rewrite F1. exact: F2.
    - exact: IH. }
  have Hlen : List.length cs = List.length un by exact: Forall2_len HJ.
  rewrite N0 Z.add_0_l Hlen in Nd.
  have Hn0 : u_nsampl d <> 0%Z by rewrite Nd; case: (un) Hne => //= *; lia.
  have [u [Eu [Mu [Su Nu]]]] := fu_normalize_ok Norb Nx Ny (Zn L) H1 H2 H3 HLz d _ Hn0 Md.
  exists u. split => //. split; first by rewrite Nu. split.
  - rewrite Su Sd S0 Rplus_0_l Nd /list_mean INR_IZR_INZ. congr (Rdiv _ _).
    by apply: lsum_Forall2 HJ _ => s c [].
  - move=> f idx l F Hl Hi HfJ HI. change (val (u_arr u f)) with (SumsFacts.rat (u_arr u f)). rewrite -LZ in Hi.
    rewrite (SumsFacts.arr_get (fuo_arr _ _ _ _ _ _ Mu f) Hi). cbv beta. rewrite HfJ. rewrite Rplus_0_l Nd /SimulationSpec.un_mean /list_mean INR_IZR_INZ. congr (Rdiv _ _).
    apply: lsum_Forall2 HJ _ => s c [-> Hc]. rewrite LZ. apply: HI. rewrite -LZ. split.
    { rewrite /=. apply/idP/idP => H; [move/Z.eqb_eq: H => H; apply/eqP; lia|move/eqP: H => ->; by []]. }
    move=> sp i j Hi' Hj'. have [i' ->] := ord_of Hi'. have [j' ->] := ord_of Hj'.
    have [-> [-> [-> ->]]] := Hc l i' j' Hl sp.
    by case: sp; (split; [|split; [|split]]); symmetry; exact: entry_ofE.
Qed.

Lemma f_eq_all eq d : recorded f_accumulate n L k st eq m0 d -> m_sign m0 = R0 -> m_nsampl m0 = 0%Z -> eq <> [::] ->
  exists m, f_normalize d = Some m /\ m_nsampl m = Zn (List.length eq) /\
    m_sign m = list_mean (fun x => sgn (W (snd x))) eq /\ site_results p (eq_mean eq) m.
Proof.
  move=> HR S0 N0 Hne. have [m [E [En [Es [HSh HV]]]]] := f_eq_results HR S0 N0 Hne. exists m. do 3 split => //.
  case: (WF) => H1 [H2 [H3 _]].
  have RS' : forall i o, (0 <= i < Nx * Ny)%Z -> (0 <= o < Norb)%Z -> (0 <= site (Nx * Ny) i o < Zn n)%Z.
  { move=> i o Hi Ho. rewrite nE'. exact: MeasureFacts.site_range. }
  have RT : forall a c, (0 <= cell_step Nx Ny 0 a c < Nx * Ny)%Z by move=> a c; exact: MeasureFacts.step_range.
  have RM : forall i j, (0 <= i < Zn n)%Z -> (0 <= j < Zn n)%Z -> (0 <= i + Zn n * j < Zn n * Zn n)%Z by move=> i j ? ?; nia.
  constructor; first exact: HSh.
  - move=> f i j Hf Hi Hj. rewrite -nE' in Hi Hj *. apply: HV.
    + have R := RM i j Hi Hj. rewrite nE' in R |- *.
      by repeat (destruct Hf as [<-|Hf]; [exact R|]).
    + move=> x g Hx. rewrite /pair_pos nE' finc_two_point //; try by rewrite -nE'. rewrite (pair_sign KO SO Hx). congr (Rmult _ _).
      rewrite -nE'. exact: (agree_two_point _ _ _ (pair_agree Hx)).
  - move=> i Hi. rewrite -nE' in Hi.
    split; [|split]; (apply: HV; first by rewrite /= -nE'); move=> x g Hx; have [Q1 [Q2 Q3]] := finc_density Norb Nx Ny (fst g) (snd g) i;
      rewrite ?Q1 ?Q2 ?Q3 (pair_sign KO SO Hx); congr (Rmult _ _); rewrite -nE'.
    + exact: (agree_number _ _ _ (pair_agree Hx)).
    + exact: (agree_number _ _ _ (pair_agree Hx)).
    + exact: (agree_doubleocc _ _ _ (pair_agree Hx)).
  - move=> i j Hi Hj. rewrite -nE' in Hi Hj *. split.
    + apply: (HV grfun_u _ (fun w => g00 w up i j)); first by rewrite /= -nE'; exact: RM.
      move=> x g Hx. have [-> _] := finc_grfun Norb Nx Ny (fst g) (snd g) (i + Zn n * j). rewrite (pair_sign KO SO Hx). congr (Rmult _ _).
      by have [_ [E00 _]] := proj2 (pair_agree Hx) up i j Hi Hj.
    + apply: (HV grfun_d _ (fun w => g00 w dn i j)); first by rewrite /= -nE'; exact: RM.
      move=> x g Hx. have [_ ->] := finc_grfun Norb Nx Ny (fst g) (snd g) (i + Zn n * j). rewrite (pair_sign KO SO Hx). congr (Rmult _ _).
      by have [_ [E00 _]] := proj2 (pair_agree Hx) dn i j Hi Hj.
  - move=> f o i j Hmod Hf Ho Hi Hj. apply: HV.
    + have R := cells_range Norb Nx Ny H2 H3 o i j Ho Hi Hj.
      by repeat (destruct Hf as [<-|Hf]; [exact R|]).
    + move=> x g Hx. rewrite /cells_pos finc_pair // (pair_sign KO SO Hx). congr (Rmult _ _).
      rewrite !(shift_shape WF) //.
      rewrite -nE'. apply: (agree_pair_shape _ _ _ (pair_agree Hx)) => //; try (move=> *; apply: RS' => //); exact: RS'.
Qed.

Lemma f_un_all un Hu Hd d : (exists xs, List.Forall2 sample_at un xs /\ f_measure_samples la xs Hu0 Hd0 u0 = Some (Hu, Hd, d)) ->
  (0 < sp_nuneqlt p)%Z -> u_sign u0 = R0 -> u_nsampl u0 = 0%Z -> un <> [::] ->
  exists u, fu_normalize d = Some u /\ u_nsampl u = Zn (List.length un) /\
    u_sign u = list_mean (fun s => sgn (W s)) un /\ site_unequal_results p (un_mean un) u.
Proof.
  move=> HR Hp S0 N0 Hne. have [u [E [En [Es HV]]]] := f_un_results HR Hp S0 N0 Hne. exists u. do 3 split => //.
  case: (WF) => H1 [H2 [H3 _]].
  have HLz : (0 < sp_L p)%Z by exact: v_L VP.
  have RS' : forall i o, (0 <= i < Nx * Ny)%Z -> (0 <= o < Norb)%Z -> (0 <= site (Nx * Ny) i o < Zn n)%Z.
  { move=> i o Hi Ho. rewrite nE'. exact: MeasureFacts.site_range. }
  have RT : forall a c, (0 <= cell_step Nx Ny 0 a c < Nx * Ny)%Z by move=> a c; exact: MeasureFacts.step_range.
  constructor.
  - move=> f l i j Hf Hl Hi Hj. apply: HV.
    + apply/ltP. rewrite /L. lia.
    + exact: (upair_range Norb Nx Ny H1 H2 H3 (sp_L p) HLz f l i j Hf Hl Hi Hj).
    + by repeat (destruct Hf as [<-|Hf]; [reflexivity|]).
    + move=> c s. rewrite Z2Nat.id; last lia. move=> HA. rewrite fuinc_two_point //. congr (Rmult _ _).
      rewrite -nE' in Hi Hj *. exact: (agree_u_two_point _ _ _ HA).
  - move=> f l o i j Hmod Hf Hnb Hl Ho Hi Hj. apply: HV.
    + apply/ltP. rewrite /L. lia.
    + exact: (ucells_range Norb Nx Ny H1 H2 H3 (sp_L p) HLz f l o i j Hf Hl Ho Hi Hj).
    + by repeat (destruct Hf as [<-|Hf]; [reflexivity|]).
    + move=> c s. rewrite Z2Nat.id; last lia. move=> HA. rewrite /ucells_pos fuinc_bond //. congr (Rmult _ _).
      have EB : UMeasureFacts.ubond_code f (uconfig (Nx * Ny * Norb) (sp_L p) l c) (site (Nx * Ny) i o)
        (site (Nx * Ny) j o) (fun d => site (Nx * Ny) (cell_step Nx Ny 0 d i) o)
        (fun d => site (Nx * Ny) (cell_step Nx Ny 0 d j) o) =
        u_bond f (uconfig (Nx * Ny * Norb) (sp_L p) l c) (site (Nx * Ny) i o)
        (site (Nx * Ny) j o) (fun d => site (Nx * Ny) (cell_step Nx Ny 0 d i) o)
        (fun d => site (Nx * Ny) (cell_step Nx Ny 0 d j) o).
      { clear -H2 H3 Hl Hi Hj Hnb. case: (ufield_eq_dec f ram_b1g) => Ef; last by case: (f) Ef.
        rewrite Ef. exact (fu_b1g Norb Nx Ny (sp_L p) H2 H3 c l o i j Hl Hi Hj (Hnb Ef)). }
      rewrite EB.
      rewrite -nE' (agree_u_bond _ _ _ HA) //; try (move=> *; apply: RS' => //); try exact: RS'.
      apply: u_bond_ext => d1; by rewrite (shift_steps WF).
Qed.

Lemma f_eq_code eq d m : recorded f_accumulate n L k st eq m0 d -> m_sign m0 = R0 -> m_nsampl m0 = 0%Z -> eq <> [::] ->
  f_normalize d = Some m -> eq_site_code p (eq_mean eq) m.
Proof.
  move=> HR S0 N0 Hne Em. have [m' [E' [_ [_ [_ HV]]]]] := f_eq_results HR S0 N0 Hne. move: E'. rewrite Em => -[?]. subst m'.
  case: (WF) => H1 [H2 [H3 _]].
  have RS' : forall i o, (0 <= i < Nx * Ny)%Z -> (0 <= o < Norb)%Z -> (0 <= site (Nx * Ny) i o < Zn n)%Z.
  { move=> i o Hi Ho. rewrite nE'. exact: MeasureFacts.site_range. }
  have RT : forall a c, (0 <= cell_step Nx Ny 0 a c < Nx * Ny)%Z by move=> a c; exact: MeasureFacts.step_range.
  move=> f o i j Hf Ho Hi Hj. apply: HV.
  - have R := cells_range Norb Nx Ny H2 H3 o i j Ho Hi Hj.
    by repeat (destruct Hf as [<-|Hf]; [exact R|]).
  - move=> x g Hx. rewrite /cells_pos finc_pair // (pair_sign KO SO Hx). congr (Rmult _ _).
    rewrite -nE'. apply: (agree_pair_shape _ _ _ (pair_agree Hx)) => //; try (move=> *; apply: RS' => //); exact: RS'.
Qed.

Lemma f_un_code un Hu Hd d u : (exists xs, List.Forall2 sample_at un xs /\ f_measure_samples la xs Hu0 Hd0 u0 = Some (Hu, Hd, d)) ->
  (0 < sp_nuneqlt p)%Z -> u_sign u0 = R0 -> u_nsampl u0 = 0%Z -> un <> [::] -> fu_normalize d = Some u -> un_site_code p (un_mean un) u.
Proof.
  move=> HR Hp S0 N0 Hne Eu. have [u' [E' [_ [_ HV]]]] := f_un_results HR Hp S0 N0 Hne. move: E'. rewrite Eu => -[?]. subst u'.
  case: (WF) => H1 [H2 [H3 _]].
  have HLz : (0 < sp_L p)%Z by exact: v_L VP.
  have RS' : forall i o, (0 <= i < Nx * Ny)%Z -> (0 <= o < Norb)%Z -> (0 <= site (Nx * Ny) i o < Zn n)%Z.
  { move=> i o Hi Ho. rewrite nE'. exact: MeasureFacts.site_range. }
  have RT : forall a c, (0 <= cell_step Nx Ny 0 a c < Nx * Ny)%Z by move=> a c; exact: MeasureFacts.step_range.
  move=> f l o i j Hf Hl Ho Hi Hj. apply: HV.
  - apply/ltP. rewrite /L. lia.
  - exact: (ucells_range Norb Nx Ny H1 H2 H3 (sp_L p) HLz f l o i j Hf Hl Ho Hi Hj).
  - by repeat (destruct Hf as [<-|Hf]; [reflexivity|]).
  - move=> c s. rewrite Z2Nat.id; last lia. move=> HA. rewrite /ucells_pos fuinc_bond //. congr (Rmult _ _).
    rewrite -nE'. apply: (agree_ubond_code _ _ _ HA); try (move=> *; apply: RS' => //); exact: RS'.
Qed.
End Run.
