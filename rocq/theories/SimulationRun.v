(** Proofs about complete simulations: what the measured data contain. *)
From Coq Require Import ZArith List Reals Lia Lra.
From mathcomp Require Import all_ssreflect ssralg matrix.
From Verif Require Import Base BaseFacts RField BlasFacts MatSpec MatFacts TimeStep TimeStepSpec TimeStepFacts Strat StratSpec StratFacts GreenSpec GreenFacts
  Lapack LapackSpec GreenConstruct SimParams ParamParser ParamSpec KineticSpec KineticExp KineticExpSpec KineticExpFacts RandSource Sweep SweepSpec SweepFacts
  WickSpec Measure MeasureSpec MeasureSeqFacts UMeasure UMeasureSpec UMeasureSeqFacts UnequalTime UnequalTimeSpec UnequalTimeFacts
  ConfigFacts Simulation SimulationSpec SimulationFacts.
Set Implicit Arguments.
Unset Strict Implicit.
Unset Printing Implicit Defensive.
Local Open Scope ring_scope.
Import GRing.Theory.

Lemma entry_ofE n (A : 'M[R]_n) (i j : 'I_n) : entry_of A (Zn i) (Zn j) = A i j.
Proof. by rewrite /entry_of !Nat2Z.id !valK. Qed.

Lemma ord_of n i : (0 <= i < Zn n)%Z -> exists i' : 'I_n, i = Zn i'.
Proof. move=> Hi. have H : (Z.to_nat i < n)%N by apply/ltP; lia. exists (Ordinal H) => /=. lia. Qed.

Lemma sgn_det (du dd e1 e2 : R) (su sd : Z) : su = 1%Z \/ su = (-1)%Z -> sd = 1%Z \/ sd = (-1)%Z ->
  (0 < e1)%coqR -> (0 < e2)%coqR -> (IZR su * e1 * du = 1)%coqR -> (IZR sd * e2 * dd = 1)%coqR ->
  IZR (su * sd) = sgn (du * dd)%coqR.
Proof.
  move=> Hu Hd H1 H2 E1 E2.
  have P : forall s e d, s = 1%Z \/ s = (-1)%Z -> (0 < e)%coqR -> (IZR s * e * d = 1)%coqR -> (0 < IZR s * d)%coqR.
  { move=> s e d Hs He E. have Hi := Rinv_0_lt_compat _ He. have -> : (IZR s * d = / e)%coqR; last by [].
    have He0 : e <> R0 by lra. apply: (Rmult_eq_reg_l e) => //. rewrite Rinv_r //. rewrite -E. ring. }
  have Pu := P _ _ _ Hu H1 E1. have Pd := P _ _ _ Hd H2 E2.
  have PP := Rmult_lt_0_compat _ _ Pu Pd.
  have {PP} PP : (0 < IZR (su * sd) * (du * dd))%coqR by rewrite mult_IZR; lra.
  rewrite /sgn. have Hs : (su * sd = 1)%Z \/ (su * sd = -1)%Z by lia.
  case: Hs PP => -> PP; case: Rlt_dec => H //; exfalso; lra.
Qed.

Section Pairs.
Variables (n L : nat) (k : kinetic) (st : strat).
Hypotheses (KO : kinetic_ok n k) (SO : strat_ok (k_Norb k) st).

Lemma green_entries (A : 'M[R]_n) G : green_of A G -> mat n (gf_mat G) = invmx (1%:M + A).
Proof. case=> _ _ H _ _. exact: inv_unique. Qed.

Lemma pair_sign x g : greens_pair n L k st x g -> sign_of (fst g) (snd g) = sgn (weight n L k st (snd x)).
Proof.
  case: x g => l s [Gu Gd] [/= Hf [Hl [H1 H2]]].
  have Hu : forall j, (j < L)%N -> step_mx n k (expVu st) s j \in unitmx by move=> j; apply: (step_unit KO (so_u SO) Hf).
  have Hd : forall j, (j < L)%N -> step_mx n k (expVd st) s j \in unitmx by move=> j; apply: (step_unit KO (so_d SO) Hf).
  have D1 := green_det H1. have D2 := green_det H2. rewrite det_cyclic // in D1. rewrite det_cyclic // in D2.
  case: H1 D1 => _ _ _ S1 <- D1. case: H2 D2 => _ _ _ S2 <- D2.
  apply: (sgn_det S1 S2 (exp_pos _) (exp_pos _)); [exact: D1|exact: D2].
Qed.

Lemma pair_weight x g : greens_pair n L k st x g -> weight n L k st (snd x) <> 0.
Proof.
  case: x g => l s [Gu Gd] [/= Hf [Hl [H1 H2]]].
  have Hu : forall j, (j < L)%N -> step_mx n k (expVu st) s j \in unitmx by move=> j; apply: (step_unit KO (so_u SO) Hf).
  have Hd : forall j, (j < L)%N -> step_mx n k (expVd st) s j \in unitmx by move=> j; apply: (step_unit KO (so_d SO) Hf).
  have D1 := green_nz H1. have D2 := green_nz H2. rewrite det_cyclic // in D1. rewrite det_cyclic // in D2.
  rewrite /weight => /eqP. rewrite mulf_eq0 => /orP [/eqP|/eqP]; [exact: D1|exact: D2].
Qed.

Lemma recorded_ok MT (measure : greens_func -> greens_func -> MT -> option MT) eq d d' : recorded measure n L k st eq d d' ->
  List.Forall (fun x => (fst x <= L)%N /\ field_ok n L (snd x) /\ weight n L k st (snd x) <> 0) eq.
Proof.
  case=> gs [HF _]. elim: HF => [|x g xs ys H _ IH]; constructor => //.
  have Hw := pair_weight H. case: H => Hf [Hl _]. by [].
Qed.

Lemma pair_agree x g : greens_pair n L k st x g ->
  agree (Zn n) (equal_time (greens_of (Zn n) (fst g) (snd g))) (state_at n L k st x).
Proof.
  case: x g => l s [Gu Gd] [/= Hf [Hl [H1 H2]]]. split => // sp i j Hi Hj.
  suff E : greens_of (Zn n) Gu Gd sp i j = entry_of (green_eqlt (steps_of n k st s sp) L l) i j by [].
  have [i' ->] := ord_of Hi. have [j' ->] := ord_of Hj. rewrite entry_ofE /greens_of /val /green_eqlt.
  have -> : Z.to_nat (Zn i' + Zn n * Zn j') = (i' + j' * n)%N by rewrite -plusE -multE; lia.
  case: sp; [rewrite -(green_entries H1)|rewrite -(green_entries H2)]; by rewrite mxE nthE.
Qed.

Lemma pair_dims x g : greens_pair n L k st x g -> Zn (List.length (gf_mat (fst g))) = (Zn n * Zn n)%Z /\ Zn (List.length (gf_mat (snd g))) = (Zn n * Zn n)%Z.
Proof. by case=> _ [_ [[_ H1 _ _ _] [_ H2 _ _ _]]]; rewrite H1 H2 -multE; lia. Qed.
End Pairs.

(** * Samples of the unequal time measurements *)
Lemma measure_samples_snoc la xs x : forall Hu Hd u, measure_samples la (xs ++ [:: x]) Hu Hd u =
  obind (measure_samples la xs Hu Hd u) (fun '(Hu, Hd, u) => measure_samples la [:: x] Hu Hd u).
Proof.
  elim: xs => [|y xs IH] Hu Hd u //=. case: (accumulate_unequal_time _ _ _ _ _ _ _ _) => [[[Hu1 Hd1] u1]|] //=.
Qed.

Lemma lset_app A (pre : list A) y rest v : lset (pre ++ y :: rest) (List.length pre) v = pre ++ v :: rest.
Proof. elim: pre => [//|a pre IH] /=. by rewrite IH. Qed.

Lemma random_fieldE RS (rng : rand_source RS) valid ijunk len : rand_ok rng valid -> forall seed, valid seed ->
  exists s seed', random_field rng len seed = Some (s, seed') /\ valid seed' /\ List.length s = len /\
    List.Forall (fun v => v = 0%Z \/ v = 1%Z) s /\ initial_field rng ijunk (Zn len) seed = Some (s, seed').
Proof.
  move=> RO seed Hv.
  have G : forall len seed, valid seed -> exists s seed', random_field rng len seed = Some (s, seed') /\ valid seed' /\ List.length s = len /\
    List.Forall (fun v => v = 0%Z \/ v = 1%Z) s /\
    forall pre rest, List.length rest = len ->
      for_from len (Zn (List.length pre)) (fun i '(s, seed) =>
        obind (r_uniform rng seed) (fun '(u, seed) =>
        obind (aset s i (match Rlt_dec u 0.5%coqR with left _ => 0 | right _ => 1 end)%Z) (fun s => Some (s, seed)))) (pre ++ rest, seed) = Some (pre ++ s, seed').
  { clear -RO. elim=> [|len IH] seed Hv.
    - exists [::], seed. do 4 split => //. by move=> pre [|].
    - have [u [seed1 [E [_ [_ V1]]]]] := ro_uniform RO Hv.
      have [s [seed2 [E2 [V2 [Hl [Hf Hg]]]]]] := IH seed1 V1.
      exists ((if Rlt_dec u (Rdiv 1 2) then 0%Z else 1%Z) :: s), seed2. rewrite /= E /= E2 /=. split => //. split => //.
      split; first by rewrite Hl. split.
      { apply: List.Forall_cons => //. by case: Rlt_dec; [left|right]. }
      move=> pre [|y rest] //= [Hr].
      have HA := @aset_ok _ (pre ++ y :: rest) (Zn (List.length pre)) (match Rlt_dec u 0.5%coqR with left _ => 0 | right _ => 1 end)%Z.
      rewrite HA; last by rewrite app_length /=; lia.
      rewrite Nat2Z.id lset_app. cbn [obind].
      have := Hg (pre ++ [:: if Rlt_dec u (Rdiv 1 2) then 0%Z else 1%Z]) rest Hr.
      rewrite app_length -!catA /=.
      have -> : Zn (List.length pre + 1)%coq_nat = (Zn (List.length pre) + 1)%Z by lia.
      have -> : (match Rlt_dec u 0.5%coqR with left _ => 0 | right _ => 1 end)%Z = (if Rlt_dec u (Rdiv 1 2) then 0%Z else 1%Z); last by [].
      case: (Rlt_dec u 0.5%coqR) => A; case: (Rlt_dec u (Rdiv 1 2)) => B //; lra. }
  have [s [seed' [E [V [Hl [Hf Hg]]]]]] := G len seed Hv. exists s, seed'. do 4 split => //.
  rewrite /initial_field /for_range Z.sub_0_r Nat2Z.id. apply: (Hg [::]).
  by rewrite /raw_ints !map_length seq_length Nat2Z.id.
Qed.

(** * The whole run *)
Section Run.
Context {RS : Type}.
Variables (rng : rand_source RS) (valid : RS -> Prop).
Hypothesis RO : rand_ok rng valid.
Variables (la : lapack) (LA : lapack_ok la) (SC : syev_converges la) (junk : Z -> R) (ijunk : Z -> Z).
Variables (p : sim_params) (WF : well_formed p) (VP : valid_params p).
Hypothesis HUneq : (0 < sp_nuneqlt p)%Z -> (2 * sp_prodBlen p <= sp_L p)%Z.
Variables (k : kinetic) (st : strat).
Let n := sites p.
Let L := Z.to_nat (sp_L p).
Let b := Z.to_nat (sp_prodBlen p).
Let nw := Z.to_nat (sp_nwraps p).
Hypotheses (KO : kinetic_ok n k) (SO : strat_ok (k_Norb k) st).

Notation Norb := (sp_Norb p).
Notation Nx := (sp_Nx p).
Notation Ny := (sp_Ny p).
Notation sh := (sp_pbc_shift p).
Notation W := (weight n L k st).
Let MI (m : meas) := exists g, meas_ok Norb Nx Ny sh m g.
Let order := raw_ints ijunk (Zn n).

Lemma nE : Zn n = (Norb * (Nx * Ny))%Z.
Proof. rewrite /n /sites Z2Nat.id //. case: WF => ? [? [? _]]. nia. Qed.
Lemma nE' : Zn n = (Nx * Ny * Norb)%Z.
Proof. rewrite nE. lia. Qed.
Lemma n_pos : (0 < n)%N.
Proof. have := nE. case: WF => ? [? [? _]] ?. apply/ltP. nia. Qed.
Lemma nw_pos : (0 < nw)%N.
Proof. rewrite /nw. have := v_nwraps _ VP. move=> ?; apply/ltP; lia. Qed.
Lemma b_pos : (0 < b)%N.
Proof. rewrite /b. have := v_prodBlen _ VP. move=> ?; apply/ltP; lia. Qed.
Lemma L_pos : (0 < L)%N.
Proof. rewrite /L. have := v_L _ VP. move=> ?; apply/ltP; lia. Qed.
Lemma dvd_nat x y : (0 < x)%Z -> (0 < y)%Z -> (x | y)%Z -> (Z.to_nat x %| Z.to_nat y)%N.
Proof.
  move=> Hx Hy [q Hq]. apply/dvdnP. exists (Z.to_nat q). rewrite -multE Hq Z2Nat.inj_mul //; nia.
Qed.
Lemma b_nw : (b %| nw)%N.
Proof. apply: dvd_nat; [exact: v_prodBlen _ VP|exact: v_nwraps _ VP|exact: v_nwraps_mult _ VP]. Qed.
Lemma b_L : (b %| L)%N.
Proof. apply: dvd_nat; [exact: v_prodBlen _ VP|exact: v_L _ VP|exact: v_L_mult _ VP]. Qed.

Lemma accumulate_measure_ok : SweepSpec.measure_ok n accumulate MI.
Proof.
  move=> Au Ad Gu Gd d [_ L1 _ _ _] [_ L2 _ _ _] [g Hg]. case: (WF) => H1 [H2 [H3 _]].
  have D : forall G, List.length (gf_mat G) = (n * n)%N -> good Norb Nx Ny G.
  { move=> G HG. rewrite /good /lenZ HG -nE' -multE. lia. }
  have [m' [E [Hm' _]]] := accumulate_ok Norb Nx Ny sh H1 H2 H3 Gu Gd d g (D _ L1) (D _ L2) Hg.
  exists m'. split => //. by eexists; exact: Hm'.
Qed.

(** a sample of the unequal time measurements belongs to the field [s] *)
Definition sample_at (s : list Z) (x : sample) : Prop :=
  (field_ok n L s /\ W s <> 0 /\ sa_sign x = sgn (W s)) /\ sample_of L b (steps_of n k st s up) (steps_of n k st s dn) x.

Variables (m0 : meas) (u0 : umeas) (Hu0 Hd0 : list R).
Hypotheses (M0 : meas_ok Norb Nx Ny sh m0 (fun _ _ => R0)) (U0 : umeas_ok Norb Nx Ny sh (sp_L p) u0 (fun _ _ => R0)).
Hypotheses (Su0 : square (n * (L %/ b)) Hu0) (Sd0 : square (n * (L %/ b)) Hd0).

Record run_inv (h : history) (x : simstate (RS := RS)) : Prop := {
  ri_seed : fst (fst (fst h)) = mc_seed (sm_mc x);
  ri_s : snd (fst (fst h)) = mc_s (sm_mc x);
  ri_mc : mc_consistent valid MI n L b k st (sm_mc x);
  ri_eq : recorded accumulate n L k st (snd (fst h)) m0 (mc_meas (sm_mc x));
  ri_un : exists xs, List.Forall2 sample_at (snd h) xs /\
     measure_samples la xs Hu0 Hd0 u0 = Some (sm_Hu x, sm_Hd x, sm_un x) }.

Lemma LZ : Zn L = sp_L p. Proof. rewrite /L. have := v_L _ VP. lia. Qed.
Lemma bZ : Zn b = sp_prodBlen p. Proof. rewrite /b. have := v_prodBlen _ VP. lia. Qed.
Lemma nwZ : Zn nw = sp_nwraps p. Proof. rewrite /nw. have := v_nwraps _ VP. lia. Qed.

Lemma consistent_sample m : mc_consistent valid MI n L b k st m ->
  sample_at (mc_s m) (mk_sample junk (IZR (gf_sgndet (mc_Gu m) * gf_sgndet (mc_Gd m))) (mc_tu m) (mc_td m)).
Proof.
  case=> H1 H2 H3 H4 H5 H6 H7 H8. split.
  - split => //. have HP : greens_pair n L k st (0%N, mc_s m) (mc_Gu m, mc_Gd m) by split.
    split; [exact: (pair_weight KO SO HP)|exact: (pair_sign KO SO HP)].
  - have N1 := green_nz H6. have N2 := green_nz H7.
    rewrite /cyclic_flow oprod0 mul1mx subn0 in N1. rewrite /cyclic_flow oprod0 mul1mx subn0 in N2.
    split => //. split => //. split; rewrite unitmxE unitfE; exact/eqP.
Qed.

Lemma iteration_inv it h x : (0 <= it)%Z -> run_inv h x ->
  exists r r', sim_iteration rng la junk ijunk p k st it x = Some r /\
    chain_iteration rng n W L p order it h = Some r' /\
    match r, r' with
    | None, None => True
    | Some x', Some h' => run_inv h' x'
    | _, _ => False
    end.
Proof.
  case: h => [[[seed s] eq] un] Hit [/= -> -> Hmc Heq [xs [Hxs Exs]]]. rewrite /sim_iteration /chain_iteration.
  have EN : ts_N (mc_tu (sm_mc x)) = Zn n by case: (mcc_tu Hmc) => [[]].
  rewrite EN -nwZ. set neqlt := (if _ then sp_neqlt p else 0%Z).
  have Hmc' : mc_consistent valid MI n L b k st (new_order ijunk (Zn n) (sm_mc x)).
  { case: Hmc => *; constructor => //=. by rewrite /raw_ints !map_length seq_length Nat2Z.id. }
  have [r [r' [-> [E2 HR]]]] := iteration_recorded RO LA junk n_pos KO SO accumulate_measure_ok neqlt nw_pos b_nw Hmc' Heq.
  cbn [obind]. have -> : chain_sweep rng n W L neqlt (mc_seed (sm_mc x), order, mc_s (sm_mc x), eq) = Some r' by exact: E2.
  cbn [obind]. case: r r' HR {E2} => [m|] [[[[seed1 o1] s1] eq1]|] //; last by exists None, None.
  case=> -[-> _ ->] [Hm Hr]. rewrite /measure_unequal /due_at.
  cbn [sm_mc sm_Hu sm_Hd sm_un].
  have Done : exists r r', Some (Some (mk_sim m (sm_Hu x) (sm_Hd x) (sm_un x))) = Some r /\ Some (Some (mc_seed m, mc_s m, eq1, un)) = Some r' /\
    match r, r' with None, None => True | Some x', Some h' => run_inv h' x' | _, _ => False end.
  { do 2 eexists. split; first reflexivity. split; first reflexivity. constructor => //=. by exists xs. }
  case: Z.leb_spec => Hq; cbn [andb]; last exact: Done.
  case: Z.ltb_spec => Hp; cbn [andb]; last exact: Done.
  rewrite /cmod. have -> : (sp_nuneqlt p =? 0)%Z = false by apply/Z.eqb_neq; lia.
  cbn [obind]. rewrite Z.rem_mod_nonneg; try lia.
  case: (_ =? 0)%Z; last exact: Done.
  set y := mk_sample junk (IZR (gf_sgndet (mc_Gu m) * gf_sgndet (mc_Gd m))) (mc_tu m) (mc_td m).
  have Hy : sample_at (mc_s m) y by exact: consistent_sample.
  have HF : List.Forall2 sample_at (un ++ [:: mc_s m]) (xs ++ [:: y]) by apply: Forall2_app => //; constructor.
  case: (WF) => H1 [H2 [H3 _]].
  have HLb : (2 * b <= L)%N by apply/leP; move: (HUneq Hp); rewrite -bZ -LZ -multE; lia.
  have U0' := U0. rewrite -LZ in U0'.
  have HX : Forall (fun x => exists Mu Md : nat -> 'M[R]_n, sample_of L b Mu Md x) (xs ++ [:: y]).
  { clear -HF. elim: HF => [|s z ss zs [_ H] _ IH]; constructor => //. by eexists; eexists; exact: H. }
  have [Hu' [Hd' [u' [cs [Em _]]]]] := measure_ok H1 H2 H3 nE' LA b_pos HLb U0' HX Su0 Sd0.
  move: (Em). rewrite measure_samples_snoc Exs. cbn [obind measure_samples].
  rewrite [sa_junk _]/= [sa_sign _]/= [sa_up _]/= [sa_dn _]/=.
  case: (accumulate_unequal_time _ _ _ _ _ _ _ _) => [[[Hu1 Hd1] u1]|] //=. case=> E1 E2 E3.
  do 2 eexists. split; first reflexivity. split; first reflexivity. constructor => //=.
  exists (xs ++ [:: y]). split => //. by rewrite Em E1 E2 E3.
Qed.

Lemma run_loop m : (0 <= sp_nequil p + sp_nsampl p)%Z -> mc_consistent valid MI n L b k st m -> mc_meas m = m0 ->
  exists r r', for_range 0 (sp_nequil p + sp_nsampl p) (fun it => may_hang (sim_iteration rng la junk ijunk p k st it)) (Some (mk_sim m Hu0 Hd0 u0)) = Some r /\
    chain rng n W L p order (mc_seed m) (mc_s m) = Some r' /\
    match r, r' with
    | None, None => True
    | Some x', Some h' => run_inv h' x'
    | _, _ => False
    end.
Proof.
  move=> Hle Hm Em. rewrite /chain.
  have [||r [r' [E1 [E2 HR]]]] := @for_range_sim _ _ (fun _ o o' => match o, o' with None, None => True | Some x', Some h' => run_inv h' x' | _, _ => False end)
    0%Z (sp_nequil p + sp_nsampl p)%Z (fun it => may_hang (sim_iteration rng la junk ijunk p k st it))
    (fun it => may_hang (chain_iteration rng n W L p order it)) (Some (mk_sim m Hu0 Hd0 u0)) (Some (mc_seed m, mc_s m, [::], [::])) Hle.
  - move=> it [x|] [h|] // Hit; last by move=> _; exists None, None.
    move=> Hx. apply: iteration_inv => //. lia.
  - constructor => //=; last by exists [::].
    exists [::]. split; first by constructor. by rewrite /measure_list /= Em.
  exists r, r'. by split.
Qed.

(** * Results *)
Lemma samples_ok un xs : List.Forall2 sample_at un xs -> List.Forall (fun s => field_ok n L s /\ W s <> 0) un.
Proof. by elim=> [|s x ss xs' [[H1 [H2 _]] _] _ IH]; constructor. Qed.

Lemma lsum_Forall2 A B (P : A -> B -> Prop) (F : B -> R) (G : A -> R) xs ys : List.Forall2 P xs ys ->
  (forall x y, P x y -> F y = G x) -> lsum F ys = lsum G xs.
Proof. move=> H HP. elim: H => [//|x y xs' ys' Hxy _ IH]. by rewrite /lsum /= (HP _ _ Hxy) -/(lsum F ys') -/(lsum G xs') IH. Qed.

Lemma Forall2_len A B (P : A -> B -> Prop) xs ys : List.Forall2 P xs ys -> List.length ys = List.length xs.
Proof. by elim=> //= x y xs' ys' _ _ ->. Qed.

Notation eq_mean := (eq_mean n L k st).
Notation un_mean := (un_mean n L k st).

Lemma eq_results eq d : recorded accumulate n L k st eq m0 d -> m_sign m0 = R0 -> m_nsampl m0 = 0%Z -> eq <> [::] ->
  exists m, normalize d = Some m /\ m_nsampl m = Zn (List.length eq) /\
    m_sign m = list_mean (fun x => sgn (W (snd x))) eq /\
    (m_Norb m = Norb /\ m_Ncell m = (Nx * Ny)%Z /\ forall f, Z.of_nat (List.length (m_arr m f)) = mfield_len Norb (Nx * Ny) f) /\
    forall f idx F, (0 <= idx < mfield_len Norb (Nx * Ny) f)%Z ->
      (forall x g, greens_pair n L k st x g -> inc Norb Nx Ny sh (fst g) (snd g) f idx = Rmult (sgn (W (snd x))) (F (state_at n L k st x))) ->
      val (m_arr m f) idx = eq_mean eq F.
Proof.
  move=> [gs [HF Eg]] S0 N0 Hne. case: (WF) => H1 [H2 [H3 _]].
  have Hlen : List.length gs = List.length eq by exact: Forall2_len HF.
  have HG : forall g, In g gs -> good Norb Nx Ny (fst g) /\ good Norb Nx Ny (snd g).
  { move=> g Hg. have [x Hx] : exists x, greens_pair n L k st x g.
    { clear -HF Hg. elim: HF Hg => [//|x y xs ys Hxy _ IH] /= [<-|Hi]; [by exists x|exact: IH]. }
    rewrite /good /lenZ -nE'. exact: pair_dims Hx. }
  have [d' [Ed [Md [Sd Nd]]]] := accumulate_all_ok Norb Nx Ny sh H1 H2 H3 gs m0 _ HG M0.
  have {Ed} Ed' : d' = d by move: Eg; rewrite /measure_list -/(accumulate_all gs m0) Ed => -[].
  subst d'. rewrite N0 Z.add_0_l Hlen in Nd.
  have Hn0 : m_nsampl d <> 0%Z by rewrite Nd; case: (eq) Hne => //= *; lia.
  have [m [Em [Mm [Sm Nm]]]] := normalize_ok Norb Nx Ny sh H1 H2 H3 d _ Hn0 Md.
  exists m. split => //. split; first by rewrite Nm. split.
  - rewrite Sm Sd S0 Rplus_0_l Nd /list_mean INR_IZR_INZ. congr (Rdiv _ _).
    apply: lsum_Forall2 HF _ => x g Hx. exact: pair_sign Hx.
  - split; last first.
    { move=> f idx F Hi HI. change (val (m_arr m f)) with (SumsFacts.rat (m_arr m f)).
    rewrite (SumsFacts.arr_get (mo_arr _ _ _ _ _ _ Mm f) Hi) Rplus_0_l Nd /SimulationSpec.eq_mean /list_mean INR_IZR_INZ. congr (Rdiv _ _).
    exact: lsum_Forall2 HF HI. }
    case: Mm => E1 E2 _ A. split=> //. split=> // f. exact: proj1 (A f).
Qed.

Lemma un_results un Hu Hd d : (exists xs, List.Forall2 sample_at un xs /\ measure_samples la xs Hu0 Hd0 u0 = Some (Hu, Hd, d)) ->
  (0 < sp_nuneqlt p)%Z -> u_sign u0 = R0 -> u_nsampl u0 = 0%Z -> un <> [::] ->
  exists u, unormalize d = Some u /\ u_nsampl u = Zn (List.length un) /\
    u_sign u = list_mean (fun s => sgn (W s)) un /\
    forall f idx l F, (l < L)%N -> (0 <= idx < ufield_len Norb (Nx * Ny) (sp_L p) f)%Z ->
      (forall c s, agree (Zn n) (uconfig (Zn n) (sp_L p) (Zn l) c) (states_at n L k st l s) ->
         uinc Norb Nx Ny sh (sp_L p) (sgn (W s)) c f idx = Rmult (sgn (W s)) (F (states_at n L k st l s))) ->
      val (u_arr u f) idx = un_mean un l F.
Proof.
  move=> [xs [HF Ex]] Hp S0 N0 Hne. case: (WF) => H1 [H2 [H3 _]].
  have HLb : (2 * b <= L)%N by apply/leP; move: (HUneq Hp); rewrite -bZ -LZ -multE; lia.
  have U0' := U0. rewrite -LZ in U0'.
  have HX : Forall (fun x => exists Mu Md : nat -> 'M[R]_n, sample_of L b Mu Md x) xs.
  { clear -HF. elim: HF => [|s z ss zs [_ H] _ IH]; constructor => //. by eexists; eexists; exact: H. }
  have [Hu' [Hd' [u' [cs [Em [_ [_ [HM [HC EA]]]]]]]]] := measure_ok H1 H2 H3 nE' LA b_pos HLb U0' HX Su0 Sd0.
  move: Em. rewrite Ex => -[_ _ Eu]. subst u'.
  have HLz : (0 < Zn L)%Z by have := L_pos; move/ltP; lia.
  have [d' [Ed [Md [Sd Nd]]]] := uaccumulate_all_ok Norb Nx Ny sh (Zn L) H1 H2 H3 HLz cs u0 _ HC U0'.
  move: Ed. rewrite EA => -[Ed]. subst d'.
  have HJ : List.Forall2 (fun s c => fst c = sgn (W s) /\ greens_match L (steps_of n k st s up) (steps_of n k st s dn) (snd c)) un cs.
  { clear -HF HM. elim: HF cs HM => [|s x ss xs' [[_ [_ E1]] E2] _ IH] cs HM; inversion HM as [|x1 c1 xs1 cs1 [F1 F2] F3]; subst; constructor.
    - split; first by rewrite F1. exact: F2.
    - exact: IH. }
  have Hlen : List.length cs = List.length un by exact: Forall2_len HJ.
  rewrite N0 Z.add_0_l Hlen in Nd.
  have Hn0 : u_nsampl d <> 0%Z by rewrite Nd; case: (un) Hne => //= *; lia.
  have [u [Eu [Mu [Su Nu]]]] := unormalize_ok Norb Nx Ny sh (Zn L) H1 H2 H3 HLz d _ Hn0 Md.
  exists u. split => //. split; first by rewrite Nu. split.
  - rewrite Su Sd S0 Rplus_0_l Nd /list_mean INR_IZR_INZ. congr (Rdiv _ _).
    by apply: lsum_Forall2 HJ _ => s c [].
  - move=> f idx l F Hl Hi HI. change (val (u_arr u f)) with (SumsFacts.rat (u_arr u f)). rewrite -LZ in Hi.
    rewrite (SumsFacts.arr_get (uo_arr _ _ _ _ _ _ _ Mu f) Hi) Rplus_0_l Nd /SimulationSpec.un_mean /list_mean INR_IZR_INZ. congr (Rdiv _ _).
    apply: lsum_Forall2 HJ _ => s c [-> Hc]. rewrite LZ. apply: HI. rewrite -LZ. split.
    { rewrite /=. apply/idP/idP => H; [move/Z.eqb_eq: H => H; apply/eqP; lia|move/eqP: H => ->; by []]. }
    move=> sp i j Hi' Hj'. have [i' ->] := ord_of Hi'. have [j' ->] := ord_of Hj'.
    have [-> [-> [-> ->]]] := Hc l i' j' Hl sp.
    by case: sp; (split; [|split; [|split]]); symmetry; exact: entry_ofE.
Qed.

Lemma shift_steps d c : Z.modulo sh Nx = 0%Z -> cell_step Nx Ny sh d c = cell_step Nx Ny 0 d c.
Proof.
  move=> Hmod. case: (WF) => _ [H2 [H3 _]]. rewrite /cell_step (Z.div_mod sh Nx); last lia. rewrite Hmod Z.add_0_r Z.mul_comm.
  exact: LatticeFacts.wrap_shift_mult.
Qed.
Lemma shift_shape f o c : Z.modulo sh Nx = 0%Z ->
  pair_shape f (fun d => site (Nx * Ny) (cell_step Nx Ny sh d c) o) = pair_shape f (fun d => site (Nx * Ny) (cell_step Nx Ny 0 d c) o).
Proof. move=> Hm. by case: f => //=; rewrite !shift_steps. Qed.

Lemma eq_all eq d : recorded accumulate n L k st eq m0 d -> m_sign m0 = R0 -> m_nsampl m0 = 0%Z -> eq <> [::] ->
  exists m, normalize d = Some m /\ m_nsampl m = Zn (List.length eq) /\
    m_sign m = list_mean (fun x => sgn (W (snd x))) eq /\ equal_time_results p (eq_mean eq) m.
Proof.
  move=> HR S0 N0 Hne. have [m [E [En [Es [HSh HV]]]]] := eq_results HR S0 N0 Hne. exists m. do 3 split => //.
  case: (WF) => H1 [H2 [H3 _]].
  have RS' : forall i o, (0 <= i < Nx * Ny)%Z -> (0 <= o < Norb)%Z -> (0 <= site (Nx * Ny) i o < Zn n)%Z.
  { move=> i o Hi Ho. rewrite nE'. exact: MeasureFacts.site_range. }
  have RP : forall a c, (0 <= cell_plus Nx Ny sh a c < Nx * Ny)%Z by move=> a c; exact: MeasureFacts.plus_range.
  have RT : forall a c, (0 <= cell_step Nx Ny 0 a c < Nx * Ny)%Z by move=> a c; exact: MeasureFacts.step_range.
  have AV : forall f g, (forall i, (0 <= i < Nx * Ny)%Z -> f i = g i) -> average (Nx * Ny) f = average (Nx * Ny) g.
  { move=> f g Hfg. rewrite /average. congr (Rdiv _ _). exact: SumsFacts.sum_ext. }
  constructor; first exact: HSh.
  - move=> f o q dd Hf Ho Hq Hd. apply: HV.
    + have R := MeasureFacts.entry_range Norb Nx Ny H1 H2 H3 o q dd Ho Hq Hd. rewrite /entry.
      by repeat (destruct Hf as [<-|Hf]; [exact R|]).
    + move=> x g Hx. rewrite inc_two_point // (pair_sign KO SO Hx). congr (Rmult _ _). apply: AV => i Hi.
      rewrite -nE'. apply: (agree_two_point _ _ _ (pair_agree Hx)); exact: RS'.
  - move=> o Ho. apply: HV => // x g Hx. have [-> _] := inc_density Norb Nx Ny sh H2 H3 (fst g) (snd g) o.
    rewrite (pair_sign KO SO Hx). congr (Rmult _ _). apply: AV => i Hi. rewrite -nE'. apply: (agree_number _ _ _ (pair_agree Hx)); exact: RS'.
  - move=> o Ho. apply: HV => // x g Hx. have [_ [-> _]] := inc_density Norb Nx Ny sh H2 H3 (fst g) (snd g) o.
    rewrite (pair_sign KO SO Hx). congr (Rmult _ _). apply: AV => i Hi. rewrite -nE'. apply: (agree_number _ _ _ (pair_agree Hx)); exact: RS'.
  - move=> o Ho. apply: HV => // x g Hx. have [_ [_ ->]] := inc_density Norb Nx Ny sh H2 H3 (fst g) (snd g) o.
    rewrite (pair_sign KO SO Hx). congr (Rmult _ _). apply: AV => i Hi. rewrite -nE'. apply: (agree_doubleocc _ _ _ (pair_agree Hx)); exact: RS'.
  - move=> i j Hi Hj. rewrite -nE in Hi Hj *. apply: (HV grfun_u _ (fun w => g00 w up i j)).
    + rewrite /= -nE'. nia.
    + move=> x g Hx. have [-> _] := inc_grfun Norb Nx Ny sh (fst g) (snd g) (i + Zn n * j). rewrite (pair_sign KO SO Hx). congr (Rmult _ _).
      by have [_ [E00 _]] := proj2 (pair_agree Hx) up i j Hi Hj.
  - move=> i j Hi Hj. rewrite -nE in Hi Hj *. apply: (HV grfun_d _ (fun w => g00 w dn i j)).
    + rewrite /= -nE'. nia.
    + move=> x g Hx. have [_ ->] := inc_grfun Norb Nx Ny sh (fst g) (snd g) (i + Zn n * j). rewrite (pair_sign KO SO Hx). congr (Rmult _ _).
      by have [_ [E00 _]] := proj2 (pair_agree Hx) dn i j Hi Hj.
  - move=> f o dd Hmod Hf Ho Hd. apply: HV.
    + have R : (0 <= dd + Nx * Ny * o < Nx * Ny * Norb)%Z by nia.
      by repeat (destruct Hf as [<-|Hf]; [exact R|]).
    + move=> x g Hx. rewrite inc_pair // (pair_sign KO SO Hx). congr (Rmult _ _). apply: AV => i Hi. cbv zeta.
      rewrite !shift_shape //.
      rewrite -nE'. apply: (agree_pair_shape _ _ _ (pair_agree Hx)) => //; try (move=> *; apply: RS' => //); exact: RS'.
Qed.

Lemma u_bond_ext f w i j n1 n2 n1' n2' : (forall d, n1 d = n1' d) -> (forall d, n2 d = n2' d) -> u_bond f w i j n1 n2 = u_bond f w i j n1' n2'.
Proof.
  move=> E1 E2. case: f => //=; by rewrite /pair_shape /b1g_shape /b2g_shape !E1 !E2.
Qed.

Lemma un_all un Hu Hd d : (exists xs, List.Forall2 sample_at un xs /\ measure_samples la xs Hu0 Hd0 u0 = Some (Hu, Hd, d)) ->
  (0 < sp_nuneqlt p)%Z -> u_sign u0 = R0 -> u_nsampl u0 = 0%Z -> un <> [::] ->
  exists u, unormalize d = Some u /\ u_nsampl u = Zn (List.length un) /\
    u_sign u = list_mean (fun s => sgn (W s)) un /\ unequal_time_results p (un_mean un) u.
Proof.
  move=> HR Hp S0 N0 Hne. have [u [E [En [Es HV]]]] := un_results HR Hp S0 N0 Hne. exists u. do 3 split => //.
  case: (WF) => H1 [H2 [H3 _]].
  have HLz : (0 < sp_L p)%Z by exact: v_L VP.
  have RS' : forall i o, (0 <= i < Nx * Ny)%Z -> (0 <= o < Norb)%Z -> (0 <= site (Nx * Ny) i o < Zn n)%Z.
  { move=> i o Hi Ho. rewrite nE'. exact: MeasureFacts.site_range. }
  have RP : forall a c, (0 <= cell_plus Nx Ny sh a c < Nx * Ny)%Z by move=> a c; exact: MeasureFacts.plus_range.
  have RT : forall a c, (0 <= cell_step Nx Ny 0 a c < Nx * Ny)%Z by move=> a c; exact: MeasureFacts.step_range.
  have AV : forall f g, (forall i, (0 <= i < Nx * Ny)%Z -> f i = g i) -> average (Nx * Ny) f = average (Nx * Ny) g.
  { move=> f g Hfg. rewrite /average. congr (Rdiv _ _). exact: SumsFacts.sum_ext. }
  constructor.
  - move=> f l o q dd Hf Hl Ho Hq Hd'. apply: HV.
    + apply/ltP. rewrite /L. lia.
    + have R := UMeasureFacts.uentry_range Norb Nx Ny (sp_L p) H1 H2 H3 HLz l o q dd Hl Ho Hq Hd'.
      by repeat (destruct Hf as [<-|Hf]; [exact R|]).
    + move=> c s. rewrite Z2Nat.id; last lia. move=> HA. rewrite uinc_two_point //. congr (Rmult _ _). apply: AV => i Hi.
      rewrite -nE'. apply: (agree_u_two_point _ _ _ HA); exact: RS'.
  - move=> f l o dd Hmod Hf Hnb Hl Ho Hd'. have EN : (Norb * (Nx * Ny) = Nx * Ny * Norb)%Z by lia. rewrite EN. apply: HV.
    + apply/ltP. rewrite /L. lia.
    + have R : (0 <= dd + (Nx * Ny * o + Nx * Ny * Norb * l) < Nx * Ny * Norb * sp_L p)%Z.
      { clear -H1 H2 H3 Hl Ho Hd'. have A1 : (0 <= dd + Nx * Ny * o < Nx * Ny * Norb)%Z by nia. nia. }
      by repeat (destruct Hf as [<-|Hf]; [exact R|]).
    + move=> c s. rewrite Z2Nat.id; last lia. move=> HA. rewrite uinc_bond //. congr (Rmult _ _). apply: AV => i Hi. cbv zeta.
      have EB : UMeasureFacts.ubond_code f (uconfig (Nx * Ny * Norb) (sp_L p) l c) (site (Nx * Ny) i o)
        (site (Nx * Ny) (cell_plus Nx Ny sh dd i) o) (fun d => site (Nx * Ny) (cell_step Nx Ny 0 d i) o)
        (fun d => site (Nx * Ny) (cell_step Nx Ny 0 d (cell_plus Nx Ny sh dd i)) o) =
        u_bond f (uconfig (Nx * Ny * Norb) (sp_L p) l c) (site (Nx * Ny) i o)
        (site (Nx * Ny) (cell_plus Nx Ny sh dd i) o) (fun d => site (Nx * Ny) (cell_step Nx Ny 0 d i) o)
        (fun d => site (Nx * Ny) (cell_step Nx Ny 0 d (cell_plus Nx Ny sh dd i)) o).
      { clear -H2 H3 Hl Hi Hd' Hnb. case: (ufield_eq_dec f ram_b1g) => Ef; last by case: (f) Ef.
        rewrite Ef. exact (UMeasureFacts.b1g_code Norb Nx Ny sh (sp_L p) H2 H3 c l o i dd Hl Hi Hd' (Hnb Ef)). }
      rewrite EB.
      rewrite -nE' (agree_u_bond _ _ _ HA) //; try (move=> *; apply: RS' => //); try exact: RS'.
      apply: u_bond_ext => d1; by rewrite shift_steps.
Qed.
End Run.

(** * Number of measurements *)
Section Count.
Context {RS : Type}.
Variables (rng : rand_source RS) (n : nat) (W : list Z -> R) (L : nat).

Lemma due_step q t : (0 < q)%Z -> (0 <= t)%Z -> ((t + 1) / q = t / q + (if due_at q (t + 1) then 1 else 0))%Z.
Proof.
  move=> Hq Ht. rewrite /due_at. have -> : (0 <? q)%Z = true by apply/Z.ltb_lt. cbn [andb].
  have E1 := Z.div_mod t q ltac:(lia). have B1 := Z.mod_pos_bound t q Hq.
  have E2 := Z.div_mod (t + 1) q ltac:(lia). have B2 := Z.mod_pos_bound (t + 1) q Hq.
  case: Z.eqb_spec => H; clear Ht; nia.
Qed.

Lemma sweep_count neqlt x r : chain_sweep rng n W L neqlt x = Some (Some r) ->
  Zn (List.length (snd r)) = (Zn (List.length (snd x)) + (if (0 <? neqlt)%Z then Zn L / neqlt else 0))%Z.
Proof.
  rewrite /chain_sweep => E.
  pose I (l : Z) (o : option ((RS * list Z * list Z) * eq_record)) := match o with None => True | Some y =>
    Zn (List.length (snd y)) = (Zn (List.length (snd x)) + (if (0 <? neqlt)%Z then l / neqlt else 0))%Z end.
  have := @for_range_partial _ I 0%Z (Zn L) _ _ _ ltac:(lia) _ _ E. apply; last first.
  { rewrite /I. case: Z.ltb_spec => H; last lia. by rewrite Z.div_0_l; lia. }
  move=> l [y|] o Hl HI /=; last by case=> <-.
  move/obind_Some => [[c|] [_ [<-]]] //. rewrite /I [snd (_, _)]/=. move: HI. rewrite /I.
  case: Z.ltb_spec => Hq HI; last by rewrite /due_at; have -> : (0 <? neqlt)%Z = false by apply/Z.ltb_ge.
  rewrite due_step //; last lia. case: (due_at _ _); last by rewrite HI; lia. rewrite app_length /=. lia.
Qed.

Lemma chain_count p order seed s h : (0 <= sp_nequil p)%Z -> (0 <= sp_nsampl p)%Z -> (0 < sp_neqlt p)%Z ->
  chain rng n W L p order seed s = Some (Some h) ->
  Zn (List.length (snd (fst h))) = (sp_nsampl p * (Zn L / sp_neqlt p))%Z /\
  ((0 < sp_nuneqlt p)%Z -> Zn (List.length (snd h)) = multiples (sp_nuneqlt p) (sp_nequil p) (sp_nequil p + sp_nsampl p)).
Proof.
  move=> Hq Hs Hn E. rewrite /chain in E.
  pose I (t : Z) (o : option (history (RS := RS))) := match o with None => True | Some h =>
    Zn (List.length (snd (fst h))) = (Z.max 0 (t - sp_nequil p) * (Zn L / sp_neqlt p))%Z /\
    ((0 < sp_nuneqlt p)%Z -> Zn (List.length (snd h)) = multiples (sp_nuneqlt p) (sp_nequil p) (Z.max t (sp_nequil p))) end.
  have := @for_range_partial _ I 0%Z (sp_nequil p + sp_nsampl p)%Z _ _ _ ltac:(lia) _ _ E.
  have -> : I (sp_nequil p + sp_nsampl p)%Z (Some h) = (Zn (List.length (snd (fst h))) = (sp_nsampl p * (Zn L / sp_neqlt p))%Z /\
    ((0 < sp_nuneqlt p)%Z -> Zn (List.length (snd h)) = multiples (sp_nuneqlt p) (sp_nequil p) (sp_nequil p + sp_nsampl p))).
  { rewrite /I. have -> : (Z.max 0 (sp_nequil p + sp_nsampl p - sp_nequil p) = sp_nsampl p)%Z by lia.
    by have -> : (Z.max (sp_nequil p + sp_nsampl p) (sp_nequil p) = sp_nequil p + sp_nsampl p)%Z by lia. }
  apply; last first.
  { rewrite /I /=. have -> : Z.max 0 (0 - sp_nequil p) = 0%Z by lia. split => // Hu. rewrite Z.max_r // /multiples. lia. }
  move=> t [[[[seed1 s1] eq1] un1]|] o Ht HI /=; last by case=> <-.
  move/obind_Some => [[[[[seed2 o2] s2] eq2]|] [Es [<-]]] //. rewrite /I [snd (_, _)]/= [fst (_, _)]/= [snd (_, eq2)]/=.
  have := sweep_count Es. move: HI. rewrite /I [snd (_, un1)]/= [snd (fst _)]/= [snd (_, eq2)]/= [snd (_, eq1)]/=. move=> [HI1 HI2].
  case: Z.leb_spec => Hle; rewrite ?Z.ltb_irrefl => ->.
  - have -> : (0 <? sp_neqlt p)%Z = true by apply/Z.ltb_lt. split.
    { rewrite HI1 !Z.max_r; try lia. }
    move=> Hu. move: (HI2 Hu). rewrite !Z.max_l; try lia. rewrite /multiples.
    have D := due_step Hu (t := (t + sp_nuneqlt p - 1)%Z) ltac:(lia).
    have -> : (t + 1 + sp_nuneqlt p - 1 = t + sp_nuneqlt p - 1 + 1)%Z by lia. rewrite D.
    have -> : due_at (sp_nuneqlt p) (t + sp_nuneqlt p - 1 + 1) = due_at (sp_nuneqlt p) t.
    { rewrite /due_at. have -> : (t + sp_nuneqlt p - 1 + 1 = t + 1 * sp_nuneqlt p)%Z by lia. by rewrite Z_mod_plus_full. }
    cbn [andb]. case: (due_at _ _) => HL; last lia. rewrite app_length /=. lia.
  - split; first by rewrite HI1 !Z.max_l; lia.
    move=> Hu. cbn [andb]. rewrite (HI2 Hu) !Z.max_r; lia.
Qed.
End Count.
