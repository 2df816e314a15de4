(** Results of simulations from a fixed start field approach thermal expectation values. *)
From Coq Require Import ZArith List Reals Lia Lra.
From mathcomp Require Import all_ssreflect fingroup perm ssralg matrix.
From Verif Require Import Base MatProd RField MatSpec MatFacts TimeStep TimeStepSpec Strat StratSpec StratFacts GreenSpec GreenFacts Lapack LapackSpec GreenConstruct SimParams ParamSpec KineticSpec KineticExp KineticExpSpec
  KineticExpFacts TimeFlowFacts RandSource Sweep SweepSpec SweepFacts LatticeSpec LatticeFacts WickSpec Sums SumsFacts Measure MeasureSpec MeasureFacts UMeasure UMeasureSpec UnequalTime UnequalTimeSpec SimulationSpec SimulationRun Simulation
  IdealSpec IdealFacts IdealLink IdealChain FockSpec FockFacts FockWick FockExp HubbardSpec HubbardFacts HubbardWick HubbardLink TrotterPos ThermalSpec ThermalFacts ThermalRun ThermalResults MixChain MixMean MixSpec.
Set Implicit Arguments.
Unset Strict Implicit.
Unset Printing Implicit Defensive.
Local Open Scope ring_scope.
Import GRing.Theory.

Lemma ratio_near (N S x s B C e : R) : Rlt 0 s -> Rle 0 C -> Rle 0 e -> Rle 0 B -> Rle (Rmult C e) (Rdiv s 2) ->
  Rle (Rabs (Rminus N (Rmult s x))) (Rmult C (Rmult B e)) -> Rle (Rabs (Rminus S s)) (Rmult C e) ->
  Rlt 0 S /\ Rle (Rabs (Rminus (Rdiv N S) x)) (Rmult (Rdiv (Rmult (Rmult 2 C) (Rplus B (Rabs x))) s) e).
Proof.
  move=> Hs HC He HB H1 H2 H3. have H3' : Rle (Rdiv s 2) S by have := Rle_abs (Rminus s S); rewrite Rabs_minus_sym; lra.
  have HS : Rlt 0 S by lra. split=> //.
  have -> : Rminus (Rdiv N S) x = Rdiv (Rplus (Rminus N (Rmult s x)) (Rmult x (Rminus s S))) S by field; lra.
  rewrite /Rdiv Rabs_mult (Rabs_right (Rinv S)); last by apply/Rle_ge/Rlt_le/Rinv_0_lt_compat.
  have A : Rle (Rabs (Rplus (Rminus N (Rmult s x)) (Rmult x (Rminus s S)))) (Rmult (Rmult C (Rplus B (Rabs x))) e).
  { apply: Rle_trans; first exact: Rabs_triang. rewrite Rabs_mult (Rabs_minus_sym s S).
    have := Rmult_le_compat_l _ _ _ (Rabs_pos x) H3. lra. }
  have I : Rle (Rinv S) (Rmult 2 (Rinv s)).
  { apply: (Rmult_le_reg_l S) => //. rewrite Rinv_r; last by lra. apply: (Rmult_le_reg_r s) => //. have -> : Rmult (Rmult S (Rmult 2 (Rinv s))) s = Rmult 2 S by field; lra. lra. }
  apply: Rle_trans; first apply: Rmult_le_compat; [exact: Rabs_pos|by apply/Rlt_le/Rinv_0_lt_compat|exact: A|exact: I|].
  right. by field; lra.
Qed.

Section Runs.
Variables (la : lapack) (junk : Z -> R) (ijunk : Z -> Z) (p : sim_params) (k : kinetic) (st : strat).
Hypotheses (LA : lapack_ok la) (SC : syev_converges la) (WF : well_formed p) (VP : valid_params p).
Hypothesis HU : Z.of_nat (List.length (sp_U p)) = sp_Norb p.
Hypothesis Hpos : forall o, (0 <= o < sp_Norb p)%Z -> Rle 0 (Rmult (sp_dt p) (List.nth (Z.to_nat o) (sp_U p) R0)).
Hypotheses (Hq : (0 <= sp_nequil p)%Z) (Hs : (0 < sp_nsampl p)%Z) (Hn : (0 < sp_neqlt p <= sp_L p)%Z).
Hypothesis Hun : (0 < sp_nuneqlt p)%Z -> (2 * sp_prodBlen p <= sp_L p)%Z /\
     exists t, (sp_nequil p <= t < sp_nequil p + sp_nsampl p)%Z /\ (sp_nuneqlt p | t)%Z.
Hypotheses (Ek : kinetic_exponential la junk p = Some k)
  (Est : fill_stratonovich (sp_Norb p) (sp_U p) (sp_dt p) (fresh junk (sp_Norb p)) = Some st).
Notation n := (sites p).
Notation L := (Z.to_nat (sp_L p)).
Notation W := (weight n L k st).
Hypothesis NZ : forall s, List.In s (fields (L * n)) -> W s <> 0.
Notation c := (Z.to_nat (sp_nequil p + sp_nsampl p)).
Notation TW := (total (fun s => Rabs (W s)) (fields (L * n))).
Variables (rate scale : R).
Hypothesis Hscale : Rle 0 scale.
Hypothesis HF : forall G ne ns B s,
    (forall i l s, (0 <= i < Z.of_nat ne)%Z -> (l < L)%coq_nat -> G i l s = R0) -> Rle 0 B ->
    (forall i l s, (l < L)%coq_nat -> List.In s (fields (L * n)) -> Rle (Rabs (G i l s)) B) -> List.In s (fields (L * n)) ->
    let M s := tape_mean n ((ne + ns) * L)%coq_nat (fun t => sweep_sum n W L G (ne + ns)%coq_nat 0 t s) in
    Rle (Rabs (Rminus (M s) (Rdiv (total (fun s => Rmult (Rabs (W s)) (M s)) (fields (L * n))) TW))) (Rmult (Rmult scale B) (Rpow_def.pow rate ne)).

Lemma cE : c = (Z.to_nat (sp_nequil p) + Z.to_nat (sp_nsampl p))%coq_nat.
Proof. lia. Qed.
Lemma near_sweeps (Phi : meas * option umeas -> R) G B s :
  (forall s t r eq un, is_run la junk ijunk p k st s t r eq un -> Phi r = sweep_sum n W L G c 0 t s) ->
  (forall i l s, (0 <= i < sp_nequil p)%Z -> (l < L)%coq_nat -> G i l s = R0) -> Rle 0 B ->
  (forall i l s, (l < L)%coq_nat -> List.In s (fields (L * n)) -> Rle (Rabs (G i l s)) B) -> List.In s (fields (L * n)) ->
  Rle (Rabs (Rminus (mean_from p la junk ijunk s Phi) (mean_result p la junk ijunk W Phi))) (Rmult (Rmult scale B) (Rpow_def.pow rate (Z.to_nat (sp_nequil p)))).
Proof.
  move=> H G0 B0 GB Hf.
  have E : forall s, List.In s (fields (L * n)) -> mean_from p la junk ijunk s Phi = tape_mean n (c * L) (fun t => sweep_sum n W L G c 0 t s).
  { move=> s' Hf'. apply: tape_mean_ext => t Ht Hv. have [r [eq [un HR]]] := run_exists ijunk LA SC WF VP HU Hpos Hq Hs Hn Hun Ek Est NZ Hf' Ht Hv.
    by rewrite (ir_sim HR) (H _ _ _ _ _ HR). }
  rewrite (E s Hf) /mean_result. rewrite (total_ext _ (fun s => Rmult (Rabs (W s)) (tape_mean n (c * L) (fun t => sweep_sum n W L G c 0 t s)))).
  2:{ move=> s' Hf'. congr Rmult. exact: E. }
  have := @HF G (Z.to_nat (sp_nequil p)) (Z.to_nat (sp_nsampl p)) B s. have G0' : forall i l s, (0 <= i < Z.of_nat (Z.to_nat (sp_nequil p)))%Z -> (l < L)%coq_nat -> G i l s = R0 by move=> i l s' Hi; apply: G0; lia.
  move=> X. have := X G0' B0 GB Hf. cbv zeta beta. by rewrite !cE.
Qed.

Lemma ind_abs b : Rle (Rabs (ind b)) 1.
Proof. case: b => /=; rewrite ?Rabs_R1 ?Rabs_R0; lra. Qed.
Lemma term_abs b x B cnt m : Rlt 0 m -> Rle m cnt -> Rle (Rabs x) B -> Rle (Rabs (Rmult (ind b) (Rmult x (Rinv cnt)))) (Rdiv B m).
Proof.
  move=> H0 H1 H2. rewrite !Rabs_mult. have I := ind_abs b. have P := Rabs_pos x.
  rewrite (Rabs_right (Rinv cnt)); last by apply/Rle_ge/Rlt_le/Rinv_0_lt_compat; lra.
  have J : Rle (Rinv cnt) (Rinv m) by apply: Rinv_le_contravar.
  have J0 : Rlt 0 (Rinv cnt) by apply: Rinv_0_lt_compat; lra.
  apply: (Rle_trans _ (Rmult 1 (Rmult (Rabs x) (Rinv cnt)))).
  - apply: Rmult_le_compat_r => //. apply: Rmult_le_pos => //. exact: Rlt_le.
  - rewrite Rmult_1_l. apply: Rmult_le_compat => //. exact: Rlt_le.
Qed.

Lemma near_eq (Phi : meas * option umeas -> R) (g : nat * list Z -> R) B s :
  (forall s t r eq un, is_run la junk ijunk p k st s t r eq un -> Phi r = list_mean g eq) -> Rle 0 B ->
  (forall l s, (l <= L)%N -> List.In s (fields (L * n)) -> Rle (Rabs (g (l, s))) B) -> List.In s (fields (L * n)) ->
  Rle (Rabs (Rminus (mean_from p la junk ijunk s Phi) (mean_result p la junk ijunk W Phi))) (Rmult scale (Rmult B (memory rate (sp_nequil p) (sp_nsampl p)))).
Proof.
  move=> H B0 HB Hf. set cnt := IZR (sp_nsampl p * (sp_L p / sp_neqlt p)).
  have Hl : forall s t r eq un, is_run la junk ijunk p k st s t r eq un -> INR (List.length eq) = cnt by move=> ? ? ? ? ? HR; rewrite INR_IZR_INZ (ir_len HR).
  have N0 : Rlt 0 (IZR (sp_nsampl p)) by apply: IZR_lt.
  have Hc : Rle (IZR (sp_nsampl p)) cnt. { apply: IZR_le. have := Z.div_le_lower_bound (sp_L p) (sp_neqlt p) 1 ltac:(lia) ltac:(lia). nia. }
  have := @near_sweeps Phi (fun it l s => Rmult (ind (eq_due p it l)) (Rmult (g (l.+1, s)) (Rinv cnt))) (Rdiv B (IZR (sp_nsampl p))) s.
  rewrite /memory. have -> : Rmult (Rmult scale (Rdiv B (IZR (sp_nsampl p)))) (Rpow_def.pow rate (Z.to_nat (sp_nequil p))) = Rmult scale (Rmult B (Rdiv (Rpow_def.pow rate (Z.to_nat (sp_nequil p))) (IZR (sp_nsampl p)))).
  { field. lra. }
  apply => //.
  - move=> s' t r eq un HR. rewrite (H _ _ _ _ _ HR) /list_mean (Hl _ _ _ _ _ HR) -(ir_eq HR (fun x => Rmult (g x) (Rinv cnt))). by rewrite lsum_scal.
  - move=> i l s' Hi _. rewrite /eq_due. have -> : (sp_nequil p <=? i)%Z = false by lia. rewrite /due_at /=. exact: Rmult_0_l.
  - apply: Rmult_le_pos => //. apply: Rlt_le. exact: Rinv_0_lt_compat.
  - move=> i l s' Hlt Hf'. apply: term_abs => //. apply: HB => //. by apply/ltP; lia.
Qed.
Lemma near_un (Phi : meas * option umeas -> R) (g : list Z -> R) B s : (0 < sp_nuneqlt p)%Z ->
  (forall s t r eq un u, is_run la junk ijunk p k st s t r eq un -> snd r = Some u -> Phi r = list_mean g un) -> Rle 0 B ->
  (forall s, List.In s (fields (L * n)) -> Rle (Rabs (g s)) B) -> List.In s (fields (L * n)) ->
  Rle (Rabs (Rminus (mean_from p la junk ijunk s Phi) (mean_result p la junk ijunk W Phi)))
    (Rmult (Rmult scale (IZR (2 * sp_nuneqlt p))) (Rmult B (memory rate (sp_nequil p) (sp_nsampl p)))).
Proof.
  move=> Hp H B0 HB Hf. set w := sp_nuneqlt p in Hp *. set mult := multiples w (sp_nequil p) (sp_nequil p + sp_nsampl p). set cnt := IZR mult.
  have Hu : forall s t r eq un, is_run la junk ijunk p k st s t r eq un -> exists u, snd r = Some u.
  { move=> s' t r eq un HR. have := ir_u HR. case: (snd r) => [u|]; [by exists u|rewrite -/w; lia]. }
  have Hl : forall s t r eq un, is_run la junk ijunk p k st s t r eq un -> INR (List.length un) = cnt.
  { move=> s' t r eq un HR. rewrite INR_IZR_INZ. have [u Eu] := Hu _ _ _ _ _ HR. have := ir_u HR. rewrite Eu => -[_ [E _]]. by rewrite E. }
  have N0 : Rlt 0 (IZR (sp_nsampl p)) by apply: IZR_lt.
  have M1 : (sp_nsampl p <= 2 * w * mult)%Z.
  { have [_ [t [Ht [q Hq']]]] := Hun Hp. rewrite -/w in Hq'. rewrite /mult /multiples.
    have A1 : ((sp_nequil p + w - 1) / w < q + 1)%Z by apply: Z.div_lt_upper_bound; nia.
    have A2 : (q + 1 <= (sp_nequil p + sp_nsampl p + w - 1) / w)%Z by apply: Z.div_le_lower_bound; nia.
    have D1 := Z.div_mod (sp_nequil p + w - 1) w ltac:(lia). have D2 := Z.div_mod (sp_nequil p + sp_nsampl p + w - 1) w ltac:(lia).
    have R1 := Z.mod_pos_bound (sp_nequil p + w - 1) w ltac:(lia). have R2 := Z.mod_pos_bound (sp_nequil p + sp_nsampl p + w - 1) w ltac:(lia).
    move: ((sp_nequil p + w - 1) / w)%Z ((sp_nequil p + sp_nsampl p + w - 1) / w)%Z A1 A2 D1 D2 => a b A1 A2 D1 D2. nia. }
  have W0 : Rlt 0 (IZR (2 * w)) by apply: IZR_lt; lia.
  have Hc : Rle (Rdiv (IZR (sp_nsampl p)) (IZR (2 * w))) cnt.
  { apply: (Rmult_le_reg_r (IZR (2 * w))) => //. have -> : Rmult (Rdiv (IZR (sp_nsampl p)) (IZR (2 * w))) (IZR (2 * w)) = IZR (sp_nsampl p) by field; lra.
    rewrite /cnt -mult_IZR. apply: IZR_le. lia. }
  have M0 : Rlt 0 (Rdiv (IZR (sp_nsampl p)) (IZR (2 * w))) by apply: Rdiv_lt_0_compat.
  have := @near_sweeps Phi (fun it l s => Rmult (ind (un_due L p it l)) (Rmult (g s) (Rinv cnt))) (Rdiv B (Rdiv (IZR (sp_nsampl p)) (IZR (2 * w)))) s.
  rewrite /memory. set X := Rmult (Rmult scale (Rdiv B _)) _. set Y := Rmult (Rmult scale _) _. have -> : X = Y by rewrite /X /Y; field; lra.
  apply => //.
  - move=> s' t r eq un HR. have [u Eu] := Hu _ _ _ _ _ HR. rewrite (H _ _ _ _ _ _ HR Eu) /list_mean (Hl _ _ _ _ _ HR) -(ir_un HR (fun x => Rmult (g x) (Rinv cnt))). by rewrite lsum_scal.
  - move=> i l s' Hi _. rewrite /un_due. have -> : (sp_nequil p <=? i)%Z = false by lia. rewrite Bool.andb_false_r. exact: Rmult_0_l.
  - apply: Rmult_le_pos => //. apply: Rlt_le. exact: Rinv_0_lt_compat.
  - move=> i l s' Hlt Hf'. apply: term_abs => //. exact: HB.
Qed.
End Runs.

Lemma sgn_bound x : Rle (Rabs (sgn x)) 1.
Proof. rewrite /sgn. case: Rlt_dec => ?; rewrite ?Rabs_Ropp Rabs_R1; lra. Qed.
Lemma finite_bound (A : Type) (g : A -> R) xs : exists B, Rle 0 B /\ forall x, List.In x xs -> Rle (Rabs (g x)) B.
Proof. have [B [B0 HB]] := finite_upper (fun x => Rabs (g x)) xs. exists B. split=> //. exact: Rlt_le. Qed.
Lemma eq_results_counts p ne ns mean m : equal_time_results (with_counts p ne ns) mean m -> equal_time_results p mean m.
Proof. move=> H. destruct H. by constructor. Qed.
Lemma un_results_counts p ne ns mean m : unequal_time_results (with_counts p ne ns) mean m -> unequal_time_results p mean m.
Proof. move=> H. destruct H. by constructor. Qed.
Lemma valid_counts p ne ns : valid_params p -> valid_params (with_counts p ne ns).
Proof. move=> H. destruct H. by constructor. Qed.

Section Main.
Variables (la : lapack) (junk : Z -> R) (ijunk : Z -> Z) (p : sim_params) (k : kinetic) (st : strat).
Hypotheses (LA : lapack_ok la) (SC : syev_converges la) (WF : well_formed p) (VP : valid_params p).
Hypothesis HU : Z.of_nat (List.length (sp_U p)) = sp_Norb p.
Hypothesis Hpos : forall o, (0 <= o < sp_Norb p)%Z -> Rle 0 (Rmult (sp_dt p) (List.nth (Z.to_nat o) (sp_U p) R0)).
Hypothesis (Hn : (0 < sp_neqlt p <= sp_L p)%Z).
Hypothesis Hun : (0 < sp_nuneqlt p)%Z -> (2 * sp_prodBlen p <= sp_L p)%Z.
Hypotheses (Ek : kinetic_exponential la junk p = Some k)
  (Est : fill_stratonovich (sp_Norb p) (sp_U p) (sp_dt p) (fresh junk (sp_Norb p)) = Some st).
Notation n := (sites p).
Notation L := (Z.to_nat (sp_L p)).
Notation W := (weight n L k st).
Hypothesis NZ : forall s, List.In s (fields (L * n)) -> W s <> 0.
Hypothesis HD : forall s l i, List.In s (fields (L * n)) -> (l < L)%N -> (i < n)%N -> Rabs (W (flipped n l i s)) <> Rabs (W s).
Notation TW := (total (fun s => Rabs (W s)) (fields (L * n))).
Notation zc := (zc p k L).
Notation lam := (lam p k st L).
Notation from ne ns s Phi := (mean_from (with_counts p ne ns) la junk ijunk s Phi).
Notation res ne ns Phi := (mean_result (with_counts p ne ns) la junk ijunk W Phi).
Notation usign := (fun r : meas * option umeas => match snd r with Some u => u_sign u | None => R0 end).

Lemma turn_differ s x : List.In s (fields (L * n)) -> (x < L * n)%coq_nat -> Rabs (W (turn x s)) <> Rabs (W s).
Proof.
  move=> Hf Hx. have n0 : (0 < n)%coq_nat by case: (n) Hx => [|m] //; rewrite ?muln0; lia.
  have E := Nat.div_mod x n ltac:(lia). have M := Nat.mod_upper_bound x n ltac:(lia).
  have -> : turn x s = flipped n (Nat.div x n) (Nat.modulo x n) s.
  { rewrite /turn /flipped. congr (lset s _ (1 - List.nth _ s 0)%Z); rewrite mulnC; exact: E. }
  apply: HD => //; apply/ltP => //. apply: Nat.div_lt_upper_bound; first by lia. by rewrite Nat.mul_comm.
Qed.

Section Rate.
Variables (rate scale : R).
Hypotheses (Hrate : Rle 0 rate) (Hscale : Rle 0 scale).
Hypothesis HF : forall G ne ns B s,
    (forall i l s, (0 <= i < Z.of_nat ne)%Z -> (l < L)%coq_nat -> G i l s = R0) -> Rle 0 B ->
    (forall i l s, (l < L)%coq_nat -> List.In s (fields (L * n)) -> Rle (Rabs (G i l s)) B) -> List.In s (fields (L * n)) ->
    let M s := tape_mean n ((ne + ns) * L)%coq_nat (fun t => sweep_sum n W L G (ne + ns)%coq_nat 0 t s) in
    Rle (Rabs (Rminus (M s) (Rdiv (total (fun s => Rmult (Rabs (W s)) (M s)) (fields (L * n))) TW))) (Rmult (Rmult scale B) (Rpow_def.pow rate ne)).
Let C := Rmult scale (Rplus 1 (Rabs (IZR (2 * sp_nuneqlt p)))).
Let sigma := Rdiv zc TW.
Definition threshold : R := Rdiv sigma (Rmult 2 (Rplus C 1)).

Lemma zc0 : Rlt 0 zc.
Proof. exact: (zc_pos' (junk := junk) LA SC WF HU Ek Est). Qed.
Lemma sigma_pos : Rlt 0 sigma.
Proof. apply: Rdiv_lt_0_compat; [exact: zc0|exact: TW_pos]. Qed.
Lemma C_pos : Rle 0 C.
Proof. apply: Rmult_le_pos => //. have := Rabs_pos (IZR (2 * sp_nuneqlt p)). lra. Qed.
Lemma threshold_pos : Rlt 0 threshold.
Proof. apply: Rdiv_lt_0_compat; first exact: sigma_pos. have := C_pos. lra. Qed.
Lemma memory_pos ne ns : (0 < ns)%Z -> Rle 0 (memory rate ne ns).
Proof. move=> H. apply: Rmult_le_pos; first exact: pow_le. by apply/Rlt_le/Rinv_0_lt_compat/IZR_lt. Qed.
Lemma below e : Rle 0 e -> Rle e threshold -> Rle (Rmult C e) (Rdiv sigma 2).
Proof.
  move=> H0 H. have HC := C_pos. have Hs := sigma_pos. apply: (Rle_trans _ (Rmult (Rplus C 1) e)); first by lra.
  apply: (Rle_trans _ (Rmult (Rplus C 1) threshold)); first by apply: Rmult_le_compat_l; lra.
  rewrite /threshold. right. field. lra.
Qed.

Section Run.
Variables (ne ns : Z) (s : list Z).
Hypothesis (HR : run_of p ne ns s).
Notation q := (with_counts p ne ns).
Lemma Hf : List.In s (fields (L * n)). Proof. by case: HR => _ [_ []]. Qed.
Lemma q_un : (0 < sp_nuneqlt q)%Z -> (2 * sp_prodBlen q <= sp_L q)%Z /\
     exists t, (sp_nequil q <= t < sp_nequil q + sp_nsampl q)%Z /\ (sp_nuneqlt q | t)%Z.
Proof. move=> H. split; first exact: (Hun H). case: HR => _ [_ [_ HT]]. exact: (HT H). Qed.
Lemma q_ne : (0 <= sp_nequil q)%Z. Proof. by case: HR. Qed.
Lemma q_ns : (0 < sp_nsampl q)%Z. Proof. by case: HR => _ []. Qed.

Lemma from_returns t : List.length t = (Z.to_nat (ne + ns) * L)%N -> List.Forall (slice_tape_ok n) t ->
  exists r eq un, is_run la junk ijunk q k st s t r eq un.
Proof. exact: (run_exists (p := q) ijunk LA SC WF (valid_counts ne ns VP) HU Hpos q_ne q_ns Hn q_un Ek Est NZ Hf). Qed.
Lemma eq_near Phi (g : nat * list Z -> R) B X :
  (forall s t r eq un, is_run la junk ijunk q k st s t r eq un -> Phi r = list_mean g eq) -> Rle 0 B ->
  (forall l s, (l <= L)%N -> List.In s (fields (L * n)) -> Rle (Rabs (g (l, s))) B) ->
  (forall l, (l <= L)%N -> total (fun s => Rmult (Rabs (W s)) (g (l, s))) (fields (L * n)) = Rmult zc X) ->
  Rle (Rabs (Rminus (from ne ns s Phi) (Rmult sigma X))) (Rmult C (Rmult B (memory rate ne ns))).
Proof.
  move=> H B0 HB HX. have E := mean_eq (p := q) LA SC WF (valid_counts ne ns VP) HU Hpos q_ne q_ns Hn q_un Ek Est NZ H HX.
  have -> : Rmult sigma X = res ne ns Phi. { transitivity (Rdiv (Rmult zc X) TW); last exact: (esym E). rewrite /sigma /Rdiv. by rewrite Rmult_assoc (Rmult_comm _ X) -Rmult_assoc. }
  apply: Rle_trans; first exact: (near_eq (p := q) LA SC WF (valid_counts ne ns VP) HU Hpos q_ne q_ns Hn q_un Ek Est NZ (rate := rate) (scale := scale) HF H B0 HB Hf).
  apply: Rmult_le_compat_r; first by apply: Rmult_le_pos => //; apply: memory_pos; exact: q_ns.
  rewrite -{1}(Rmult_1_r scale). apply: Rmult_le_compat_l => //. have := Rabs_pos (IZR (2 * sp_nuneqlt p)). lra.
Qed.
Lemma un_near Phi (g : list Z -> R) B X : (0 < sp_nuneqlt p)%Z ->
  (forall s t r eq un u, is_run la junk ijunk q k st s t r eq un -> snd r = Some u -> Phi r = list_mean g un) -> Rle 0 B ->
  (forall s, List.In s (fields (L * n)) -> Rle (Rabs (g s)) B) ->
  total (fun s => Rmult (Rabs (W s)) (g s)) (fields (L * n)) = Rmult zc X ->
  Rle (Rabs (Rminus (from ne ns s Phi) (Rmult sigma X))) (Rmult C (Rmult B (memory rate ne ns))).
Proof.
  move=> Hp H B0 HB HX. have E := mean_un (p := q) LA SC WF (valid_counts ne ns VP) HU Hpos q_ne q_ns Hn q_un Ek Est NZ Hp H HX.
  have -> : Rmult sigma X = res ne ns Phi. { transitivity (Rdiv (Rmult zc X) TW); last exact: (esym E). rewrite /sigma /Rdiv. by rewrite Rmult_assoc (Rmult_comm _ X) -Rmult_assoc. }
  apply: Rle_trans; first exact: (near_un (p := q) LA SC WF (valid_counts ne ns VP) HU Hpos q_ne q_ns Hn q_un Ek Est NZ (rate := rate) (scale := scale) HF Hp H B0 HB Hf).
  apply: Rmult_le_compat_r; first by apply: Rmult_le_pos => //; apply: memory_pos; exact: q_ns.
  rewrite /C. apply: Rmult_le_compat_l => //. have := Rle_abs (IZR (2 * sp_nuneqlt p)). cbn [sp_nuneqlt with_counts]. lra.
Qed.
Lemma sign_near : Rle (Rabs (Rminus (from ne ns s (fun r => m_sign (fst r))) sigma)) (Rmult C (memory rate ne ns)).
Proof.
  have [KO [KN [KC [HE SO]]]] := tables (junk := junk) LA SC WF HU Ek Est.
  have := @eq_near (fun r => m_sign (fst r)) (fun x => sgn (W (snd x))) R1 R1. rewrite (Rmult_1_r sigma) (Rmult_1_l (memory _ _ _)). apply.
  - move=> s' t r eq un HR'. exact: (ir_sign HR').
  - lra.
  - move=> l s' _ _. exact: sgn_bound.
  - move=> l _. rewrite Rmult_1_r -(lam_one L KO KN KC HU (LJ junk WF) Est). apply: total_ext => s' _. rewrite /=. ring.
Qed.
Lemma usign_near : (0 < sp_nuneqlt p)%Z -> Rle (Rabs (Rminus (from ne ns s usign) sigma)) (Rmult C (memory rate ne ns)).
Proof.
  have [KO [KN [KC [HE SO]]]] := tables (junk := junk) LA SC WF HU Ek Est. move=> Hp.
  have := @un_near usign (fun s => sgn (W s)) R1 R1 Hp. rewrite (Rmult_1_r sigma) (Rmult_1_l (memory _ _ _)). apply.
  - move=> s' t r eq un u HR' Eu. rewrite Eu. have := ir_u HR'. rewrite Eu. by move=> [_ [_ [-> _]]].
  - lra.
  - move=> s' _. exact: sgn_bound.
  - rewrite Rmult_1_r -(lam_one L KO KN KC HU (LJ junk WF) Est). apply: total_ext => s' _. rewrite /=. ring.
Qed.
End Run.

Notation long := (long_run p rate threshold).
Lemma sign_pos ne ns s : long ne ns s -> Rlt 0 (from ne ns s (fun r => m_sign (fst r))).
Proof.
  case=> HR HM. have M0 := @memory_pos ne ns ltac:(by case: HR => _ []). have S := sign_near HR. have := below M0 HM. have := sigma_pos.
  have := Rle_abs (Rminus sigma (from ne ns s (fun r => m_sign (fst r)))). rewrite Rabs_minus_sym. lra.
Qed.
Lemma usign_pos ne ns s : (0 < sp_nuneqlt p)%Z -> long ne ns s -> Rlt 0 (from ne ns s usign).
Proof.
  move=> Hp. case=> HR HM. have M0 := @memory_pos ne ns ltac:(by case: HR => _ []). have S := usign_near HR Hp. have := below M0 HM. have := sigma_pos.
  have := Rle_abs (Rminus sigma (from ne ns s usign)). rewrite Rabs_minus_sym. lra.
Qed.

Lemma eq_tends : thermal_equal_time (tends_to p rate threshold) (fun O : fock n => thermal (EV p) (EK p k) L 0 O 1%:M)
  (fun f e ne ns s => Rdiv (from ne ns s (fun r => val (m_arr (fst r) f) e)) (from ne ns s (fun r => m_sign (fst r)))).
Proof.
  refine (@equal_time_entries la junk ijunk p k st LA SC WF HU Hn Ek Est NZ _ _ _ _) => f e F x H1 H2.
  set g := fun x : nat * list Z => Rmult (sgn (W (snd x))) (F (state_at n L k st x)).
  have [B [B0 HB]] := finite_bound g (List.list_prod (List.seq 0 L.+1) (fields (L * n))).
  exists (Rdiv (Rmult (Rmult 2 C) (Rplus B (Rabs x))) sigma). split.
  { apply: Rmult_le_pos; last by apply/Rlt_le/Rinv_0_lt_compat/sigma_pos. have := C_pos. have := Rabs_pos x => ? ?.
    apply: Rmult_le_pos; lra. }
  move=> ne ns s [HR HM]. have M0 := @memory_pos ne ns ltac:(by case: HR => _ []).
  apply: (proj2 (@ratio_near _ _ x sigma B C _ sigma_pos C_pos M0 B0 (below M0 HM) _ (sign_near HR))).
  apply: (eq_near HR (g := g)) => //.
  - move=> s' t r eq un HR'. exact: (H1 _ _ (eq_results_counts (ir_res HR'))).
  - move=> l s' Hl Hf'. apply: HB. apply: List.in_prod => //. apply/List.in_seq. move/leP: Hl. lia.
Qed.
Lemma un_tends : (0 < sp_nuneqlt p)%Z -> thermal_unequal_time (p := p) (tends_to p rate threshold) (thermal (EV p) (EK p k) L)
  (fun f e ne ns s => Rdiv (from ne ns s (fun r => match snd r with Some u => val (u_arr u f) e | None => R0 end)) (from ne ns s usign)).
Proof.
  move=> Hp. refine (@unequal_time_entries la junk p k st LA SC WF HU Ek Est NZ _ _ _ _) => f e l F x H1 H2.
  set g := fun s : list Z => Rmult (sgn (W s)) (F (states_at n L k st l s)).
  have [B [B0 HB]] := finite_bound g (fields (L * n)).
  exists (Rdiv (Rmult (Rmult 2 C) (Rplus B (Rabs x))) sigma). split.
  { apply: Rmult_le_pos; last by apply/Rlt_le/Rinv_0_lt_compat/sigma_pos. have := C_pos. have := Rabs_pos x => ? ?.
    apply: Rmult_le_pos; lra. }
  move=> ne ns s [HR HM]. have M0 := @memory_pos ne ns ltac:(by case: HR => _ []).
  apply: (proj2 (@ratio_near _ _ x sigma B C _ sigma_pos C_pos M0 B0 (below M0 HM) _ (usign_near HR Hp))).
  apply: (un_near HR (g := g)) => //.
  move=> s' t r eq un u HR' Eu. rewrite Eu. have := ir_u HR'. rewrite Eu => -[_ [_ [_ UR]]]. exact: (H1 _ _ (un_results_counts UR)).
Qed.
End Rate.
End Main.
