(** Means of the results of complete simulations with ideal random numbers. *)
From Coq Require Import ZArith List Reals Lia Lra.
From mathcomp Require Import all_ssreflect fingroup perm ssralg matrix.
From Verif Require Import Base MatProd RField MatSpec MatFacts TimeStep TimeStepSpec Strat StratSpec StratFacts GreenSpec GreenFacts Lapack LapackSpec GreenConstruct SimParams ParamSpec KineticSpec KineticExp KineticExpSpec
  KineticExpFacts TimeFlowFacts RandSource Sweep SweepSpec SweepFacts LatticeSpec LatticeFacts WickSpec Sums SumsFacts Measure MeasureSpec MeasureFacts UMeasure UMeasureSpec UnequalTime UnequalTimeSpec SimulationSpec SimulationRun Simulation
  IdealSpec IdealFacts IdealLink IdealChain FockSpec FockFacts FockWick FockExp HubbardSpec HubbardFacts HubbardWick HubbardLink TrotterPos ThermalSpec ThermalFacts P_Simulation.
Set Implicit Arguments.
Unset Strict Implicit.
Unset Printing Implicit Defensive.
Local Open Scope ring_scope.
Import GRing.Theory.

Lemma start_random t : forall len s, List.length s = len -> List.Forall (fun v => v = 0%Z \/ v = 1%Z) s ->
  random_field ideal_source len (start_numbers s, t) = Some (s, ([::], t)).
Proof.
  elim=> [|len IH] [|v s] // [E] H. inversion H as [|? ? Hv Hs]; subst.
  cbn [random_field start_numbers List.map r_uniform ideal_source fst snd obind].
  change (List.map _ s) with (start_numbers s). rewrite IH // /=.
  case: Hv => ->; case: Rlt_dec => //= Hr; exfalso; lra.
Qed.
Lemma start_valid n s t : List.Forall (slice_tape_ok n) t -> tape_valid n (start_numbers s, t).
Proof.
  move=> H. split => //=. elim: s => [|v s IH]; constructor => //. case: (v =? 0)%Z; lra.
Qed.
Lemma lsum_scal (A : Type) (g : A -> R) c xs : lsum (fun x => Rmult (g x) c) xs = Rmult (lsum g xs) c.
Proof. rewrite /lsum. elim: xs => [|x xs IH] /=; first by rewrite Rmult_0_l. rewrite IH. ring. Qed.
Lemma lsum_one (A : Type) (xs : list A) : lsum (fun _ => R1) xs = INR (List.length xs).
Proof. rewrite /lsum. elim: xs => [|x xs IH] //. cbn [List.fold_right List.length]. rewrite IH S_INR. ring. Qed.

(** a tape for [r] slices *)
Definition some_tape (n r : nat) : tape := List.repeat (List.repeat 0%Z n, List.repeat R1 n) r.
Lemma some_tape_ok n r : List.length (some_tape n r) = r /\ List.Forall (slice_tape_ok n) (some_tape n r).
Proof.
  split; first exact: repeat_length. apply/List.Forall_forall => x H; rewrite (List.repeat_spec _ _ _ H).
  split; first exact: repeat_length. split; [|split; first exact: repeat_length].
  - move=> i _ /=. rewrite nth_repeat. lia.
  - apply/List.Forall_forall => u Hu; rewrite (List.repeat_spec _ _ _ Hu). lra.
Qed.

Section Runs.
Variables (la : lapack) (junk : Z -> R) (ijunk : Z -> Z) (p : sim_params) (k : kinetic) (st : strat).
Hypotheses (LA : lapack_ok la) (SC : syev_converges la) (WF : well_formed p) (VP : valid_params p).
Hypothesis HU : Z.of_nat (List.length (sp_U p)) = sp_Norb p.
Hypothesis Hpos : forall o, (0 <= o < sp_Norb p)%Z -> Rle 0 (Rmult (sp_dt p) (List.nth (Z.to_nat o) (sp_U p) R0)).
Hypotheses (Hq : (0 <= sp_nequil p)%Z) (Hs : (0 < sp_nsampl p)%Z) (Hn : (0 < sp_neqlt p <= sp_L p)%Z).
Hypothesis Hun : (0 < sp_nuneqlt p)%Z -> (2 * sp_prodBlen p <= sp_L p)%Z /\
     exists t, (sp_nequil p <= t < sp_nequil p + sp_nsampl p)%Z /\ (sp_nuneqlt p | t)%Z.
Hypotheses (Ek : kinetic_exponential la junk p = Some k)
  (Est : fill_stratonovich (sp_Norb p) (sp_U p) (sp_dt p) (fresh junk (sp_Norb p)) = Some st).
Notation n := (sites p).
Notation L := (Z.to_nat (sp_L p)).
Notation W := (weight n L k st).
Hypothesis NZ : forall s, List.In s (fields (L * n)) -> W s <> 0.
Notation c := (Z.to_nat (sp_nequil p + sp_nsampl p)).

Record is_run (s : list Z) (t : tape) (r : meas * option umeas) (eq : eq_record) (un : list (list Z)) : Prop := {
  ir_sim : simulation ideal_source la junk ijunk p (start_numbers s, t) = Some (Some r);
  ir_eq : forall g, lsum g eq = sweep_sum n W L (fun it l s => Rmult (ind (eq_due p it l)) (g (l.+1, s))) c 0 t s;
  ir_un : forall f, lsum f un = sweep_sum n W L (fun it l s => Rmult (ind (un_due L p it l)) (f s)) c 0 t s;
  ir_len : Z.of_nat (List.length eq) = (sp_nsampl p * (sp_L p / sp_neqlt p))%Z;
  ir_sign : m_sign (fst r) = list_mean (fun x => sgn (W (snd x))) eq;
  ir_res : equal_time_results p (eq_mean n L k st eq) (fst r);
  ir_u : match snd r with
    | None => (sp_nuneqlt p <= 0)%Z
    | Some u => (0 < sp_nuneqlt p)%Z /\
      Z.of_nat (List.length un) = multiples (sp_nuneqlt p) (sp_nequil p) (sp_nequil p + sp_nsampl p) /\
      u_sign u = list_mean (fun s => sgn (W s)) un /\ unequal_time_results p (un_mean n L k st un) u
    end }.

Lemma run_exists s t : List.In s (fields (L * n)) -> List.length t = (c * L)%N -> List.Forall (slice_tape_ok n) t -> exists r eq un, is_run s t r eq un.
Proof.
  move=> Hf Ht Hv. have [F1 F2] : field_ok n L s by apply/fields_in.
  have [k1 [st1 [s1 [sd1 [Ek1 [_ [Est1 [E1 HC]]]]]]]] := C56_results_are_means_over_chain junk ijunk (ideal_rand_ok n) (start_valid s Hv) LA SC WF VP HU Hpos Hq Hs Hn Hun.
  move: Ek1 Est1. rewrite Ek Est => -[?] -[?]. subst k1 st1.
  have E0 := @start_random t (L * n) s F1 F2. move: E1. unfold tape in E0 |- *. rewrite E0 => -[? ?]. subst s1 sd1.
  have [h [Eh HR]] := HC (NZ Hf).
  have HL : (0 < L)%coq_nat by lia.
  have [us' [t' [s' [eq [un [E2 [G1 G2]]]]]]] := @chain_sweeps n W L p HL (raw_ints ijunk (Z.of_nat n))
    ltac:(by rewrite /raw_ints !map_length seq_length; lia) c 0%Z t [::] s [::] [::] ltac:(by rewrite Ht) Hv.
  move: Eh. rewrite /chain /for_range Z.sub_0_r. unfold tape in E2 |- *. rewrite E2 => -[?]. subst h.
  case: HR => m [u [x [Em [Neq [_ [_ [Nm [Sm [ER [HUN _]]]]]]]]]].
  exists (m, u), eq, un. constructor => //.
  - move=> g. rewrite G1. exact: Rplus_0_l.
  - move=> f. rewrite G2. exact: Rplus_0_l.
  - move: HUN. rewrite /=. case: u Em => [u|] Em //. by move=> [? [? [_ [? ?]]]].
Qed.

Notation TW := (total (fun s => Rabs (W s)) (fields (L * n))).
Lemma mean_sweeps (Phi : meas * option umeas -> R) G :
  (forall s t r eq un, is_run s t r eq un -> Phi r = sweep_sum n W L G c 0 t s) ->
  mean_result p la junk ijunk W Phi = Rdiv (grid L (fun it l => total (fun s => Rmult (Rabs (W s)) (G it l s)) (fields (L * n))) c 0) TW.
Proof.
  move=> H. rewrite /mean_result -sweep_mean. congr Rdiv. apply: total_ext => s Hf. congr Rmult. apply: tape_mean_ext => t Ht Hv.
  have [r [eq [un HR]]] := run_exists Hf Ht Hv. by rewrite (ir_sim HR) (H _ _ _ _ _ HR).
Qed.
Lemma some_run : exists s t r eq un, List.length t = (c * L)%N /\ is_run s t r eq un.
Proof.
  have [s Hf] : exists s, List.In s (fields (L * n)).
  { exists (List.repeat 0%Z (L * n)). apply/fields_in. split; first exact: repeat_length. apply/List.Forall_forall => x H; rewrite (List.repeat_spec _ _ _ H). by left. }
  have [H1 H2] := some_tape_ok n (c * L). have [r [eq [un HR]]] := run_exists Hf H1 H2. by exists s, (some_tape n (c * L)), r, eq, un.
Qed.
Lemma grid_count (due : Z -> nat -> bool) cnt (X : R) (f : Z -> nat -> R) : cnt <> R0 -> grid L (fun it l => ind (due it l)) c 0 = cnt ->
  (forall it l, (l < L)%coq_nat -> f it l = Rmult (ind (due it l)) (Rdiv X cnt)) -> grid L f c 0 = X.
Proof. move=> Hc Eg H. rewrite (@grid_ext L _ _ c 0 H) grid_scal Eg. by field. Qed.

Lemma mean_eq (Phi : meas * option umeas -> R) (g : nat * list Z -> R) (X : R) :
  (forall s t r eq un, is_run s t r eq un -> Phi r = list_mean g eq) ->
  (forall l, (l <= L)%N -> total (fun s => Rmult (Rabs (W s)) (g (l, s))) (fields (L * n)) = X) ->
  mean_result p la junk ijunk W Phi = Rdiv X TW.
Proof.
  move=> H HX. set cnt := IZR (sp_nsampl p * (sp_L p / sp_neqlt p)).
  have Hl : forall s t r eq un, is_run s t r eq un -> INR (List.length eq) = cnt by move=> s t r eq un HR; rewrite INR_IZR_INZ (ir_len HR).
  have Hc : cnt <> R0. { apply: not_0_IZR. have := Z.div_le_lower_bound (sp_L p) (sp_neqlt p) 1 ltac:(lia) ltac:(lia). nia. }
  rewrite (@mean_sweeps _ (fun it l s => Rmult (ind (eq_due p it l)) (Rmult (g (l.+1, s)) (Rinv cnt)))).
  2:{ move=> s t r eq un HR. rewrite (H _ _ _ _ _ HR) /list_mean (Hl _ _ _ _ _ HR) -(ir_eq HR (fun x => Rmult (g x) (Rinv cnt))). by rewrite lsum_scal. }
  congr Rdiv. apply: (@grid_count (eq_due p) cnt) => //.
  - have [s [t [r [eq [un [Ht HR]]]]]] := some_run. rewrite -(Hl _ _ _ _ _ HR) -lsum_one (ir_eq HR).
    rewrite -(@sweep_sum_const n W L (fun it l => ind (eq_due p it l)) c 0%Z t s); last by rewrite Ht.
    rewrite (_ : (fun it l _ => Rmult _ _) = (fun it l (_ : list Z) => ind (eq_due p it l))) //.
    do 3 (apply: FunctionalExtensionality.functional_extensionality => ?). exact: Rmult_1_r.
  - move=> it l Hlt. have <- := HX l.+1 ltac:(by apply/ltP; lia).
    rewrite /Rdiv (Rmult_comm (total _ _)) -Rmult_assoc -total_scal. apply: total_ext => s _. ring.
Qed.
Lemma multiples_pos : (0 < sp_nuneqlt p)%Z -> IZR (multiples (sp_nuneqlt p) (sp_nequil p) (sp_nequil p + sp_nsampl p)) <> R0.
Proof.
  move=> Hp. apply: not_0_IZR. have [_ [t [Ht [q Hq']]]] := Hun Hp. rewrite /multiples. set w := sp_nuneqlt p in Hp Hq' *.
  have A1 : ((sp_nequil p + w - 1) / w <= q)%Z.
  { have : ((sp_nequil p + w - 1) / w < q + 1)%Z by apply: Z.div_lt_upper_bound; nia. lia. }
  have A2 : (q + 1 <= (sp_nequil p + sp_nsampl p + w - 1) / w)%Z by apply: Z.div_le_lower_bound; nia.
  lia.
Qed.
Lemma mean_un (Phi : meas * option umeas -> R) (g : list Z -> R) (X : R) : (0 < sp_nuneqlt p)%Z ->
  (forall s t r eq un u, is_run s t r eq un -> snd r = Some u -> Phi r = list_mean g un) ->
  total (fun s => Rmult (Rabs (W s)) (g s)) (fields (L * n)) = X ->
  mean_result p la junk ijunk W Phi = Rdiv X TW.
Proof.
  move=> Hp H HX. set cnt := IZR (multiples (sp_nuneqlt p) (sp_nequil p) (sp_nequil p + sp_nsampl p)).
  have Hu : forall s t r eq un, is_run s t r eq un -> exists u, snd r = Some u.
  { move=> s t r eq un HR. have := ir_u HR. case: (snd r) => [u|]; [by exists u|lia]. }
  have Hl : forall s t r eq un, is_run s t r eq un -> INR (List.length un) = cnt.
  { move=> s t r eq un HR. rewrite INR_IZR_INZ. have [u Eu] := Hu _ _ _ _ _ HR. have := ir_u HR. rewrite Eu => -[_ [E _]]. by rewrite E. }
  have Hc : cnt <> R0 by exact: multiples_pos.
  rewrite (@mean_sweeps _ (fun it l s => Rmult (ind (un_due L p it l)) (Rmult (g s) (Rinv cnt)))).
  2:{ move=> s t r eq un HR. have [u Eu] := Hu _ _ _ _ _ HR. rewrite (H _ _ _ _ _ _ HR Eu) /list_mean (Hl _ _ _ _ _ HR) -(ir_un HR (fun x => Rmult (g x) (Rinv cnt))).
      by rewrite lsum_scal. }
  congr Rdiv. apply: (@grid_count (un_due L p) cnt) => //.
  - have [s [t [r [eq [un [Ht HR]]]]]] := some_run. rewrite -(Hl _ _ _ _ _ HR) -lsum_one (ir_un HR).
    rewrite -(@sweep_sum_const n W L (fun it l => ind (un_due L p it l)) c 0%Z t s); last by rewrite Ht.
    rewrite (_ : (fun it l _ => Rmult _ _) = (fun it l (_ : list Z) => ind (un_due L p it l))) //.
    do 3 (apply: FunctionalExtensionality.functional_extensionality => ?). exact: Rmult_1_r.
  - move=> it l Hlt. rewrite -HX.
    rewrite /Rdiv (Rmult_comm (total _ _)) -Rmult_assoc -total_scal. apply: total_ext => s _. ring.
Qed.
End Runs.
