(** Proofs about complete simulations with phonons: when measurements change the data, and the record of
    the chain. *)
From Coq Require Import ZArith List Reals Lia Lra.
From mathcomp Require Import all_ssreflect ssralg matrix.
From Verif Require Import Base BaseFacts RField MatSpec MatFacts TimeStep TimeStepSpec Strat StratSpec GreenSpec GreenFacts Lapack LapackSpec
  GreenConstruct SimParams ParamParser RandSource Sweep SweepSpec SweepFacts SimulationSpec SimulationFacts
  PhononSweep PhononSpec PhononFieldFacts PhononLoopFacts PhononFacts PMeasure SimulationRun WickSpec PSimulation PSimulationSpec.
Set Implicit Arguments.
Unset Strict Implicit.
Unset Printing Implicit Defensive.
Local Open Scope ring_scope.
Import GRing.Theory.

(** * When measurements change the data *)
Section Pure.
Context {RS MT PT : Type}.
Variables (rng : rand_source RS) (measure : greens_func -> greens_func -> MT -> option MT) (la : lapack) (junk : Z -> R).
Notation phstate := (phstate RS MT PT).

(** the same measurement data *)
Definition same_data (p p' : phstate) : Prop := mc_meas (p_mc p') = mc_meas (p_mc p) /\ p_meas p' = p_meas p.
Lemma same_data_trans p q r : same_data p q -> same_data q r -> same_data p r.
Proof. by case=> A B [C D]; rewrite /same_data C D. Qed.

Lemma local_update_meas k ph dt l i (p p' : phstate) : local_update rng junk k ph dt l i p = Some p' -> same_data p p'.
Proof.
  rewrite /local_update. move/obind_Some => [o [_]] /obind_Some [g [_]]. case: Req_EM_T => _; first by case=> <-.
  move/obind_Some => [[u sd] [_]] /obind_Some [du [_]] /obind_Some [dd [_]] /obind_Some [w [_]] /obind_Some [dE [_]] /obind_Some [[u' sd'] [_]].
  case: Rlt_dec => _; last by case=> <-.
  move/obind_Some => [G [_]] /obind_Some [x [_]] /obind_Some [X [_]] /obind_Some [x' [_]] /obind_Some [eX [_ [<-]]]. by [].
Qed.
Lemma local_updates_meas k ph dt l (p p' : phstate) : local_updates rng junk k ph dt l p = Some (Some p') -> same_data p p'.
Proof.
  rewrite /local_updates => /obind_Some [[[sd o]|] [_ //]] /obind_Some [p2 [E [<-]]].
  case: (Z_le_gt_dec 0 (ph_n_local_updates ph)) => Hle; last by move: E; rewrite for_range_none; [case=> <-|lia].
  have := @for_range_partial _ (fun _ x => same_data p x) _ _ _ _ _ Hle _ _ E. apply; last by [].
  move=> j x x' _ Hx /obind_Some [r [_]] /obind_Some [i [_]] /local_update_meas. exact: same_data_trans.
Qed.
Lemma block_decide_meas k st dt L N i count dE Xi eXi X eX b b' :
  block_decide (PT := PT) (MT := MT) rng la junk k st dt L N i count dE Xi eXi X eX b = Some b' -> same_data (b_p b) (b_p b').
Proof.
  rewrite /block_decide. do 4!(move/obind_Some => [? [_]]). move/obind_Some => [[u sd] [_]].
  case: Rlt_dec => _.
  - do 4!(move/obind_Some => [? [_]]). by case=> <-.
  - do 2!(move/obind_Some => [? [_]]). by case=> <-.
Qed.
Lemma block_update_meas k st ph dt b b' : block_update (PT := PT) (MT := MT) rng la junk k st ph dt b = Some (Some b') -> same_data (b_p b) (b_p b').
Proof.
  rewrite /block_update => /obind_Some [[[i sd]|] [_ //]] /obind_Some [o [_]] /obind_Some [g [_]].
  case: Req_EM_T => _; first by case=> <-.
  do 2!(move/obind_Some => [? [_]]). move/obind_Some => [[u sd'] [_]]. do 2!(move/obind_Some => [? [_]]).
  move/obind_Some => [[X eX] [_]] /obind_Some [b2 [E [<-]]]. by have := block_decide_meas E.
Qed.
Lemma flip_update_meas k st ph dt mu b b' : flip_update (PT := PT) (MT := MT) rng la junk k st ph dt mu b = Some (Some b') -> same_data (b_p b) (b_p b').
Proof.
  rewrite /flip_update => /obind_Some [[[i sd]|] [_ //]] /obind_Some [o [_]] /obind_Some [g [_]].
  case: Req_EM_T => _; first by case=> <-.
  do 4!(move/obind_Some => [? [_]]).
  move/obind_Some => [[dE [X eX]] [_]] /obind_Some [b2 [E [<-]]]. by have := block_decide_meas E.
Qed.
Lemma block_updates_meas ph upd (p p' : phstate) : (forall b b', upd b = Some (Some b') -> same_data (b_p b) (b_p b')) ->
  block_updates junk ph upd p = Some (Some p') -> same_data p p'.
Proof.
  move=> HU. rewrite /block_updates. case: Z.leb_spec => Hn; first by case=> <-.
  move/obind_Some => [tu [_]] /obind_Some [td [_]] /obind_Some [[b|] [E //]] [<-].
  have := @for_range_partial _ (fun _ (o : option (blkstate (RS := RS) (MT := MT) (PT := PT))) => match o with None => True | Some x => same_data p (b_p x) end) 0%Z (ph_n_block_updates ph) _ _ _ ltac:(lia) _ _ E.
  apply; last by [].
  move=> j [x|] o _ Hx /=; last by case=> <-. case: o => [x'|] // /HU. exact: same_data_trans.
Qed.

(** a measurement that always returns *)
Definition totally (f : greens_func -> greens_func -> Z -> list R -> PT -> option PT) Gu Gd l X d : option PT :=
  Some (match f Gu Gd l X d with Some d' => d' | None => d end).

Variable measure_ph : greens_func -> greens_func -> Z -> list R -> PT -> option PT.

Lemma phonon_slice_meas k noHS st ph dt nw neqlt l (p : phstate) r : (0 <= ts_N (mc_tu (p_mc p)))%Z -> (0 <= l)%Z ->
  phonon_slice rng measure (totally measure_ph) la junk k noHS st ph dt nw neqlt l p = Some r ->
  match r with
  | None => phonon_slice rng measure measure_ph la junk k noHS st ph dt nw neqlt l p = Some None
  | Some p' =>
    if due_at neqlt (l + 1) then
      measure (mc_Gu (p_mc p')) (mc_Gd (p_mc p')) (mc_meas (p_mc p)) = Some (mc_meas (p_mc p')) /\
      forall d, measure_ph (mc_Gu (p_mc p')) (mc_Gd (p_mc p')) l (p_X p') (p_meas p) = Some d ->
        p_meas p' = d /\ phonon_slice rng measure measure_ph la junk k noHS st ph dt nw neqlt l p = Some (Some p')
    else same_data p p' /\ phonon_slice rng measure measure_ph la junk k noHS st ph dt nw neqlt l p = Some (Some p')
  end.
Proof.
  move=> HN Hl. rewrite /phonon_slice => /obind_Some [m1 [E1]]. rewrite E1. cbn [obind].
  have [M1 N1] : mc_meas m1 = mc_meas (p_mc p) /\ mc_tu m1 = mc_tu (p_mc p).
  { move: E1. rewrite /wrap_both. do 6!(move/obind_Some => [? [_]]). by case=> <-. }
  move=> /obind_Some [o [E2]]. rewrite E2. cbn [obind]. case: o E2 => [m2|] E2; last by case=> <-.
  have M2 : mc_meas m2 = mc_meas m1.
  { move: E2. case: noHS; first by case=> ->. apply: hs_sites_meas. by rewrite N1. }
  move=> /obind_Some [o [E3]]. rewrite E3. cbn [obind]. case: o E3 => [p3|] E3; last by case=> <-.
  have [M3 P3] := local_updates_meas E3. cbn [p_mc p_meas] in M3, P3.
  move=> /obind_Some [p4 [E4]]. rewrite E4. cbn [obind].
  have [M4 P4] : same_data p3 p4.
  { move: E4. rewrite /update_phonon_tsms. do 2!(move/obind_Some => [? [_]]). by case=> <-. }
  move=> /obind_Some [m5 [E5]]. rewrite E5. cbn [obind].
  have M5 : mc_meas m5 = mc_meas (p_mc p4).
  { move: E5. rewrite /recompute_both => /obind_Some [q [_]]. case: (q =? 0)%Z; last by case=> <-.
    do 3!(move/obind_Some => [? [_]]). by case=> <-. }
  move=> /obind_Some [p6 [E6 [<-]]]. move: E6. rewrite /measure_phonon_slice /due_at. cbn [p_mc p_X p_meas p_expX p_cnt].
  case: Z.ltb_spec => Hp; cbn [andb]; last first.
  { case=> <-. cbn [obind]. split => //. by rewrite /same_data /= M5 M4 M3 M2 M1 P4 P3. }
  rewrite /cmod. have -> : (neqlt =? 0)%Z = false by apply/Z.eqb_neq; lia. cbn [obind].
  rewrite Z.rem_mod_nonneg; try lia. case ED : (_ =? 0)%Z; last first.
  { case=> <-. cbn [obind]. split => //. by rewrite /same_data /= M5 M4 M3 M2 M1 P4 P3. }
  rewrite /measure_slice. have -> : (0 <? neqlt)%Z = true by apply/Z.ltb_lt.
  rewrite /cmod. have -> : (neqlt =? 0)%Z = false by apply/Z.eqb_neq; lia. cbn [obind].
  rewrite Z.rem_mod_nonneg; try lia. rewrite ED.
  move/obind_Some => [m6 [E6]] /obind_Some [d6 [[Ed] [<-]]]. rewrite E6. cbn [obind p_mc p_X p_meas].
  move: E6 => /obind_Some [d [Em [E6]]]. subst m6. cbn [mc_Gu mc_Gd mc_meas] in Ed |- *. split.
  { by rewrite -M1 -M2 -M3 -M4 -M5. }
  move=> d0. rewrite P4 P3 in Ed *. move=> E0. rewrite E0 in Ed *. cbn [obind]. by subst d6.
Qed.
End Pure.

(** arguments of the phonon measurements *)
Definition ph_samples (eq : ph_record) (gs : list (greens_func * greens_func)) : list psample :=
  List.map (fun xg => mk_psample (fst (snd xg)) (snd (snd xg)) (Z.of_nat (fst (fst xg)) - 1) (snd (snd (fst xg)))) (List.combine eq gs).
Lemma combine_snoc A B (xs : list A) (ys : list B) x y : List.length xs = List.length ys ->
  List.combine (xs ++ [:: x]) (ys ++ [:: y]) = List.combine xs ys ++ [:: (x, y)].
Proof. elim: xs ys => [|a xs IH] [|c ys] //= [H]. by rewrite IH. Qed.
Lemma ph_samples_snoc eq gs x g : List.length eq = List.length gs ->
  ph_samples (eq ++ [:: x]) (gs ++ [:: g]) = ph_samples eq gs ++ [:: mk_psample (fst g) (snd g) (Z.of_nat (fst x) - 1) (snd (snd x))].
Proof. move=> H. by rewrite /ph_samples combine_snoc // map_app. Qed.
Lemma paccumulate_all_snoc dt om xs x m : paccumulate_all dt om (xs ++ [:: x]) m = obind (paccumulate_all dt om xs m) (paccumulate1 dt om x).
Proof. by rewrite /paccumulate_all fold_left_app. Qed.

Section Chain.
Context {RS MT : Type}.
Variables (rng : rand_source RS) (valid : RS -> Prop).
Hypothesis RO : rand_ok rng valid.
Variables (la : lapack) (LA : lapack_ok la) (junk : Z -> R).
Variables (measure : greens_func -> greens_func -> MT -> option MT) (MI : MT -> Prop).
Variables (n L b : nat) (k : kinetic) (st : strat) (p : sim_params) (noHS : bool).
Let ph := sp_phonon p.
Let dt := sp_dt p.
Hypotheses (Hn : (0 < n)%N) (Hn64 : (Z.of_nat n < 2^64)%Z) (HL2 : (2 <= L)%N) (KO : kinetic_ok n k) (SO : strat_ok (k_Norb k) st)
  (PO : phonon_ok (k_Norb k) ph) (Hdt : dt <> R0) (HM : measure_ok n measure MI).

Notation phstate := (phstate RS MT pmeas).
Notation steps := (psteps_of n k st p).
Notation consistent := (@ph_consistent n L k st ph dt RS MT pmeas valid MI (fun _ => True) b).
Notation at_slice := (at_slice (PT := pmeas) valid MI (fun _ => True) n L b k st ph dt).

(** the pair of Green's functions belongs to slice and fields *)
Definition ph_pair (x : nat * fields) (g : greens_func * greens_func) : Prop :=
  field_ok n L (fst (snd x)) /\ List.length (snd (snd x)) = (L * n)%N /\ (0 < fst x <= L)%N /\
  green_of (cyclic_flow (steps (snd x) up) L (fst x)) (fst g) /\
  green_of (cyclic_flow (steps (snd x) dn) L (fst x)) (snd g).

Definition ph_recorded (eq : ph_record) (d : MT) (e : pmeas) (x : phstate) : Prop :=
  exists gs, List.Forall2 ph_pair eq gs /\ measure_list measure gs d = Some (mc_meas (p_mc x)) /\
    paccumulate_all dt (ph_omega ph) (ph_samples eq gs) e = Some (p_meas x).

(** the histories are large enough for [mx] measurements *)
Variables (d0 : MT) (e0 : pmeas) (mx : Z).
Hypothesis HC : forall eq gs, List.Forall2 ph_pair eq gs -> (Z.of_nat (List.length eq) <= mx)%Z ->
  exists e, paccumulate_all dt (ph_omega ph) (ph_samples eq gs) e0 = Some e.

(** measurements made up to slice [l] *)
Definition measured (neqlt l : Z) : Z := if (0 <? neqlt)%Z then (l / neqlt)%Z else 0%Z.
Lemma measured_step neqlt l : (0 <= l)%Z -> measured neqlt (l + 1) = (measured neqlt l + (if due_at neqlt (l + 1) then 1 else 0))%Z.
Proof.
  move=> Hl. rewrite /measured. case: Z.ltb_spec => Hq; first exact: due_step.
  rewrite /due_at. by have -> : (0 <? neqlt)%Z = false by apply/Z.ltb_ge.
Qed.
Lemma measured_mono neqlt l l' : (0 <= l <= l')%Z -> (measured neqlt l <= measured neqlt l')%Z.
Proof. move=> H. rewrite /measured. case: Z.ltb_spec => Hq; last lia. apply: Z.div_le_mono; lia. Qed.

Lemma total_ok : measure_ph_ok n L (totally (measure_phonons p)) (fun _ => True).
Proof. move=> *. by eexists. Qed.

Lemma same_data_recorded eq x x' : same_data x x' -> ph_recorded eq d0 e0 x -> ph_recorded eq d0 e0 x'.
Proof. by case=> A B [gs [H1 [H2 H3]]]; exists gs; rewrite A B. Qed.

Lemma ph_iteration_recorded nw neqlt eq x : (0 < nw)%N -> (b %| nw)%N -> consistent x -> ph_recorded eq d0 e0 x ->
  (Z.of_nat (List.length eq) + measured neqlt (Z.of_nat L) <= mx)%Z ->
  let it := phonon_iteration rng measure (measure_phonons p) la junk k noHS st ph dt (sp_mu p) (Z.of_nat nw) neqlt x in
  (exists r r', it = Some r /\ pchain_sweep rng n L k st p noHS neqlt (cfg x, eq) = Some r' /\
    match r, r' with
    | None, None => True
    | Some x', Some (c, eq') => c = cfg x' /\ consistent x' /\ ph_recorded eq' d0 e0 x' /\
        Z.of_nat (List.length eq') = (Z.of_nat (List.length eq) + measured neqlt (Z.of_nat L))%Z
    | _, _ => False
    end) \/ (it = None /\ zero_weight n L k st ph dt).
Proof.
  move=> Hnw Hb Hx HR0 Hcap. rewrite /phonon_iteration /pchain_sweep.
  have -> : ts_L (mc_tu (p_mc x)) = Z.of_nat L by case: (phc_tu Hx) => [[]].
  have Hrl : forall s X (l : 'I_L) (i : 'I_n) dx, List.length X = (L * n)%N ->
    weight_ratio n L k st ph dt s X l i dx = code_ratio n L k st ph dt s X l i dx by move=> s X l i dx HX; rewrite code_ratio_weight.
  pose Rel (l : Z) (o : option phstate) (o' : option ((RS * list Z * list Z * list R) * ph_record)) :=
    match o, o' with
    | None, None => True
    | Some x', Some (c, eq') => c = cfg x' /\ at_slice (Z.to_nat l) x' /\ ph_recorded eq' d0 e0 x' /\
        Z.of_nat (List.length eq') = (Z.of_nat (List.length eq) + measured neqlt l)%Z
    | _, _ => False
    end.
  have [|||r [r' [-> [-> HR]]]] := @for_range_sim _ _ Rel 0%Z (Z.of_nat L)
    (fun l => may_hang (phonon_slice rng measure (measure_phonons p) la junk k noHS st ph dt (Z.of_nat nw) neqlt l))
    (fun l => may_hang (pchain_slice rng n L k st p noHS neqlt l)) (Some x) (Some (cfg x, eq)).
  - lia.
  - move=> l o o' Hl. case: o o' => [x1|] [[c eq1]|] //=; last by move=> _; exists None, None.
    move=> [-> [Hx1 [Hr1 Hlen]]]. have Hl' : (Z.to_nat l < L)%N by apply/ltP; lia.
    have [r [r' [E1 [E2 HR]]]] := @phonon_slice_ok _ _ _ _ _ RO _ LA junk _ _ _ _ _ _ _ _ _ _ _ Hn KO SO PO HM total_ok Hdt _ Hrl noHS nw neqlt (Ordinal Hl') x1 Hnw Hb Hx1.
    cbn [nat_of_ord] in E1, E2, HR. rewrite Z2Nat.id in E1 E2; last lia.
    have HN : (0 <= ts_N (mc_tu (p_mc x1)))%Z by rewrite (si_N (sl_site (as_slice Hx1))); lia.
    have HS := phonon_slice_meas HN (proj1 Hl) E1.
    rewrite /pchain_slice [fst _]/= E2. cbn [obind].
    case: r r' HR HS {E1 E2} => [x2|] [c2|] // HR HS; last by exists None, None.
    case: HR => -> Hx2. rewrite {1}/cfg.
    have EL : Z.to_nat (l + 1) = (Z.to_nat l).+1 by lia.
    have Hstep := measured_step neqlt (proj1 Hl). rewrite /Rel.
    case ED : (due_at neqlt (l + 1)) HS Hstep => HS Hstep.
    + case: HS => E1 HS. case: (Hr1) => gs [Hgs [Eg Ee]].
      pose g := (mc_Gu (p_mc x2), mc_Gd (p_mc x2)). pose y := ((Z.to_nat l).+1, (mc_s (p_mc x2), p_X x2)).
      have Hy : ph_pair y g.
      { case: (sl_site (as_slice Hx2)) => _ F2 _ G1 G2. rewrite (as_expX Hx2) in G1 G2. split => //. split; first exact: as_X Hx2. by split => //=; split. }
      have HF : List.Forall2 ph_pair (eq1 ++ [:: y]) (gs ++ [:: g]) by apply: Forall2_app => //; constructor.
      have Hl2 := @measured_mono neqlt (l + 1)%Z (Z.of_nat L) ltac:(lia).
      have Hlen' : Z.of_nat (List.length (eq1 ++ [:: y])) = (Z.of_nat (List.length eq) + measured neqlt (l + 1))%Z by rewrite app_length /=; lia.
      have [e Ee'] := HC HF ltac:(lia).
      have EL2 : List.length eq1 = List.length gs by apply/eqP; rewrite eq_sym; apply/eqP; exact: Forall2_len Hgs.
      move: (Ee'). rewrite ph_samples_snoc // paccumulate_all_snoc Ee. cbn [obind]. rewrite /paccumulate1. cbn [ps_Gu ps_Gd ps_l ps_X fst snd g y].
      have -> : (Z.of_nat (Z.to_nat l).+1 - 1 = l)%Z by lia. move=> Ep.
      have [P1 P2] := HS e Ep. rewrite P2. do 2 eexists. split; first reflexivity. split; first reflexivity.
      rewrite EL. split; first by []. split; first exact: Hx2. split; last exact: Hlen'.
      exists (gs ++ [:: g]). split; first exact: HF. split; first by rewrite measure_list_snoc Eg.
      by rewrite P1.
    + case: HS => HS ->. do 2 eexists. split; first reflexivity. split; first reflexivity.
      rewrite EL. split; first by []. split; first exact: Hx2. split; first exact: same_data_recorded HS Hr1. cbn [snd]. lia.
  - rewrite /Rel. split => //. split; first exact: consistent_at. split => //. rewrite /measured. case: Z.ltb_spec => Hq; rewrite ?Z.div_0_l; lia.
  cbn [obind].
  have Hhang : forall (A : Type) (f : A -> option (option A)), for_range 0 (ph_n_block_updates ph) (fun _ => may_hang f) None = Some None.
  { move=> A f. case: (Z_le_gt_dec 0 (ph_n_block_updates ph)) => Hpos; last by rewrite for_range_none //; lia.
    have [//|||o [-> ->] //] := @for_range_inv _ (fun _ (o : option A) => o = None) 0%Z (ph_n_block_updates ph) (fun _ => may_hang f) None.
    - move=> j o _ ->. by exists None.
    - by []. }
  case: r r' HR => [x1|] [[c eq1]|] //.
  2:{ move=> _. left. exists None, None. by []. }
  move=> [-> [Hx1 [Hr1 Hlen]]]. rewrite Nat2Z.id in Hx1. have {}Hx1 := at_consistent Hx1.
  rewrite /pchain_blocks. cbn [may_hang].
  have [[r [r' [E1 [-> HR]]]]|[-> HZ]] := block_updates_ok junk Hx1 (@block_update_ok _ _ _ _ _ RO _ LA junk _ _ _ _ _ _ _ _ _ Hn Hn64 KO SO PO); last by right.
  rewrite E1. cbn [obind]. case: r r' HR E1 => [x2|] [c'|] //.
  2:{ move=> _ _. left. rewrite Hhang /=. by exists None, None. }
  move=> [-> Hx2] E1. cbn [may_hang].
  have [[r [r' [E2 [-> HR]]]]|[-> HZ]] := block_updates_ok junk Hx2 (@flip_update_ok _ _ _ _ _ RO _ LA junk _ _ _ _ _ _ _ _ _ Hn Hn64 KO SO PO (sp_mu p)); last by right.
  rewrite E2. cbn [obind]. left. do 2 eexists. split; first reflexivity. split; first reflexivity.
  case: r r' HR E2 => [x3|] [c3|] // [-> Hx3] E2. split => //. split => //. split => //.
  have D1 := block_updates_meas (@block_update_meas RS MT pmeas rng la junk k st ph dt) E1.
  have D2 := block_updates_meas (@flip_update_meas RS MT pmeas rng la junk k st ph dt (sp_mu p)) E2.
  exact: same_data_recorded D2 (same_data_recorded D1 Hr1).
Qed.
End Chain.
