(** One site without hopping, for the examples. *)
From Coq Require Import ZArith List Reals Lia Lra.
From mathcomp Require Import all_ssreflect ssralg matrix.
From Verif Require Import Base BaseFacts RField MatSpec MatFacts TimeStep TimeStepSpec TimeStepFacts Strat StratSpec StratFacts Sums SumsFacts GreenSpec GreenFacts UnequalTimeSpec WickSpec SimulationRun
  SimParams ParamSpec KineticSpec KineticExp KineticExpSpec KineticExpFacts RandSource SweepSpec SweepFacts SimulationSpec HalfFillFacts IdealSpec IdealFacts IdealLink IdealChain Lapack LapackSpec Measure MeasureSpec UMeasure Simulation ThermalSpec ThermalRun MixFacts MixChain MixMean MixSpec MixResults.
Set Implicit Arguments.
Unset Strict Implicit.
Unset Printing Implicit Defensive.
Local Open Scope ring_scope.
Import GRing.Theory.

(** one site at half filling, U = 4, dt = 1/8, with [L] slices and unequal time measurements every [un] sweeps *)
Definition atom_params (L un : Z) : sim_params :=
  mk_sim_params 1 1 1 0 (mk_bonds [:: 0] [:: 0] [:: 0] [:: 0] [:: 0])%coqR [:: 4%coqR] [:: R0] R0 false
    (mk_phonon_params [:: R0] [:: R0] R0 0 R0 0) (1/8)%coqR L 1 1 0 1 1 un 1 0.

Lemma atom_wf L un : well_formed (atom_params L un).
Proof. unfold well_formed; cbn; repeat split; try lia; repeat constructor. Qed.
Lemma atom_valid L un : (0 < L)%Z -> valid_params (atom_params L un).
Proof.
  move=> HL. constructor; cbn; try lia.
  - move=> i Hi. have -> : i = 0%Z by lia. by [].
  - exact: Z.divide_1_l.
  - exact: Z.divide_1_l.
Qed.

Section Atom.
Variables (k : kinetic) (st : strat) (L un : Z).
Hypotheses (KC : k_Ncell k = 1%Z).
Hypothesis HE : is_exp (- sp_dt (atom_params L un) *: hamiltonian (atom_params L un)) (mat 1 (expK k)).
Hypothesis Est : fill_stratonovich 1 [:: 4%coqR] (1/8)%coqR [:: R0] = Some st.

Lemma atom_expK : mat 1 (expK k) = 1%:M.
Proof.
  apply: (is_exp_uniq HE). have -> : - sp_dt (atom_params L un) *: hamiltonian (atom_params L un) = 1%:M *m diag_mx (0 : 'rV[R]_1) *m 1%:M.
  { rewrite mulmx1 mul1mx. apply/matrixP => i j. rewrite !mxE !ord1 eqxx /=. rewrite -RmultE -RoppE. cbv -[Rmult Ropp Rminus Rdiv IZR]. ring. }
  have := is_exp_expd (0 : 'rV[R]_1) (mulmx1 (1%:M : 'M[R]_1)). rewrite /expd.
  set D := diag_mx (\row_j _). have -> : 1%:M *m D *m 1%:M = 1%:M; last by [].
  rewrite mulmx1 mul1mx. apply/matrixP => i j. by rewrite !mxE !ord1 eqxx /= exp_0 ?mulr1n.
Qed.
Lemma atom_tables : exists x, Rlt 0 x /\ x <> R1 /\ tab (expVu st) 0 0 = Rinv x /\ tab (expVu st) 1 0 = x /\ tab (expVd st) 0 0 = x /\ tab (expVd st) 1 0 = Rinv x.
Proof.
  have [//|x [X0 [XE [E1 [E2 [E3 [E4 _]]]]]]] := @fill_tables 1 [:: 4%coqR] (1/8)%coqR [:: R0] Z.le_0_1 erefl erefl st Est 0%Z.
  exists x. split=> //. split=> // X1. move: XE. rewrite X1 Rinv_1. have := exp_ineq1 (1/8 * 4 / 2)%coqR ltac:(lra). change (rat [:: 4%coqR] 0) with 4%coqR. lra.
Qed.
Lemma atom_step expV s l : step_mx 1 k expV s l = (tab expV (Z.to_nat (List.nth l s 0%Z)) 0)%:M.
Proof.
  rewrite /step_mx atom_expK mulmx1. apply/matrixP => i j. rewrite !mxE !ord1 eqxx /= /field_factor KC -tabE. by rewrite muln1 addn0 nthE.
Qed.
Lemma atom_oprod expV s : forall c l, oprod (step_mx 1 k expV s) l c =
  (List.fold_right (fun v x => x * tab expV (Z.to_nat v) 0) 1 (List.map (fun l => List.nth l s 0%Z) (List.seq l c)))%:M.
Proof.
  elim=> [|c IH] l //. rewrite /oprod /= -/(oprod _ l.+1 c) IH atom_step. by rewrite -scalar_mxM.
Qed.
Lemma atom_weight s (m : nat) : weight 1 m k st s =
  let P expV := List.fold_right (fun v x => x * tab expV (Z.to_nat v) 0) 1 (List.map (fun l => List.nth l s 0%Z) (List.seq 0 m)) in
  Rmult (Rplus 1 (P (expVu st))) (Rplus 1 (P (expVd st))).
Proof.
  rewrite /weight /cyclic_flow !atom_oprod subn0 /= !mul1mx !det_mx11 !mxE eqxx /=. by rewrite !mulr1n.
Qed.
Lemma atom_green s (m : nat) sp : let P expV := List.fold_right (fun v x => x * tab expV (Z.to_nat v) 0) 1 (List.map (fun l => List.nth l s 0%Z) (List.seq 0 m)) in
  let x := Rplus 1 (P (match sp with up => expVu st | dn => expVd st end)) in x <> R0 ->
  entry_of (green_eqlt (steps_of 1 k st s sp) m m) 0 0 = Rinv x.
Proof.
  move=> P x Hx. rewrite (entry_ofE _ (ord0 : 'I_1) ord0) /green_eqlt /cyclic_flow /steps_of !atom_oprod subnn /=.
  rewrite mulmx1. rewrite -(raddfD (scalar_mx_additive _ 1)) /= invmx_scalar mxE eqxx mulr1n -RinvE.
  - by [].
  - exact: Hx.
Qed.
End Atom.


(** two slices: every flip changes the weight *)
Lemma atom_two k st : k_Ncell k = 1%Z -> is_exp (- sp_dt (atom_params 2 1) *: hamiltonian (atom_params 2 1)) (mat 1 (expK k)) ->
  fill_stratonovich 1 [:: 4%coqR] (1/8)%coqR [:: R0] = Some st ->
  (forall s, List.In s (fields 2) -> weight 1 2 k st s <> 0) /\
  (forall s l i, List.In s (fields 2) -> (l < 2)%N -> (i < 1)%N -> Rabs (weight 1 2 k st (flipped 1 l i s)) <> Rabs (weight 1 2 k st s)).
Proof.
  move=> KC HE Est. have [x [X0 [X1 [E1 [E2 [E3 E4]]]]]] := atom_tables Est. have I0 := Rinv_0_lt_compat _ X0.
  have XI : Rmult x (Rinv x) = R1 by apply: Rinv_r; lra.
  have WE : forall a b, (a = 0 \/ a = 1)%Z -> (b = 0 \/ b = 1)%Z -> weight 1 2 k st [:: a; b] = if (a =? b)%Z then Rplus 2 (Rplus (Rmult x x) (Rmult (Rinv x) (Rinv x))) else 4%coqR.
  { move=> a b Ha Hb. rewrite (atom_weight st KC HE) /= -!RmultE.
    case: Ha => ->; case: Hb => ->; cbn [Z.eqb Z.to_nat Pos.to_nat Pos.iter_op Nat.add Pos.eqb]; rewrite ?E1 ?E2 ?E3 ?E4; rewrite !Rmult_1_l;
      set y := Rinv x in XI I0 *; nra. }
  have DF : Rlt 4 (Rplus 2 (Rplus (Rmult x x) (Rmult (Rinv x) (Rinv x)))).
  { have D : Rminus x (Rinv x) <> R0. { move=> D. apply: X1. have D' := Rminus_diag_uniq _ _ D. rewrite -D' in XI. have : Rmult (Rminus x 1) (Rplus x 1) = R0 by lra. case/Rmult_integral; lra. }
    have := Rsqr_pos_lt _ D. rewrite /Rsqr. nra. }
  have HF : forall s, List.In s (fields 2) -> exists a b, s = [:: a; b] /\ (a = 0 \/ a = 1)%Z /\ (b = 0 \/ b = 1)%Z.
  { move=> s /fields_in []. case: s => [|a [|b [|? ?]]] // _ H. inversion H as [|? ? H1 H2]; subst. inversion H2 as [|? ? H3 _]; subst. by exists a, b. }
  split.
  - move=> s /HF [a [b [-> [Ha Hb]]]]. rewrite (WE _ _ Ha Hb). case: (_ =? _)%Z => /= H; have : R0 = 0%R by []; lra.
  - move=> s l i /HF [a [b [-> [Ha Hb]]]] Hl Hi. have -> : i = 0%N by case: i Hi.
    have E : flipped 1 l 0 [:: a; b] = if l == 0%N then [:: (1 - a)%Z; b] else [:: a; (1 - b)%Z] by case: l Hl => [|[|l]].
    rewrite E. have Ha' : (1 - a = 0 \/ 1 - a = 1)%Z by lia. have Hb' : (1 - b = 0 \/ 1 - b = 1)%Z by lia.
    case: eqP => _; rewrite !WE //; case: Ha => ->; case: Hb => -> /=; rewrite !Rabs_right; lra.
Qed.

(** one slice: every flip is accepted *)
Definition other (s : list Z) : list Z := flipped 1 0 0 s.
Section One.
Variables (W : list Z -> R).
Hypothesis HW : forall s, List.In s (fields 1) -> W s <> R0 /\ W (other s) = W s.
Lemma other_in s : List.In s (fields 1) -> List.In (other s) (fields 1).
Proof. move=> H. exact: (proj1 (turn_ok 1 1 0 (Nat.lt_0_succ 0) s H)). Qed.
Lemma one_op g s : List.In s (fields 1) -> slice_op 1 W 0 g s = g (other s).
Proof.
  move=> Hs. rewrite slice_op_updates. cbn [choice_mean List.seq]. rewrite /total /=. have [W0 W1] := HW Hs.
  rewrite /update /accept /site_flip /= -/(other s) W1. have P := Rabs_pos_lt _ W0.
  have -> : Rdiv (Rabs (W s)) (Rabs (W s)) = R1 by field; lra.
  rewrite Rmin_left; last lra. rewrite Rmax_right; last lra. move: (g _) (g _) => a b. field.
Qed.
Lemma one_iter g : forall c s, List.In s (fields 1) -> MixChain.iter 1 W 1 c g s = g (ssrnat.iter c other s).
Proof.
  elim=> [|c IH] s Hs //. cbn [MixChain.iter]. rewrite /sweep_op. cbn [slices_op]. rewrite one_op // IH; last exact: other_in.
  by rewrite -iterSr.
Qed.
Lemma one_sweeps G ne s : (forall i l s, (0 <= i < Z.of_nat ne)%Z -> (l < 1)%coq_nat -> G i l s = R0) -> List.In s (fields 1) ->
  tape_mean 1 ((ne + 1) * 1)%coq_nat (fun t => sweep_sum 1 W 1 G (ne + 1)%coq_nat 0 t s) = G (Z.of_nat ne) 0%N (ssrnat.iter ne.+1 other s).
Proof.
  move=> H Hs. rewrite sweep_qE0 (sweep_q_equil 1 W 1 G 1 ne 0 s); last by move=> i l s' Hi; apply: H; lia.
  rewrite one_iter //. cbn [sweep_q slice_q]. have I : forall c s, List.In s (fields 1) -> List.In (ssrnat.iter c other s) (fields 1) by elim=> // c IH s' Hs'; exact: other_in (IH _ Hs').
  rewrite -/(slice_op 1 W 0 (fun s => Rplus (G (0 + Z.of_nat ne)%Z 0%N s) R0) _) one_op; last exact: I. by rewrite Rplus_0_r iterS.
Qed.
End One.

Section Forever.
Variables (la : lapack) (k : kinetic) (st : strat).
Notation junk := (fun _ : Z => R0).
Hypotheses (LA : lapack_ok la) (SC : syev_converges la).
Notation p := (atom_params 1 0).
Hypotheses (Ek : kinetic_exponential la junk p = Some k) (KC : k_Ncell k = 1%Z)
  (HE : is_exp (- sp_dt p *: hamiltonian p) (mat 1 (expK k)))
  (Est : fill_stratonovich 1 [:: 4%coqR] (1/8)%coqR [:: R0] = Some st).
Notation W := (weight 1 1 k st).

Lemma fields_one s : List.In s (fields 1) -> s = [:: 0%Z] \/ s = [:: 1%Z].
Proof. rewrite /=. by case=> [<-|[<-|[]]]; [left|right]. Qed.
Lemma one_weight s : List.In s (fields 1) -> Rlt 0 (W s) /\ W (other s) = W s.
Proof.
  have [x [X0 [X1 [E1 [E2 [E3 E4]]]]]] := atom_tables Est. have I0 := Rinv_0_lt_compat _ X0.
  have H : forall a, (a = 0 \/ a = 1)%Z -> W [:: a] = Rmult (Rplus 1 x) (Rplus 1 (Rinv x)).
  { move=> a Ha. rewrite (atom_weight st KC HE) /= -!RmultE.
    case: Ha => ->; cbn [Z.to_nat Pos.to_nat Pos.iter_op Nat.add]; rewrite ?E1 ?E2 ?E3 ?E4 !Rmult_1_l; ring. }
  have P : Rlt 0 (Rmult (Rplus 1 x) (Rplus 1 (Rinv x))) by apply: Rmult_lt_0_compat; lra.
  case/fields_one => ->.
  - rewrite (_ : other [:: 0%Z] = [:: 1%Z]) // !H; try lia. by [].
  - rewrite (_ : other [:: 1%Z] = [:: 0%Z]) // !H; try lia. by [].
Qed.
Lemma one_nz s : List.In s (fields 1) -> W s <> 0.
Proof. move=> /one_weight [H _] E. rewrite E in H. exact: (Rlt_irrefl _ H). Qed.

Section Run.
Variables (ijunk : Z -> Z) (ne : Z).
Hypothesis Hne : (0 <= ne)%Z.
Notation q := (with_counts p ne 1).
Lemma one_mean s Phi (g : nat * list Z -> R) : List.In s (fields 1) ->
  (forall s t r eq un, is_run la junk ijunk q k st s t r eq un -> Phi r = list_mean g eq) ->
  mean_from q la junk ijunk s Phi = g (1%N, ssrnat.iter (Z.to_nat ne).+1 other s).
Proof.
  move=> Hs H.
  have VQ : valid_params q by apply: valid_counts; apply: atom_valid.
  have Hp : forall o, (0 <= o < sp_Norb q)%Z -> Rle 0 (Rmult (sp_dt q) (List.nth (Z.to_nat o) (sp_U q) R0)).
  { move=> o Ho. have -> : o = 0%Z by cbn in Ho; lia. cbn. lra. }
  have HU : (0 < sp_nuneqlt q)%Z -> (2 * sp_prodBlen q <= sp_L q)%Z /\ exists t, (sp_nequil q <= t < sp_nequil q + sp_nsampl q)%Z /\ (sp_nuneqlt q | t)%Z.
  { cbn. lia. }
  have E : mean_from q la junk ijunk s Phi =
    tape_mean 1 ((Z.to_nat ne + 1) * 1)%coq_nat (fun t => sweep_sum 1 W 1 (fun it l s => Rmult (ind (eq_due q it l)) (g (l.+1, s))) (Z.to_nat ne + 1)%coq_nat 0 t s).
  { have Ec : Z.to_nat (sp_nequil q + sp_nsampl q) = (Z.to_nat ne + 1)%coq_nat by cbn; lia.
    rewrite /mean_from Ec. apply: tape_mean_ext => t Ht Hv.
    have Ht' : List.length t = (Z.to_nat (sp_nequil q + sp_nsampl q) * Z.to_nat (sp_L q))%N by rewrite Ec.
    have [r [eq [un HR]]] := run_exists ijunk (p := q) LA SC (atom_wf 1 0) VQ erefl Hp Hne Z.lt_0_1 (conj Z.lt_0_1 (Z.le_refl 1)) HU Ek Est one_nz Hs Ht' Hv.
    rewrite (ir_sim HR) (H _ _ _ _ _ HR) /list_mean (ir_eq HR). have := ir_len HR. cbn [sp_nsampl sp_L sp_neqlt with_counts atom_params].
    change (1 * (1 / 1))%Z with 1%Z. move=> Hl. have -> : List.length eq = 1%N by lia. rewrite /Rdiv Rinv_1 Rmult_1_r.
    by rewrite Ec. }
  rewrite E one_sweeps //.
  - rewrite /eq_due. have -> : (sp_nequil q <=? Z.of_nat (Z.to_nat ne))%Z = true by apply/Z.leb_le; rewrite Z2Nat.id //; exact: Z.le_refl. rewrite /ind /=. exact: Rmult_1_l.
  - move=> s' Hs'. split; [exact: one_nz|exact: (proj2 (one_weight Hs'))].
  - move=> i l s' Hi Hl. rewrite /eq_due. have -> : (sp_nequil q <=? i)%Z = false by apply/Z.leb_gt; rewrite Z2Nat.id // in Hi; case: Hi. exact: Rmult_0_l.
Qed.
End Run.
Lemma iter_other c : (ssrnat.iter c other [:: 0%Z] = [:: 0%Z] /\ ssrnat.iter c other [:: 1%Z] = [:: 1%Z]) \/
  (ssrnat.iter c other [:: 0%Z] = [:: 1%Z] /\ ssrnat.iter c other [:: 1%Z] = [:: 0%Z]).
Proof. elim: c => [|c [[E1 E2]|[E1 E2]]]; [by left|right|left]; by rewrite !iterS E1 E2. Qed.
Lemma one_forever : exists delta, Rlt 0 delta /\ forall ijunk ne, (0 <= ne)%Z ->
  let result s := Rdiv (mean_from (with_counts p ne 1) la junk ijunk s (fun r => val (m_arr (fst r) grfun_u) 0))
                       (mean_from (with_counts p ne 1) la junk ijunk s (fun r => m_sign (fst r))) in
  Rabs (Rminus (result [:: 0%Z]) (result [:: 1%Z])) = delta.
Proof.
  have [x [X0 [X1 [E1 [E2 [E3 E4]]]]]] := atom_tables Est. have I0 := Rinv_0_lt_compat _ X0.
  have F : forall s, List.In s [:: [:: 0%Z]; [:: 1%Z]] -> List.In s (fields 1) by move=> s; rewrite /=; tauto.
  exists (Rabs (Rminus (Rinv (Rplus 1 x)) (Rinv (Rplus 1 (Rinv x))))). split.
  { apply: Rabs_pos_lt => D. apply: X1. have D' := Rminus_diag_uniq _ _ D.
    have D2 : Rplus 1 x = Rplus 1 (Rinv x) by rewrite -(Rinv_inv (Rplus 1 x)) D' Rinv_inv.
    have XI : Rmult x (Rinv x) = R1 by apply: Rinv_r; lra. have D3 : x = Rinv x by lra. rewrite -D3 in XI.
    have : Rmult (Rminus x 1) (Rplus x 1) = R0 by lra. case/Rmult_integral; lra. }
  move=> ijunk ne Hne result.
  have G : forall s, List.In s (fields 1) -> mean_from (with_counts p ne 1) la junk ijunk s (fun r => val (m_arr (fst r) grfun_u) 0) =
      Rinv (Rplus 1 (tab (expVu st) (Z.to_nat (List.nth 0 (ssrnat.iter (Z.to_nat ne).+1 other s) 0%Z)) 0)).
  { move=> s Hs. rewrite (one_mean (ijunk := ijunk) (g := fun x => Rmult (sgn (W (snd x))) (g00 (state_at 1 1 k st x) up 0 0)) Hne Hs).
    2:{ move=> s' t r eq un HR. exact: (er_green_u (ir_res HR) (conj (Z.le_refl 0) Z.lt_0_1) (conj (Z.le_refl 0) Z.lt_0_1)). }
    have I : forall c s, List.In s (fields 1) -> List.In (ssrnat.iter c other s) (fields 1) by elim=> // c IH s' Hs'; exact: other_in (IH _ Hs').
    move: (I (Z.to_nat ne).+1 s Hs) => I'. move: (ssrnat.iter _ _ _) I' => s' Hs'. rewrite /sgn. cbn [snd]. have [P _] := one_weight Hs'.
    case: Rlt_dec => HW; first lra. rewrite Rmult_1_l.
    rewrite (_ : g00 _ up 0 0 = entry_of (green_eqlt (steps_of 1 k st s' up) 1 1) 0 0) // (atom_green (m := 1) (sp := up) KC HE) /=.
    - by rewrite mul1r.
    - have Hv : (List.nth 0 s' 0 = 0 \/ List.nth 0 s' 0 = 1)%Z by case/fields_one: Hs' => ->; [left|right].
      rewrite mul1r. case: Hv => ->; cbn [Z.to_nat Pos.to_nat Pos.iter_op Nat.add]; rewrite ?E1 ?E2; lra. }
  have S : forall s, List.In s (fields 1) -> mean_from (with_counts p ne 1) la junk ijunk s (fun r => m_sign (fst r)) = R1.
  { move=> s Hs. rewrite (one_mean (ijunk := ijunk) (g := fun x => sgn (W (snd x))) Hne Hs); last by move=> s' t r eq un HR; exact: (ir_sign HR).
    have I : forall c s, List.In s (fields 1) -> List.In (ssrnat.iter c other s) (fields 1) by elim=> // c IH s' Hs'; exact: other_in (IH _ Hs').
    have [P _] := one_weight (I (Z.to_nat ne).+1 s Hs). rewrite /sgn. cbn [snd]. case: Rlt_dec => HW //. lra. }
  rewrite /result !S; try by apply: F; cbn; tauto. rewrite !G; try by apply: F; cbn; tauto. rewrite /Rdiv Rinv_1 !Rmult_1_r.
  case: (iter_other (Z.to_nat ne).+1) => -[-> ->]; cbn [List.nth Z.to_nat Pos.to_nat Pos.iter_op Nat.add]; rewrite E1 E2; [by rewrite Rabs_minus_sym|by []].
Qed.
End Forever.
