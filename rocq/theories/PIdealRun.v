(** The program's sweeps with phonons and ideal random numbers. *)
From Coq Require Import ZArith List Reals Lra Lia.
From mathcomp Require Import all_ssreflect ssralg matrix.
From Verif Require Import Base RField SimParams MatSpec MatFacts TimeStep TimeStepSpec Strat StratSpec Lapack LapackSpec
  GreenConstruct RandomSpec RandSource Sweep SweepSpec SweepFacts PhononSweep PhononSpec PhononFacts
  IdealSpec IdealFacts IdealLink BoxSpec BoxFacts BoxHeine PMoves PIdealSpec PKernels PWeightFacts PIdealLink.
Set Implicit Arguments.
Unset Strict Implicit.
Unset Printing Implicit Defensive.
Local Open Scope ring_scope.

Lemma reg_cont m f : reg m f -> continuous_in m f.
Proof.
  move=> H X HX eps He. have [M [HM HB]] := box_cover X. have [_ H2] := H (Rplus M 1).
  have [d [Hd HH]] := H2 eps He. exists (Rmin d 1). split; first by apply: Rmin_pos => //; lra.
  move=> Y HY. apply: HH => //; [by apply: (@box_le M) => //; lra| |apply: near_le HY; exact: Rmin_l].
  move: HY HB. rewrite /near /in_box. clear. elim: X Y => [|x X IH] Y HY HB; inversion HY; subst; first by constructor.
  inversion HB; subst. constructor; last exact: IH.
  have := Rmin_r d 1. have := Rabs_triang x (Rminus y x). rewrite (Rabs_minus_sym y x).
  have -> : Rplus x (Rminus y x) = y by ring. lra.
Qed.

Lemma cls_of n L (W : list Z -> list R -> R) (f : list Z -> list R -> R) K :
  (forall s, reg (L * n) (W s)) ->
  (forall s, In s (fields (L * n)) -> continuous_in (L * n) (f s)) ->
  (forall s X, In s (fields (L * n)) -> List.length X = (L * n)%N -> f s X = R0 \/ in_box K X) ->
  exists C, Rle 0 C /\ cls (L * n) (fun s X => Rabs (W s X)) (fields (L * n)) C (Rmax K 0) f.
Proof.
  move=> HW Hf HK.
  have [C [HC HB]] : exists C, Rle 0 C /\ forall s X, In s (fields (L * n)) -> List.length X = (L * n)%N -> Rle (Rabs (f s X)) C.
  { move: Hf HK. elim: (fields (L * n)) => [|s0 l IH] Hf HK; first by exists R0; split; [exact: Rle_refl|].
    have [C [HC H]] := IH (fun s Hs => Hf s (or_intror Hs)) (fun s X Hs => HK s X (or_intror Hs)).
    have [[C0 [HC0 H0]] _] := continuous_reg _ _ (Hf s0 (or_introl erefl)) K.
    exists (Rmax C C0). split; first by apply: Rle_trans (Rmax_l _ _).
    move=> s X [<-|Hs] HX.
    - case: (HK s0 X (or_introl erefl) HX) => [->|HB]; first by rewrite Rabs_R0; apply: Rle_trans (Rmax_l _ _).
      apply: Rle_trans (Rmax_r _ _). exact: H0.
    - apply: Rle_trans (Rmax_l _ _). exact: H. }
  exists C. split => //. constructor.
  - by move=> s X Hs HX _; apply: HB.
  - move=> s Hs. apply: reg_mult; first exact: reg_abs. apply: continuous_reg. exact: Hf.
  - move=> s Hs X HX. case: (HK s X Hs HX) => [->|H]; first by left; exact: Rmult_0_r. right. apply: box_le H. exact: Rmax_l.
Qed.

Section Run.
Variables (n L : nat) (k : kinetic) (st : strat) (ph : phonon_params) (dt mu : R) (noHS : bool) (count : nat).
Hypothesis n_pos : (0 < n)%N.
Let W := phonon_weight n L k st ph dt.
Let draws := concat (List.repeat (sweep_draws noHS n L (Z.to_nat (ph_n_local_updates ph)) (Z.to_nat (ph_n_block_updates ph))) count).
Let final t s X := run n (fun s X => Rabs (W s X)) (la_of n L k ph) (ba_of n L k ph) (fa_of n L k ph mu) (Z.to_nat (ph_n_local_updates ph))
  (all_phases L ph noHS count) t (s, X).

Lemma final_run t order s X : List.Forall2 (drawn_as n) draws t -> List.length order = n -> List.length X = (L * n)%N ->
  exists us order', for_range 0 (Z.of_nat count) (fun _ => may_hang (metropolis_phonon_sweep n L k st ph dt phonon_source noHS mu))
    (Some ((nil, t), order, s, X)) = Some (Some ((us, nil), order', fst (final t s X), snd (final t s X))) /\ List.length (snd (final t s X)) = (L * n)%N.
Proof.
  move=> Ht Ho HX. have Hn : (0 < n)%coq_nat by apply/ltP.
  have Ht' : List.Forall2 (drawn_as n) (List.map (kind n (Z.to_nat (ph_n_local_updates ph))) (all_phases L ph noHS count)) t by rewrite kinds_all.
  have [us [o [Ho' [HX' E]]]] := drives_all n L k st ph dt mu noHS Hn count nil t nil order s X Ht' Ho HX.
  exists us, o. split => //. rewrite /for_range Z.sub_0_r Nat2Z.id. rewrite List.app_nil_r in E. exact: E.
Qed.
Lemma final_keeps (f : list Z -> list R -> R) K :
  (forall s, In s (fields (L * n)) -> continuous_in (L * n) (f s)) ->
  (forall s X, In s (fields (L * n)) -> List.length X = (L * n)%N -> f s X = R0 \/ in_box K X) ->
  exists M0, Rle 0 M0 /\ forall M, Rle M0 M ->
  total (fun s => box_int (L * n) M (fun X => Rabs (W s X) * draws_mean n draws (fun t => f (fst (final t s X)) (snd (final t s X)))))%coqR (fields (L * n)) =
  total (fun s => box_int (L * n) M (fun X => Rabs (W s X) * f s X))%coqR (fields (L * n)).
Proof.
  move=> Hf HK. have Hn : (0 < n)%coq_nat by apply/ltP.
  have [C [HC Hcls]] := @cls_of n L W f K (fun s => reg_weight n L k st ph dt s) Hf HK.
  exact: (@chain_invariant n L k st ph dt mu noHS Hn count C (Rmax K 0) f HC (Rmax_r _ _) Hcls).
Qed.
End Run.

Lemma chain_keeps : forall n L k st ph dt mu noHS count order (f : list Z -> list R -> R) K,
  (0 < n)%N -> List.length order = n ->
  (forall s, In s (fields (L * n)) -> continuous_in (L * n) (f s)) ->
  (forall s X, In s (fields (L * n)) -> List.length X = (L * n)%N -> f s X = R0 \/ in_box K X) ->
  let W := phonon_weight n L k st ph dt in
  let draws := concat (List.repeat (sweep_draws noHS n L (Z.to_nat (ph_n_local_updates ph)) (Z.to_nat (ph_n_block_updates ph))) count) in
  let after t s X := for_range 0 (Z.of_nat count) (fun _ => may_hang (metropolis_phonon_sweep n L k st ph dt phonon_source noHS mu))
    (Some ((nil, t), order, s, X)) in
  exists M0, Rle 0 M0 /\ forall M, Rle M0 M ->
  total (fun s => box_int (L * n) M (fun X => Rabs (W s X) *
    draws_mean n draws (fun t => match after t s X with Some (Some (_, s', X')) => f s' X' | _ => R0 end)))%coqR (fields (L * n)) =
  total (fun s => box_int (L * n) M (fun X => Rabs (W s X) * f s X))%coqR (fields (L * n)).
Proof.
  move=> n L k st ph dt mu noHS count order f K Hn Ho Hf HK W draws after.
  have [M0 [H0 H]] := final_keeps k st ph dt mu noHS count Hn Hf HK. exists M0. split => // M HM. rewrite -(H M HM).
  apply: total_ext => s Hs. apply: box_int_ext; first exact: Rle_trans HM. move=> X HX _. congr Rmult.
  apply: draws_mean_ext => t Ht. rewrite /after. have [us [o [-> _]]] := @final_run n L k st ph dt mu noHS count Hn t _ s X Ht Ho HX. by [].
Qed.

Section Program.
Variables (MT PT : Type) (measure : greens_func -> greens_func -> MT -> option MT)
  (measure_ph : greens_func -> greens_func -> Z -> list R -> PT -> option PT) (la : lapack) (junk : Z -> R) (MI : MT -> Prop) (PI : PT -> Prop).
Variables (n L b q : nat) (k : kinetic) (noHS : bool) (st : strat) (ph : phonon_params) (dt mu : R) (nwraps count : nat)
  (neqlt : Z -> Z) (order : list Z) (c : counts) (d : MT) (e : PT).
Hypothesis LA : lapack_ok la.
Hypothesis HM : measure_ok n measure MI.
Hypothesis HP : measure_ph_ok n L measure_ph PI.
Hypothesis Hd : MI d.
Hypothesis He : PI e.
Hypothesis Hn : (0 < n)%N.
Hypothesis Hn64 : (Z.of_nat n < 2^64)%Z.
Hypothesis HL : (2 <= L)%N.
Hypothesis EL : L = (q * b)%N.
Hypothesis KO : kinetic_ok n k.
Hypothesis SO : strat_ok (k_Norb k) st.
Hypothesis PO : phonon_ok (k_Norb k) ph.
Hypothesis Hdt : dt <> R0.
Hypothesis Hnw : (0 < nwraps)%N.
Hypothesis Hb : (b %| nwraps)%N.
Hypothesis Ho : List.length order = n.
Let W := phonon_weight n L k st ph dt.
Hypothesis HW : forall s X, In s (fields (L * n)) -> List.length X = (L * n)%N -> W s X <> R0.
Let draws := concat (List.repeat (sweep_draws noHS n L (Z.to_nat (ph_n_local_updates ph)) (Z.to_nat (ph_n_block_updates ph))) count).
Let final t s X := run n (fun s X => Rabs (W s X)) (la_of n L k ph) (ba_of n L k ph) (fa_of n L k ph mu) (Z.to_nat (ph_n_local_updates ph))
  (all_phases L ph noHS count) t (s, X).

Lemma after_final t s X : List.Forall2 (drawn_as n) draws t -> In s (fields (L * n)) -> List.length X = (L * n)%N ->
  fields_after measure measure_ph la junk k noHS st ph dt mu n L b nwraps count neqlt order c d e t s X = Some (final t s X) /\
  In (fst (final t s X)) (fields (L * n)) /\ List.length (snd (final t s X)) = (L * n)%N.
Proof.
  move=> Ht Hs HX. have Hf : field_ok n L s by exact/fields_in.
  have V := entries_seed _ _ _ Ht. have HL0 : (0 < L)%N by apply: leq_trans HL.
  have [p [Ep [Hp [Es [EX [Eseed _]]]]]] := @phonon_setup_ok _ _ _ seed_ok la LA junk MI PI n L b k st ph dt Hn KO SO q (nil, t) order s X c d e EL HL0 V Ho Hf HX Hd He (HW Hs HX).
  have Hrl : forall s X (l : 'I_L) (i : 'I_n) dx, List.length X = (L * n)%N ->
    weight_ratio n L k st ph dt s X l i dx = code_ratio n L k st ph dt s X l i dx by move=> s0 X0 l i dx HX0; rewrite code_ratio_weight.
  rewrite /fields_after Ep.
  have [[r [r' [E1 [E2 HR]]]]|[_ [s0 [X0 [F1 [F2 F3]]]]]] := phonon_sweeps_ok phonon_rand_ok LA junk Hn Hn64 KO SO PO HM HP Hdt Hrl noHS mu neqlt count Hnw Hb Hp;
    last by case: (HW (s := s0) (X := X0)) => //; exact/fields_in.
  have Hop := phc_order Hp. rewrite E1.
  have [us [o [E3 HX3]]] := @final_run n L k st ph dt mu noHS count Hn t _ s X Ht Hop HX.
  move: E2. rewrite /cfg Eseed Es EX. rewrite /metropolis_phonon_sweep in E3. rewrite E3 => -[] E. subst r'.
  case: r HR {E1} => [p'|] // [Ec Hp']. case: Ec => _ _ Efs Efx. rewrite -Efs -Efx.
  rewrite -/(final t s X). split; first by case: (final t s X). split; last exact: HX3. apply/fields_in. rewrite Efs. exact: (phc_field Hp').
Qed.
Lemma program_keeps (f : list Z -> list R -> R) K :
  (forall s, In s (fields (L * n)) -> continuous_in (L * n) (f s)) ->
  (forall s X, In s (fields (L * n)) -> List.length X = (L * n)%N -> f s X = R0 \/ in_box K X) ->
  exists M0, Rle 0 M0 /\ forall M, Rle M0 M ->
  total (fun s => box_int (L * n) M (fun X => Rabs (W s X) *
    draws_mean n draws (fun t => match fields_after measure measure_ph la junk k noHS st ph dt mu n L b nwraps count neqlt order c d e t s X with
      Some (s', X') => f s' X' | None => R0 end)))%coqR (fields (L * n)) =
  total (fun s => box_int (L * n) M (fun X => Rabs (W s X) * f s X))%coqR (fields (L * n)).
Proof.
  move=> Hf HK. have [M0 [H0 H]] := final_keeps k st ph dt mu noHS count Hn Hf HK. exists M0. split => // M HM'. rewrite -(H M HM').
  apply: total_ext => s Hs. apply: box_int_ext; first exact: Rle_trans HM'. move=> X HX _. congr Rmult.
  apply: draws_mean_ext => t Ht. have [-> _] := after_final Ht Hs HX. rewrite /final. by case: (run _ _ _ _ _ _ _ _ _).
Qed.
End Program.

(** product of tents of width 1, for the concrete case *)
Definition tents (X : list R) : R := List.fold_right (fun x r => Rmult (Rminus 1 (Rmin 1 (Rabs x))) r) R1 X.
Lemma tents_reg m : reg m tents.
Proof.
  elim: m => [|m IH].
  - apply: (@reg_ext 0 (fun _ => R1)); last exact: reg_const. by case.
  - apply: (@reg_ext m.+1 (fun X => Rmult (Rminus 1 (Rmin 1 (Rabs (List.nth 0 X R0)))) (tents (List.tl X)))); first by case.
    apply: reg_mult; last exact: reg_tl. apply: reg_minus; first exact: reg_const.
    apply: reg_min; first exact: reg_const. apply: reg_abs. exact: reg_nth.
Qed.
Lemma tents_box X : tents X = R0 \/ in_box R1 X.
Proof.
  elim: X => [|x X IH]; first by right; constructor. rewrite /= -/(tents X). case: IH => [->|IH]; first by left; exact: Rmult_0_r.
  case: (Rle_dec (Rabs x) 1) => H; first by right; constructor.
  left. rewrite Rmin_left; last by lra. by rewrite Rminus_eq_0 Rmult_0_l.
Qed.
