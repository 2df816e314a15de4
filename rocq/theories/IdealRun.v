(** The program's sweeps with the random numbers of a tape. *)
From Coq Require Import ZArith List Reals Lra Lia.
From mathcomp Require Import all_ssreflect ssralg matrix.
From Verif Require Import Base RField MatSpec MatFacts TimeStep TimeStepSpec Strat StratSpec Lapack LapackSpec
  GreenConstruct RandomSpec RandSource Sweep SweepSpec SweepFacts IdealSpec IdealFacts IdealLink.
Set Implicit Arguments.
Unset Strict Implicit.
Unset Printing Implicit Defensive.
Local Open Scope ring_scope.

Lemma field_after_run (MT : Type) measure la junk (MI : MT -> Prop) n L b q k st nwraps count neqlt order d :
  lapack_ok la -> measure_ok n measure MI -> MI d -> (0 < n)%N -> kinetic_ok n k -> strat_ok (k_Norb k) st ->
  L = (q * b)%N -> (0 < L)%N -> (0 < nwraps)%N -> (b %| nwraps)%N -> List.length order = n ->
  forall t s, List.length t = (count * L)%N -> List.Forall (slice_tape_ok n) t -> In s (fields (L * n)) ->
  weight n L k st s <> 0 ->
  exists s', field_after measure la junk k st n L b nwraps count neqlt order d t s = Some s' /\ In s' (fields (L * n)) /\
    snd (run_sweeps n (weight n L k st) L count t s) = s' /\ weight n L k st s' <> 0.
Proof.
  move=> LA HM Hd Hn KO SO EL HL Hnw Hb Ho t s Hl Ht Hs Hw.
  have Hf : field_ok n L s by exact/fields_in.
  have V : tape_valid n (nil, t) by split; [exact: List.Forall_nil|].
  have [m [Em [Hm [Es [Eseed _]]]]] := @dqmc_setup_ok _ _ (tape_valid n) la LA junk MI n L b k st Hn KO SO q (nil, t) order s d EL HL V Ho Hf Hd Hw.
  have [r [r' [E1 [E2 HR]]]] := dqmc_sweeps_ok (ideal_rand_ok n) LA junk Hn KO SO HM neqlt count Hnw Hb Hm.
  have Hc : (count * L <= List.length t)%coq_nat by rewrite Hl.
  have [us [o [Hol E3]]] := @sweeps_run n (weight n L k st) L count 0%Z t nil (mc_order m) s Hc Ht (mcc_order Hm).
  move: E2. rewrite /for_range Eseed Es Z.sub_0_r Nat2Z.id E3 => -[] E. subst r'.
  rewrite /field_after Em E1. case: r HR {E1} => [m'|] // [[_ _ Ef] Hm'] .
  exists (mc_s m'). split; first by []. split; first by apply/fields_in; exact: (mcc_field Hm'). split => //.
  have := (green_nz (mcc_Gu Hm')). have := (green_nz (mcc_Gd Hm')). rewrite /weight => H1 H2 /eqP.
  by rewrite GRing.mulf_eq0 => /orP [/eqP|/eqP].
Qed.
