(** C71: stationary distribution of the sweeps with phonons for ideal random numbers. *)
From Coq Require Import ZArith List Reals Lra Lia.
From mathcomp Require Import all_ssreflect ssralg matrix.
From Verif Require Import Base RField SimParams MatSpec MatFacts TimeStep TimeStepSpec Strat StratSpec StratFacts Lapack LapackSpec LapackExists
  GreenConstruct RandomSpec RandSource Sweep SweepSpec PhononSweep PhononSpec PhononFacts SweepFacts P_Sweep P_Phonon
  IdealSpec IdealFacts BoxSpec BoxFacts BoxHeine PIdealSpec PWeightFacts PKernels PIdealLink PIdealRun.
Set Implicit Arguments.
Unset Strict Implicit.
Unset Printing Implicit Defensive.
Local Open Scope ring_scope.

(** C71 (chain): the Metropolis chain of local, block and flip updates leaves the distribution with density |weight|
    invariant: for every observable [f] of both fields which is continuous in the phonon field and vanishes outside a box,
    the integral over all fields (over every box that is large enough) is the same before and after any number of sweeps. *)
Theorem C71_chain_keeps_distribution : forall n L k st ph dt mu noHS count order (f : list Z -> list R -> R) K,
  (0 < n)%N -> List.length order = n ->
  (forall s, In s (fields (L * n)) -> continuous_in (L * n) (f s)) ->
  (forall s X, In s (fields (L * n)) -> List.length X = (L * n)%N -> f s X = R0 \/ in_box K X) ->
  let W := phonon_weight n L k st ph dt in
  let draws := concat (List.repeat (sweep_draws noHS n L (Z.to_nat (ph_n_local_updates ph)) (Z.to_nat (ph_n_block_updates ph))) count) in
  let after t s X := for_range 0 (Z.of_nat count) (fun _ => may_hang (metropolis_phonon_sweep n L k st ph dt phonon_source noHS mu))
    (Some (([::], t), order, s, X)) in
  exists M0, Rle 0 M0 /\ forall M, Rle M0 M ->
  total (fun s => box_int (L * n) M (fun X => Rabs (W s X) *
    draws_mean n draws (fun t => match after t s X with Some (Some (_, s', X')) => f s' X' | _ => R0 end)))%coqR (fields (L * n)) =
  total (fun s => box_int (L * n) M (fun X => Rabs (W s X) * f s X))%coqR (fields (L * n)).
Proof. exact: chain_keeps. Qed.
Print Assumptions C71_chain_keeps_distribution.

(** C71 (return): if no configuration has weight zero, the program's sweeps return for all random numbers, with fields
    of the right form *)
Theorem C71_sweeps_return : forall (MT PT : Type) measure measure_ph la junk (MI : MT -> Prop) (PI : PT -> Prop) n L b q k noHS st ph dt mu nwraps count neqlt order c d e,
  lapack_ok la -> measure_ok n measure MI -> measure_ph_ok n L measure_ph PI -> MI d -> PI e ->
  (0 < n)%N -> (Z.of_nat n < 2^64)%Z -> (2 <= L)%N -> L = (q * b)%N -> kinetic_ok n k -> strat_ok (k_Norb k) st -> phonon_ok (k_Norb k) ph -> dt <> R0 ->
  (0 < nwraps)%N -> (b %| nwraps)%N -> List.length order = n ->
  (forall s X, In s (fields (L * n)) -> List.length X = (L * n)%N -> phonon_weight n L k st ph dt s X <> R0) ->
  forall t s X, In s (fields (L * n)) -> List.length X = (L * n)%N ->
  List.Forall2 (drawn_as n) (concat (List.repeat (sweep_draws noHS n L (Z.to_nat (ph_n_local_updates ph)) (Z.to_nat (ph_n_block_updates ph))) count)) t ->
  exists s' X', fields_after measure measure_ph la junk k noHS st ph dt mu n L b nwraps count neqlt order c d e t s X = Some (s', X') /\
    In s' (fields (L * n)) /\ List.length X' = (L * n)%N.
Proof.
  move=> MT PT measure measure_ph la junk MI PI n L b q k noHS st ph dt mu nw count neqlt order c d e LA HM HP Hd He Hn Hn64 HL EL KO SO PO Hdt Hnw Hb Ho HW t s X Hs HX Ht.
  have [E [H1 H2]] := after_final junk mu neqlt c LA HM HP Hd He Hn Hn64 HL EL KO SO PO Hdt Hnw Hb Ho HW Ht Hs HX.
  eexists _, _. split; last by split; [exact: H1|exact: H2]. rewrite E. by case: (PKernels.run _ _ _ _ _ _ _ _ _).
Qed.
Print Assumptions C71_sweeps_return.

(** C71: the same for the program (at least two slices, see C40), if no configuration has weight zero. *)
Theorem C71_sweeps_keep_distribution_partial : forall (MT PT : Type) measure measure_ph la junk (MI : MT -> Prop) (PI : PT -> Prop)
    n L b q k noHS st ph dt mu nwraps count neqlt order c d e (f : list Z -> list R -> R) K,
  lapack_ok la -> measure_ok n measure MI -> measure_ph_ok n L measure_ph PI -> MI d -> PI e ->
  (0 < n)%N -> (Z.of_nat n < 2^64)%Z -> (2 <= L)%N -> L = (q * b)%N -> kinetic_ok n k -> strat_ok (k_Norb k) st -> phonon_ok (k_Norb k) ph -> dt <> R0 ->
  (0 < nwraps)%N -> (b %| nwraps)%N -> List.length order = n ->
  (forall s X, In s (fields (L * n)) -> List.length X = (L * n)%N -> phonon_weight n L k st ph dt s X <> R0) ->
  (forall s, In s (fields (L * n)) -> continuous_in (L * n) (f s)) ->
  (forall s X, In s (fields (L * n)) -> List.length X = (L * n)%N -> f s X = R0 \/ in_box K X) ->
  let W := phonon_weight n L k st ph dt in
  let draws := concat (List.repeat (sweep_draws noHS n L (Z.to_nat (ph_n_local_updates ph)) (Z.to_nat (ph_n_block_updates ph))) count) in
  let after := fields_after measure measure_ph la junk k noHS st ph dt mu n L b nwraps count neqlt order c d e in
  exists M0, Rle 0 M0 /\ forall M, Rle M0 M ->
  total (fun s => box_int (L * n) M (fun X => Rabs (W s X) *
    draws_mean n draws (fun t => match after t s X with Some (s', X') => f s' X' | None => R0 end)))%coqR (fields (L * n)) =
  total (fun s => box_int (L * n) M (fun X => Rabs (W s X) * f s X))%coqR (fields (L * n)).
Proof.
  move=> MT PT measure measure_ph la junk MI PI n L b q k noHS st ph dt mu nw count neqlt order c d e f K LA HM HP Hd He Hn Hn64 HL EL KO SO PO Hdt Hnw Hb Ho HW Hf HK.
  exact: (program_keeps junk noHS mu count neqlt c LA HM HP Hd He Hn Hn64 HL EL KO SO PO Hdt Hnw Hb Ho HW Hf HK).
Qed.
Print Assumptions C71_sweeps_keep_distribution_partial.

(** C71 (means): the means are probability means with independent uniform sites, orders and numbers; the weight is
    continuous in the phonon field; integrals over boxes of constants, and of functions of one number *)
Theorem C71_means :
  (forall n ds c, (0 < n)%N -> draws_mean n ds (fun _ => c) = c) /\
  (forall n c f, draws_mean n [:: DSite c] f = Rdiv (total (fun j => uniform_mean c (fun us => f [:: Site (Z.of_nat j) us])) (List.seq 0 n)) (INR n)) /\
  (forall n c f, draws_mean n [:: DOrder c] f = choice_mean 0 n (fun js => uniform_mean c (fun us => f [:: Order js us]))) /\
  (forall n L k st ph dt s, continuous_in (L * n) (phonon_weight n L k st ph dt s)) /\
  (forall m M c, box_int m M (fun _ => c) = Rmult c (pow (2 * M)%coqR m)) /\
  (forall M g, box_int 1 M (fun X => g (List.nth 0 X R0)) = Coquelicot.RInt.RInt (V := Hierarchy.R_CompleteNormedModule) g (- M)%coqR M).
Proof.
  split; first by move=> n ds c Hn; apply: draws_mean_const; exact/ltP. do 2 split => //.
  split; first by move=> n L k st ph dt s; apply: reg_cont; exact: reg_weight.
  split; [exact: box_const|exact: box_one].
Qed.
Print Assumptions C71_means.

(** Concrete case: two sites, four slices, U = 4, coupled phonons with local, block and flip updates, 5 sweeps; the
    observable is the product of tents of width 1 and of the first entry of the discrete field plus one, so that it is
    positive around the phonon field zero; no weight vanishes. *)
Example C71_case : exists la st,
  lapack_ok la /\ fill_stratonovich 1 [:: 4%coqR] (1/8)%coqR [:: R0] = Some st /\
  let f s X := Rmult (IZR (List.nth 0 s 0%Z) + 1)%coqR (tents X) in
  f (List.repeat 1%Z 8) (List.repeat R0 8) = 2%coqR /\
  (forall s X, In s (fields 8) -> List.length X = 8%N -> phonon_weight 2 4 demo_hop st demo_phonons (1/8)%coqR s X <> R0) /\
  let after := fields_after (fun _ _ d => Some d) (fun _ _ _ _ d => Some d) la (fun _ => R0) demo_hop false st demo_phonons (1/8)%coqR (1/2)%coqR
    2 4 2 2 5 (fun _ => 1%Z) [:: 7; 7]%Z (mk_counts 0 0 0 0 0 0) tt tt in
  exists M0, Rle 0 M0 /\ forall M, Rle M0 M ->
  total (fun s => box_int 8 M (fun X => Rabs (phonon_weight 2 4 demo_hop st demo_phonons (1/8) s X) *
    draws_mean 2 (concat (List.repeat (sweep_draws false 2 4 (Z.to_nat (ph_n_local_updates demo_phonons)) (Z.to_nat (ph_n_block_updates demo_phonons))) 5))
      (fun t => match after t s X with Some (s', X') => f s' X' | None => R0 end)))%coqR (fields 8) =
  total (fun s => box_int 8 M (fun X => Rabs (phonon_weight 2 4 demo_hop st demo_phonons (1/8) s X) * f s X))%coqR (fields 8).
Proof.
  have [la [st [p [seed [X [LA [Est [_ [_ [_ [HW _]]]]]]]]]]] := C42_case. exists la, st. do 2 split => //. move=> f.
  have SO := @fill_strat_ok 1 [:: 4%coqR] (1/8)%coqR [:: R0] st Z.le_0_1 erefl erefl Est.
  have HW' : forall s X, In s (fields (4 * 2)) -> List.length X = (4 * 2)%N -> phonon_weight 2 4 demo_hop st demo_phonons (1/8)%coqR s X <> R0.
  { move=> s X0 Hs HX0. apply: HW => //. exact/fields_in. }
  split; first by rewrite /f /tents /= Rabs_R0 Rmin_right; lra.
  split; first exact: HW'.
  have Hdt : (1/8)%coqR <> R0 by lra.
  apply: (@C71_sweeps_keep_distribution_partial unit unit (fun _ _ d => Some d) (fun _ _ _ _ d => Some d) la (fun _ => R0) (fun _ => True) (fun _ => True)
    2 4 2 2 demo_hop false st demo_phonons (1/8)%coqR (1/2)%coqR 2 5 (fun _ => 1%Z) [:: 7; 7]%Z (mk_counts 0 0 0 0 0 0) tt tt f R1 LA) => //.
  - by move=> Au Ad Gu Gd d _ _ _; exists d.
  - by move=> Au Ad Gu Gd l X0 d _ _ _ _ _; exists d.
  - exact: C35_case_kinetic.
  - move=> s Hs. apply: reg_cont. apply: reg_mult; [exact: reg_const|exact: tents_reg].
  - move=> s X0 Hs HX0. case: (tents_box X0) => [E|H]; last by right. left. by rewrite /f E Rmult_0_r.
Qed.
