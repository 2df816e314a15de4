(** C35, C36, C37: Monte Carlo sweeps over the Hubbard-Stratonovich field. *)
From Coq Require Import ZArith List Reals Permutation Lia Lra.
From mathcomp Require Import all_ssreflect ssralg matrix.
From Verif Require Import Base RField MatSpec MatFacts TimeStep TimeStepSpec Strat StratSpec StratFacts GreenSpec GreenFacts Lapack LapackSpec LapackExists
  GreenConstruct Random RandomSpec P_Random RandSource Sweep SweepSpec SweepFacts.
Set Implicit Arguments.
Unset Strict Implicit.
Unset Printing Implicit Defensive.
Local Open Scope ring_scope.
Import GRing.Theory.

(** C35: starting from a consistent state, any number of sweeps is defined (no access outside of an
    array, no division by zero, no logarithm of zero) whatever the random numbers are, and unless a
    rejection loop of the generator never returns the resulting state is consistent again: time step
    matrices, their inverses and block products are those of the current field, both Green's functions
    are the inverses of I + (product of the time step matrices) for the current field, sgndet and logdet
    give their determinants, and all field values are 0 or 1. *)
Theorem C35_sweeps_keep_consistency : forall (RS MT : Type) (rng : rand_source RS) valid la junk measure (MI : MT -> Prop) n L b k st nwraps,
  rand_ok rng valid -> lapack_ok la -> measure_ok n measure MI ->
  (0 < n)%N -> kinetic_ok n k -> strat_ok (k_Norb k) st -> (0 < nwraps)%N -> (b %| nwraps)%N ->
  forall (m : mcstate RS MT) (neqlt : Z -> Z) (count : nat), mc_consistent valid MI n L b k st m ->
  exists r, dqmc_sweeps rng measure la junk k st (Z.of_nat nwraps) neqlt (Z.of_nat count) m = Some r /\
    forall m', r = Some m' -> mc_consistent valid MI n L b k st m'.
Proof.
  move=> RS MT rng valid la junk measure MI n L b k st nw RO LA HM Hn KO SO Hnw Hb m neqlt count Hm.
  have [r [r' [E [_ HR]]]] := dqmc_sweeps_ok RO LA junk Hn KO SO HM neqlt count Hnw Hb Hm.
  exists r. split => // m' Er. by move: HR; rewrite Er; case: r' => // c [].
Qed.
Print Assumptions C35_sweeps_keep_consistency.

(** C35 (start): the state set up at the beginning of a simulation is consistent, for every field of
    non-zero weight. *)
Theorem C35_setup_is_consistent : forall (RS MT : Type) (valid : RS -> Prop) la junk (MI : MT -> Prop) n L b q k st seed order s d,
  lapack_ok la -> (0 < n)%N -> kinetic_ok n k -> strat_ok (k_Norb k) st -> L = (q * b)%N -> (0 < L)%N ->
  valid seed -> List.length order = n -> field_ok n L s -> MI d -> weight n L k st s <> 0 ->
  exists m, dqmc_setup la junk k st (Z.of_nat n) (Z.of_nat L) (Z.of_nat b) seed order s d = Some m /\
    mc_consistent valid MI n L b k st m /\ mc_s m = s /\ mc_seed m = seed /\ mc_meas m = d.
Proof.
  move=> RS MT valid la junk MI n L b q k st seed order s d LA Hn KO SO EL HL Hs Ho Hf Hd Hw.
  exact: (@dqmc_setup_ok RS MT valid la LA junk MI n L b k st Hn KO SO q).
Qed.
Print Assumptions C35_setup_is_consistent.

(** C35 (hypotheses): the generator of random.c and the tables filled by the program satisfy the
    hypotheses made on them above. *)
Theorem C35_generator_and_tables :
  (forall fuel, rand_ok (xorshift_source fuel) valid_seed) /\
  (forall Norb U dt jk st, (0 <= Norb)%Z -> Z.of_nat (List.length U) = Norb -> Z.of_nat (List.length jk) = Norb ->
     fill_stratonovich Norb U dt jk = Some st -> strat_ok Norb st).
Proof. split; [exact: xorshift_ok | exact: fill_strat_ok]. Qed.
Print Assumptions C35_generator_and_tables.

(** C36: the field and the state of the generator develop exactly as in the Metropolis chain for the
    weight det(I + product of all spin up matrices) det(I + product of all spin down matrices): in each
    slice all sites are visited in the order of a random permutation, and a flip is accepted if and only
    if the next random number is below the ratio of the absolute weights of the two configurations. *)
Theorem C36_sweep_is_metropolis_chain : forall (RS MT : Type) (rng : rand_source RS) valid la junk measure (MI : MT -> Prop) n L b k st nwraps,
  rand_ok rng valid -> lapack_ok la -> measure_ok n measure MI ->
  (0 < n)%N -> kinetic_ok n k -> strat_ok (k_Norb k) st -> (0 < nwraps)%N -> (b %| nwraps)%N ->
  forall (m : mcstate RS MT) (neqlt : Z), mc_consistent valid MI n L b k st m ->
  exists r, dqmc_iteration rng measure la junk k st (Z.of_nat nwraps) neqlt m = Some r /\
    metropolis_sweep rng n (weight n L k st) L (mc_seed m, mc_order m, mc_s m) =
      Some (match r with Some m' => Some (mc_seed m', mc_order m', mc_s m') | None => None end).
Proof.
  move=> RS MT rng valid la junk measure MI n L b k st nw RO LA HM Hn KO SO Hnw Hb m neqlt Hm.
  have [r [r' [E [-> HR]]]] := dqmc_iteration_ok RO LA junk Hn KO SO HM neqlt Hnw Hb Hm.
  exists r. split => //. by case: r r' HR {E} => [m'|] [c|] // [->].
Qed.
Print Assumptions C36_sweep_is_metropolis_chain.

(** C36 (detailed balance): flipping twice restores the configuration, and the acceptance
    probabilities min(1, ratio) of a flip and of the reverse flip balance the weights. *)
Theorem C36_detailed_balance : forall n L k st s l i, field_ok n L s -> (l < L)%N -> (i < n)%N ->
  let s' := flipped n l i s in
  flipped n l i s' = s /\
  (weight n L k st s <> 0 -> weight n L k st s' <> 0 ->
   let W := fun c => Rabs (weight n L k st c) in
   (Rmin 1 (W s' / W s) * W s = Rmin 1 (W s / W s') * W s')%coqR).
Proof.
  move=> n L k st s l i Hf Hl Hi s'. split; first exact: (flipped_twice Hf).
  move=> H1 H2 W. apply: balance; exact: Rabs_pos_lt.
Qed.
Print Assumptions C36_detailed_balance.

(** C37: a proposal at any site of slice [l], for Green's functions belonging to that slice, is defined
    for every random number; a flip to a configuration of weight zero is never accepted, and the new
    Green's functions belong to the new configuration, with signs 1 or -1. *)
Theorem C37_no_flip_to_zero_weight : forall (RS MT : Type) (rng : rand_source RS) valid junk n L k st,
  rand_ok rng valid -> kinetic_ok n k -> strat_ok (k_Norb k) st ->
  forall l i (m : mcstate RS MT), (l < L)%N -> (i < n)%N ->
  valid (mc_seed m) -> field_ok n L (mc_s m) -> ts_N (mc_tu m) = Z.of_nat n ->
  let flow expV s := cyclic_flow (step_mx n k expV s) L l.+1 in
  green_of (flow (expVu st) (mc_s m)) (mc_Gu m) -> green_of (flow (expVd st) (mc_s m)) (mc_Gd m) ->
  exists m', hs_site rng junk k st (Z.of_nat l) (Z.of_nat i) m = Some m' /\
    green_of (flow (expVu st) (mc_s m')) (mc_Gu m') /\ green_of (flow (expVd st) (mc_s m')) (mc_Gd m') /\
    field_ok n L (mc_s m') /\ weight n L k st (mc_s m') <> 0 /\
    (weight n L k st (flipped n l i (mc_s m)) = 0 -> mc_s m' = mc_s m).
Proof.
  move=> RS MT rng valid junk n L k st RO KO SO l i m Hl Hi Hv Hf HN flow Hu Hd.
  exact: (hs_site_weight junk RO KO SO Hl Hi Hv Hf HN Hu Hd).
Qed.
Print Assumptions C37_no_flip_to_zero_weight.

(** Concrete case: two sites with hopping, U = 4, dt = 1/8, four slices, products of two: the program's
    tables exist, and the simulation can be set up from the field below with the program's generator. *)
Definition demo_hop : kinetic := mk_kinetic [:: 5/4; 3/4; 3/4; 5/4]%coqR [:: 5/4; -3/4; -3/4; 5/4]%coqR 1 2.
Example C35_case_kinetic : kinetic_ok 2 demo_hop.
Proof.
  constructor => //. apply/matrixP => i j. rewrite !mxE !big_ord_recl big_ord0 !mxE /=.
  case: i => [[|[|//]] Hi]; case: j => [[|[|//]] Hj]; cbn; rewrite -?RplusE -?RmultE -?R0E -?R1E; lra.
Qed.
Definition demo_field : list Z := [:: 0; 1; 1; 0; 1; 1; 0; 0]%Z.
Example C35_case : exists la st m,
  lapack_ok la /\ fill_stratonovich 1 [:: 4%coqR] (1/8)%coqR [:: R0] = Some st /\
  dqmc_setup la (fun _ => R0) demo_hop st 2 4 2 (seed_init 1) [:: 7; 7]%Z demo_field tt = Some m /\
  mc_consistent valid_seed (fun _ => True) 2 4 2 demo_hop st m.
Proof.
  have [la LA] := lapack_exists. exists la.
  have Hpos : forall o, (0 <= o < 1)%Z -> Rle R0 (Rmult (1/8) (SumsFacts.rat [:: 4%coqR] o)).
  { move=> o Ho. have -> : o = 0%Z by lia. cbn. lra. }
  have [st Est] := fill_defined 1 [:: 4%coqR] (1/8)%coqR [:: R0] ltac:(lia) erefl erefl Hpos.
  have SO := @fill_strat_ok 1 [:: 4%coqR] (1/8)%coqR [:: R0] st Z.le_0_1 erefl erefl Est.
  have HT := fill_tables 1 [:: 4%coqR] (1/8)%coqR [:: R0] ltac:(lia) erefl erefl st Est.
  have Hf : field_ok 2 4 demo_field by split => //; repeat (apply: List.Forall_cons; first by [left|right]).
  have Hw : weight 2 4 demo_hop st demo_field <> 0.
  { have [|l [Hl [_ [E1 [E2 [E3 [E4 _]]]]]]] := HT 0%Z; first lia.
    have Hi := Rinv_0_lt_compat _ Hl.
    have HE : forall expV, (forall v, (v <= 1)%N -> Rlt R0 (tab expV v 0)) ->
      \det (1%:M + cyclic_flow (step_mx 2 demo_hop expV demo_field) 4 0) <> 0.
    { move=> expV HV. apply: pos_det2. rewrite /cyclic_flow oprod0 mul1mx. apply: pos2_oprod => l' _.
      apply: pos2_step.
      - move=> i. have Ei : (Zn i / k_Ncell demo_hop = 0)%Z by apply: Z.div_small; case: i => [[|[|//]] Hii] /=; lia.
        rewrite /field_factor Ei -tabE. apply: HV. move: (_ * 2 + i)%N => p. by do 9 (case: p => [|p] //).
      - split; last by rewrite det2 !mxE; cbn; lra.
        move=> i j. rewrite mxE. by case: i => [[|[|//]] Hii]; case: j => [[|[|//]] Hj]; cbn; lra. }
    have Nu : \det (1%:M + cyclic_flow (step_mx 2 demo_hop (expVu st) demo_field) 4 0) <> 0.
    { apply: HE => -[|[|//]] _; rewrite ?E1 ?E2 //. }
    have Nd : \det (1%:M + cyclic_flow (step_mx 2 demo_hop (expVd st) demo_field) 4 0) <> 0.
    { apply: HE => -[|[|//]] _; rewrite ?E3 ?E4 //. }
    rewrite /weight => /eqP. by rewrite mulf_eq0 => /orP [/eqP|/eqP]. }
  have V1 : valid_seed (seed_init 1) by have [] := C03_example.
  have [m [E [H _]]] := @C35_setup_is_consistent randseed unit valid_seed la (fun _ => R0) (fun _ => True) 2 4 2 2 demo_hop st
    (seed_init 1) [:: 7; 7]%Z demo_field tt LA isT C35_case_kinetic SO erefl isT V1 erefl Hf I Hw.
  by exists st, m.
Qed.
