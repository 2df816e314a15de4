(** C40, C41, C42: Monte Carlo sweeps with phonons. *)
From Coq Require Import ZArith List Reals Permutation Lia Lra.
From mathcomp Require Import all_ssreflect ssralg matrix.
From Verif Require Import Base RField SimParams ParamSpec MatSpec MatFacts TimeStep TimeStepSpec TimeStepFacts Strat StratSpec StratFacts GreenSpec GreenFacts
  Lapack LapackSpec LapackExists GreenConstruct Random RandomSpec P_Random RandSource Sweep SweepSpec SweepFacts P_Sweep
  PhononSweep PhononSpec PhononFieldFacts PhononLoopFacts PhononFacts.
Set Implicit Arguments.
Unset Strict Implicit.
Unset Printing Implicit Defensive.
Local Open Scope ring_scope.
Import GRing.Theory.

(** C40, for at least two time slices: the energy difference used by a local update is the difference
    of the energies of the new and the old phonon field.  For one time slice the claim is false, see
    below. *)
Theorem C40_local_energy_partial : forall n L k ph dt X l i dx, (2 <= L)%N -> dt <> R0 -> List.length X = (L * n)%N -> (l < L)%N -> (i < n)%N ->
  local_dE dt (frequency k ph i) dx (Z.of_nat L) (Z.of_nat n) (Z.of_nat l) (Z.of_nat i) X =
    Some (Rminus (phonon_energy n L k ph dt (shift_one n l i dx X)) (phonon_energy n L k ph dt X)).
Proof.
  move=> n L k ph dt X l i dx HL Hdt HX Hl Hi.
  rewrite (@energy_local n L k ph dt X HX (Ordinal Hl) (Ordinal Hi) dx HL Hdt).
  exact: (@local_dE_ok n L k ph dt Hdt _ X (Ordinal Hl) (Ordinal Hi) dx HX erefl).
Qed.
Print Assumptions C40_local_energy_partial.

(** C40 is false for a single time slice, which the validation of the parameters accepts: the program
    adds the coupling of the slice to itself although it vanishes. *)
Theorem C40_local_energy_refuted : exists p k X dx e,
  valid_params p /\ sp_use_phonons p = true /\ sp_L p = 1%Z /\ List.length X = 1%N /\ k_Norb k = sp_Norb p /\
  let ph := sp_phonon p in let dt := sp_dt p in
  phonon_ok (sp_Norb p) ph /\
  local_dE dt (frequency k ph 0) dx 1 1 0 0 X = Some e /\
  e <> Rminus (phonon_energy 1 1 k ph dt (shift_one 1 0 0 dx X)) (phonon_energy 1 1 k ph dt X).
Proof.
  exists (mk_sim_params 1 1 1 0 (mk_bonds [:: R0] [::] [::] [::] [::]) [:: R0] [:: R0] R0 true
    (mk_phonon_params [:: R1] [:: R1] R1 1 R1 0) R1 1 1 1 0 1 0 0 1 0), (mk_kinetic [:: R1] [:: R1] 1 1), [:: R0], R1, (3/2)%coqR.
  split.
  { split=> //=; try (by exists 1%Z); try lia.
    move=> i Hi. have -> : i = 0%Z by lia. by []. }
  do 5 (split => //). split.
  - rewrite /local_dE /=. rewrite /RealOps.rdiv. case: Req_EM_T => E; first by exfalso; lra. cbn. congr Some. lra.
  - rewrite /phonon_energy !big_ord_recl !big_ord0 /frequency /field_at /shift_one /= /Rsqr -?RplusE -?R0E. move=> E.
    have : (3/2 = 1/2)%coqR; last by lra. rewrite [LHS]E. cbn. lra.
Qed.
Print Assumptions C40_local_energy_refuted.

(** C40 (chain), for at least two time slices: Hubbard-Stratonovich field, phonon field and generator
    develop exactly as in the Metropolis chain for the weight det det exp(-dt E), unless a
    configuration of weight zero exists and has been proposed by a block or flip update. *)
Theorem C40_sweep_is_metropolis_chain_partial : forall (RS MT PT : Type) (rng : rand_source RS) valid la junk measure (MI : MT -> Prop)
  measure_ph (PI : PT -> Prop) n L b k noHS st ph dt mu nwraps,
  rand_ok rng valid -> lapack_ok la -> measure_ok n measure MI -> measure_ph_ok n L measure_ph PI ->
  (0 < n)%N -> (Z.of_nat n < 2^64)%Z -> (2 <= L)%N -> kinetic_ok n k -> strat_ok (k_Norb k) st -> phonon_ok (k_Norb k) ph -> dt <> R0 ->
  (0 < nwraps)%N -> (b %| nwraps)%N ->
  forall (p : phstate RS MT PT) (neqlt : Z), ph_consistent n L k st ph dt valid MI PI b p ->
  let sweep := phonon_iteration rng measure measure_ph la junk k noHS st ph dt mu (Z.of_nat nwraps) neqlt p in
  (exists r, sweep = Some r /\
     metropolis_phonon_sweep n L k st ph dt rng noHS mu (mc_seed (p_mc p), mc_order (p_mc p), mc_s (p_mc p), p_X p) =
     Some (match r with Some p' => Some (mc_seed (p_mc p'), mc_order (p_mc p'), mc_s (p_mc p'), p_X p') | None => None end)) \/
  (sweep = None /\ exists s X, field_ok n L s /\ List.length X = (L * n)%N /\ phonon_weight n L k st ph dt s X = 0).
Proof.
  move=> RS MT PT rng valid la junk measure MI measure_ph PI n L b k noHS st ph dt mu nw RO LA HM HP Hn Hn64 HL KO SO PO Hdt Hnw Hb p neqlt Hp.
  have Hrl : forall s X (l : 'I_L) (i : 'I_n) dx, List.length X = (L * n)%N ->
    weight_ratio n L k st ph dt s X l i dx = code_ratio n L k st ph dt s X l i dx by move=> s X l i dx HX; rewrite code_ratio_weight.
  have [[r [r' [E1 [E2 HR]]]]|[E1 E2]] := phonon_iteration_ok RO LA junk Hn Hn64 KO SO PO HM HP Hdt Hrl noHS mu neqlt Hnw Hb Hp.
  - left. exists r. split => //. rewrite /metropolis_phonon_sweep E2. by case: r r' HR {E1 E2} => [p'|] [c|] // [-> _].
  - by right.
Qed.
Print Assumptions C40_sweep_is_metropolis_chain_partial.

(** C41: a block update shifts the field of one site at all slices; the energy difference it uses is
    the difference of the energies, and the new exponentials are those of the new field. *)
Theorem C41_block_energy : forall n L k ph dt X i dx, List.length X = (L * n)%N -> (i < n)%N ->
  let X' := shift_all n i dx X in
  block_dE (frequency k ph i) dx (Z.of_nat L) (Z.of_nat n) (Z.of_nat i) X =
    Some (Rminus (phonon_energy n L k ph dt X') (phonon_energy n L k ph dt X)) /\
  block_shift dt (coupling k ph i) dx (Z.of_nat L) (Z.of_nat n) (Z.of_nat i) (X, exp_field n k ph dt X) =
    Some (X', exp_field n k ph dt X').
Proof.
  move=> n L k ph dt X i dx HX Hi X'. split.
  - rewrite (block_dE_ok Hi HX). congr Some. rewrite /X' (@energy_block n L k ph dt _ HX (Ordinal Hi)) /= /Rsqr /field_at. ring.
  - have HE := exp_field_len (n := n) (L := L) k ph dt HX.
    by rewrite (block_shift_ok Hi HX _ _ HE) exp_shift_all_col // shift_all_col.
Qed.
Print Assumptions C41_block_energy.

(** C41: the same for a flip update, which replaces the field at one site by [flip] minus the field. *)
Theorem C41_flip_energy : forall n L junk k ph dt X i flip, List.length X = (L * n)%N -> (i < n)%N ->
  let X' := reflect_all n i flip X in
  exists ref, save_col junk (Z.of_nat L) (Z.of_nat n) (Z.of_nat i) X = Some ref /\
  flip_shift dt (coupling k ph i) (frequency k ph i) flip (Z.of_nat L) (Z.of_nat n) (Z.of_nat i) ref (R0, (X, exp_field n k ph dt X)) =
    Some (Rminus (phonon_energy n L k ph dt X') (phonon_energy n L k ph dt X), (X', exp_field n k ph dt X')).
Proof.
  move=> n L junk k ph dt X i flip HX Hi X'.
  have [ref [-> [S1 S2]]] := save_col_ok junk Hi HX. exists ref. split => //.
  have HE := exp_field_len (n := n) (L := L) k ph dt HX.
  rewrite (flip_shift_ok Hi HX _ _ HE _ _ S1 S2) exp_reflect_all_col // reflect_all_col //.
  by rewrite /X' (@energy_flip n L k ph dt _ HX (Ordinal Hi)).
Qed.
Print Assumptions C41_flip_energy.

(** C41 (rollback): a block or flip update which is not accepted leaves both fields, the exponentials,
    the order of the sites, time step matrices, Green's functions and measurement data exactly as they
    were; an accepted update increases the counter by one.  [b_tu] .. [b_Gd] is the storage for the new
    matrices. *)
Theorem C41_rejected_update_restores : forall (RS MT PT : Type) (rng : rand_source RS) valid la junk (MI : MT -> Prop) (PI : PT -> Prop) n L b k st ph dt mu,
  rand_ok rng valid -> lapack_ok la ->
  (0 < n)%N -> (Z.of_nat n < 2^64)%Z -> kinetic_ok n k -> strat_ok (k_Norb k) st -> phonon_ok (k_Norb k) ph ->
  forall (q : blkstate (RS:=RS) (MT:=MT) (PT:=PT)), ph_consistent n L k st ph dt valid MI PI b (b_p q) ->
  tsm_shape n L b (b_tu q) -> tsm_shape n L b (b_td q) ->
  List.length (gf_mat (b_Gu q)) = (n * n)%N -> gf_N (b_Gu q) = Z.of_nat n ->
  List.length (gf_mat (b_Gd q)) = (n * n)%N -> gf_N (b_Gd q) = Z.of_nat n ->
  forall upd acc, (upd = block_update rng la junk k st ph dt /\ acc = n_block_accept) \/
                  (upd = flip_update rng la junk k st ph dt mu /\ acc = n_flip_accept) ->
  forall q', upd q = Some (Some q') ->
  let p := b_p q in let p' := b_p q' in
  ph_consistent n L k st ph dt valid MI PI b p' /\
  (acc (p_cnt p') = (acc (p_cnt p) + 1)%Z \/
   acc (p_cnt p') = acc (p_cnt p) /\
   p_X p' = p_X p /\ p_expX p' = p_expX p /\ p_meas p' = p_meas p /\
   mc_s (p_mc p') = mc_s (p_mc p) /\ mc_order (p_mc p') = mc_order (p_mc p) /\
   mc_tu (p_mc p') = mc_tu (p_mc p) /\ mc_td (p_mc p') = mc_td (p_mc p) /\
   mc_Gu (p_mc p') = mc_Gu (p_mc p) /\ mc_Gd (p_mc p') = mc_Gd (p_mc p) /\ mc_meas (p_mc p') = mc_meas (p_mc p)).
Proof.
  move=> RS MT PT rng valid la junk MI PI n L b k st ph dt mu RO LA Hn Hn64 KO SO PO q Hq H1 H2 H3 H4 H5 H6 upd acc Hupd q' E p p'.
  have HB : blk_ok valid MI PI n L b k st ph dt q by constructor => //; split => //; exact: square_len.
  have [chain HL] : exists chain, in_lockstep valid MI PI n L b k st ph dt acc q upd chain.
  { case: Hupd => [[-> ->]|[-> ->]]; eexists.
    - exact: (block_update_ok RO LA junk Hn Hn64 KO SO PO HB).
    - exact: (flip_update_ok RO LA junk Hn Hn64 KO SO PO mu HB). }
  case: HL => [[r [r' [E1 [_ HR]]]]|[E1 _]]; last by rewrite E in E1.
  rewrite E in E1. case: E1 => E1. subst r. case: r' HR => // c [_ [[Hc _ _ _ _] HR]]. split => //.
  case: HR => [[Ha [R1 [R2 [R3 [seed R4]]]]]|Ha]; [right|by left].
  by rewrite /p' R1 R2 R3 R4.
Qed.
Print Assumptions C41_rejected_update_restores.

(** C42: the initial phonon field and its exponentials are in sync, and the field vanishes for
    orbitals without coupling. *)
Theorem C42_initial_field : forall (RS : Type) (rng : rand_source RS) valid junk n L k ph dt,
  rand_ok rng valid -> kinetic_ok n k -> phonon_ok (k_Norb k) ph -> forall seed, valid seed ->
  exists seed' X, init_phonon_field rng junk ph dt (k_Ncell k) (Z.of_nat n) (Z.of_nat L) seed = Some (seed', (X, exp_field n k ph dt X)) /\
    valid seed' /\ List.length X = (L * n)%N /\
    forall l i, (l < L)%N -> (i < n)%N -> coupling k ph i = R0 -> field_at n X l i = R0.
Proof. move=> RS rng valid junk n L k ph dt RO KO PO seed Hs. exact: (init_phonon_field_ok RO junk L dt KO PO Hs). Qed.
Print Assumptions C42_initial_field.

(** C42: the state set up from a phonon field and its exponentials is consistent if the weight is not zero. *)
Theorem C42_setup_is_consistent : forall (RS MT PT : Type) (valid : RS -> Prop) la junk (MI : MT -> Prop) (PI : PT -> Prop) n L b q k st ph dt seed order s X c d e,
  lapack_ok la -> (0 < n)%N -> kinetic_ok n k -> strat_ok (k_Norb k) st -> L = (q * b)%N -> (0 < L)%N ->
  valid seed -> List.length order = n -> field_ok n L s -> List.length X = (L * n)%N -> MI d -> PI e -> phonon_weight n L k st ph dt s X <> 0 ->
  exists p, phonon_setup la junk k st (Z.of_nat n) (Z.of_nat L) (Z.of_nat b) seed order s X (exp_field n k ph dt X) c d e = Some p /\
    ph_consistent n L k st ph dt valid MI PI b p /\ mc_s (p_mc p) = s /\ p_X p = X /\ mc_seed (p_mc p) = seed /\ p_cnt p = c.
Proof.
  move=> RS MT PT valid la junk MI PI n L b q k st ph dt seed order s X c d e LA Hn KO SO EL HL Hs Ho Hf HX Hd He Hw.
  exact: (phonon_setup_ok LA junk Hn KO SO c EL).
Qed.
Print Assumptions C42_setup_is_consistent.

(** C42: after any number of sweeps, for any random numbers and any number of time slices, the state is
    consistent: in particular the exponentials are those of the phonon field, and time step matrices and
    Green's functions belong to the two fields.  The only way to leave the model is a block or flip
    proposal of weight zero. *)
Theorem C42_sweeps_keep_exponentials : forall (RS MT PT : Type) (rng : rand_source RS) valid la junk measure (MI : MT -> Prop)
  measure_ph (PI : PT -> Prop) n L b k noHS st ph dt mu nwraps,
  rand_ok rng valid -> lapack_ok la -> measure_ok n measure MI -> measure_ph_ok n L measure_ph PI ->
  (0 < n)%N -> (Z.of_nat n < 2^64)%Z -> kinetic_ok n k -> strat_ok (k_Norb k) st -> phonon_ok (k_Norb k) ph -> dt <> R0 ->
  (0 < nwraps)%N -> (b %| nwraps)%N ->
  forall (p : phstate RS MT PT) (neqlt : Z -> Z) (count : nat), ph_consistent n L k st ph dt valid MI PI b p ->
  let sweeps := phonon_sweeps rng measure measure_ph la junk k noHS st ph dt mu (Z.of_nat nwraps) neqlt (Z.of_nat count) p in
  (exists r, sweeps = Some r /\
     forall p', r = Some p' -> ph_consistent n L k st ph dt valid MI PI b p' /\ p_expX p' = exp_field n k ph dt (p_X p')) \/
  (sweeps = None /\ exists s X, field_ok n L s /\ List.length X = (L * n)%N /\ phonon_weight n L k st ph dt s X = 0).
Proof.
  move=> RS MT PT rng valid la junk measure MI measure_ph PI n L b k noHS st ph dt mu nw RO LA HM HP Hn Hn64 KO SO PO Hdt Hnw Hb p neqlt count Hp.
  have [[r [r' [E1 [E2 HR]]]]|[E1 E2]] := phonon_sweeps_ok RO LA junk Hn Hn64 KO SO PO HM HP Hdt (fun _ _ _ _ _ _ => erefl) noHS mu neqlt count Hnw Hb Hp.
  - left. exists r. split => // p' Er. subst r. case: r' HR {E2} => // c [_ Hc]. split => //. exact: phc_expX Hc.
  - by right.
Qed.
Print Assumptions C42_sweeps_keep_exponentials.

(** C42: within a slice, a local update at any site is defined for all random numbers and keeps
    the exponentials in sync with the field and both Green's functions in sync with the exponentials. *)
Theorem C42_local_update_keeps_sync : forall (RS MT PT : Type) (rng : rand_source RS) valid junk n L k st ph dt,
  rand_ok rng valid -> kinetic_ok n k -> strat_ok (k_Norb k) st -> phonon_ok (k_Norb k) ph -> dt <> R0 ->
  forall l i (p : phstate RS MT PT), (l < L)%N -> (i < n)%N ->
  let flow expV p := cyclic_flow (phonon_step_mx n k expV (mc_s (p_mc p)) (p_expX p)) L l.+1 in
  let sync p := List.length (p_X p) = (L * n)%N /\ p_expX p = exp_field n k ph dt (p_X p) /\
    green_of (flow (expVu st) p) (mc_Gu (p_mc p)) /\ green_of (flow (expVd st) p) (mc_Gd (p_mc p)) in
  valid (mc_seed (p_mc p)) -> field_ok n L (mc_s (p_mc p)) ->
  ts_N (mc_tu (p_mc p)) = Z.of_nat n -> ts_L (mc_tu (p_mc p)) = Z.of_nat L -> sync p ->
  exists p', local_update rng junk k ph dt (Z.of_nat l) (Z.of_nat i) p = Some p' /\ sync p'.
Proof.
  move=> RS MT PT rng valid junk n L k st ph dt RO KO SO PO Hdt l i p Hl Hi flow sync Hv Hf HN HL [HX [HE [Hu Hd]]].
  have HI : in_slice valid n L k st ph dt l.+1 p by constructor.
  have [p' [-> [_ [[[J1 J2 J3 J4 J5] J6 J7 J8] _]]]] := @local_update_ok RS MT PT rng valid RO junk n L k st ph dt KO SO PO Hdt _ (fun _ _ _ _ _ _ => erefl) (Ordinal Hl) (Ordinal Hi) p HI.
  by exists p'.
Qed.
Print Assumptions C42_local_update_keeps_sync.

(** Concrete case: two sites with hopping, U = 4, dt = 1/8, four slices, products of two, phonons with
    g = omega = 1.  No configuration has weight zero, so all sweeps are defined; the simulation can be
    set up from the random initial field. *)
Definition demo_phonons : phonon_params := mk_phonon_params [:: R1] [:: R1] R1 3 R1 2.
Example C42_case : exists la st p seed X,
  lapack_ok la /\ fill_stratonovich 1 [:: 4%coqR] (1/8)%coqR [:: R0] = Some st /\
  init_phonon_field (xorshift_source 100) (fun _ => R0) demo_phonons (1/8)%coqR 2 2 4 (seed_init 1) = Some (seed, (X, exp_field 2 demo_hop demo_phonons (1/8)%coqR X)) /\
  phonon_setup la (fun _ => R0) demo_hop st 2 4 2 seed [:: 7; 7]%Z demo_field X (exp_field 2 demo_hop demo_phonons (1/8)%coqR X) (mk_counts 0 0 0 0 0 0) tt tt = Some p /\
  ph_consistent 2 4 demo_hop st demo_phonons (1/8)%coqR valid_seed (fun _ => True) (fun _ => True) 2 p /\
  (forall s X, field_ok 2 4 s -> List.length X = 8%N -> phonon_weight 2 4 demo_hop st demo_phonons (1/8)%coqR s X <> 0) /\
  exists r, phonon_sweeps (xorshift_source 100) (fun _ _ d => Some d) (fun _ _ _ _ d => Some d) la (fun _ => R0) demo_hop false st demo_phonons (1/8)%coqR (1/2)%coqR
      2 (fun _ => 1%Z) 1000 p = Some r.
Proof.
  have [la LA] := lapack_exists. exists la.
  have Hpos : forall o, (0 <= o < 1)%Z -> Rle R0 (Rmult (1/8) (SumsFacts.rat [:: 4%coqR] o)).
  { move=> o Ho. have -> : o = 0%Z by lia. cbn. lra. }
  have [st Est] := fill_defined 1 [:: 4%coqR] (1/8)%coqR [:: R0] ltac:(lia) erefl erefl Hpos.
  have SO := @fill_strat_ok 1 [:: 4%coqR] (1/8)%coqR [:: R0] st Z.le_0_1 erefl erefl Est.
  have HT := fill_tables 1 [:: 4%coqR] (1/8)%coqR [:: R0] ltac:(lia) erefl erefl st Est.
  have Hf : field_ok 2 4 demo_field by split => //; repeat (apply: List.Forall_cons; first by [left|right]).
  have Hw : forall s X, field_ok 2 4 s -> List.length X = 8%N -> phonon_weight 2 4 demo_hop st demo_phonons (1/8)%coqR s X <> 0.
  { move=> s X Hs HX. have [|l [Hl [_ [E1 [E2 [E3 [E4 _]]]]]]] := HT 0%Z; first lia.
    have Hi := Rinv_0_lt_compat _ Hl.
    have HE : forall expV, (forall v, (v <= 1)%N -> Rlt R0 (tab expV v 0)) ->
      \det (1%:M + cyclic_flow (phonon_step_mx 2 demo_hop expV s (exp_field 2 demo_hop demo_phonons (1/8)%coqR X)) 4 0) <> 0.
    { move=> expV HV. apply: pos_det2. rewrite /cyclic_flow oprod0 mul1mx. apply: pos2_oprod => l' Hl'.
      apply: pos2_mul.
      - have Hp : forall i : 'I_2, Rlt R0 (field_factor 2 (k_Ncell demo_hop) expV s l' i * nth R0 (exp_field 2 demo_hop demo_phonons (1/8)%coqR X) (l' * 2 + i)).
        { move=> i. apply: Rmult_lt_0_compat; last first.
          - rewrite (exp_field_at (L := 4)) //. exact: exp_pos.
          - have Ei : (Zn i / k_Ncell demo_hop = 0)%Z by apply: Z.div_small; case: i => [[|[|//]] Hii] /=; lia.
            rewrite /field_factor Ei -tabE. apply: HV. have Hlt : (l' * 2 + i < List.length s)%N by rewrite Hs.1; exact: (pos_lt (n := 2)).
            have := @Forall_nth_ok _ _ _ _ 0%Z Hs.2 (ltP Hlt). by rewrite nthE; case => ->. }
        split.
        + move=> i j. rewrite mxE mulrb. case: eqP => [->|_]; [rewrite mxE; exact: Rlt_le|exact: Rle_refl].
        + rewrite det_diag !big_ord_recl big_ord0 mulr1 -RmultE. rewrite !mxE. exact: Rmult_lt_0_compat.
      - split; last by rewrite det2 !mxE; cbn; lra.
        move=> i j. rewrite mxE. by case: i => [[|[|//]] Hii]; case: j => [[|[|//]] Hj]; cbn; lra. }
    have Nu := HE (expVu st). have Nd := HE (expVd st).
    rewrite /phonon_weight /phonon_dets => /eqP. rewrite mulf_eq0 => /orP [/eqP|/eqP]; last by move=> E; have := exp_pos (Ropp (Rmult (1/8) (phonon_energy 2 4 demo_hop demo_phonons (1/8) X))); rewrite E; exact: Rlt_irrefl.
    move=> /eqP. rewrite mulf_eq0 => /orP [/eqP|/eqP].
    - apply: Nu => -[|[|//]] _; by rewrite ?E1 ?E2.
    - apply: Nd => -[|[|//]] _; by rewrite ?E3 ?E4. }
  have V1 : valid_seed (seed_init 1) by have [] := C03_example.
  have PO : phonon_ok (k_Norb demo_hop) demo_phonons by [].
  have [seed [X [EX [V2 [HX _]]]]] := C42_initial_field (fun _ => R0) 4 (1/8)%coqR (xorshift_ok 100) C35_case_kinetic PO V1.
  have [p [Ep [Hp _]]] := @C42_setup_is_consistent randseed unit unit valid_seed la (fun _ => R0) (fun _ => True) (fun _ => True) 2 4 2 2 demo_hop st demo_phonons (1/8)%coqR
    seed [:: 7; 7]%Z demo_field X (mk_counts 0 0 0 0 0 0) tt tt LA isT C35_case_kinetic SO erefl isT V2 erefl Hf HX I I (Hw _ _ Hf HX).
  exists st, p, seed, X. do 6 (split => //).
  have Hdt : (1/8)%coqR <> R0 by lra.
  have [||[r [Er _]]|[_ [s' [X' [F1 [F2 F3]]]]]] := @C42_sweeps_keep_exponentials randseed unit unit (xorshift_source 100) valid_seed la (fun _ => R0) (fun _ _ d => Some d) (fun _ => True)
    (fun _ _ _ _ d => Some d) (fun _ => True) 2 4 2 demo_hop false st demo_phonons (1/8)%coqR (1/2)%coqR 2 (xorshift_ok 100) LA _ _ isT erefl C35_case_kinetic SO PO Hdt isT isT p (fun _ => 1%Z) (Z.to_nat 1000) Hp.
  - by move=> Au Ad Gu Gd d _ _ _; exists d.
  - by move=> Au Ad Gu Gd l X0 d _ _ _ _ _; exists d.
  - exists r. move: Er. by rewrite Z2Nat.id.
  - by case: (Hw _ _ F1 F2).
Qed.

(** Concrete case for C40 and C41: three slices, two sites. *)
Example C41_case : exists e, local_dE (1/2) 1 1 3 2 1 0 [:: 1; 2; 3; 4; 5; 6]%coqR = Some e /\ e = (15/2)%coqR.
Proof.
  rewrite /local_dE /= /RealOps.rdiv. case: Req_EM_T => E; first by exfalso; lra. eexists. split; first reflexivity. lra.
Qed.
