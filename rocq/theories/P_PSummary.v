(** C66: the acceptance counters and the summary of the phonon data. *)
From Coq Require Import ZArith List Reals Lia Lra.
From mathcomp Require Import all_ssreflect ssralg matrix.
From Verif Require Import Base RField SimParams ParamSpec MatSpec MatFacts TimeStep TimeStepSpec TimeStepFacts Strat StratSpec StratFacts GreenSpec GreenFacts
  Lapack LapackSpec LapackExists GreenConstruct RandSource Sweep SweepSpec SweepFacts P_Sweep SimulationCase
  PhononSweep PhononSpec PhononFieldFacts PhononFacts P_Phonon WickSpec PMeasure PMeasureSpec P_PMeasure MeasureSpec Summary PhononCountSpec PhononCountFacts PhononCountRun PhononDecide PSummaryFacts.
Set Implicit Arguments.
Unset Strict Implicit.
Unset Printing Implicit Defensive.
Local Open Scope ring_scope.
Import GRing.Theory.

(** C66 (counters): in [count] sweeps that return, for all random numbers, at most count L n_local_updates local, count
    n_block_updates block and count n_block_updates flip updates are counted, exactly as many if all orbitals
    have a coupling; and never more are counted as accepted than as proposed. *)
Theorem C66_counters : forall (RS MT PT : Type) (rng : rand_source RS) valid la junk measure (MI : MT -> Prop)
  measure_ph (PI : PT -> Prop) n L b k noHS st ph dt mu nwraps,
  rand_ok rng valid -> lapack_ok la -> measure_ok n measure MI -> measure_ph_ok n L measure_ph PI ->
  (0 < n)%N -> (Z.of_nat n < 2^64)%Z -> kinetic_ok n k -> strat_ok (k_Norb k) st -> phonon_ok (k_Norb k) ph -> dt <> R0 ->
  (0 < nwraps)%N -> (b %| nwraps)%N ->
  forall (p p' : phstate RS MT PT) (neqlt : Z -> Z) (count : nat), ph_consistent n L k st ph dt valid MI PI b p ->
  phonon_sweeps rng measure measure_ph la junk k noHS st ph dt mu (Z.of_nat nwraps) neqlt (Z.of_nat count) p = Some (Some p') ->
  let nl := Z.max 0 (ph_n_local_updates ph) in let nb := Z.max 0 (ph_n_block_updates ph) in
  counted (List.Forall (fun g => g <> R0) (ph_g ph))
    (Z.of_nat count * (Z.of_nat L * nl)) (Z.of_nat count * nb) (Z.of_nat count * nb) (p_cnt p) (p_cnt p').
Proof.
  move=> RS MT PT rng valid la junk measure MI measure_ph PI n L b k noHS st ph dt mu nw RO LA HM HP Hn Hn64 KO SO PO Hdt Hnw Hb p p' neqlt count Hp H nl nb.
  have E : Z.to_nat (Z.of_nat count - 0) = count by rewrite Z.sub_0_r Nat2Z.id.
  have S := sweeps_counted RO LA (junk := junk) HM HP Hn Hn64 KO SO PO (noHS := noHS) (mu := mu) Hdt Hnw Hb (neqlt := neqlt) (c := Z.to_nat (Z.of_nat count - 0)) (lo := 0%Z) Hp H.
  rewrite E in S. exact S.
Qed.
Print Assumptions C66_counters.

(** C66 (decisions): an update counted as accepted has moved the phonon field to the proposed one (shifted at one slice,
    shifted at all slices, or reflected at all slices), an update counted as proposed but not as accepted has left it alone,
    and sites without coupling count nothing. *)
Theorem C66_accepted_updates_move : forall (RS MT PT : Type) (rng : rand_source RS) valid la junk n L b k st ph dt mu (MI : MT -> Prop) (PI : PT -> Prop),
  rand_ok rng valid -> (0 < n)%N -> (Z.of_nat n < 2^64)%Z -> kinetic_ok n k -> phonon_ok (k_Norb k) ph ->
  (forall l i (p p' : phstate RS MT PT), ts_N (mc_tu (p_mc p)) = Z.of_nat n -> List.length (p_X p) = (L * n)%N -> (l < L)%N -> (i < n)%N ->
    local_update rng junk k ph dt (Z.of_nat l) (Z.of_nat i) p = Some p' ->
    coupling k ph i = R0 /\ p_X p' = p_X p /\ p_cnt p' = p_cnt p \/
    coupling k ph i <> R0 /\ exists u seed, r_uniform rng (mc_seed (p_mc p)) = Some (u, seed) /\
      n_local_total (p_cnt p') = (n_local_total (p_cnt p) + 1)%Z /\
      (p_X p' = shift_one n l i (Rmult (Rminus u (1/2)) (ph_local_box_width ph)) (p_X p) /\ n_local_accept (p_cnt p') = (n_local_accept (p_cnt p) + 1)%Z \/
       p_X p' = p_X p /\ n_local_accept (p_cnt p') = n_local_accept (p_cnt p))) /\
  (forall q q' : blkstate (RS:=RS) (MT:=MT) (PT:=PT), ph_consistent n L k st ph dt valid MI PI b (b_p q) ->
    let p := b_p q in let p' := b_p q' in
    (block_update rng la junk k st ph dt q = Some (Some q') ->
     exists (i : nat) seed, (i < n)%N /\ r_bounded rng (mc_seed (p_mc p)) (Z.of_nat n) = Some (Some (Z.of_nat i, seed)) /\
     (coupling k ph i = R0 /\ p_X p' = p_X p /\ p_cnt p' = p_cnt p \/
      coupling k ph i <> R0 /\ exists u seed', r_uniform rng seed = Some (u, seed') /\
        n_block_total (p_cnt p') = (n_block_total (p_cnt p) + 1)%Z /\
        (p_X p' = shift_all n i (Rmult (Rminus u (1/2)) (ph_block_box_width ph)) (p_X p) /\ n_block_accept (p_cnt p') = (n_block_accept (p_cnt p) + 1)%Z \/
         p_X p' = p_X p /\ n_block_accept (p_cnt p') = n_block_accept (p_cnt p)))) /\
    (flip_update rng la junk k st ph dt mu q = Some (Some q') ->
     exists (i : nat) seed, (i < n)%N /\ r_bounded rng (mc_seed (p_mc p)) (Z.of_nat n) = Some (Some (Z.of_nat i, seed)) /\
     (coupling k ph i = R0 /\ p_X p' = p_X p /\ p_cnt p' = p_cnt p \/
      coupling k ph i <> R0 /\ n_flip_total (p_cnt p') = (n_flip_total (p_cnt p) + 1)%Z /\
        (p_X p' = reflect_all n i (Rdiv (Rmult 2 mu) (coupling k ph i)) (p_X p) /\ n_flip_accept (p_cnt p') = (n_flip_accept (p_cnt p) + 1)%Z \/
         p_X p' = p_X p /\ n_flip_accept (p_cnt p') = n_flip_accept (p_cnt p))))).
Proof.
  move=> RS MT PT rng valid la junk n L b k st ph dt mu MI PI RO Hn Hn64 KO PO. split.
  - move=> l i p p' EN HX Hl Hi E. case: (local_decides KO PO EN HX Hl Hi E) => [H|[Hg [u [seed [Eu H]]]]]; [by left|right]. split => //. exists u, seed. split => //.
    case: H => [[-> ->]|[-> ->]]; (split; first by []); [by left|right; split => //; exact: Z.add_0_r].
  - move=> q q' Hc p p'. case: (Hc) => H1 H2 H3 HX HE H4 H5 _ _ _ _.
    have HS : ts_N (mc_tu (p_mc (b_p q))) = Z.of_nat n /\ ts_L (mc_tu (p_mc (b_p q))) = Z.of_nat L /\
      List.length (p_X (b_p q)) = (L * n)%N /\ List.length (p_expX (b_p q)) = (L * n)%N /\ valid (mc_seed (p_mc (b_p q))).
    { do ?split => //; [by case: H4 => [[]]|by case: H4 => [[]]|rewrite HE; exact: exp_field_len]. }
    split=> E.
    + have [i [seed [Hi [Er H]]]] := block_decides RO Hn Hn64 KO PO HS E. exists i, seed. do 2 (split => //). case: H => [H|[Hg [u [seed' [Eu H]]]]]; [by left|right].
      split => //. exists u, seed'. split => //. rewrite /p /p'. case: H => [[-> ->]|[-> ->]]; (split; first by []); [by left|right; split => //; exact: Z.add_0_r].
    + have [i [seed [Hi [Er H]]]] := flip_decides RO Hn Hn64 KO PO HS E. exists i, seed. do 2 (split => //). case: H => [H|[Hg H]]; [by left|right].
      split => //. rewrite /p /p'. case: H => [[-> ->]|[-> ->]]; (split; first by []); [by left|right; split => //; exact: Z.add_0_r].
Qed.
Print Assumptions C66_accepted_updates_move.

(** C66, full claim: the summary of the phonon data shows acceptance ratios between 0 and 1 and the
    sign-weighted averages of the phonon observables.  It holds if the signs do not cancel and an update of every kind
    has been proposed; for the kinetic energy only with one orbital (see C46).  The three ratios are those of all orbitals
    together; they are repeated for every orbital. *)
Theorem C66_phonon_summary_partial : forall Norb Nx Ny L mx dt omega samples all nl nb nf c,
  (0 < Norb)%Z -> (0 < Nx)%Z -> (0 < Ny)%Z -> (0 < L)%Z -> dt <> R0 -> Z.of_nat (List.length omega) = Norb ->
  let Ncell := Z.mul Nx Ny in
  List.Forall (psample_ok Norb Ncell L) samples -> (Z.of_nat (List.length samples) <= mx)%Z -> samples <> [::] ->
  counted all nl nb nf no_counts c ->
  lsum psign samples <> R0 -> n_local_total c <> 0%Z -> n_block_total c <> 0%Z -> n_flip_total c <> 0%Z ->
  exists m0 m m' r1 r2 r3 e, allocate_pmeas Norb Nx Ny L mx = Some m0 /\ paccumulate_all dt omega samples m0 = Some m /\ pnormalize m = Some m' /\
    print_phonon_summary m' c = Some (phonon_summary_lines Norb (Rdiv (lsum psign samples) (IZR (Z.of_nat (List.length samples)))) r1 r2 r3 e) /\
    Rmult r1 (IZR (n_local_total c)) = IZR (n_local_accept c) /\ Rmult r2 (IZR (n_block_total c)) = IZR (n_block_accept c) /\
    Rmult r3 (IZR (n_flip_total c)) = IZR (n_flip_accept c) /\
    (0 <= r1 <= 1)%coqR /\ (0 <= r2 <= 1)%coqR /\ (0 <= r3 <= 1)%coqR /\
    (forall f o, In f [:: X_avg; X_sq_avg; V_sq_avg; PE; nX] -> e f o = phonon_average Norb Ncell L dt omega samples f o) /\
    (Norb = 1%Z -> e KE 0%Z = phonon_average Norb Ncell L dt omega samples KE 0).
Proof.
  move=> Norb Nx Ny L mx dt omega samples all nl nb nf c H1 H2 H3 H4 Hdt Hom Ncell Hs Hmx Hne HC HS C1 C2 C3.
  have [m0 [m [m' [e [E0 [E [E' [EP [E1 E2]]]]]]]]] := phonon_lines _ _ _ _ _ _ _ _ H1 H2 H3 H4 Hdt Hom Hs Hmx Hne _ HS C1 C2 C3.
  exists m0, m, m'. do 3 eexists. exists e. do 4 (split; first eassumption).
  have NZ : forall t, t <> 0%Z -> IZR t <> R0 by move=> t; exact: not_0_IZR.
  do 3 (split; first by field; apply: NZ).
  have RG : forall a t, t <> 0%Z -> (0 <= a <= t)%Z -> (0 <= IZR a / IZR t <= 1)%coqR.
  { move=> a t Ht [Ha1 Ha2]. have Hp : (0 < IZR t)%coqR by apply: IZR_lt; lia.
    have A1 : (0 <= IZR a)%coqR by apply: IZR_le. have A2 : (IZR a <= IZR t)%coqR by apply: IZR_le. split.
    - apply: Rmult_le_pos => //. exact/Rlt_le/Rinv_0_lt_compat.
    - apply: (Rmult_le_reg_r (IZR t)) => //. by rewrite /Rdiv Rmult_assoc Rinv_l ?Rmult_1_r ?Rmult_1_l //; apply: NZ. }
  case: HC => /= [[[B1 B2] _] [[B3 B4] _] [[B5 B6] _] _]. rewrite !Z.sub_0_r in B1 B2 B3 B4 B5 B6.
  do 3 (split; first exact: RG). by split.
Qed.
Print Assumptions C66_phonon_summary_partial.

(** C66: whatever has been measured, if no block updates are made (n_block_updates not positive), or the signs cancel, the
    summary divides by zero. *)
Theorem C66_summary_undefined : forall all count nl nb c m m', pnormalize m = Some m' -> (0 < p_Norb m')%Z ->
  counted all nl (count * Z.max 0 nb) (count * Z.max 0 nb) no_counts c ->
  (nb <= 0)%Z \/ p_sign m' = R0 -> print_phonon_summary m' c = None.
Proof.
  move=> all count nl nb c m m' E HN HC H. apply: (phonon_lines_undefined [::] [::] c m m' E HN). case: H => H; last by left.
  right; right; left. case: HC => _ A _ _. rewrite /= in A. rewrite Z.max_l in A; lia.
Qed.
Print Assumptions C66_summary_undefined.

(** C66 is false if no block updates are made (the default when the parameter is absent): after any number of sweeps the
    totals are 0, and the summary divides 0 by 0. *)
Theorem C66_no_block_updates_refuted : exists Norb Nx Ny L mx dt omega samples nl c m0 m m',
  List.Forall (psample_ok Norb (Z.mul Nx Ny) L) samples /\ lsum psign samples <> R0 /\
  counted True nl 0 0 no_counts c /\ (0 < n_local_total c)%Z /\
  allocate_pmeas Norb Nx Ny L mx = Some m0 /\ paccumulate_all dt omega samples m0 = Some m /\ pnormalize m = Some m' /\
  print_phonon_summary m' c = None.
Proof.
  exists 2%Z, 2%Z, 1%Z, 2%Z, 1%Z, (/2)%coqR, [:: 1; 3]%coqR, [:: case_sample 1], 12%Z, (mk_counts 5 12 0 0 0 0).
  have Hs : List.Forall (psample_ok 2 2 2) [:: case_sample 1] by constructor; [exact: case_ok|constructor].
  have Hdt : (/2)%coqR <> R0 by apply: Rinv_neq_0_compat; lra.
  have [m0 [m [m' [E0 [E [E' [EN _]]]]]]] := results 2 2 1 2 1 (/2)%coqR [:: 1; 3]%coqR [:: case_sample 1] erefl erefl erefl erefl Hdt erefl Hs
    ltac:(cbn; lia) ltac:(discriminate).
  exists m0, m, m'. split; first exact: Hs. split; first by rewrite /psign /sign_of /lsum; cbn; lra.
  split; first by constructor; cbn; lia. split; first by []. split; first exact: E0. split; first exact: E. split; first exact: E'.
  have Hp : (0 < p_Norb m')%Z by rewrite EN.
  apply: (phonon_lines_undefined [::] [::] (mk_counts 5 12 0 0 0 0) m m' E' Hp). by right; right; left.
Qed.
Print Assumptions C66_no_block_updates_refuted.

(** C66: the counters are of type int.  They stay in its range if count L n_local_updates does; if all orbitals have a
    coupling and count L n_local_updates is larger, the number of proposals is not representable.  *)
Theorem C66_counter_range : forall all count L nl nb c, (0 <= count)%Z -> (0 <= L)%Z -> (0 <= nl)%Z -> (0 <= nb)%Z ->
  counted all (count * (L * nl)) (count * nb) (count * nb) no_counts c ->
  let in_range x := (0 <= x < 2^31)%Z in
  ((count * (L * nl) < 2^31)%Z -> in_range (n_local_accept c) /\ in_range (n_local_total c)) /\
  ((count * nb < 2^31)%Z -> in_range (n_block_accept c) /\ in_range (n_block_total c) /\ in_range (n_flip_accept c) /\ in_range (n_flip_total c)) /\
  (all -> (2^31 <= count * (L * nl))%Z -> ~ in_range (n_local_total c)).
Proof.
  move=> all count L nl nb c H1 H2 H3 H4 [A1 A2 A3 A4] in_range. rewrite /in_range. rewrite /= in A1 A2 A3 A4. split; [|split].
  - move=> H. lia.
  - move=> H. lia.
  - move=> /A4 [E _] H. lia.
Qed.
Print Assumptions C66_counter_range.

(** The two sites of C42_case with a generator that always returns: 10 sweeps of four slices with two local updates per slice,
    and three block and flip updates per sweep. *)
Example C66_case : exists la st p p', lapack_ok la /\ fill_stratonovich 1 [:: 4%coqR] (1/8)%coqR [:: R0] = Some st /\
  p_cnt p = no_counts /\ ph_consistent 2 4 demo_hop st demo_phonons (1/8)%coqR (fun _ : unit => True) (fun _ : unit => True) (fun _ : unit => True) 2 p /\
  phonon_sweeps calm_source (fun _ _ d => Some d) (fun _ _ _ _ d => Some d) la (fun _ => R0) demo_hop false st demo_phonons (1/8)%coqR (1/2)%coqR
      2 (fun _ => 1%Z) 10 p = Some (Some p') /\
  n_local_total (p_cnt p') = (10 * (4 * ph_n_local_updates demo_phonons))%Z /\ n_block_total (p_cnt p') = (10 * ph_n_block_updates demo_phonons)%Z /\
  (0 < ph_n_local_updates demo_phonons)%Z /\ (0 < ph_n_block_updates demo_phonons)%Z.
Proof.
  have [la [st [_ [_ [_ [LA [Est [_ [_ [_ [Hw _]]]]]]]]]]] := C42_case.
  have SO := @fill_strat_ok 1 [:: 4%coqR] (1/8)%coqR [:: R0] st Z.le_0_1 erefl erefl Est.
  have Hf : field_ok 2 4 demo_field by split => //; repeat (apply: List.Forall_cons; first by [left|right]).
  have PO : phonon_ok (k_Norb demo_hop) demo_phonons by [].
  have [seed [X [EX [V2 [HX _]]]]] := C42_initial_field (fun _ => R0) 4 (1/8)%coqR calm_ok C35_case_kinetic PO (I : (fun _ => True) tt).
  have [p [Ep [Hp [_ [_ [_ Ec]]]]]] := @C42_setup_is_consistent unit unit unit (fun _ => True) la (fun _ => R0) (fun _ => True) (fun _ => True) 2 4 2 2 demo_hop st demo_phonons (1/8)%coqR
    seed [:: 7; 7]%Z demo_field X no_counts tt tt LA isT C35_case_kinetic SO erefl isT I erefl Hf HX I I (Hw _ _ Hf HX).
  have Hdt : (1/8)%coqR <> R0 by lra.
  have HM : measure_ok 2 (fun _ _ (d : unit) => Some d) (fun _ => True) by move=> Au Ad Gu Gd d _ _ _; exists d.
  have HP : measure_ph_ok 2 4 (fun _ _ _ _ (d : unit) => Some d) (fun _ => True) by move=> Au Ad Gu Gd l X0 d _ _ _ _ _; exists d.
  have [[[p'|] [Er _]]|[_ [s' [X' [F1 [F2 F3]]]]]] := @C42_sweeps_keep_exponentials unit unit unit calm_source (fun _ => True) la (fun _ => R0) (fun _ _ d => Some d) (fun _ => True)
    (fun _ _ _ _ d => Some d) (fun _ => True) 2 4 2 demo_hop false st demo_phonons (1/8)%coqR (1/2)%coqR 2 calm_ok LA HM HP isT erefl C35_case_kinetic SO PO Hdt isT isT p (fun _ => 1%Z) 10 Hp.
  - have C := @C66_counters unit unit unit calm_source (fun _ => True) la (fun _ => R0) (fun _ _ d => Some d) (fun _ => True)
      (fun _ _ _ _ d => Some d) (fun _ => True) 2 4 2 demo_hop false st demo_phonons (1/8)%coqR (1/2)%coqR 2 calm_ok LA HM HP isT erefl C35_case_kinetic SO PO Hdt isT isT p p' (fun _ => 1%Z) 10 Hp Er.
    have HA : List.Forall (fun g => g <> R0) (ph_g demo_phonons) by repeat constructor; exact: R1_neq_R0.
    have [N1 [N2 _]] := cn_all _ _ _ _ _ _ C HA. move: N1 N2. rewrite Ec => N1 N2.
    exists la, st, p, p'. split; first exact: LA. split; first exact: Est. split; first exact: Ec. split; first exact: Hp. split; first exact: Er.
    split; first by move: N1; clear; cbn; lia. split; first by move: N2; clear; cbn; lia. by split.
  - by case: (@sweeps_return unit unit unit calm_source (fun _ _ d => Some d) (fun _ _ _ _ d => Some d) la (fun _ => R0) demo_hop st demo_phonons (1/8)%coqR (1/2)%coqR
      (fun _ _ _ => ltac:(discriminate)) (fun _ _ => ltac:(discriminate)) false 2 (fun _ => 1%Z) 10 p).
  - by case: (Hw _ _ F1 F2).
Qed.

(** hypotheses of C66_phonon_summary_partial: one sample, five of twelve, one of two and two of two updates accepted *)
Example C66_summary_case : List.Forall (psample_ok 2 (2 * 1) 2) [:: case_sample 1] /\ lsum psign [:: case_sample 1] <> R0 /\
  counted True 12 2 2 no_counts (mk_counts 5 12 1 2 2 2).
Proof.
  split; first by constructor; [exact: case_ok|constructor]. split; first by rewrite /psign /sign_of /lsum; cbn; lra.
  constructor; cbn; lia.
Qed.
