(** C55: stationary distribution of the sweeps for ideal random numbers. *)
From Coq Require Import ZArith List Reals Lra Lia.
From mathcomp Require Import all_ssreflect ssralg matrix.
From Verif Require Import Base RField MatSpec MatFacts TimeStep TimeStepSpec Strat StratSpec StratFacts Lapack LapackSpec LapackExists
  GreenConstruct RandomSpec RandSource Sweep SweepSpec SweepFacts P_Sweep IdealSpec IdealFacts IdealLink IdealRun.
Set Implicit Arguments.
Unset Strict Implicit.
Unset Printing Implicit Defensive.
Local Open Scope ring_scope.

(** C55 (return): for every start of non-zero weight and all random numbers the sweeps return, with a field of values
    0 and 1 *)
Theorem C55_sweeps_return : forall (MT : Type) measure la junk (MI : MT -> Prop) n L b q k st nwraps count neqlt order d,
  lapack_ok la -> measure_ok n measure MI -> MI d -> (0 < n)%N -> kinetic_ok n k -> strat_ok (k_Norb k) st ->
  L = (q * b)%N -> (0 < L)%N -> (0 < nwraps)%N -> (b %| nwraps)%N -> List.length order = n ->
  forall t s, List.length t = (count * L)%N -> List.Forall (slice_tape_ok n) t -> In s (fields (L * n)) ->
  weight n L k st s <> 0 ->
  exists s', field_after measure la junk k st n L b nwraps count neqlt order d t s = Some s' /\ In s' (fields (L * n)).
Proof.
  move=> MT measure la junk MI n L b q k st nw count neqlt order d LA HM Hd Hn KO SO EL HL Hnw Hb Ho t s Hl Ht Hs Hw.
  have [s' [E [H _]]] := field_after_run junk neqlt LA HM Hd Hn KO SO EL HL Hnw Hb Ho Hl Ht Hs Hw.
  by exists s'.
Qed.
Print Assumptions C55_sweeps_return.

(** C55: if the start field is distributed with probability proportional to |weight|, and the choices of the shuffles and
    the numbers of the acceptance tests are independent and uniform, then the field after any number of sweeps has
    the same distribution: every observable [g] has the same mean. *)
Theorem C55_sweeps_keep_distribution : forall (MT : Type) measure la junk (MI : MT -> Prop) n L b q k st nwraps count neqlt order d,
  lapack_ok la -> measure_ok n measure MI -> MI d -> (0 < n)%N -> kinetic_ok n k -> strat_ok (k_Norb k) st ->
  L = (q * b)%N -> (0 < L)%N -> (0 < nwraps)%N -> (b %| nwraps)%N -> List.length order = n ->
  forall g : list Z -> R,
  total (fun s => Rabs (weight n L k st s) *
    tape_mean n (count * L) (fun t =>
      match field_after measure la junk k st n L b nwraps count neqlt order d t s with Some s' => g s' | None => R0 end))%coqR (fields (L * n)) =
  total (fun s => Rabs (weight n L k st s) * g s)%coqR (fields (L * n)).
Proof.
  move=> MT measure la junk MI n L b q k st nw count neqlt order d LA HM Hd Hn KO SO EL HL Hnw Hb Ho g.
  rewrite -(sweeps_invariant n (weight n L k st) L g count). apply: total_ext => s Hs.
  have [E|Hw] := Req_dec (weight n L k st s) 0; first by rewrite E Rabs_R0 !Rmult_0_l.
  congr (Rmult _ _). apply: tape_mean_ext => t Hl Ht.
  have [s' [E [_ [-> _]]]] := field_after_run junk neqlt LA HM Hd Hn KO SO EL HL Hnw Hb Ho Hl Ht Hs Hw.
  by rewrite E.
Qed.
Print Assumptions C55_sweeps_keep_distribution.

(** C55 (means): the means of the theorem are probability means *)
Theorem C55_means : (forall n r c, tape_mean n r (fun _ => c) = c) /\
  (forall n c, choice_mean 0 n (fun _ => c) = c) /\
  (forall r a b, 0 <= r <= 1 -> uniform_mean 1 (fun us => if Rlt_dec (List.nth 0 us R0) r then a else b) = r * a + (1 - r) * b)%coqR /\
  (forall k s, In s (fields k) <-> List.length s = k /\ List.Forall (fun v => v = 0%Z \/ v = 1%Z) s) /\
  (forall k, NoDup (fields k)).
Proof.
  split; first exact: tape_mean_const. split; first by move=> n c; exact: choice_mean_const.
  split; last by split; [exact: fields_in|exact: fields_nodup].
  move=> r a b Hr. rewrite -uniform_mean_step //. apply: uniform_mean_ext => us _ _. by case: (Rlt_dec _ _).
Qed.
Print Assumptions C55_means.

(** Concrete case: two sites with hopping, U = 4, dt = 1/8, four slices (256 fields), products of two, three sweeps:
    the total weight is positive, and the mean of the first field entry is preserved. *)
Example C55_case : exists la st,
  lapack_ok la /\ fill_stratonovich 1 [:: 4%coqR] (1/8)%coqR [:: R0] = Some st /\
  Rlt 0 (total (fun s => Rabs (weight 2 4 demo_hop st s)) (fields 8)) /\
  total (fun s => Rabs (weight 2 4 demo_hop st s) *
    tape_mean 2 12 (fun t =>
      match field_after (fun _ _ d => Some d) la (fun _ => R0) demo_hop st 2 4 2 2 3 (fun _ => 1%Z) [:: 7; 7]%Z tt t s with
      | Some s' => IZR (List.nth 0 s' 0%Z) | None => R0 end))%coqR (fields 8) =
  total (fun s => Rabs (weight 2 4 demo_hop st s) * IZR (List.nth 0 s 0%Z))%coqR (fields 8).
Proof.
  have [la [st [m [LA [Est [_ Hm]]]]]] := C35_case. exists la, st. do 2 split => //.
  have SO := @fill_strat_ok 1 [:: 4%coqR] (1/8)%coqR [:: R0] st Z.le_0_1 erefl erefl Est.
  split.
  - have Hw : weight 2 4 demo_hop st (mc_s m) <> 0.
    { have := (green_nz (mcc_Gu Hm)). have := (green_nz (mcc_Gd Hm)). rewrite /weight => H1 H2 /eqP.
      by rewrite GRing.mulf_eq0 => /orP [/eqP|/eqP]. }
    have : In (mc_s m) (fields 8) by apply/fields_in; exact: (mcc_field Hm).
    elim: (fields 8) => [//|s f IH] /=. rewrite /total /= -/(total _ f).
    have P : Rle 0 (total (fun s => Rabs (weight 2 4 demo_hop st s)) f).
    { elim: f {IH} => [|x f IH]; first exact: Rle_refl. rewrite /total /= -/(total _ f).
      apply: Rplus_le_le_0_compat => //. exact: Rabs_pos. }
    case=> [->|Hin].
    + apply: Rplus_lt_le_0_compat => //. exact: Rabs_pos_lt.
    + apply: Rplus_le_lt_0_compat; [exact: Rabs_pos|exact: IH].
  - exact: (@C55_sweeps_keep_distribution unit (fun _ _ d => Some d) la (fun _ => R0) (fun _ => True) 2 4 2 2 demo_hop st 2 3
      (fun _ => 1%Z) [:: 7; 7]%Z tt LA (fun _ _ _ _ d _ _ _ => ex_intro _ d (conj erefl I)) I isT C35_case_kinetic SO erefl isT isT isT erefl).
Qed.
