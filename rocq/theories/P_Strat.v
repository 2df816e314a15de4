(** C26, C27: the Hubbard-Stratonovich tables. *)
From Coq Require Import ZArith NArith List Reals Lia Lra Bool.
From Verif Require Import Base SumsFacts SimParams ParamSpec Strat StratSpec StratFacts.
Import ListNotations.
Local Open Scope Z_scope.

(** C26: summing over the auxiliary field reproduces the Hubbard interaction. *)
Theorem C26_decoupling_identity : forall Norb U dt junk,
  0 <= Norb -> Z.of_nat (length U) = Norb -> Z.of_nat (length junk) = Norb ->
  (0 <= dt)%R -> Forall (fun u => 0 <= u)%R U ->
  exists st, fill_stratonovich Norb U dt junk = Some st /\
    forall o (nu nd : bool), 0 <= o < Norb ->
      let u := nth (Z.to_nat o) U 0%R in
      ((1/2) * exp (- dt * u / 4) *
         (pow_occ (tab (expVu st) 0 o) nu * pow_occ (tab (expVd st) 0 o) nd +
          pow_occ (tab (expVu st) 1 o) nu * pow_occ (tab (expVd st) 1 o) nd)
       = exp (- dt * u * (occ nu - 1/2) * (occ nd - 1/2)))%R.
Proof.
  intros Norb U dt junk HN HU HJ Hdt HF.
  assert (forall o, 0 <= o < Norb -> (0 <= dt * rat U o)%R) as Hp.
  { intros o Ho. apply Rmult_le_pos; auto. rewrite Forall_forall in HF. apply HF, nth_In. lia. }
  destruct (fill_defined Norb U dt junk HN HU HJ Hp) as (st & E). exists st; split; auto.
  intros o nu nd Ho u. destruct (fill_tables Norb U dt junk HN HU HJ st E o Ho)
    as (l & Hl & El & -> & -> & -> & -> & _). fold (rat U o) in u. fold u in El.
  assert (l * / l = 1)%R as Hinv by (apply Rinv_r; lra).
  assert (exp (- dt * u / 4) * exp (dt * u / 2) = exp (dt * u / 4))%R as Ee
    by (rewrite <- exp_plus; f_equal; lra).
  destruct nu, nd; cbn [pow_occ occ].
  - replace (- dt * u * (1 - 1/2) * (1 - 1/2))%R with (- dt * u / 4)%R by lra. rewrite (Rmult_comm (/ l)), Hinv. lra.
  - replace (- dt * u * (1 - 1/2) * (0 - 1/2))%R with (dt * u / 4)%R by lra. rewrite !Rmult_1_r, (Rplus_comm (/ l)), El. lra.
  - replace (- dt * u * (0 - 1/2) * (1 - 1/2))%R with (dt * u / 4)%R by lra. rewrite !Rmult_1_l, El. lra.
  - replace (- dt * u * (0 - 1/2) * (0 - 1/2))%R with (- dt * u / 4)%R by lra. lra.
Qed.
Print Assumptions C26_decoupling_identity.

Example C26_case : 0 <= 2 /\ Z.of_nat (length [4; 0]%R) = 2 /\ (0 <= 1/8)%R /\ Forall (fun u => 0 <= u)%R [4; 0]%R.
Proof. repeat split; try lia; try lra. repeat constructor; lra. Qed.

(** C27, what holds: the tables are defined exactly if dt*U >= 0 for every orbital, and then the
    flip factors are the ratios of the table entries.  Missing: U < 0. *)
Theorem C27_flip_factors_partial : forall Norb U dt junk,
  0 <= Norb -> Z.of_nat (length U) = Norb -> Z.of_nat (length junk) = Norb ->
  (fill_stratonovich Norb U dt junk <> None <->
     forall o, 0 <= o < Norb -> (0 <= dt * nth (Z.to_nat o) U 0)%R) /\
  forall st, fill_stratonovich Norb U dt junk = Some st ->
    forall o s, 0 <= o < Norb -> (s <= 1)%nat ->
      (tab (expVu st) (1 - s) o = (1 + tab (st_delta st) s o) * tab (expVu st) s o /\
       tab (expVd st) (1 - s) o = (1 + tab (st_delta st) (1 - s) o) * tab (expVd st) s o /\
       tab (expVu st) s o * tab (expVu st) (1 - s) o = 1 /\
       tab (expVd st) s o * tab (expVd st) (1 - s) o = 1 /\
       0 < tab (expVu st) s o /\ 0 < tab (expVd st) s o /\ 0 < 1 + tab (st_delta st) s o)%R.
Proof.
  intros Norb U dt junk HN HU HJ. split.
  - split.
    + intros H. destruct (fill_stratonovich Norb U dt junk) as [st|] eqn:E; [|congruence].
      eapply fill_undefined; eauto.
    + intros H. destruct (fill_defined Norb U dt junk HN HU HJ H) as (st & ->). discriminate.
  - intros st E o s Ho Hs. destruct (fill_tables Norb U dt junk HN HU HJ st E o Ho)
      as (l & Hl & El & E1 & E2 & E3 & E4 & E5 & E6).
    assert (l * / l = 1)%R as Hinv by (apply Rinv_r; lra).
    pose proof (Rinv_0_lt_compat l Hl) as Hi.
    destruct s as [|[|s]]; [| |lia]; cbn [Nat.sub]; rewrite ?E1, ?E2, ?E3, ?E4, ?E5, ?E6;
      repeat split; try lra; nra.
Qed.
Print Assumptions C27_flip_factors_partial.

(** C27 as stated is false: validation accepts an attractive interaction, for which the tables
    are not defined (square root of a negative number, NaN in C). *)
Theorem C27_flip_factors_refuted : exists p junk,
  valid_params p /\ Z.of_nat (length (sp_U p)) = sp_Norb p /\ Z.of_nat (length junk) = sp_Norb p /\
  (0 < sp_dt p)%R /\
  fill_stratonovich (sp_Norb p) (sp_U p) (sp_dt p) junk = None.
Proof.
  exists (mk_sim_params 1 2 1 0 (mk_bonds [0] [1] [1] [0] [0])%R [-4]%R [0]%R 0 false
    (mk_phonon_params [0] [0] 0 0 0 0)%R (1/8) 4 2 2 0 1 1 0 1 0), [0%R].
  split; [|split; [|split; [|split]]]; try reflexivity; try (cbn; lra).
  - split; cbn; try lia; try (exists 2; lia); try (exists 1; lia); try discriminate.
    intros i Hi. replace i with 0 by lia. reflexivity.
  - cbn [sp_Norb sp_U sp_dt].
    destruct (fill_stratonovich 1 [-4]%R (1/8) [0%R]) as [st|] eqn:E; auto.
    pose proof (fill_undefined 1 [-4]%R (1/8) [0%R] ltac:(lia) eq_refl eq_refl st E 0 ltac:(lia)) as H.
    cbn in H. lra.
Qed.
Print Assumptions C27_flip_factors_refuted.
