(** Proofs about Strat.v. *)
From Coq Require Import ZArith List Reals Lia Lra Bool.
From Verif Require Import Base BaseFacts Sums SumsFacts RealOps Strat StratSpec.
Import ListNotations.
Local Open Scope R_scope.

Lemma strat_y x : (exp x - 1) * (exp x + 1) = exp (2 * x) - 1.
Proof. replace (2 * x) with (x + x) by lra. rewrite exp_plus. lra. Qed.

Lemma exp_ge_1 x : 0 <= x -> 1 <= exp x.
Proof.
  intros [H|H].
  - left. rewrite <- exp_0. now apply exp_increasing.
  - subst. rewrite exp_0. lra.
Qed.
Lemma exp_lt_1 x : x < 0 -> exp x < 1.
Proof. intros. rewrite <- exp_0. now apply exp_increasing. Qed.

(** the entry written with l = exp(lambda) *)
Lemma strat_entry_ok dt U : 0 <= dt * U ->
  exists l, 0 < l /\ l + / l = 2 * exp (dt * U / 2) /\
    strat_entry dt U = Some (/ l, l, l * l - 1, / l * / l - 1).
Proof.
  intros H. unfold strat_entry. set (x := 0.5 * dt * U).
  assert (0 <= x) as Hx by (unfold x; lra).
  pose proof (exp_ge_1 x Hx) as Hex. cbv zeta.
  set (y := (exp x - 1) * (exp x + 1)).
  assert (0 <= y) as Hy by (unfold y; nra).
  unfold rsqrt. destruct (Rlt_dec y 0); [lra|]. cbn [obind].
  pose proof (sqrt_pos y) as Hs. pose proof (sqrt_sqrt y Hy) as Hss.
  set (l := exp x + sqrt y) in *. assert (0 < l) as Hl by (unfold l; lra).
  unfold rdiv. destruct (Req_EM_T l 0); [lra|]. cbn [obind].
  assert (y = exp x * exp x - 1) as Ey by (unfold y; ring).
  assert (2 * (y + exp x * sqrt y) = l * l - 1) as Ed by (unfold l; nra).
  rewrite Ed. replace (l * l - 1 + 1) with (l * l) by ring.
  destruct (Req_EM_T (l * l) 0); [nra|]. cbn [obind].
  assert (/ l = exp x - sqrt y) as Einv.
  { apply (Rmult_eq_reg_l l); [|lra]. rewrite Rinv_r by lra. unfold l. nra. }
  exists l. split; auto. split.
  - rewrite Einv. unfold l. replace (dt * U / 2) with x by (unfold x; lra). ring.
  - unfold Rdiv. rewrite !Rmult_1_l, Rinv_mult. reflexivity.
Qed.

Lemma strat_entry_neg dt U : dt * U < 0 -> strat_entry dt U = None.
Proof.
  intros H. unfold strat_entry. cbv zeta. rewrite strat_y.
  assert (exp (2 * (0.5 * dt * U)) < 1) by (apply exp_lt_1; lra).
  unfold rsqrt. destruct (Rlt_dec _ 0); [reflexivity|lra].
Qed.

Local Open Scope Z_scope.
Section Fill.
Variables (Norb : Z) (U : list R) (dt : R) (junk : list R).
Hypotheses (HN : 0 <= Norb) (HU : Z.of_nat (length U) = Norb) (HJ : Z.of_nat (length junk) = Norb).

Definition good (o : Z) (neg pos d0 d1 : R) : Prop :=
  strat_entry dt (rat U o) = Some (neg, pos, d0, d1).

Notation body := (fun o a =>
      let '(vu0, vu1, vd0, vd1, d0, d1) := a in
      let* u := aget U o in
      let* e := strat_entry dt u in
      let '(neg, pos, delta0, delta1) := e in
      let* vu0 := aset vu0 o neg in
      let* vu1 := aset vu1 o pos in
      let* vd0 := aset vd0 o pos in
      let* vd1 := aset vd1 o neg in
      let* d0 := aset d0 o delta0 in
      let* d1 := aset d1 o delta1 in
      Some (vu0, vu1, vd0, vd1, d0, d1)).

Definition inv (h : Z) (a : list R * list R * list R * list R * list R * list R) : Prop :=
  let '(vu0, vu1, vd0, vd1, d0, d1) := a in
  (Z.of_nat (length vu0) = Norb /\ Z.of_nat (length vu1) = Norb /\ Z.of_nat (length vd0) = Norb /\
   Z.of_nat (length vd1) = Norb /\ Z.of_nat (length d0) = Norb /\ Z.of_nat (length d1) = Norb) /\
  forall o, 0 <= o < h -> good o (rat vu0 o) (rat vu1 o) (rat d0 o) (rat d1 o) /\
     rat vd0 o = rat vu1 o /\ rat vd1 o = rat vu0 o.

Lemma fill_step o a a' : 0 <= o < Norb -> inv o a -> body o a = Some a' -> inv (o + 1) a'.
Proof.
  destruct a as [[[[[vu0 vu1] vd0] vd1] d0] d1]. intros Ho [(L1 & L2 & L3 & L4 & L5 & L6) H].
  rewrite (@aget_nth _ U o 0%R) by lia. cbn [obind]. fold (rat U o).
  destruct (strat_entry dt (rat U o)) as [[[[neg pos] e0] e1]|] eqn:E; [|discriminate].
  cbn [obind]. rewrite !aset_ok by lia. cbn [obind]. intros Ea. apply (f_equal (fun x => match x with Some y => y | None => a' end)) in Ea. subst a'.
  split; [rewrite !lset_length; auto 10|]. intros k Hk.
  rewrite !rat_lset by lia. destruct (Z.eqb_spec o k).
  - subst k. unfold good. auto.
  - apply H. lia.
Qed.

Lemma fill_ok st : fill_stratonovich Norb U dt junk = Some st ->
  st_Norb st = Norb /\
  exists vu0 vu1 vd0 vd1 d0 d1, st = mk_strat Norb [vu0; vu1] [vd0; vd1] [d0; d1] /\
    inv Norb (vu0, vu1, vd0, vd1, d0, d1).
Proof.
  unfold fill_stratonovich. intros E. apply obind_Some in E as (a & E & E').
  assert (inv Norb a) as Ha.
  { eapply (@for_range_partial _ inv 0 Norb); [exact HN| | |exact E].
    - intros; eapply fill_step; eauto.
    - split; auto 10. intros; lia. }
  destruct a as [[[[[vu0 vu1] vd0] vd1] d0] d1]. inversion E'; subst. split; auto.
  do 6 eexists. split; [reflexivity|]. exact Ha.
Qed.

Lemma fill_defined : (forall o, 0 <= o < Norb -> (0 <= dt * rat U o)%R) ->
  exists st, fill_stratonovich Norb U dt junk = Some st.
Proof.
  intros Hpos. unfold fill_stratonovich.
  destruct (@for_range_inv _ inv 0 Norb body (junk, junk, junk, junk, junk, junk)) as (a & E & _); auto.
  - intros o a Ho Ha.
    assert (exists a', body o a = Some a') as (a' & E).
    { destruct a as [[[[[vu0 vu1] vd0] vd1] d0] d1]. destruct Ha as [(L1 & L2 & L3 & L4 & L5 & L6) H].
      rewrite (@aget_nth _ U o 0%R) by lia. cbn [obind]. fold (rat U o).
      destruct (strat_entry_ok dt (rat U o) (Hpos o Ho)) as (l & _ & _ & ->). cbn [obind].
      rewrite !aset_ok by lia. cbn [obind]. eauto. }
    exists a'; split; auto. eapply fill_step; eauto.
  - split; auto 10. intros; lia.
  - rewrite E. destruct a as [[[[[? ?] ?] ?] ?] ?]. cbn [obind]. eauto.
Qed.

Lemma fill_undefined st : fill_stratonovich Norb U dt junk = Some st ->
  forall o, 0 <= o < Norb -> (0 <= dt * rat U o)%R.
Proof.
  intros E o Ho. destruct (fill_ok st E) as (_ & vu0 & vu1 & vd0 & vd1 & d0 & d1 & _ & _ & H).
  destruct (H o Ho) as (G & _). unfold good in G.
  destruct (Rle_dec 0 (dt * rat U o)); auto. rewrite strat_entry_neg in G by lra. discriminate.
Qed.

(** the tables in terms of l = exp(lambda) *)
Lemma fill_tables st : fill_stratonovich Norb U dt junk = Some st ->
  forall o, 0 <= o < Norb -> exists l, (0 < l)%R /\ (l + / l = 2 * exp (dt * rat U o / 2))%R /\
    tab (expVu st) 0 o = (/ l)%R /\ tab (expVu st) 1 o = l /\
    tab (expVd st) 0 o = l /\ tab (expVd st) 1 o = (/ l)%R /\
    tab (st_delta st) 0 o = (l * l - 1)%R /\ tab (st_delta st) 1 o = (/ l * / l - 1)%R.
Proof.
  intros E o Ho. pose proof (fill_undefined st E o Ho) as Hp.
  destruct (fill_ok st E) as (_ & vu0 & vu1 & vd0 & vd1 & d0 & d1 & -> & _ & H).
  destruct (H o Ho) as (G & G1 & G2). destruct (strat_entry_ok dt _ Hp) as (l & Hl & El & E').
  unfold good in G. rewrite E' in G. apply (f_equal (fun x => match x with Some y => y | None => (0,0,0,0)%R end)) in G.
  pose proof (f_equal (fun x => fst (fst (fst x))) G) as A1.
  pose proof (f_equal (fun x => snd (fst (fst x))) G) as A2.
  pose proof (f_equal (fun x => snd (fst x)) G) as A3.
  pose proof (f_equal snd G) as A4. cbn [fst snd] in *.
  exists l. unfold tab; cbn [nth expVu expVd st_delta]. fold (rat vu0 o) (rat vu1 o) (rat vd0 o) (rat vd1 o) (rat d0 o) (rat d1 o).
  rewrite G1, G2, <- A1, <- A2, <- A3, <- A4. auto 10.
Qed.
End Fill.
