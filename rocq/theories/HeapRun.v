(** The heap during sweeps and the simulation. *)
From Coq Require Import ZArith List String Bool Lia Permutation.
From Verif Require Import Base SimParams ParamSpec Heap HeapSpec HeapRules HeapFacts.
Import ListNotations.
Local Open Scope string_scope.
Local Open Scope Z_scope.

Ltac b_weak H := eapply spec_bind; [apply H | cbn beta].

Section Run.

Variable orc : choice -> nat -> bool.
Variable p : sim_params.
Hypothesis valid : valid_params p.
Hypothesis neqlt_pos : sp_use_phonons p = true -> 0 < sp_neqlt p.

Let Norb := sp_Norb p.
Let Ncell := sp_Nx p * sp_Ny p.
Let N := Norb * Ncell.
Let L := sp_L p.
Let prodBlen := sp_prodBlen p.
Let nb := L / prodBlen.
Let c := dbl Norb.

Notation neat := (neat orc c).
Notation spec := (spec orc c).

Lemma Norb_pos : 0 < Norb. Proof. apply (v_Norb _ valid). Qed.
Lemma Ncell_pos : 0 < Ncell. Proof. pose proof (v_Nx _ valid). pose proof (v_Ny _ valid). unfold Ncell. nia. Qed.
Lemma N_pos : 0 < N. Proof. pose proof Norb_pos. pose proof Ncell_pos. unfold N. nia. Qed.
Lemma N_Norb : Norb <= N. Proof. pose proof Norb_pos. pose proof Ncell_pos. unfold N. nia. Qed.
Lemma L_pos : 0 < L. Proof. apply (v_L _ valid). Qed.
Lemma len_pos : 0 < prodBlen. Proof. apply (v_prodBlen _ valid). Qed.
Lemma divides : (prodBlen | L). Proof. apply (v_L_mult _ valid). Qed.

Definition work : Z := sweep_bytes p + (if unequal p then measure_bytes p else 0) + (if phonons p then column_bytes p else 0).


(** the state is owned *)
Record run_ok (st : state) (l : list (ptr * Z)) : Prop := {
  ro_u : owns L prodBlen (st_tu st) l;
  ro_d : owns L prodBlen (st_td st) l;
  ro_G : incl [st_Gu st; st_Gd st; st_s st] (map fst l);
  ro_src : incl (sources st) (map fst l);
  ro_X : incl (ptrs (st_X st)) (map fst l);
  ro_par : incl (ptrs (st_par st)) (map fst l);
  ro_eq : incl (ptrs (st_eq st)) (map fst l);
  ro_un : incl (ptrs (st_un st)) (map fst l);
  ro_ph : incl (ptrs (st_ph st)) (map fst l);
  ro_Xs : phonons p = true -> exists a b, ptrs (st_X st) = [a; b];
  ro_omega : phonons p = true -> In "omega" (map fst (st_par st));
  ro_H : unequal p = true -> In "Hu" (map fst (st_un st)) /\ In "Hd" (map fst (st_un st)) }.

Lemma run_weaken st l l' : incl l l' -> run_ok st l -> run_ok st l'.
Proof.
  intros H R. assert (K := incl_map fst H).
  constructor; try (eapply owns_weaken; [exact H | apply R]); try (eapply incl_tran; [apply R | exact K]); apply R.
Qed.

Lemma work_sweep : 6 * matrix N + 80 * N <= work.
Proof.
  unfold work, sweep_bytes, measure_bytes, column_bytes, steps_bytes. fold L Norb Ncell N prodBlen. fold N nb.
  pose proof N_pos. pose proof L_pos. pose proof (nb_pos _ _ L_pos len_pos divides). fold nb in H1.
  assert (0 < N * nb) by nia. unfold matrix, vector. destruct (unequal p), (phonons p); nia.
Qed.

Lemma matrix_pos : 0 < matrix N.
Proof. pose proof N_pos. unfold matrix. nia. Qed.

Lemma neat_wraps B l st i : run_ok st l -> (i < Z.to_nat L)%nat -> (sound orc -> total l + 2 * matrix N <= B) ->
  neat B l (wraps p st i).
Proof.
  intros R Hi HB n. pose proof matrix_pos. unfold wraps. fold L Norb Ncell N.
  destruct (ro_u _ _ R) as [Ku _], (ro_d _ _ R) as [Kd _].
  destruct (owns_B _ _ _ _ (ro_u _ _ R)) as (U1 & U2 & _), (owns_B _ _ _ _ (ro_d _ _ R)) as (D1 & D2 & _).
  eapply spec_bind; [apply nth_ptr_ok; rewrite (tk_B _ _ _ Ku); exact Hi | cbn beta; intros bu ? ? (-> & -> & E1)].
  eapply spec_bind; [apply nth_ptr_ok; rewrite (tk_invB _ _ _ Ku); exact Hi | cbn beta; intros ibu ? ? (-> & -> & E2)].
  eapply spec_bind; [apply nth_ptr_ok; rewrite (tk_B _ _ _ Kd); exact Hi | cbn beta; intros bd ? ? (-> & -> & E3)].
  eapply spec_bind; [apply nth_ptr_ok; rewrite (tk_invB _ _ _ Kd); exact Hi | cbn beta; intros ibd ? ? (-> & -> & E4)].
  pose proof (nth_incl _ _ _ _ E1 U1). pose proof (nth_incl _ _ _ _ E2 U2).
  pose proof (nth_incl _ _ _ _ E3 D1). pose proof (nth_incl _ _ _ _ E4 D2). pose proof (ro_G _ _ R) as G.
  apply (neat_par orc c B l _ _ (matrix N) (matrix N)); [lia | lia | | | intros S; specialize (HB S); lia].
  - apply neat_wrap; [exact N_pos | | intros _; lia]. intros q [<-|[<-|[<-|[]]]]; auto. apply G. cbn. tauto.
  - apply neat_wrap; [exact N_pos | | intros _; lia]. intros q [<-|[<-|[<-|[]]]]; auto. apply G. cbn. tauto.
Qed.

Lemma neat_shermans B l st : run_ok st l -> (sound orc -> total l + 32 * N <= B) ->
  neat B l (par (sherman_morrison N (st_Gu st)) (sherman_morrison N (st_Gd st))).
Proof.
  intros R HB. pose proof N_pos. pose proof (ro_G _ _ R) as G.
  apply (neat_par orc c B l _ _ (16 * N) (16 * N)); [lia | lia | | | intros S; specialize (HB S); lia].
  - apply neat_sherman; [exact N_pos | | intros _; lia]. intros q [<-|[]]. apply G. cbn. tauto.
  - apply neat_sherman; [exact N_pos | | intros _; lia]. intros q [<-|[]]. apply G. cbn. tauto.
Qed.

Lemma neat_sites B l st : run_ok st l -> (sound orc -> total l + 32 * N <= B) -> neat B l (site_updates orc p st).
Proof.
  intros R HB. pose proof (ro_G _ _ R) as G. unfold site_updates. fold Norb Ncell N. apply neat_repeat. intros i _ n.
  b_touch. b_decide acc. apply neat_when. intros _. apply neat_bind; [now apply neat_shermans|].
  apply neat_touch. owned.
Qed.

Lemma neat_updates B l st i : run_ok st l -> (i < Z.to_nat L)%nat -> (sound orc -> total l + 2 * matrix N <= B) ->
  neat B l (updates p st i).
Proof.
  intros R Hi HB. pose proof matrix_pos. unfold updates. fold L Norb Ncell N prodBlen.
  apply (neat_par orc c B l _ _ (matrix N) (matrix N)); [lia | lia | | | intros S; specialize (HB S); lia].
  - apply (neat_update orc c N N_pos L prodBlen L_pos len_pos divides);
      [apply R | apply R | exact Hi | intros _; lia].
  - apply (neat_update orc c N N_pos L prodBlen L_pos len_pos divides);
      [apply R | apply R | exact Hi | intros _; lia].
Qed.

Lemma neat_constructs B l tu td gu gd : incl (gu :: tsm_ptrs tu) (map fst l) -> incl (gd :: tsm_ptrs td) (map fst l) ->
  (sound orc -> total l + 6 * matrix N + 72 * N <= B) ->
  neat B l (par (green_construct N tu gu) (green_construct N td gd)).
Proof.
  intros Iu Id HB. pose proof matrix_pos. pose proof N_pos.
  apply (neat_par orc c B l _ _ (3 * matrix N + 36 * N) (3 * matrix N + 36 * N)); [lia | lia | | | intros S; specialize (HB S); lia].
  - apply neat_construct; [exact N_pos | exact Iu | intros _; lia].
  - apply neat_construct; [exact N_pos | exact Id | intros _; lia].
Qed.

Lemma neat_reconstruct B l st i : run_ok st l -> (sound orc -> total l + 6 * matrix N + 72 * N <= B) ->
  neat B l (reconstruct p st i).
Proof.
  intros R HB. unfold reconstruct. fold Norb Ncell N. apply neat_when. intros _.
  pose proof (ro_G _ _ R) as G.
  apply neat_constructs; [| | exact HB].
  - intros q [<-|H]; [apply G; cbn; tauto | now apply (proj2 (ro_u _ _ R))].
  - intros q [<-|H]; [apply G; cbn; tauto | now apply (proj2 (ro_d _ _ R))].
Qed.

Lemma neat_iteration B l st neqlt : run_ok st l -> (sound orc -> total l + work <= B) ->
  neat B l (dqmc_iteration orc p st neqlt).
Proof.
  intros R HB n. pose proof work_sweep as W. pose proof matrix_pos. pose proof N_pos.
  unfold dqmc_iteration. fold L Norb Ncell N.
  b_alloc. assert (R' : run_ok st ((a, int_ N) :: l)) by (apply (run_weaken _ l); [intros q Hq; now right | exact R]).
  assert (HB' : sound orc -> total ((a, int_ N) :: l) + 6 * matrix N + 72 * N <= B).
  { intros S. specialize (HB S). rewrite total_cons. cbn [snd]. unfold int_. lia. }
  apply spec_neat; [| intros _; l_free].
  apply neat_repeat. intros i Hi. pose proof (ro_G _ _ R') as G. pose proof (ro_eq _ _ R') as E.
  apply neat_bind; [apply neat_wraps; [exact R' | exact Hi | intros S; specialize (HB' S); lia]|].
  apply neat_bind; [apply neat_touch; clear; intros q [<-|[]]; now left|].
  apply neat_bind; [apply neat_sites; [exact R' | intros S; specialize (HB' S); lia]|].
  apply neat_bind; [apply neat_updates; [exact R' | exact Hi | intros S; specialize (HB' S); lia]|].
  apply neat_bind; [now apply neat_reconstruct|].
  apply neat_when. intros _. apply neat_touch. owned.
Qed.


Lemma steps_eq : steps_bytes p = (2 * L + nb) * (8 + matrix N).
Proof. reflexivity. Qed.

Lemma steps_pos : 0 < steps_bytes p.
Proof.
  rewrite steps_eq. pose proof matrix_pos. pose proof L_pos. pose proof (nb_pos _ _ L_pos len_pos divides) as H1. fold nb in H1. nia.
Qed.

Lemma neat_inits B l tu td src : owns L prodBlen tu l -> owns L prodBlen td l -> incl src (map fst l) ->
  (sound orc -> total l + 2 * matrix N <= B) ->
  neat B l (par (init_tsm N L prodBlen src tu) (init_tsm N L prodBlen src td)).
Proof.
  intros Ou Od Hs HB. pose proof matrix_pos.
  apply (neat_par orc c B l _ _ (matrix N) (matrix N)); [lia | lia | | | intros S; specialize (HB S); lia].
  - apply (neat_init orc c N N_pos L prodBlen); [exact Ou | exact Hs | intros _; lia].
  - apply (neat_init orc c N N_pos L prodBlen); [exact Od | exact Hs | intros _; lia].
Qed.

Lemma neat_blocks B l st : run_ok st l -> phonons p = true -> (sound orc -> total l + 6 * matrix N + 72 * N + column_bytes p <= B) ->
  neat B l (block_updates orc p st).
Proof.
  intros R Ph HB n. pose proof matrix_pos as M0. pose proof N_pos as N0. pose proof L_pos as L0. pose proof steps_pos as T0.
  unfold column_bytes in HB. fold L Norb Ncell N in HB. fold N in HB.
  unfold block_updates. fold L Norb Ncell N prodBlen. destruct (_ <=? 0); [now apply spec_ret|].
  do 4 b_alloc.
  set (l0 := _ :: _) in *.
  assert (El : total l0 = total l + 2 * matrix N + 2 * vector L).
  { unfold l0. rewrite !total_cons. cbn [snd]. unfold dbl, matrix, vector. lia. }
  eapply spec_bind; [apply (spec_alloc_tsm orc c N N_pos L prodBlen L_pos len_pos divides) | cbn beta; intros tu ? lu (-> & Ku & Pu)].
  { fold nb. rewrite <- steps_eq. intros S. specialize (HB S). lia. }
  eapply spec_perm; [exact Pu|]. clear lu Pu.
  assert (Eu := tsm_total N L prodBlen L_pos len_pos divides _ Ku). fold nb in Eu. rewrite <- steps_eq in Eu.
  eapply spec_bind; [apply (spec_alloc_tsm orc c N N_pos L prodBlen L_pos len_pos divides) | cbn beta; intros td ? ld (-> & Kd & Pd)].
  { fold nb. rewrite <- steps_eq. intros S. specialize (HB S). rewrite total_app. lia. }
  eapply spec_perm; [exact Pd|]. clear ld Pd.
  assert (Ed := tsm_total N L prodBlen L_pos len_pos divides _ Kd). fold nb in Ed. rewrite <- steps_eq in Ed.
  set (l1 := (tsm_blocks N L prodBlen td ++ tsm_blocks N L prodBlen tu ++ l0)%list).
  assert (H01 : incl l0 l1) by (unfold l1; intros q Hq; rewrite !in_app_iff; tauto).
  assert (R1 : run_ok st l1).
  { apply (run_weaken _ l); [|exact R]. intros q Hq. apply H01. unfold l0. cbn [In]. tauto. }
  assert (Ou : owns L prodBlen tu l1) by (apply (owns_blocks N); [exact Ku | unfold l1; intros q Hq; rewrite !in_app_iff; tauto]).
  assert (Od : owns L prodBlen td l1) by (apply (owns_blocks N); [exact Kd | unfold l1; intros q Hq; rewrite !in_app_iff; tauto]).
  assert (HB1 : sound orc -> total l1 + 6 * matrix N + 72 * N <= B).
  { intros S. specialize (HB S). unfold l1. rewrite !total_app. lia. }
  assert (I0 : incl [a; a0; a1; a2] (map fst l1)).
  { eapply incl_tran; [|apply (incl_map fst H01)]. unfold l0. cbn [map fst]. intros q Hq. cbn [In] in *. tauto. }
  apply spec_neat; [| intros _].
  { apply neat_repeat. intros i _ n'. b_decide skip. destruct skip; [now apply spec_ret|].
    pose proof (ro_X _ _ R1) as IX. pose proof (ro_G _ _ R1) as IG.
    pose proof (proj2 (ro_u _ _ R1)) as IU. pose proof (proj2 (ro_d _ _ R1)) as ID. 
    pose proof (proj2 Ou) as IU'. pose proof (proj2 Od) as ID'.
    eapply spec_bind; [apply spec_touch | cbn beta; intros ? ? ? [-> ->]].
    { intros q Hq. cbn [In] in Hq. destruct Hq as [<-|[<-|Hq]]; [apply I0; cbn; tauto | apply I0; cbn; tauto | now apply IX]. }
    apply spec_neat; [| intros _].
    { apply neat_inits; [exact Ou | exact Od | apply R1 | intros S; specialize (HB1 S); lia]. }
    apply spec_neat; [| intros _].
    { apply neat_constructs; [| | exact HB1].
      - intros q [<-|Hq]; [apply I0; cbn; tauto | now apply IU'].
      - intros q [<-|Hq]; [apply I0; cbn; tauto | now apply ID']. }
    b_decide acc. destruct acc.
    - eapply spec_bind; [apply spec_touch | cbn beta; intros ? ? ? [-> ->]].
      { intros q Hq. cbn [In] in Hq. destruct Hq as [<-|[<-|[<-|[<-|[]]]]]; try (apply I0; cbn; tauto); apply IG; cbn; tauto. }
      unfold copy_tsm. eapply spec_bind; [apply spec_touch | cbn beta; intros ? ? ? [-> ->]].
      { now apply incl_app. }
      apply spec_touch. now apply incl_app.
    - apply spec_touch. intros q Hq. cbn [In] in Hq.
      destruct Hq as [<-|[<-|Hq]]; [apply I0; cbn; tauto | apply I0; cbn; tauto | now apply IX]. }
  eapply spec_bind; [apply spec_exactly, spec_delete_tsm; [exact N_pos | exact L_pos | exact len_pos | exact divides | exact Kd] |
    cbn beta; intros ? ? ? [-> ->]].
  eapply spec_bind; [apply spec_exactly, spec_delete_tsm; [exact N_pos | exact L_pos | exact len_pos | exact divides | exact Ku] |
    cbn beta; intros ? ? ? [-> ->]].
  unfold l0. do 3 b_free. l_free.
Qed.

Lemma neat_local B l st order : run_ok st l -> In order (map fst l) -> (sound orc -> total l + 32 * N <= B) ->
  neat B l (local_updates orc p st order).
Proof.
  intros R Ho HB. pose proof (ro_G _ _ R) as IG. pose proof (ro_X _ _ R) as IX.
  unfold local_updates. fold Norb Ncell N. apply neat_repeat. intros i _ n.
  eapply spec_bind; [apply spec_touch; intros q [<-|[]]; exact Ho | cbn beta; intros ? ? ? [-> ->]].
  b_decide skip. destruct skip; [now apply spec_ret|].
  b_touch. b_decide acc. apply neat_when. intros _. apply neat_bind; [now apply neat_shermans|].
  now apply neat_touch.
Qed.

Lemma spec_measure B n l gu gd X omega ph : incl (gu :: gd :: X :: omega :: ptrs ph) (map fst l) ->
  (sound orc -> total l + 8 * Norb <= B) ->
  spec B n l (accumulate_phonon Norb gu gd X omega ph) (fun _ n' l' => n' = S n /\ l' = l).
Proof.
  intros Hi HB. pose proof Norb_pos. unfold accumulate_phonon. b_alloc.
  intros h G. destruct (spec_touch orc c B n ((a, dbl Norb) :: l) (a :: gu :: gd :: X :: omega :: ptrs ph)) with (h := h)
    as (u & h' & n' & l' & E & G' & -> & ->); [|exact G|].
  { intros q [<-|Hq]; [now left | right; now apply Hi]. }
  exists u, h', (S n), l. split; [exact E|]. split; [|split; reflexivity].
  eapply good_leak; [unfold c, dbl; lia | exact G'].
Qed.

(** measured slices among the first [i] *)
Definition seen (neqlt : Z) (i : nat) : nat := if 0 <? neqlt then Z.to_nat (Z.of_nat i / neqlt) else O.

Lemma seen_succ neqlt i : seen neqlt (S i) = ((if measured neqlt i then 1 else 0) + seen neqlt i)%nat.
Proof.
  unfold seen, measured. destruct (Z.ltb_spec 0 neqlt) as [H|H]; [|reflexivity]. cbn [andb].
  rewrite Nat2Z.inj_succ, <- Z.add_1_r.
  pose proof (Z.div_mod (Z.of_nat i + 1) neqlt ltac:(lia)) as E1. pose proof (Z.mod_pos_bound (Z.of_nat i + 1) neqlt H).
  pose proof (Z.div_mod (Z.of_nat i) neqlt ltac:(lia)) as E2. pose proof (Z.mod_pos_bound (Z.of_nat i) neqlt H).
  assert (0 <= Z.of_nat i / neqlt) by (apply Z.div_pos; lia).
  set (a := (Z.of_nat i + 1) / neqlt) in *. set (b := Z.of_nat i / neqlt) in *.
  destruct (Z.eqb_spec ((Z.of_nat i + 1) mod neqlt) 0) as [E|E].
  - assert (a = b + 1) by nia. lia.
  - assert (a = b) by nia. lia.
Qed.

Lemma spec_phonon_iteration B n l st neqlt : run_ok st l -> phonons p = true -> (sound orc -> total l + work <= B) ->
  spec B n l (phonon_iteration orc p st neqlt)
    (fun _ n' l' => n' = (n + seen neqlt (Z.to_nat L))%nat /\ l' = l).
Proof.
  intros R Ph HB. pose proof work_sweep as W. pose proof matrix_pos. pose proof N_pos. pose proof N_Norb. pose proof Norb_pos.
  assert (W2 : 6 * matrix N + 80 * N + column_bytes p <= work).
  { unfold work, sweep_bytes. fold Norb Ncell. fold N. rewrite Ph.
    assert (0 <= (if unequal p then measure_bytes p else 0)).
    { destruct (unequal p); [|lia]. unfold measure_bytes. fold L Norb Ncell prodBlen. fold N nb.
      pose proof (nb_pos _ _ L_pos len_pos divides) as Hn. fold nb in Hn. pose proof L_pos.
      unfold vector. nia. }
    unfold vector. lia. }
  destruct (ro_Xs _ _ R Ph) as (X & expX & EX). destruct (field_found _ _ (ro_omega _ _ R Ph)) as [om Eo].
  unfold phonon_iteration. fold L Norb Ncell N. rewrite EX, Eo. apply field_in in Eo.
  assert (Io := ro_par _ _ R _ Eo).
  assert (IX : In X (map fst l)) by (apply (ro_X _ _ R); rewrite EX; now left).
  b_alloc. assert (R' : run_ok st ((a, int_ N) :: l)) by (apply (run_weaken _ l); [intros q Hq; now right | exact R]).
  assert (HB' : sound orc -> total ((a, int_ N) :: l) + 6 * matrix N + 76 * N + column_bytes p <= B).
  { intros S. specialize (HB S). rewrite total_cons. cbn [snd]. unfold int_. lia. }
  assert (HC : 0 <= column_bytes p).
  { unfold column_bytes. fold L Norb Ncell. fold N. pose proof steps_pos. pose proof L_pos. unfold vector. lia. }
  assert (Ia : In a (map fst ((a, int_ N) :: l))) by now left.
  assert (Io' : In om (map fst ((a, int_ N) :: l))) by now right.
  assert (IX' : In X (map fst ((a, int_ N) :: l))) by now right.
  set (l0 := (a, int_ N) :: l) in *.
  eapply spec_bind.
  { unfold repeat_m, loop. apply (spec_loop_from orc c (fun i (_ : unit) n' l' => n' = (n + seen neqlt i)%nat /\ l' = l0)).
    - split; [|reflexivity]. unfold seen. destruct (Z.ltb_spec 0 neqlt); [|lia]. rewrite Z.div_0_l by lia. cbn. lia.
    - intros i _ n' l' Hi [-> ->]. pose proof (ro_G _ _ R') as G. pose proof (ro_eq _ _ R') as E. pose proof (ro_ph _ _ R') as P'.
      apply spec_neat; [apply neat_wraps; [exact R' | lia | intros S; specialize (HB' S); lia] | intros _].
      b_decide noHS.
      apply spec_neat; [| intros _].
      { apply neat_when. intros _. apply neat_bind; [apply neat_touch; intros q [<-|[]]; exact Ia|].
        apply neat_sites; [exact R' | intros S; specialize (HB' S); lia]. }
      eapply spec_bind; [apply spec_touch; intros q [<-|[]]; exact Ia | cbn beta; intros ? ? ? [-> ->]].
      apply spec_neat; [apply neat_local; [exact R' | exact Ia | intros S; specialize (HB' S); lia] | intros _].
      apply spec_neat; [apply neat_updates; [exact R' | lia | intros S; specialize (HB' S); lia] | intros _].
      apply spec_neat; [apply neat_reconstruct; [exact R' | intros S; specialize (HB' S); lia] | intros _].
      rewrite seen_succ. destruct (measured neqlt i); cbn [when].
      + eapply spec_bind; [apply spec_touch | cbn beta; intros ? ? ? [-> ->]].
        { intros q [<-|[<-|Hq]]; [apply G; cbn; tauto | apply G; cbn; tauto | now apply E]. }
        eapply spec_weaken; [apply spec_measure |].
        * intros q [<-|[<-|[<-|[<-|Hq]]]]; [apply G; cbn; tauto | apply G; cbn; tauto | exact IX' | exact Io' | now apply P'].
        * intros S. specialize (HB' S). lia.
        * cbn beta. intros _ n' l' [-> ->]. split; [lia | reflexivity].
      + apply spec_ret. split; [lia | reflexivity]. }
  cbn beta. cbn [Nat.add]. intros _ n' l' [-> ->].
  apply spec_neat; [apply neat_blocks; [exact R' | exact Ph | intros S; specialize (HB' S); lia] | intros _].
  apply spec_neat; [apply neat_blocks; [exact R' | exact Ph | intros S; specialize (HB' S); lia] | intros _].
  unfold l0. l_free.
Qed.

Definition leaks (i j : Z) : Z := left_over p i j.

Lemma spec_sweeps B st l k : forall n i, run_ok st l -> (sound orc -> total l + work <= B) ->
  spec B n l (sweeps orc p k st i)
    (fun r n' l' => (Z.of_nat n' = Z.of_nat n + leaks i (fst r) /\ l' = l) /\
       (i <= fst r /\ (snd r = false -> fst r = i + Z.of_nat k) /\ (snd r = true -> exists m, orc Stop m = true))).
Proof.
  induction k as [|k IH]; intros n i R HB; cbn [sweeps].
  - apply spec_ret. cbn [fst snd]. repeat split; try lia; try discriminate.
    unfold leaks, left_over, phonon_measurements. fold (phonons p). destruct (phonons p); lia.
  - b_decide stop. destruct stop.
    { apply spec_ret. cbn [fst snd]. repeat split; try lia; try discriminate.
      2: { intros _. match goal with E : exists _, _ |- _ => destruct E as [m Em] end. now exists m. }
      unfold leaks, left_over, phonon_measurements. fold (phonons p). destruct (phonons p); lia. }
    fold L Norb Ncell N prodBlen.
    set (neqlt := if _ <=? _ then _ else _).
    eapply spec_bind with (Q := fun _ n' l' => Z.of_nat n' = Z.of_nat n + leaks i (i + 1) /\ l' = l).
    { fold (phonons p). unfold leaks, left_over. fold (phonons p). destruct (phonons p) eqn:Ph.
      - eapply spec_weaken; [now apply spec_phonon_iteration|]. cbn beta. intros _ n' l' [-> ->]. split; [|reflexivity].
        unfold seen, phonon_measurements, neqlt. pose proof (neqlt_pos Ph) as Q. pose proof L_pos as L0. fold L.
        assert (0 <= L / sp_neqlt p) by (apply Z.div_pos; lia).
        destruct (Z.leb_spec (sp_nequil p) i) as [K|K].
        + destruct (Z.ltb_spec 0 (sp_neqlt p)); [|lia]. rewrite Nat2Z.inj_add, (Z2Nat.id L), Z2Nat.id by lia.
          replace (Z.max 0 (i + 1 - Z.max i (sp_nequil p))) with 1 by lia. lia.
        + cbn [Z.ltb Z.compare]. replace (Z.max 0 (i + 1 - Z.max i (sp_nequil p))) with 0 by lia. lia.
      - eapply spec_weaken; [now apply neat_iteration|]. cbn beta. intros _ n' l' [-> ->]. split; [lia | reflexivity]. }
    cbn beta. intros _ n1 l' [E1 ->].
    apply spec_neat; [| intros _].
    { apply neat_when. intros Hw. apply andb_true_iff in Hw. destruct Hw as [Hw _]. apply andb_true_iff in Hw. destruct Hw as [_ Hw].
      fold (unequal p) in Hw. destruct (ro_H _ _ R Hw) as [H1 H2].
      apply (neat_uneqlt orc c N N_pos L prodBlen L_pos len_pos divides); [apply R | apply R | apply R | exact H1 | exact H2|].
      fold nb. intros S. specialize (HB S). unfold work in HB. rewrite Hw in HB.
      unfold measure_bytes in HB. fold L Norb Ncell prodBlen in HB. fold N nb in HB.
      assert (0 <= sweep_bytes p).
      { unfold sweep_bytes. fold Norb Ncell. fold N. pose proof matrix_pos. pose proof N_pos. unfold vector. lia. }
      assert (0 <= (if phonons p then column_bytes p else 0)).
      { destruct (phonons p); [|lia]. unfold column_bytes. fold L Norb Ncell. fold N. pose proof steps_pos. pose proof L_pos. pose proof matrix_pos.
        unfold vector. lia. }
      lia. }
    eapply spec_weaken; [now apply IH|]. cbn beta. intros [j b] n' l' ((E2 & ->) & H1 & H2 & H3). cbn [fst snd] in *.
    repeat split; try lia; [| intros Hb; specialize (H2 Hb); lia | exact H3].
    rewrite E2, E1. unfold leaks, left_over, phonon_measurements. fold (phonons p). destruct (phonons p); [|lia].
    set (q := sp_L p / sp_neqlt p). set (e := sp_nequil p).
    replace (Z.max 0 (j - Z.max i e)) with (Z.max 0 (i + 1 - Z.max i e) + Z.max 0 (j - Z.max (i + 1) e)) by lia. lia.
Qed.

End Run.
