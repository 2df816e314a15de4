(** Systems without repulsion: everything is done in the same way for both spin species. *)
From Coq Require Import ZArith List Reals Lia Lra Bool.
From Verif Require Import Base BaseFacts RealOps SimParams ParamParser Blas MatProd TimeStep Strat GreenUpdate Lapack TimeFlow GreenConstruct KineticExp
  RandSource Sweep Accum Measure UMeasure UnequalTime Simulation PMeasure PhononSweep PSimulation SpinSymSpec.
Import ListNotations.
Local Open Scope Z_scope.

Ltac ob := match goal with H : obind _ _ = Some _ |- _ => apply obind_Some in H; let x := fresh "x" in let E := fresh "E" in destruct H as (x & E & H) end.
Ltac obs := repeat ob.
Ltac same := repeat match goal with E1 : ?t = Some _, E2 : ?t = Some _ |- _ => rewrite E1 in E2; injection E2 as E2; subst end.

Lemma loop_inv S (Inv : S -> Prop) lo hi (body : Z -> S -> option S) st st' :
  (forall i s s', Inv s -> body i s = Some s' -> Inv s') -> Inv st -> for_range lo hi body st = Some st' -> Inv st'.
Proof.
  intros Hb. unfold for_range. generalize (Z.to_nat (hi - lo)). intros n. revert lo st.
  induction n; intros lo st H0; simpl; intros E.
  - injection E as <-. exact H0.
  - apply obind_Some in E as (s1 & E1 & E2). eauto.
Qed.

(** loops whose body may hang *)
Definition holds {S} (Inv : S -> Prop) (o : option S) : Prop := match o with Some s => Inv s | None => True end.
Lemma hang_inv S (Inv : S -> Prop) (f : S -> option (option S)) o o' :
  (forall s r, Inv s -> f s = Some r -> holds Inv r) -> holds Inv o -> may_hang f o = Some o' -> holds Inv o'.
Proof. intros Hf Ho. destruct o; simpl; intros E; [eauto|injection E as <-; exact I]. Qed.

(** tables *)
Lemma entry_zero dt : strat_entry dt 0 = Some (1, 1, 0, 0)%R.
Proof.
  unfold strat_entry, rsqrt, rdiv. replace (0.5 * dt * 0)%R with 0%R by ring. rewrite exp_0.
  replace ((1 - 1) * (1 + 1))%R with 0%R by ring.
  repeat (match goal with |- context [if ?c then _ else _] => destruct c end; try (exfalso; rewrite ?sqrt_0 in *; lra); cbn [obind]).
  rewrite ?sqrt_0. f_equal. repeat f_equal; try field; try lra.
Qed.

Lemma fill_zero Norb U dt junk st : List.Forall (fun u => u = 0%R) U -> fill_stratonovich Norb U dt junk = Some st ->
  (expVu st = expVd st /\ (exists r, expVu st = [r; r]) /\ exists r, st_delta st = [r; r]).
Proof.
  intros HU. unfold fill_stratonovich. intros H. apply obind_Some in H as (a & E & H).
  set (I := fun a : list R * list R * list R * list R * list R * list R => let '(vu0, vu1, vd0, vd1, d0, d1) := a in vu0 = vu1 /\ vu0 = vd0 /\ vu1 = vd1 /\ d0 = d1).
  assert (Ha : I a).
  { apply (loop_inv _ I _ _ _ _ _) in E; [exact E| |unfold I; repeat split]. clear a E H.
    intros o [[[[[vu0 vu1] vd0] vd1] d0] d1] s' (-> & -> & -> & ->) E. obs.
    assert (x = 0%R) as ->.
    { rewrite Forall_forall in HU. apply HU. apply aget_Some in E0. destruct E0 as [_ E0]. eapply nth_error_In. eauto. }
    rewrite entry_zero in E1. injection E1 as <-. obs. injection E as <-. same. unfold I. auto. }
  destruct a as [[[[[vu0 vu1] vd0] vd1] d0] d1]. destruct Ha as (-> & -> & -> & ->). injection H as <-. cbn. eauto.
Qed.

Lemma tab2_swap (r : list R) v o : tab2 [r; r] (1 - v) o = tab2 [r; r] v o.
Proof.
  unfold tab2. destruct (Z.eq_dec v 0) as [->|H0]; [reflexivity|]. destruct (Z.eq_dec v 1) as [->|H1]; [reflexivity|].
  now rewrite !aget_None by (cbn [length]; lia).
Qed.

(** signs of the determinants *)
Definition unit_sign (z : Z) : Prop := z * z = 1.
Lemma unit_opp z : unit_sign z -> unit_sign (- z).
Proof. unfold unit_sign. lia. Qed.
Lemma unit_if (b : bool) z : unit_sign z -> unit_sign (if b then - z else z).
Proof. destruct b; [apply unit_opp|auto]. Qed.

Lemma add_factor_sign t ls ls' : unit_sign (snd ls) -> add_factor t ls = Some ls' -> unit_sign (snd ls').
Proof.
  destruct ls as [a z]. unfold add_factor. cbn. intros H. destruct (Rlt_dec t 0); intros E; obs; injection E as <-; cbn; auto using unit_opp.
Qed.

Lemma construct_sign la junk t sh G G' : green_construct la junk t sh G = Some G' -> unit_sign (gf_sgndet G').
Proof.
  unfold green_construct. intros H. ob. destruct x as [[[Q tau] d] T]. obs. destruct x4 as [T' ipiv]. obs. injection H as <-. cbn [gf_sgndet].
  assert (S1 : unit_sign (snd x4)).
  { refine (loop_inv _ (fun ls => unit_sign (snd ls)) _ _ _ _ _ _ _ E6); [|reflexivity].
    intros i ls ls' H E'. obs. injection E' as <-. cbn. destruct (_ =? _); [|apply unit_opp]; eauto using add_factor_sign. }
  assert (S2 : unit_sign (snd x5)).
  { refine (loop_inv _ (fun ls => unit_sign (snd ls)) _ _ _ _ _ _ S1 E7).
    intros i ls ls' H E'. obs. destruct (Rle_dec _ _); [injection E' as <-; auto|eauto using add_factor_sign]. }
  refine (loop_inv _ (fun ls => unit_sign (snd ls)) _ _ _ _ _ _ S2 E8).
  intros i ls ls' H E'. obs. injection E' as <-. cbn. destruct (Rlt_dec _ _); auto using unit_opp.
Qed.

Lemma unit_scaled du G G' : unit_sign (gf_sgndet G) -> det_scaled du G = Some G' -> unit_sign (gf_sgndet G').
Proof. unfold det_scaled. intros H E. obs. injection E as <-. cbn. destruct (Rlt_dec _ _); auto using unit_opp. Qed.

Ltac prj := cbn [mc_seed mc_order mc_s mc_tu mc_td mc_Gu mc_Gd mc_meas fst snd p_mc p_X p_expX p_cnt p_meas b_p b_tu b_td b_Gu b_Gd set_seed set_greens set_tsms gf_sgndet holds].
Ltac prji H := cbn [mc_seed mc_order mc_s mc_tu mc_td mc_Gu mc_Gd mc_meas fst snd p_mc p_X p_expX p_cnt p_meas b_p b_tu b_td b_Gu b_Gd set_seed set_greens set_tsms gf_sgndet holds] in H.

Section Sweeps.
Context {RS MT PT : Type}.
Variable rng : rand_source RS.
Variable measure : greens_func -> greens_func -> MT -> option MT.
Variable measure_ph : greens_func -> greens_func -> Z -> list R -> PT -> option PT.
Variable la : lapack.
Variable junk : Z -> R.
Variable MI : MT -> Prop.
Variable PI : PT -> Prop.
Hypothesis measure_sym : forall G d d', unit_sign (gf_sgndet G) -> MI d -> measure G G d = Some d' -> MI d'.
Hypothesis measure_ph_sym : forall G l X d d', unit_sign (gf_sgndet G) -> PI d -> measure_ph G G l X d = Some d' -> PI d'.
Variables (k : kinetic) (st : strat).
Hypothesis V : expVu st = expVd st.
Hypothesis D : exists r, st_delta st = [r; r].

(** both spin species are in the same state *)
Definition sym (m : mcstate RS MT) : Prop :=
  mc_tu m = mc_td m /\ mc_Gu m = mc_Gd m /\ unit_sign (gf_sgndet (mc_Gu m)) /\ MI (mc_meas m).

Lemma update_sym N i delta du G G' : unit_sign (gf_sgndet G) ->
  update_both junk N i delta delta du du G G = Some G' -> fst G' = snd G' /\ unit_sign (gf_sgndet (fst G')).
Proof.
  unfold update_both. intros H E. obs. same. injection E as <-. prj. split; [reflexivity|].
  eapply unit_scaled; [|eassumption]. unfold rank1 in E0. obs. injection E0 as <-. exact H.
Qed.

Lemma wrap_sym l m m' : sym m -> wrap_both junk l m = Some m' -> sym m'.
Proof.
  destruct m. unfold sym, wrap_both. prj. intros (-> & -> & Hs & Hm) E. obs. same. injection E as <-. prj. auto.
Qed.

Lemma site_sym l i m m' : sym m -> hs_site rng junk k st l i m = Some m' -> sym m'.
Proof.
  destruct m. unfold sym, hs_site. prj. destruct D as [r Dr]. rewrite Dr. intros (-> & -> & Hs & Hm) E. obs.
  rewrite tab2_swap in *. same. destruct x5 as [u seed]. destruct (Rlt_dec _ _).
  - obs. match goal with U : update_both _ _ _ _ _ _ _ _ _ = Some _ |- _ => apply update_sym in U; [|exact Hs] end. injection E as <-. prj. tauto.
  - injection E as <-. prj. auto.
Qed.

Lemma sites_sym l m r : sym m -> hs_sites rng junk k st l m = Some r -> holds sym r.
Proof.
  unfold hs_sites. intros H E. ob. destruct x as [[seed order]|]; [|injection E as <-; exact I].
  ob. injection E as <-. prj. refine (loop_inv _ sym _ _ _ _ _ _ _ E1).
  - intros j s s' Hs E. obs. eauto using site_sym.
  - destruct m. exact H.
Qed.

Lemma tsms_sym l m m' : sym m -> update_tsms junk k st l m = Some m' -> sym m'.
Proof.
  destruct m. unfold sym, update_tsms. prj. rewrite V. intros (-> & -> & Hs & Hm) E. obs. same. injection E as <-. prj. auto.
Qed.

Lemma recompute_sym nwraps l m m' : sym m -> recompute_both la junk nwraps l m = Some m' -> sym m'.
Proof.
  destruct m. unfold sym, recompute_both. prj. intros (-> & -> & Hs & Hm) E. obs. destruct (_ =? _).
  - obs. same. injection E as <-. prj. eauto using construct_sign.
  - injection E as <-. prj. auto.
Qed.

Lemma measure_slice_sym neqlt l m m' : sym m -> measure_slice measure neqlt l m = Some m' -> sym m'.
Proof.
  destruct m. unfold sym, measure_slice. prj. intros (-> & -> & Hs & Hm) E. destruct (0 <? neqlt).
  - obs. destruct (_ =? _); [obs|]; injection E as <-; prj; eauto.
  - injection E as <-. prj. auto.
Qed.

Lemma slice_sym nwraps neqlt l m r : sym m -> dqmc_slice rng measure la junk k st nwraps neqlt l m = Some r -> holds sym r.
Proof.
  unfold dqmc_slice. intros H E. ob. eapply wrap_sym in H; [|eassumption]. ob. apply sites_sym in E1; [|exact H].
  destruct x0 as [m1|]; [|injection E as <-; exact I]. prji E1. obs. injection E as <-. prj.
  eauto using tsms_sym, recompute_sym, measure_slice_sym.
Qed.

Lemma iteration_sym nwraps neqlt m r : sym m -> dqmc_iteration rng measure la junk k st nwraps neqlt m = Some r -> holds sym r.
Proof.
  unfold dqmc_iteration. intros H E. refine (loop_inv _ (holds sym) _ _ _ _ _ _ _ E); [|exact H].
  intros l s s' Hs Eb. eapply hang_inv; [|exact Hs|exact Eb]. intros; eauto using slice_sym.
Qed.

Lemma setup_sym N L b seed order s d m : MI d -> dqmc_setup la junk k st N L b seed order s d = Some m -> sym m.
Proof.
  unfold dqmc_setup, sym. rewrite V. intros Hd E. obs. same. injection E as <-. prj. eauto using construct_sign.
Qed.

(** with phonons *)
Definition psym (p : phstate RS MT PT) : Prop := sym (p_mc p) /\ PI (p_meas p).
Definition bsym (b : @blkstate RS MT PT) : Prop := psym (b_p b) /\ b_tu b = b_td b /\ b_Gu b = b_Gd b.

Lemma local_sym ph dt l i p p' : psym p -> local_update rng junk k ph dt l i p = Some p' -> psym p'.
Proof.
  destruct p as [[seed order s tu td Gu Gd d] X eX c e]. unfold psym, sym, local_update. prj. intros [(-> & -> & Hs & Hm) Hp] E.
  ob. ob. destruct (Req_EM_T _ _); [injection E as <-; prj; auto|]. ob. destruct x1 as [u seed1]. obs. same. destruct x5 as [u' seed2].
  destruct (Rlt_dec _ _).
  - obs. match goal with U : update_both _ _ _ _ _ _ _ _ _ = Some _ |- _ => apply update_sym in U; [|exact Hs] end. injection E as <-. prj. tauto.
  - injection E as <-. prj. auto.
Qed.

Lemma locals_sym ph dt l p r : psym p -> local_updates rng junk k ph dt l p = Some r -> holds psym r.
Proof.
  unfold local_updates. intros H E. ob. destruct x as [[seed order]|]; [|injection E as <-; exact I].
  ob. injection E as <-. prj. refine (loop_inv _ psym _ _ _ _ _ _ _ E1).
  - intros j s s' Hs E. obs. eauto using local_sym.
  - destruct p as [[] ? ? ? ?]. exact H.
Qed.

Lemma phonon_slice_sym noHS ph dt nwraps neqlt l p r : psym p ->
  phonon_slice rng measure measure_ph la junk k noHS st ph dt nwraps neqlt l p = Some r -> holds psym r.
Proof.
  unfold phonon_slice. intros [H Hp] E. ob. eapply wrap_sym in H; [|eassumption]. ob.
  assert (H1 : holds sym x0). { destruct noHS; [injection E1 as <-; exact H|eauto using sites_sym]. }
  destruct x0 as [m1|]; [|injection E as <-; exact I]. prji H1. ob. apply locals_sym in E2; [|split; assumption].
  destruct x0 as [p1|]; [|injection E as <-; exact I]. destruct E2 as [H2 Hp2]. obs. injection E as <-. prj.
  assert (H3 : psym x0).
  { destruct p1 as [[seed order s tu td Gu Gd d] X eX c e]. unfold update_phonon_tsms in E2. prji E2. rewrite V in E2.
    unfold sym in H2. prji H2; prji Hp2. destruct H2 as (-> & -> & Hs & Hm). obs. same. injection E2 as <-. split; [|exact Hp2]. unfold sym. prj. auto. }
  destruct H3 as [H3 Hp3]. eapply recompute_sym in H3; [|eassumption].
  unfold measure_phonon_slice in E4. destruct (0 <? neqlt) eqn:En.
  - ob. destruct (_ =? _).
    + obs. injection E4 as <-. match goal with M : measure_slice _ _ _ _ = Some _, P : measure_ph _ _ _ _ _ = Some _ |- _ => rename M into EM; rename P into EP end. prji EM; prji EP. eapply measure_slice_sym in EM; [|exact H3]. split; [exact EM|]. prj.
      destruct EM as (_ & EG & Hs & _). rewrite <- EG in EP. eauto.
    + injection E4 as <-. split; assumption.
  - injection E4 as <-. split; assumption.
Qed.

Lemma decide_sym dt L N i count dE Xi eXi X eX b b' : bsym b ->
  block_decide rng la junk k st dt L N i count dE Xi eXi X eX b = Some b' -> bsym b'.
Proof.
  destruct b as [[[seed order s tu td Gu Gd d] X0 eX0 c e] btu btd bGu bGd]. unfold bsym, psym, sym, block_decide. prj. rewrite V.
  intros ([(-> & -> & Hs & Hm) Hp] & -> & ->) E. obs. same. destruct x3 as [u seed']. destruct (Rlt_dec _ _).
  - obs. same. injection E as <-. prj. repeat split; auto. match goal with C : copy_greens _ _ = Some _ |- _ => unfold copy_greens in C; apply obind_Some in C as (? & ? & C); injection C as <- end. prj. eauto using construct_sign.
  - obs. injection E as <-. prj. auto 8.
Qed.

Lemma block_sym ph dt b r : bsym b -> block_update rng la junk k st ph dt b = Some r -> holds bsym r.
Proof.
  destruct b as [[[seed order s tu td Gu Gd d] X0 eX0 c e] btu btd bGu bGd]. unfold block_update. prj. intros H E.
  ob. destruct x as [[i seed']|]; [|injection E as <-; exact I]. ob. ob. destruct (Req_EM_T _ _); [injection E as <-; exact H|].
  ob. ob. ob. destruct x3 as [u seed2]. ob. ob. ob. destruct x5 as [X eX]. ob. injection E as <-. prj. eapply decide_sym; [|eassumption]. exact H.
Qed.

Lemma flip_sym ph dt mu b r : bsym b -> flip_update rng la junk k st ph dt mu b = Some r -> holds bsym r.
Proof.
  destruct b as [[[seed order s tu td Gu Gd d] X0 eX0 c e] btu btd bGu bGd]. unfold flip_update. prj. intros H E.
  ob. destruct x as [[i seed']|]; [|injection E as <-; exact I]. ob. ob. destruct (Req_EM_T _ _); [injection E as <-; exact H|].
  obs. destruct x5 as [dE [X eX]]. ob. injection E as <-. prj. eapply decide_sym; [|eassumption]. exact H.
Qed.

Lemma blocks_sym ph upd p r : (forall b r, bsym b -> upd b = Some r -> holds bsym r) -> psym p ->
  block_updates junk ph upd p = Some r -> holds psym r.
Proof.
  unfold block_updates. intros Hu H E. destruct (_ <=? _); [injection E as <-; exact H|]. obs. injection E as <-.
  pose proof H as [(Ht & _) _]. rewrite <- Ht in *. same.
  apply (loop_inv _ (holds bsym)) in E2.
  - destruct x1 as [b|]; [exact (proj1 E2)|exact I].
  - intros j s s' Hs Eb. eapply hang_inv; [|exact Hs|exact Eb]. exact Hu.
  - prj. split; auto.
Qed.

Lemma phonon_iteration_sym noHS ph dt mu nwraps neqlt p r : psym p ->
  phonon_iteration rng measure measure_ph la junk k noHS st ph dt mu nwraps neqlt p = Some r -> holds psym r.
Proof.
  unfold phonon_iteration. intros H E. obs.
  assert (H1 : holds psym x).
  { refine (loop_inv _ (holds psym) _ _ _ _ _ _ _ E0); [|exact H].
    intros l s s' Hs Eb. eapply hang_inv; [|exact Hs|exact Eb]. intros; eauto using phonon_slice_sym. }
  assert (H2 : holds psym x0).
  { eapply hang_inv; [|exact H1|exact E1]. intros; eapply blocks_sym; eauto using block_sym. }
  eapply hang_inv; [|exact H2|exact E]. intros; eapply blocks_sym; eauto using flip_sym.
Qed.

Lemma phonon_setup_sym N L b seed order s X eX c d e p : MI d -> PI e ->
  phonon_setup la junk k st N L b seed order s X eX c d e = Some p -> psym p.
Proof.
  unfold phonon_setup, psym, sym. rewrite V. intros Hd He E. obs. same. injection E as <-. prj. eauto 6 using construct_sign.
Qed.
End Sweeps.
