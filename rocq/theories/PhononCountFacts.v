(** The acceptance counters of the sweeps with phonons. *)
From Coq Require Import ZArith List Reals Lia Lra.
From Verif Require Import Base BaseFacts RealOps SimParams TimeStep Strat GreenUpdate TimeFlow GreenConstruct RandSource Sweep PhononSweep PhononCountSpec.
Import ListNotations.
Local Open Scope Z_scope.

Lemma obind_inv {A B} (o : option A) (f : A -> option B) b : obind o f = Some b -> exists a, o = Some a /\ f a = Some b.
Proof. destruct o as [a|]; cbn; [eauto|discriminate]. Qed.
Ltac binv H :=
  match type of H with
  | obind _ _ = Some _ => let a := fresh "a" in let E := fresh "E" in apply obind_inv in H as (a & E & H); cbv beta in H
  end.

Section Counts.
Variable all : Prop.
Notation counted := (counted all).

Lemma counted_refl c : counted 0 0 0 c c.
Proof. constructor; lia. Qed.
Lemma counted_trans a b c a' b' c' x y z : counted a b c x y -> counted a' b' c' y z -> counted (a + a') (b + b') (c + c') x z.
Proof. intros [A1 A2 A3 A4] [B1 B2 B3 B4]. constructor; try lia. intros H. specialize (A4 H). specialize (B4 H). lia. Qed.
Lemma counted_eq a b c a' b' c' x y : counted a b c x y -> a = a' -> b = b' -> c = c' -> counted a' b' c' x y.
Proof. intros H -> -> ->. exact H. Qed.

(** a loop of which every round counts the same *)
Lemma for_from_counted {S} (cnt : S -> counts) a b c (f : Z -> S -> option (option S)) :
  (forall i s s', f i s = Some (Some s') -> counted a b c (cnt s) (cnt s')) ->
  forall n lo s s', for_from n lo (fun i => may_hang (f i)) (Some s) = Some (Some s') ->
    counted (Z.of_nat n * a) (Z.of_nat n * b) (Z.of_nat n * c) (cnt s) (cnt s').
Proof.
  intros Hf. induction n as [|n IH]; intros lo s s' H; cbn [for_from] in H.
  - inversion H. subst. eapply counted_eq; [apply counted_refl|lia..].
  - binv H. cbn [may_hang] in E. destruct a0 as [s1|].
    + eapply counted_eq; [eapply counted_trans; [apply (Hf _ _ _ E)|apply (IH _ _ _ H)]|lia..].
    + exfalso. clear - H. revert lo H. induction n as [|n IH]; intros lo H; cbn [for_from] in H; [discriminate|]. cbn in H. exact (IH _ H).
Qed.
Lemma for_range_counted {S} (cnt : S -> counts) a b c N (f : Z -> S -> option (option S)) s s' :
  (forall i s s', f i s = Some (Some s') -> counted a b c (cnt s) (cnt s')) ->
  for_range 0 N (fun i => may_hang (f i)) (Some s) = Some (Some s') ->
  counted (Z.max 0 N * a) (Z.max 0 N * b) (Z.max 0 N * c) (cnt s) (cnt s').
Proof. intros Hf H. eapply counted_eq; [apply (for_from_counted cnt a b c f Hf _ _ _ _ H)|lia..]. Qed.
Lemma for_from_counted1 {S} (cnt : S -> counts) a b c (f : Z -> S -> option S) :
  (forall i s s', f i s = Some s' -> counted a b c (cnt s) (cnt s')) ->
  forall n lo s s', for_from n lo f s = Some s' ->
    counted (Z.of_nat n * a) (Z.of_nat n * b) (Z.of_nat n * c) (cnt s) (cnt s').
Proof.
  intros Hf. induction n as [|n IH]; intros lo s s' H; cbn [for_from] in H.
  - inversion H. subst. eapply counted_eq; [apply counted_refl|lia..].
  - binv H. eapply counted_eq; [eapply counted_trans; [apply (Hf _ _ _ E)|apply (IH _ _ _ H)]|lia..].
Qed.

Context {RS MT PT : Type}.
Variables (rng : rand_source RS) (measure : greens_func -> greens_func -> MT -> option MT)
  (measure_ph : greens_func -> greens_func -> Z -> list R -> PT -> option PT) (la : Lapack.lapack) (junk : Z -> R)
  (k : kinetic) (st : strat) (ph : phonon_params) (dt mu : R).
Hypothesis Hg : all -> Forall (fun g => g <> 0%R) (ph_g ph).

Lemma coupled o g : aget (ph_g ph) o = Some g -> all -> g <> 0%R.
Proof.
  intros H Ha. apply aget_Some in H as [_ H]. apply nth_error_In in H. specialize (Hg Ha). rewrite Forall_forall in Hg. auto.
Qed.

Ltac cnt_step := cbn [count_local count_block count_flip n_local_accept n_local_total n_block_accept n_block_total n_flip_accept n_flip_total p_cnt b_p].

Lemma local_counted l i (p p' : phstate RS MT PT) : local_update rng junk k ph dt l i p = Some p' -> counted 1 0 0 (p_cnt p) (p_cnt p').
Proof.
  unfold local_update. intros H. do 2 binv H. destruct (Req_EM_T a0 0) as [E1|E1].
  - inversion H. subst p' a0. constructor; try lia. intros Ha. now destruct (coupled _ _ E0 Ha).
  - binv H. destruct a1 as [u seed]. do 5 binv H. destruct a5 as [u' seed'].
    destruct (Rlt_dec _ _).
    + do 5 binv H. inversion H. subst p'. constructor; cnt_step; lia.
    + inversion H. subst p'. constructor; cnt_step; lia.
Qed.
Lemma locals_counted l (p p' : phstate RS MT PT) : local_updates rng junk k ph dt l p = Some (Some p') ->
  counted (Z.max 0 (ph_n_local_updates ph)) 0 0 (p_cnt p) (p_cnt p').
Proof.
  unfold local_updates. intros H. binv H. destruct a as [[seed order]|]; [|discriminate]. binv H. inversion H. subst a.
  unfold for_range in E0. eapply counted_eq; [refine (for_from_counted1 p_cnt 1 0 0 _ _ _ _ _ _ E0)|lia..].
  intros j s s' Hs. do 2 binv Hs. exact (local_counted _ _ _ _ Hs).
Qed.

Lemma decide_counted L N i (count : Z -> Z -> counts -> counts) a b c dE Xi eXi X eX (q q' : @blkstate RS MT PT) :
  (forall x, counted a b c x (count 1 1 x)) -> (forall x, counted a b c x (count 0 1 x)) ->
  block_decide rng la junk k st dt L N i count dE Xi eXi X eX q = Some q' -> counted a b c (p_cnt (b_p q)) (p_cnt (b_p q')).
Proof.
  intros H1 H0 H. unfold block_decide in H. do 5 binv H. destruct a4 as [u seed]. destruct (Rlt_dec _ _).
  - do 4 binv H. inversion H. subst q'. apply H1.
  - do 2 binv H. inversion H. subst q'. apply H0.
Qed.
Lemma block_counted (q q' : @blkstate RS MT PT) : block_update rng la junk k st ph dt q = Some (Some q') -> counted 0 1 0 (p_cnt (b_p q)) (p_cnt (b_p q')).
Proof.
  unfold block_update. intros H. binv H. destruct a as [[i seed]|]; [|discriminate]. do 2 binv H. destruct (Req_EM_T a0 0) as [Ez|Ez].
  - inversion H. subst q' a0. constructor; cbn [p_cnt b_p]; try lia. intros Ha. now destruct (coupled _ _ E1 Ha).
  - do 3 binv H. destruct a3 as [u seed']. do 3 binv H. destruct a5 as [X eX]. binv H. inversion H. subst a5.
    apply (decide_counted _ _ _ count_block 0 1 0) in E8; [exact E8|intros x; constructor; cnt_step; lia..].
Qed.
Lemma flip_counted (q q' : @blkstate RS MT PT) : flip_update rng la junk k st ph dt mu q = Some (Some q') -> counted 0 0 1 (p_cnt (b_p q)) (p_cnt (b_p q')).
Proof.
  unfold flip_update. intros H. binv H. destruct a as [[i seed]|]; [|discriminate]. do 2 binv H. destruct (Req_EM_T a0 0) as [Ez|Ez].
  - inversion H. subst q' a0. constructor; cbn [p_cnt b_p]; try lia. intros Ha. now destruct (coupled _ _ E1 Ha).
  - do 5 binv H. destruct a5 as [e [X eX]]. binv H. inversion H. subst a5.
    apply (decide_counted _ _ _ count_flip 0 0 1) in E7; [exact E7|intros x; constructor; cnt_step; lia..].
Qed.
Lemma updates_counted upd a b c (p p' : phstate RS MT PT) :
  (forall q q' : @blkstate RS MT PT, upd q = Some (Some q') -> counted a b c (p_cnt (b_p q)) (p_cnt (b_p q'))) ->
  block_updates junk ph upd p = Some (Some p') ->
  counted (Z.max 0 (ph_n_block_updates ph) * a) (Z.max 0 (ph_n_block_updates ph) * b) (Z.max 0 (ph_n_block_updates ph) * c) (p_cnt p) (p_cnt p').
Proof.
  intros Hu H. unfold block_updates in H. destruct (Z.leb_spec (ph_n_block_updates ph) 0).
  - inversion H. subst p'. eapply counted_eq; [apply counted_refl|lia..].
  - do 3 binv H. destruct a2 as [q|]; [|discriminate]. inversion H. subst p'.
    exact (for_range_counted (fun q => p_cnt (b_p q)) a b c _ (fun _ => upd) _ _ (fun _ q q' => Hu q q') E1).
Qed.

Lemma slice_counted noHS nwraps neqlt l (p p' : phstate RS MT PT) :
  phonon_slice rng measure measure_ph la junk k noHS st ph dt nwraps neqlt l p = Some (Some p') ->
  counted (Z.max 0 (ph_n_local_updates ph)) 0 0 (p_cnt p) (p_cnt p').
Proof.
  unfold phonon_slice. intros H. do 2 binv H. destruct a0 as [m|]; [|discriminate]. binv H. destruct a0 as [q|]; [|discriminate].
  do 3 binv H. inversion H. subst a2. apply locals_counted in E1.
  assert (p_cnt a0 = p_cnt q) as Q1. { unfold update_phonon_tsms in E2. do 2 binv E2. inversion E2. reflexivity. }
  assert (p_cnt p' = p_cnt a0) as Q2.
  { unfold measure_phonon_slice in E4. destruct (0 <? neqlt); [|inversion E4; reflexivity].
    binv E4. destruct (a2 =? 0); [|inversion E4; reflexivity]. do 2 binv E4. inversion E4. reflexivity. }
  rewrite Q2, Q1. exact E1.
Qed.

Lemma iteration_counted noHS nwraps neqlt (p p' : phstate RS MT PT) :
  phonon_iteration rng measure measure_ph la junk k noHS st ph dt mu nwraps neqlt p = Some (Some p') ->
  counted (Z.max 0 (ts_L (mc_tu (p_mc p))) * Z.max 0 (ph_n_local_updates ph)) (Z.max 0 (ph_n_block_updates ph)) (Z.max 0 (ph_n_block_updates ph))
    (p_cnt p) (p_cnt p').
Proof.
  unfold phonon_iteration. intros H. do 2 binv H. destruct a0 as [q2|]; [|discriminate]. destruct a as [q1|]; [|discriminate]. cbn [may_hang] in E0, H.
  apply (for_range_counted p_cnt (Z.max 0 (ph_n_local_updates ph)) 0 0) in E; [|intros i s s'; apply slice_counted].
  apply (updates_counted _ 0 1 0) in E0; [|exact block_counted].
  apply (updates_counted _ 0 0 1) in H; [|exact flip_counted].
  eapply counted_eq; [exact (counted_trans _ _ _ _ _ _ _ _ _ (counted_trans _ _ _ _ _ _ _ _ _ E E0) H)|lia..].
Qed.
End Counts.

(** with a generator whose rejection loops return, all sweeps return *)
Lemma obind_not {A B} (o : option A) (f : A -> option (option B)) : (forall a, f a <> Some None) -> obind o f <> Some None.
Proof. destruct o as [a|]; cbn; [auto|discriminate]. Qed.
Lemma for_from_returns {S} (f : Z -> S -> option (option S)) : (forall i s, f i s <> Some None) ->
  forall n lo s, for_from n lo (fun i => may_hang (f i)) (Some s) <> Some None.
Proof.
  intros Hf. induction n as [|n IH]; intros lo s; cbn [for_from]; [discriminate|]. cbn [may_hang].
  destruct (f lo s) as [[s1|]|] eqn:E; cbn [obind]; [apply IH|now destruct (Hf lo s)|discriminate].
Qed.

Section Returns.
Context {RS MT PT : Type}.
Variables (rng : rand_source RS) (measure : greens_func -> greens_func -> MT -> option MT)
  (measure_ph : greens_func -> greens_func -> Z -> list R -> PT -> option PT) (la : Lapack.lapack) (junk : Z -> R)
  (k : kinetic) (st : strat) (ph : phonon_params) (dt mu : R).
Hypothesis HS : forall s n l, r_shuffle rng s n l <> Some None.
Hypothesis HB : forall s b, r_bounded rng s b <> Some None.

Ltac ret := repeat (first [discriminate | apply obind_not; intros ?]).

Lemma hs_sites_returns l (m : mcstate RS MT) : hs_sites rng junk k st l m <> Some None.
Proof.
  unfold hs_sites. destruct (r_shuffle rng _ _ _) as [[[seed order]|]|] eqn:E; cbn [obind]; [ret|now destruct (HS _ _ _ E)|discriminate].
Qed.
Lemma local_updates_returns l (p : phstate RS MT PT) : local_updates rng junk k ph dt l p <> Some None.
Proof.
  unfold local_updates. destruct (r_shuffle rng _ _ _) as [[[seed order]|]|] eqn:E; cbn [obind]; [ret|now destruct (HS _ _ _ E)|discriminate].
Qed.
Lemma slice_returns noHS nwraps neqlt l (p : phstate RS MT PT) :
  phonon_slice rng measure measure_ph la junk k noHS st ph dt nwraps neqlt l p <> Some None.
Proof.
  unfold phonon_slice. apply obind_not. intros m.
  assert (forall o, (if noHS then Some (Some m) else hs_sites rng junk k st l m) = Some o -> o <> None) as H.
  { intros o E Eo. subst o. destruct noHS; [discriminate|now destruct (hs_sites_returns _ _ E)]. }
  destruct (if noHS then _ else _) as [[m'|]|]; cbn [obind]; [|now destruct (H None)|discriminate].
  destruct (local_updates _ _ _ _ _ _ _) as [[q|]|] eqn:E; cbn [obind]; [ret|now destruct (local_updates_returns _ _ E)|discriminate].
Qed.
Lemma block_returns (q : @blkstate RS MT PT) : block_update rng la junk k st ph dt q <> Some None.
Proof.
  unfold block_update. destruct (r_bounded rng _ _) as [[[i seed]|]|] eqn:E; cbn [obind]; [|now destruct (HB _ _ E)|discriminate].
  do 2 (apply obind_not; intros ?). destruct (Req_EM_T _ _); [discriminate|]. do 2 (apply obind_not; intros ?). apply obind_not. intros [u s']. do 2 (apply obind_not; intros ?). apply obind_not. intros [X eX]. ret.
Qed.
Lemma flip_returns (q : @blkstate RS MT PT) : flip_update rng la junk k st ph dt mu q <> Some None.
Proof.
  unfold flip_update. destruct (r_bounded rng _ _) as [[[i seed]|]|] eqn:E; cbn [obind]; [|now destruct (HB _ _ E)|discriminate].
  do 2 (apply obind_not; intros ?). destruct (Req_EM_T _ _); [discriminate|]. do 4 (apply obind_not; intros ?). apply obind_not. intros [e [X eX]]. ret.
Qed.
Lemma updates_return upd (p : phstate RS MT PT) : (forall q : @blkstate RS MT PT, upd q <> Some None) -> block_updates junk ph upd p <> Some None.
Proof.
  intros Hu. unfold block_updates. destruct (_ <=? 0); [discriminate|]. do 2 (apply obind_not; intros ?). unfold for_range.
  destruct (for_from _ _ _ _) as [[q|]|] eqn:E; cbn [obind]; [discriminate|now destruct (for_from_returns (fun _ => upd) (fun _ => Hu) _ _ _ E)|discriminate].
Qed.
Lemma iteration_returns noHS nwraps neqlt (p : phstate RS MT PT) :
  phonon_iteration rng measure measure_ph la junk k noHS st ph dt mu nwraps neqlt p <> Some None.
Proof.
  unfold phonon_iteration, for_range.
  destruct (for_from _ _ _ _) as [[q|]|] eqn:E; cbn [obind];
    [|now destruct (for_from_returns _ (slice_returns noHS nwraps neqlt) _ _ _ E)|discriminate].
  cbn [may_hang]. destruct (block_updates _ _ _ q) as [[q'|]|] eqn:E1; cbn [obind]; [|now destruct (updates_return _ _ block_returns E1)|discriminate].
  cbn [may_hang]. exact (updates_return _ _ flip_returns).
Qed.
Lemma sweeps_return noHS nwraps neqlt count (p : phstate RS MT PT) :
  phonon_sweeps rng measure measure_ph la junk k noHS st ph dt mu nwraps neqlt count p <> Some None.
Proof. unfold phonon_sweeps, for_range. apply for_from_returns. intros. apply iteration_returns. Qed.
End Returns.
