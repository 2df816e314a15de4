(** Means over the Metropolis chain from a fixed start field, with no contributions from the first sweeps. *)
From Coq Require Import ZArith List Reals Lra Lia Permutation.
From Coquelicot Require Import Coquelicot.
From Verif Require Import Base BaseFacts Random RandomSpec ShuffleFacts RandSource Sweep SweepSpec IdealSpec IdealFacts IdealLink IdealChain MixFacts MixChain.
Import ListNotations.
Local Open Scope R_scope.

Section Mean.
Variables (n : nat) (W : list Z -> R) (L : nat).
Let w (s : list Z) : R := Rabs (W s).
Let confs := fields (L * n).
Notation Q := (slice_q n W).
Notation SQ := (sweep_q n W L).

Lemma slice_q_zero G K : forall c l s, (forall l' s, (l <= l' < l + c)%nat -> G l' s = 0) -> Q G K c l s = slices_op n W c l K s.
Proof.
  induction c as [|c IH]; intros l s H; cbn [slice_q slices_op]; auto. unfold slice_op. apply choice_mean_ext. intros. apply uniform_mean_ext. intros.
  rewrite H, Rplus_0_l by lia. apply IH. intros; apply H; lia.
Qed.
Lemma sweep_q_equil G ns : forall ne it s, (forall i l s, (it <= i < it + Z.of_nat ne)%Z -> (l < L)%nat -> G i l s = 0) ->
  SQ G (ne + ns) it s = iter n W L ne (SQ G ns (it + Z.of_nat ne)%Z) s.
Proof.
  induction ne as [|ne IH]; intros it s H.
  - cbn [Nat.add iter]. now rewrite Z.add_0_r.
  - cbn [Nat.add sweep_q iter]. rewrite slice_q_zero by (intros; apply H; lia). unfold sweep_op. apply slices_op_ext. intros s'.
    rewrite IH by (intros; apply H; lia). replace (it + 1 + Z.of_nat ne)%Z with (it + Z.of_nat (S ne))%Z by lia. reflexivity.
Qed.

(** bounds *)
Lemma choice_mean_abs b : forall m i f, (forall js, length js = m -> (forall t, (t < m)%nat -> (0 <= nth t js 0 <= Z.of_nat (i + t))%Z) -> Rabs (f js) <= b) ->
  Rabs (choice_mean i m f) <= b.
Proof.
  induction m as [|m IH]; intros i f H; cbn [choice_mean].
  - apply H; [reflexivity|]. intros t Ht; lia.
  - assert (K : 0 < INR (S i)) by (apply lt_0_INR; lia).
    assert (A : forall j, In j (seq 0 (S i)) -> - b <= choice_mean (S i) m (fun js => f (Z.of_nat j :: js)) <= b).
    { intros j Hj. apply in_seq in Hj. apply Rabs_le_between, IH. intros js Hjs Hv. apply H; [cbn; lia|]. intros [|t] Ht; cbn [nth]; [lia|]. specialize (Hv t ltac:(lia)). lia. }
    pose proof (total_le (fun _ => - b) _ (seq 0 (S i)) (fun j Hj => proj1 (A j Hj))) as A1.
    pose proof (total_le _ (fun _ => b) (seq 0 (S i)) (fun j Hj => proj2 (A j Hj))) as A2.
    rewrite total_const, seq_length in A1, A2. apply Rabs_le. set (T := total _ _) in *. set (q := INR (S i)) in *.
    assert (E : T / q * q = T) by (field; lra). split; apply Rmult_le_reg_r with q; auto; lra.
Qed.
Lemma update_abs f g b s : flip_ok confs f -> (forall s, In s confs -> Rabs (g s) <= b) -> In s confs -> Rabs (update w f g s) <= b.
Proof.
  intros Hf Hg Hs. destruct (Hf s Hs) as [Hi _]. pose proof (accept_range w f s) as A. pose proof (Hg _ Hi) as B1. pose proof (Hg _ Hs) as B2.
  apply Rabs_le_between in B1. apply Rabs_le_between in B2. apply Rabs_le. unfold update. set (a := accept w f s) in *.
  assert (a * - b <= a * g (f s)) by (apply Rmult_le_compat_l; lra). assert (a * g (f s) <= a * b) by (apply Rmult_le_compat_l; lra).
  assert ((1 - a) * - b <= (1 - a) * g s) by (apply Rmult_le_compat_l; lra). assert ((1 - a) * g s <= (1 - a) * b) by (apply Rmult_le_compat_l; lra). lra.
Qed.
Lemma updates_abs l b g : (l < L)%nat -> (forall s, In s confs -> Rabs (g s) <= b) -> forall sites, (forall i, In i sites -> (0 <= i < Z.of_nat n)%Z) ->
  forall s, In s confs -> Rabs (updates W (site_flip n l) sites g s) <= b.
Proof.
  intros Hl Hg. induction sites as [|i sites IH]; intros H s Hs; cbn [updates]; auto.
  apply update_abs; auto.
  - apply (turn_ok n L (l * n + Z.to_nat i)). apply site_pos; auto. specialize (H i (or_introl eq_refl)). lia.
  - intros s' Hs'. apply IH; auto. intros; apply H; now right.
Qed.
Lemma slice_op_updates l g s : slice_op n W l g s = choice_mean 0 n (fun js => updates W (site_flip n l) (order_of js) g s).
Proof.
  unfold slice_op. apply choice_mean_ext. intros js Hj Hv. unfold slice_step. cbn [fst snd].
  assert (E : length (order_of js) = n) by (unfold order_of; now rewrite fy_run_length, map_length).
  pose proof (moves_updates W (site_flip n l) g (order_of js) s) as M. rewrite E in M. exact M.
Qed.
Lemma slice_op_abs l b g s : (l < L)%nat -> (forall s, In s confs -> Rabs (g s) <= b) -> In s confs -> Rabs (slice_op n W l g s) <= b.
Proof.
  intros Hl Hg Hs. rewrite slice_op_updates. apply choice_mean_abs. intros js Hj Hv. apply updates_abs; auto.
  assert (V : valid_choices js) by (intros t Ht; apply Hv; lia). intros i Hi. apply (Permutation_in _ (order_of_perm n js Hj V)) in Hi.
  apply in_map_iff in Hi as (x & <- & Hx). apply in_seq in Hx. lia.
Qed.
Lemma slice_q_abs G K (b : nat -> R) B : (forall l s, (l < L)%nat -> In s confs -> Rabs (G l s) <= b l) -> (forall s, In s confs -> Rabs (K s) <= B) ->
  forall c l s, (l + c <= L)%nat -> In s confs -> Rabs (Q G K c l s) <= total b (seq l c) + B.
Proof.
  intros HG HK. induction c as [|c IH]; intros l s Hl Hs; cbn [slice_q seq].
  - unfold total; cbn [map fold_right]. rewrite Rplus_0_l. auto.
  - rewrite total_cons. apply (slice_op_abs l _ (fun s => G l s + Q G K c (S l) s)); [lia| |auto]. intros s' Hs'.
    eapply Rle_trans; [apply Rabs_triang|]. pose proof (HG l s' ltac:(lia) Hs'). pose proof (IH (S l) s' ltac:(lia) Hs'). lra.
Qed.
Lemma sweep_q_abs G (b : Z -> nat -> R) : forall c it, (forall i l s, (it <= i)%Z -> (l < L)%nat -> In s confs -> Rabs (G i l s) <= b i l) ->
  forall s, In s confs -> Rabs (SQ G c it s) <= grid L b c it.
Proof.
  induction c as [|c IH]; intros it H s Hs; cbn [sweep_q grid].
  - rewrite Rabs_R0. lra.
  - apply slice_q_abs; auto.
    + intros l s' Hl Hs'. apply H; auto. lia.
    + apply IH. intros; apply H; auto. lia.
Qed.
Lemma grid_split (b : Z -> nat -> R) ns : forall ne it, grid L b (ne + ns) it = grid L b ne it + grid L b ns (it + Z.of_nat ne)%Z.
Proof.
  induction ne as [|ne IH]; intros it; cbn [Nat.add grid].
  - rewrite Z.add_0_r. lra.
  - rewrite IH. replace (it + 1 + Z.of_nat ne)%Z with (it + Z.of_nat (S ne))%Z by lia. lra.
Qed.
Lemma grid_nonneg (b : Z -> nat -> R) : (forall i l, 0 <= b i l) -> forall c it, 0 <= grid L b c it.
Proof. intros H. induction c as [|c IH]; intros it; cbn [grid]; [lra|]. pose proof (total_nonneg (b it) (seq 0 L) ltac:(auto)). specialize (IH (it + 1)%Z). lra. Qed.
Lemma sweep_qE0 G c it s : tape_mean n (c * L) (fun t => sweep_sum n W L G c it t s) = SQ G c it s.
Proof.
  pose proof (sweep_qE n W L G c it 0 s) as H. rewrite Rplus_0_l in H. rewrite <- H. apply tape_mean_ext. intros; lra.
Qed.

(** additivity *)
Lemma choice_mean_plus f g : forall m i, choice_mean i m (fun js => f js + g js) = choice_mean i m f + choice_mean i m g.
Proof.
  intros m. revert f g. induction m as [|m IH]; intros f g i; cbn [choice_mean]; auto.
  rewrite <- Rdiv_plus_distr, <- total_plus. f_equal. apply total_ext. intros j _. apply (IH (fun js => f (Z.of_nat j :: js)) (fun js => g (Z.of_nat j :: js))).
Qed.
Lemma updates_plus flip f g : forall sites s, updates W flip sites (fun s => f s + g s) s = updates W flip sites f s + updates W flip sites g s.
Proof. induction sites as [|i sites IH]; intros s; cbn [updates]; auto. unfold update. rewrite !IH. ring. Qed.
Lemma slice_op_plus l f g s : slice_op n W l (fun s => f s + g s) s = slice_op n W l f s + slice_op n W l g s.
Proof. rewrite !slice_op_updates, <- choice_mean_plus. apply choice_mean_ext. intros. apply updates_plus. Qed.
Lemma slices_op_plus c : forall l f g s, slices_op n W c l (fun s => f s + g s) s = slices_op n W c l f s + slices_op n W c l g s.
Proof. induction c as [|c IH]; intros l f g s; cbn [slices_op]; auto. rewrite <- slice_op_plus. apply slice_op_ext. intros; apply IH. Qed.
Lemma slice_q_split G K : forall c l s, Q G K c l s = Q G (fun _ => 0) c l s + slices_op n W c l K s.
Proof.
  induction c as [|c IH]; intros l s; cbn [slice_q slices_op]; [ring|].
  change (slice_op n W l (fun s => G l s + Q G K c (S l) s) s = slice_op n W l (fun s => G l s + Q G (fun _ => 0) c (S l) s) s + slice_op n W l (slices_op n W c (S l) K) s).
  rewrite <- slice_op_plus. apply slice_op_ext. intros s'. rewrite IH. ring.
Qed.
Lemma iter_ext c : forall g h s, (forall s, g s = h s) -> iter n W L c g s = iter n W L c h s.
Proof. induction c as [|c IH]; intros g h s H; cbn [iter]; auto. apply slices_op_ext. intros; now apply IH. Qed.
Lemma iter_plus c : forall g h s, iter n W L c (fun s => g s + h s) s = iter n W L c g s + iter n W L c h s.
Proof.
  induction c as [|c IH]; intros g h s; cbn [iter]; auto. unfold sweep_op. rewrite <- slices_op_plus. apply slices_op_ext. intros. apply IH.
Qed.
Lemma iter_out c : forall g s, iter n W L c (sweep_op n W L g) s = iter n W L (S c) g s.
Proof. induction c as [|c IH]; intros g s; auto. cbn [iter] in *. apply slices_op_ext. intros. apply IH. Qed.
End Mean.


(** the contribution of one sweep is forgotten at a geometric rate, so the distance to the mean does not grow with the number of samples *)
Theorem chain_forgets n W L : (forall s, In s (fields (L * n)) -> W s <> 0) ->
  (forall s x, In s (fields (L * n)) -> (x < L * n)%nat -> Rabs (W (turn x s)) <> Rabs (W s)) ->
  exists rate scale, 0 <= rate < 1 /\ 0 <= scale /\ forall G ne ns B s,
    (forall i l s, (0 <= i < Z.of_nat ne)%Z -> (l < L)%nat -> G i l s = 0) -> 0 <= B ->
    (forall i l s, (l < L)%nat -> In s (fields (L * n)) -> Rabs (G i l s) <= B) -> In s (fields (L * n)) ->
    let M s := tape_mean n ((ne + ns) * L) (fun t => sweep_sum n W L G (ne + ns) 0 t s) in
    Rabs (M s - total (fun s => Rabs (W s) * M s) (fields (L * n)) / total (fun s => Rabs (W s)) (fields (L * n))) <= scale * B * rate ^ ne.
Proof.
  intros H1 H2. destruct (sweeps_forget n W L H1 H2) as (rate & scale & HR & HS & HC). exists rate, (scale * INR L / (1 - rate)). split; [auto|].
  split. { apply Rmult_le_pos; [|left; apply Rinv_0_lt_compat; lra]. apply Rmult_le_pos; auto. apply pos_INR. }
  intros G ne ns B s HG B0 Hb Hs M. set (TW := total (fun s => Rabs (W s)) (fields (L * n))) in *.
  set (av := fun g : list Z -> R => total (fun s => Rabs (W s) * g s) (fields (L * n)) / TW).
  assert (HH : forall i s, In s (fields (L * n)) -> Rabs (slice_q n W (G i) (fun _ => 0) L 0 s) <= INR L * B).
  { intros i s' Hs'. pose proof (slice_q_abs n W L (G i) (fun _ => 0) (fun _ => B) 0) as A.
    assert (E : total (fun _ => B) (seq 0 L) + 0 = INR L * B) by (rewrite total_const, seq_length; ring). rewrite <- E. apply A; auto.
    intros. rewrite Rabs_R0. lra. }
  assert (P : forall c m it, Rabs (iter n W L m (sweep_q n W L G c it) s - av (sweep_q n W L G c it)) <= scale * (INR L * B) / (1 - rate) * (rate ^ m - rate ^ (m + c))).
  { induction c as [|c IH]; intros m it.
    - cbn [sweep_q]. assert (Z0 : forall s', In s' (fields (L * n)) -> Rabs ((fun _ : list Z => 0) s') <= 0) by (intros; rewrite Rabs_R0; apply Rle_refl).
      pose proof (HC m (fun _ => 0) 0 s Z0 Hs) as A. fold TW in A. unfold av. eapply Rle_trans; [exact A|]. rewrite Nat.add_0_r, Rmult_0_r, Rmult_0_l.
      rewrite (Rminus_diag_eq (rate ^ m) _ eq_refl), Rmult_0_r. apply Rle_refl.
    - cbn [sweep_q]. set (H0 := slice_q n W (G it) (fun _ => 0) L 0). set (K := sweep_q n W L G c (it + 1)).
      assert (E : forall s, slice_q n W (G it) K L 0 s = H0 s + sweep_op n W L K s) by (intros; apply slice_q_split).
      rewrite (iter_ext n W L m (fun s0 => slice_q n W (G it) K L 0 s0) (fun s0 => H0 s0 + sweep_op n W L K s0) s E), iter_plus, iter_out.
      assert (Ea : av (fun s => slice_q n W (G it) K L 0 s) = av H0 + av K).
      { unfold av. rewrite <- Rdiv_plus_distr. f_equal. rewrite <- (slices_op_total n W L L 0 K) by lia. rewrite <- total_plus. apply total_ext. intros s' _. rewrite E. unfold sweep_op. ring. }
      unfold av in Ea |- *. cbv beta in Ea. rewrite Ea. fold (av H0) (av K).
      pose proof (HC m H0 (INR L * B) s ltac:(intros; apply HH; auto) Hs) as A1. fold TW in A1. fold (av H0) in A1. pose proof (IH (S m) (it + 1)%Z) as A2. fold K in A2.
      replace (iter n W L m H0 s + iter n W L (S m) K s - (av H0 + av K)) with ((iter n W L m H0 s - av H0) + (iter n W L (S m) K s - av K)) by ring.
      eapply Rle_trans; [apply Rabs_triang|]. eapply Rle_trans; [apply Rplus_le_compat; [exact A1|exact A2]|]. replace (S m + c)%nat with (m + S c)%nat by lia.
      right. cbn [pow]. field. lra. }
  assert (E : forall s, M s = iter n W L ne (sweep_q n W L G ns (Z.of_nat ne)) s).
  { intros s'. unfold M. rewrite sweep_qE0. apply (sweep_q_equil n W L G ns ne 0 s'). intros; apply HG; auto; lia. }
  rewrite E. rewrite (total_ext (fun s => Rabs (W s) * M s) (fun s => Rabs (W s) * iter n W L ne (sweep_q n W L G ns (Z.of_nat ne)) s)) by (intros; now rewrite E).
  rewrite iter_total. eapply Rle_trans; [apply P|].
  assert (0 <= rate ^ (ne + ns)) by (apply pow_le; lra). assert (Q0 : 0 <= scale * (INR L * B) / (1 - rate)).
  { apply Rmult_le_pos; [|left; apply Rinv_0_lt_compat; lra]. apply Rmult_le_pos; auto. apply Rmult_le_pos; auto. apply pos_INR. }
  replace (scale * INR L / (1 - rate) * B * rate ^ ne) with (scale * (INR L * B) / (1 - rate) * rate ^ ne) by (field; lra).
  apply Rmult_le_compat_l; lra.
Qed.
