(** The sweeps of the Metropolis chain forget the start field if flips of single entries change the weight. *)
From Coq Require Import ZArith List Reals Lra Lia Permutation.
From Coquelicot Require Import Coquelicot.
From Verif Require Import Base BaseFacts Random RandomSpec ShuffleFacts RandSource Sweep SweepSpec IdealSpec IdealFacts IdealLink IdealChain MixFacts.
Import ListNotations.
Local Open Scope R_scope.

Lemma finite_lower {B} (F : B -> R) xs : (forall x, In x xs -> 0 < F x) -> exists d, 0 < d /\ forall x, In x xs -> d <= F x.
Proof.
  induction xs as [|x xs IH]; intros H; [exists 1; split; [lra|intros ? []]|].
  destruct IH as (d & Hd & IH); [intros; apply H; now right|]. exists (Rmin d (F x)). split.
  - apply Rmin_glb_lt; auto. apply H; now left.
  - intros y [->|Hy]; [apply Rmin_r|]. eapply Rle_trans; [apply Rmin_l|auto].
Qed.
Lemma finite_upper {B} (F : B -> R) xs : exists M, 0 < M /\ forall x, In x xs -> F x <= M.
Proof.
  induction xs as [|x xs (M & HM & IH)]; [exists 1; split; [lra|intros ? []]|]. exists (Rmax M (F x)). split.
  - eapply Rlt_le_trans; [exact HM|apply Rmax_l].
  - intros y [->|Hy]; [apply Rmax_r|]. eapply Rle_trans; [|apply Rmax_l]. auto.
Qed.

Section Mix.
Variables (n : nat) (W : list Z -> R) (L : nat).
Let w (s : list Z) : R := Rabs (W s).
Let confs := fields (L * n).
Notation step := (slice_step n W).
Definition turn (x : nat) (s : list Z) : list Z := lset s x (1 - nth x s 0)%Z.
Hypothesis W_nz : forall s, In s confs -> W s <> 0.
Hypothesis W_differ : forall s x, In s confs -> (x < L * n)%nat -> Rabs (W (turn x s)) <> Rabs (W s).

Lemma w_pos s : In s confs -> 0 < w s.
Proof. intros H. apply Rabs_pos_lt. now apply W_nz. Qed.
Lemma turn_ok x : (x < L * n)%nat -> flip_ok confs (turn x).
Proof. intros Hx s Hs. unfold turn. split; [now apply lset_in|]. apply lset_back. apply fields_in in Hs as [-> _]. auto. Qed.
Lemma site_pos l x : (l < L)%nat -> (x < n)%nat -> (l * n + x < L * n)%nat.
Proof. intros. nia. Qed.

Lemma constants : exists delta wmax ratio wmin, 0 < delta /\ 0 < wmax /\ 0 < ratio /\ 0 < wmin /\
  (forall s, In s confs -> wmin <= w s <= wmax) /\
  forall x s, (x < L * n)%nat -> In s confs ->
    (w (turn x s) < w s -> delta <= w (turn x s) * (1 - w (turn x s) / w s)) /\ w (turn x s) <= ratio * w s.
Proof.
  set (F := fun p : nat * list Z => if Rlt_dec (w (turn (fst p) (snd p))) (w (snd p)) then w (turn (fst p) (snd p)) * (1 - w (turn (fst p) (snd p)) / w (snd p)) else 1).
  destruct (finite_lower F (list_prod (seq 0 (L * n)) confs)) as (delta & Hd & HF).
  { intros [x s] Hx. apply in_prod_iff in Hx as [Hx Hs]. apply in_seq in Hx. unfold F. cbn [fst snd]. destruct (Rlt_dec _ _) as [Hl|]; [|lra].
    assert (Hx' : (x < L * n)%nat) by lia. destruct (turn_ok x Hx' s Hs) as [Ht _]. pose proof (w_pos _ Ht). pose proof (w_pos _ Hs). apply Rmult_lt_0_compat; auto.
    assert (w (turn x s) / w s < 1) by (apply Rmult_lt_reg_r with (w s); auto; unfold Rdiv; rewrite Rmult_assoc, Rinv_l by lra; lra). lra. }
  destruct (finite_upper w confs) as (wmax & Hw & HW).
  destruct (finite_lower w confs w_pos) as (wmin & Hm & HM).
  destruct (finite_upper (fun p : nat * list Z => w (turn (fst p) (snd p)) / w (snd p)) (list_prod (seq 0 (L * n)) confs)) as (ratio & Hr & HR).
  exists delta, wmax, ratio, wmin. repeat (split; [solve [auto]|]). intros x s Hx Hs.
  assert (Hp : In (x, s) (list_prod (seq 0 (L * n)) confs)) by (apply in_prod; auto; apply in_seq; lia). split.
  - intros Hl. specialize (HF _ Hp). unfold F in HF. cbn [fst snd] in HF. destruct (Rlt_dec _ _); [auto|contradiction].
  - specialize (HR _ Hp). cbn [fst snd] in HR. pose proof (w_pos s Hs). apply Rmult_le_compat_r with (r := w s) in HR; [|lra].
    replace (w (turn x s) / w s * w s) with (w (turn x s)) in HR by (field; lra). auto.
Qed.

(** * Updates of the sites of a slice in a given order *)
Fixpoint updates (flip : Z -> list Z -> list Z) (sites : list Z) (g : list Z -> R) : list Z -> R :=
  match sites with [] => g | i :: sites => update w (flip i) (updates flip sites g) end.
Lemma moves_updates flip g : forall sites s, uniform_mean (length sites) (fun us => g (moves w flip sites us s)) = updates flip sites g s.
Proof.
  induction sites as [|i sites IH]; intros s; [reflexivity|]. cbn [length uniform_mean moves updates].
  unfold update, accept. rewrite <- step_RInt. apply RInt_ext. intros u _. unfold move. destruct (Rlt_dec _ _); rewrite IH; reflexivity.
Qed.

Variables (delta wmax ratio wmin : R).
Hypotheses (d_pos : 0 < delta) (wmax_pos : 0 < wmax) (ratio_pos : 0 < ratio) (wmin_pos : 0 < wmin).
Hypothesis w_range : forall s, In s confs -> wmin <= w s <= wmax.
Hypothesis gap : forall x s, (x < L * n)%nat -> In s confs ->
    (w (turn x s) < w s -> delta <= w (turn x s) * (1 - w (turn x s) / w s)) /\ w (turn x s) <= ratio * w s.
Notation Good := (good w confs).

Lemma turn_in x : (x < L * n)%nat -> flip_in w confs ratio (turn x).
Proof. intros Hx. split; [now apply turn_ok|]. intros s Hs. now apply gap. Qed.
Lemma turn_good x : (x < L * n)%nat -> Good (2 * wmax / delta) [turn x] (update w (turn x)).
Proof.
  intros Hx. apply update_good; auto.
  - exact w_pos.
  - apply fields_nodup.
  - now apply turn_ok.
  - intros s Hs. now apply gap.
  - intros s Hs E. exact (W_differ s x Hs Hx (eq_sym E)).
  - intros s Hs. now apply w_range.
Qed.

Fixpoint const (m : nat) : R := match m with O => 1 | S m => comp ratio 1 (2 * wmax / delta) (const m) end.
Lemma a0_pos : 0 < 2 * wmax / delta.
Proof. apply Rdiv_lt_0_compat; lra. Qed.
Lemma comp_pos k a b : 0 < a -> 0 < b -> 0 < comp ratio k a b.
Proof.
  intros Ha Hb. unfold comp. pose proof (pos_INR k). assert (0 <= 4 * INR k * (1 + ratio)) by (apply Rmult_le_pos; lra).
  assert (0 < (3 + 4 * INR k * (1 + ratio)) * b) by (apply Rmult_lt_0_compat; lra). lra.
Qed.
Lemma const_pos m : 0 < const m.
Proof. induction m; cbn [const]; [lra|]. apply comp_pos; auto. exact a0_pos. Qed.

Definition site_flip (l : nat) (i : Z) : list Z -> list Z := flipped n l (Z.to_nat i).
Lemma updates_good l sites : (l < L)%nat -> (forall i, In i sites -> (0 <= i < Z.of_nat n)%Z) ->
  Good (const (length sites)) (map (site_flip l) sites) (updates (site_flip l) sites).
Proof.
  intros Hl. induction sites as [|i sites IH]; intros H; cbn [length const map updates].
  - apply good_id. lra.
  - assert (Hi : (l * n + Z.to_nat i < L * n)%nat) by (apply site_pos; auto; specialize (H i (or_introl eq_refl)); lia).
    apply (good_comp w confs w_pos (fields_nodup _) ratio ltac:(lra) (2 * wmax / delta) _ [site_flip l i] (map (site_flip l) sites) (update w (site_flip l i)) (updates (site_flip l) sites)).
    + exact a0_pos.
    + apply const_pos.
    + intros f [<-|[]]. exact (turn_in _ Hi).
    + exact (turn_good _ Hi).
    + apply IH. intros; apply H; now right.
Qed.

Lemma choice_good a X (P : list Z -> (list Z -> R) -> list Z -> R) : 0 < a -> forall m i Q,
  (forall js, length js = m -> (forall t, (t < m)%nat -> (0 <= nth t js 0 <= Z.of_nat (i + t))%Z) -> Good a X (Q js)) ->
  Good a X (fun g s => choice_mean i m (fun js => Q js g s)).
Proof.
  intros Ha. induction m as [|m IH]; intros i Q H; cbn [choice_mean].
  - apply (H []); auto. intros t Ht; lia.
  - eapply good_ext; [|apply (good_avg w confs w_pos (fun j g s => choice_mean (S i) m (fun js => Q (Z.of_nat j :: js) g s)) (seq 0 (S i)) a X)].
    + intros g s _. unfold list_avg. rewrite seq_length. reflexivity.
    + discriminate.
    + exact Ha.
    + intros j Hj. apply in_seq in Hj. apply (IH (S i) (fun js => Q (Z.of_nat j :: js))). intros js Hjs Hv. apply H; [cbn; lia|].
      intros [|t] Ht; cbn [nth]; [lia|]. specialize (Hv t ltac:(lia)). lia.
Qed.

(** one slice *)
Definition slice_op (l : nat) (g : list Z -> R) (s : list Z) : R := choice_mean 0 n (fun js => uniform_mean n (fun us => g (step l (js, us) s))).
Definition slice_flips (l : nat) : list (list Z -> list Z) := map (site_flip l) (map Z.of_nat (seq 0 n)).
Lemma slice_good l : (l < L)%nat -> Good (const n) (slice_flips l) (slice_op l).
Proof.
  intros Hl.
  apply (good_ext w confs _ _ (fun g s => choice_mean 0 n (fun js => updates (site_flip l) (order_of js) g s))).
  { intros g s _. unfold slice_op. apply choice_mean_ext. intros js Hj Hv. unfold slice_step. cbn [fst snd].
    assert (E : length (order_of js) = n) by (unfold order_of; now rewrite fy_run_length, map_length).
    rewrite <- E at 1. rewrite E. pose proof (moves_updates (site_flip l) g (order_of js) s) as M. rewrite E in M. symmetry. exact M. }
  apply choice_good; [exact (fun _ g => g)|apply const_pos|]. intros js Hj Hv.
  assert (V : valid_choices js) by (intros t Ht; apply Hv; lia). pose proof (order_of_perm n js Hj V) as OP.
  eapply good_perm; [apply Permutation_map, OP|].
  assert (E : length (order_of js) = n) by (unfold order_of; now rewrite fy_run_length, map_length).
  rewrite <- E. apply updates_good; auto. intros i Hi. apply (Permutation_in _ OP) in Hi. apply in_map_iff in Hi as (x & <- & Hx). apply in_seq in Hx. lia.
Qed.

(** slices l, l+1, ... *)
Fixpoint slices_op (c l : nat) (g : list Z -> R) : list Z -> R := match c with O => g | S c => slice_op l (slices_op c (S l) g) end.
Fixpoint slices_const (c : nat) : R := match c with O => 1 | S c => comp ratio n (const n) (slices_const c) end.
Fixpoint slices_flips (c l : nat) : list (list Z -> list Z) := match c with O => [] | S c => slice_flips l ++ slices_flips c (S l) end.
Lemma slices_const_pos c : 0 < slices_const c.
Proof. induction c; cbn [slices_const]; [lra|]. apply comp_pos; auto. apply const_pos. Qed.
Lemma slices_good : forall c l, (l + c <= L)%nat -> Good (slices_const c) (slices_flips c l) (slices_op c l).
Proof.
  induction c as [|c IH]; intros l Hl; cbn [slices_const slices_flips slices_op].
  - apply good_id. lra.
  - assert (E : length (slice_flips l) = n) by (unfold slice_flips; now rewrite !map_length, seq_length). rewrite <- E at 1.
    apply (good_comp w confs w_pos (fields_nodup _) ratio ltac:(lra) (const n) (slices_const c) (slice_flips l) (slices_flips c (S l)) (slice_op l) (slices_op c (S l))).
    + apply const_pos.
    + apply slices_const_pos.
    + intros f Hf. unfold slice_flips in Hf. apply in_map_iff in Hf as (i & <- & Hi). apply in_map_iff in Hi as (x & <- & Hx). apply in_seq in Hx.
      apply turn_in. rewrite Nat2Z.id. apply site_pos; lia.
    + apply slice_good. lia.
    + apply IH. lia.
Qed.
Lemma all_flips x : (x < L * n)%nat -> In (turn x) (slices_flips L 0).
Proof.
  intros Hx. assert (Hn : (0 < n)%nat) by nia.
  assert (H : forall c l i q, (l <= q < l + c)%nat -> (i < n)%nat -> In (turn (q * n + i)) (slices_flips c l)).
  { induction c as [|c IH]; intros l i q Hq Hi; [lia|]. cbn [slices_flips]. apply in_or_app.
    destruct (Nat.eq_dec q l) as [->|]; [left|right; apply IH; lia].
    unfold slice_flips. rewrite map_map. apply in_map_iff. exists i. split; [|apply in_seq; lia]. unfold site_flip. now rewrite Nat2Z.id. }
  pose proof (Nat.div_mod x n ltac:(lia)) as E. replace x with (x / n * n + x mod n)%nat by lia. apply H.
  - split; [lia|]. apply Nat.div_lt_upper_bound; lia.
  - apply Nat.mod_upper_bound. lia.
Qed.

(** * Poincare inequality *)
Definition sweep_op : (list Z -> R) -> list Z -> R := slices_op L 0.
Definition sweep_energy (g : list Z -> R) : R := energy w confs (slices_flips L 0) g.
Lemma term_nonneg (g : list Z -> R) (f : list Z -> list Z) s : In s confs -> 0 <= w s * ((g s - g (f s)) * (g s - g (f s))).
Proof. intros Hs. apply Rmult_le_pos; [left; now apply w_pos|apply Rle_0_sqr]. Qed.
Lemma sweep_energy_pos g : 0 <= sweep_energy g.
Proof. apply total_nonneg. intros f _. apply total_nonneg. intros s Hs. now apply term_nonneg. Qed.
Lemma turn_diff g x s : (x < L * n)%nat -> In s confs -> Rabs (g s - g (turn x s)) <= sqrt (sweep_energy g / wmin).
Proof.
  intros Hx Hs. rewrite <- (sqrt_Rsqr_abs (g s - g (turn x s))). apply sqrt_le_1_alt.
  apply Rmult_le_reg_l with wmin; auto. replace (wmin * (sweep_energy g / wmin)) with (sweep_energy g) by (field; lra).
  apply Rle_trans with (w s * ((g s - g (turn x s)) * (g s - g (turn x s)))).
  - apply Rmult_le_compat_r; [apply Rle_0_sqr|now apply w_range].
  - unfold sweep_energy, energy.
    eapply Rle_trans; [|apply (total_term (fun f => total (fun s => w s * ((g s - g (f s)) * (g s - g (f s)))) confs) _ (turn x))].
    + apply (total_term (fun s => w s * ((g s - g (turn x s)) * (g s - g (turn x s))))); auto. intros. now apply term_nonneg.
    + intros f _. apply total_nonneg. intros s' Hs'. now apply term_nonneg.
    + now apply all_flips.
Qed.
Lemma any_diff g (D : R) : (forall x s, (x < L * n)%nat -> In s confs -> Rabs (g s - g (turn x s)) <= D) ->
  forall s s', In s confs -> In s' confs -> Rabs (g s - g s') <= INR (L * n) * D.
Proof.
  intros HD s s' Hs Hs'. apply fields_in in Hs as Hs1. apply fields_in in Hs' as Hs2. destruct Hs1 as [Ls Fs]. destruct Hs2 as [Ls' Fs'].
  set (m := fun k => firstn k s' ++ skipn k s).
  assert (Hm : forall k, In (m k) confs).
  { intros k. apply fields_in. split.
    - unfold m. rewrite app_length, firstn_length, skipn_length. lia.
    - apply List.Forall_forall. intros v Hv. rewrite List.Forall_forall in Fs, Fs'. apply in_app_or in Hv as [Hv|Hv].
      + apply Fs'. rewrite <- (firstn_skipn k s'). apply in_or_app. now left.
      + apply Fs. rewrite <- (firstn_skipn k s). apply in_or_app. now right. }
  assert (H : forall k, (k <= L * n)%nat -> Rabs (g s - g (m k)) <= INR k * D).
  { induction k as [|k IH]; intros Hk.
    - unfold m. cbn [firstn skipn app]. rewrite Rminus_diag_eq, Rabs_R0 by reflexivity. cbn. lra.
    - assert (St : m (S k) = m k \/ m (S k) = turn k (m k)).
      { assert (N : forall j t, (j < L * n)%nat -> nth j (m t) 0%Z = if (j <? t)%nat then nth j s' 0%Z else nth j s 0%Z).
        { intros j t Hj. unfold m. destruct (Nat.ltb_spec j t).
          - rewrite app_nth1 by (rewrite firstn_length; lia). rewrite <- (firstn_skipn t s') at 2. rewrite app_nth1; [reflexivity|rewrite firstn_length; lia].
          - rewrite app_nth2 by (rewrite firstn_length; lia). rewrite firstn_length. rewrite <- (firstn_skipn t s) at 2. rewrite app_nth2 by (rewrite firstn_length; lia).
            rewrite firstn_length. f_equal. lia. }
        assert (Lm : forall t, length (m t) = (L * n)%nat) by (intros t; specialize (Hm t); apply fields_in in Hm as [E _]; exact E).
        assert (V : forall a, length a = (L * n)%nat -> List.Forall (fun v => v = 0%Z \/ v = 1%Z) a -> nth k a 0%Z = 0%Z \/ nth k a 0%Z = 1%Z).
        { intros a La Fa. rewrite List.Forall_forall in Fa. apply Fa, nth_In. lia. }
        pose proof (V s Ls Fs) as V1. pose proof (V s' Ls' Fs') as V2.
        destruct (Z.eq_dec (nth k s 0%Z) (nth k s' 0%Z)) as [E|E]; [left|right].
        - apply (nth_ext _ _ 0%Z 0%Z); [now rewrite !Lm|]. intros j Hj. rewrite Lm in Hj. rewrite !N by auto.
          destruct (Nat.ltb_spec j (S k)), (Nat.ltb_spec j k); auto; try lia. replace j with k by lia. auto.
        - apply (nth_ext _ _ 0%Z 0%Z); [unfold turn; now rewrite lset_length, !Lm|]. intros j Hj. rewrite Lm in Hj. unfold turn. rewrite lset_nth_d by (rewrite Lm; lia).
          rewrite !N by lia. rewrite Nat.ltb_irrefl.
          destruct (Nat.eqb_spec k j); [subst j; replace (k <? S k)%nat with true by (symmetry; apply Nat.ltb_lt; lia); lia|].
          destruct (Nat.ltb_spec j (S k)), (Nat.ltb_spec j k); auto; lia. }
      rewrite S_INR. assert (D0 : 0 <= D) by (eapply Rle_trans; [apply Rabs_pos|apply (HD k s); [lia|auto]]).
      destruct St as [->| ->]; [specialize (IH ltac:(lia)); lra|].
      replace (g s - g (turn k (m k))) with ((g s - g (m k)) + (g (m k) - g (turn k (m k)))) by ring.
      eapply Rle_trans; [apply Rabs_triang|]. specialize (IH ltac:(lia)). specialize (HD k (m k) ltac:(lia) (Hm k)). lra. }
  specialize (H (L * n)%nat (Nat.le_refl _)). replace (m (L * n)%nat) with s' in H; auto.
  unfold m. rewrite <- Ls' at 1. rewrite firstn_all, skipn_all2 by lia. now rewrite app_nil_r.
Qed.

Definition ztot : R := total w confs.
Definition wmean (g : list Z -> R) : R := total (fun s => w s * g s) confs / ztot.
Lemma confs_some : exists s, In s confs.
Proof. exists (repeat 0%Z (L * n)). apply fields_in. split; [apply repeat_length|]. apply List.Forall_forall. intros x Hx. apply repeat_spec in Hx. auto. Qed.
Lemma ztot_pos : 0 < ztot.
Proof.
  destruct confs_some as [s Hs]. unfold ztot. eapply Rlt_le_trans; [apply (w_pos s Hs)|]. apply total_term; auto. intros s' Hs'. left. now apply w_pos.
Qed.
Lemma mean_diff g D : (forall s s', In s confs -> In s' confs -> Rabs (g s - g s') <= D) -> forall s, In s confs -> Rabs (g s - wmean g) <= D.
Proof.
  intros H s Hs. pose proof ztot_pos as Z0. apply Rabs_le.
  assert (B : forall s', In s' confs -> g s - D <= g s' <= g s + D).
  { intros s' Hs'. specialize (H s s' Hs Hs'). apply Rabs_le_between in H. lra. }
  assert (Lo : (g s - D) * ztot <= total (fun s => w s * g s) confs).
  { unfold ztot. rewrite <- total_scal. apply total_le. intros s' Hs'. pose proof (w_pos _ Hs'). rewrite Rmult_comm. apply Rmult_le_compat_l; [lra|apply B, Hs']. }
  assert (Up : total (fun s => w s * g s) confs <= (g s + D) * ztot).
  { unfold ztot. rewrite <- total_scal. apply total_le. intros s' Hs'. pose proof (w_pos _ Hs'). rewrite (Rmult_comm (g s + D)). apply Rmult_le_compat_l; [lra|apply B, Hs']. }
  unfold wmean. set (T := total _ _) in *. assert (E : T / ztot * ztot = T) by (field; lra). split; apply Rmult_le_reg_r with ztot; auto; lra.
Qed.

(** * Contraction *)
Definition gapc : R := Rmax 1 (ztot * (INR (L * n) * INR (L * n)) / wmin * slices_const L).
Definition rho : R := 1 - / gapc.
Notation Norm2 := (norm2 w confs).
Lemma gapc_ge : 1 <= gapc.
Proof. apply Rmax_l. Qed.
Lemma rho_range : 0 <= rho < 1.
Proof.
  unfold rho. pose proof gapc_ge. assert (0 < / gapc) by (apply Rinv_0_lt_compat; lra).
  assert (/ gapc <= / 1) by (apply Rinv_le_contravar; lra). rewrite Rinv_1 in H1. lra.
Qed.
Lemma sweep_loss g : Norm2 (fun s => g s - wmean g) <= gapc * loss w confs sweep_op g.
Proof.
  pose proof (slices_good L 0 ltac:(lia)) as G. pose proof (good_loss w confs w_pos _ _ _ g (slices_const_pos L) G) as LP. destruct (G g) as [_ GE].
  fold (sweep_energy g) in GE. fold sweep_op in *.
  set (e := sqrt (sweep_energy g / wmin)). pose proof (sweep_energy_pos g) as EP.
  assert (EE : e * e = sweep_energy g / wmin) by (apply sqrt_sqrt, Rmult_le_pos; [auto|left; now apply Rinv_0_lt_compat]).
  pose proof (mean_diff g _ (any_diff g e (fun x s => turn_diff g x s))) as MD.
  assert (N : Norm2 (fun s => g s - wmean g) <= ztot * (INR (L * n) * INR (L * n)) / wmin * sweep_energy g).
  { replace (ztot * (INR (L * n) * INR (L * n)) / wmin * sweep_energy g) with ((INR (L * n) * e) * (INR (L * n) * e) * ztot)
      by (replace ((INR (L * n) * e) * (INR (L * n) * e)) with (INR (L * n) * INR (L * n) * (e * e)) by ring; rewrite EE; field; lra).
    unfold ztot. rewrite <- total_scal. apply total_le. intros s Hs. rewrite Rmult_comm. pose proof (w_pos s Hs). apply Rmult_le_compat_r; [lra|].
    specialize (MD s Hs). apply Rsqr_le_abs_1. rewrite (Rabs_pos_eq (INR _ * e)); auto. apply Rmult_le_pos; [apply pos_INR|apply sqrt_pos]. }
  eapply Rle_trans; [exact N|].
  assert (C : 0 <= ztot * (INR (L * n) * INR (L * n)) / wmin).
  { pose proof ztot_pos. apply Rmult_le_pos; [|left; now apply Rinv_0_lt_compat]. apply Rmult_le_pos; [lra|]. apply Rmult_le_pos; apply pos_INR. }
  apply Rle_trans with (ztot * (INR (L * n) * INR (L * n)) / wmin * (slices_const L * loss w confs sweep_op g)).
  - apply Rmult_le_compat_l; auto.
  - rewrite <- Rmult_assoc. apply Rmult_le_compat_r; [exact LP|apply Rmax_r].
Qed.

Lemma slice_op_affine l g a s : slice_op l (fun s => a + g s) s = a + slice_op l g s.
Proof. apply slice_affine. Qed.
Lemma slice_op_ext l g h s : (forall s, g s = h s) -> slice_op l g s = slice_op l h s.
Proof. intros H. unfold slice_op. apply choice_mean_ext. intros. apply uniform_mean_ext. intros. apply H. Qed.
Lemma slices_op_ext c : forall l g h s, (forall s, g s = h s) -> slices_op c l g s = slices_op c l h s.
Proof. induction c as [|c IH]; intros l g h s H; cbn [slices_op]; auto. apply slice_op_ext. intros. now apply IH. Qed.
Lemma slices_op_affine c : forall l g a s, slices_op c l (fun s => a + g s) s = a + slices_op c l g s.
Proof.
  induction c as [|c IH]; intros l g a s; cbn [slices_op]; auto.
  rewrite <- slice_op_affine. apply slice_op_ext. intros. apply IH.
Qed.
Lemma slices_op_total c : forall l g, (l + c <= L)%nat -> total (fun s => w s * slices_op c l g s) confs = total (fun s => w s * g s) confs.
Proof.
  induction c as [|c IH]; intros l g Hl; cbn [slices_op]; auto. unfold slice_op. pose proof (slice_invariant n W L (slices_op c (S l) g) l ltac:(lia)) as H.
  unfold w, confs. rewrite H. apply IH. lia.
Qed.
Fixpoint iter (c : nat) (g : list Z -> R) : list Z -> R := match c with O => g | S c => sweep_op (iter c g) end.
Lemma iter_total c g : total (fun s => w s * iter c g s) confs = total (fun s => w s * g s) confs.
Proof. induction c as [|c IH]; cbn [iter]; auto. unfold sweep_op. rewrite slices_op_total by lia. exact IH. Qed.
Lemma iter_mean c g : wmean (iter c g) = wmean g.
Proof. unfold wmean. now rewrite iter_total. Qed.

Lemma sweep_contracts g : Norm2 (fun s => sweep_op g s - wmean g) <= rho * Norm2 (fun s => g s - wmean g).
Proof.
  set (m := wmean g). set (h := fun s => g s - m).
  assert (E : forall s, sweep_op h s = sweep_op g s - m).
  { intros s. unfold sweep_op, h. rewrite (slices_op_ext L 0 _ (fun s => - m + g s)) by (intros; ring). rewrite slices_op_affine. ring. }
  assert (M0 : wmean h = 0).
  { unfold wmean, h. rewrite (total_ext _ (fun s => w s * g s + (- m) * w s)) by (intros; ring). rewrite total_plus, total_scal. fold ztot.
    pose proof ztot_pos. unfold m, wmean. field. lra. }
  pose proof (sweep_loss h) as SL. rewrite M0 in SL. rewrite (norm2_ext w confs _ h) in SL by (intros; ring).
  unfold loss in SL. rewrite (norm2_ext w confs (fun s => sweep_op g s - m) (sweep_op h)) by (intros; now rewrite E).
  pose proof gapc_ge as G1. unfold rho. change (fun s => g s - wmean g) with h. set (a := Norm2 h) in *. set (b := Norm2 (sweep_op h)) in *.
  apply Rmult_le_reg_l with gapc; [lra|]. replace (gapc * ((1 - / gapc) * a)) with (gapc * a - a) by (field; lra). lra.
Qed.
Lemma iter_contracts c g : Norm2 (fun s => iter c g s - wmean g) <= rho ^ c * Norm2 (fun s => g s - wmean g).
Proof.
  induction c as [|c IH]; cbn [iter pow]; [lra|]. pose proof (sweep_contracts (iter c g)) as H. rewrite iter_mean in H.
  eapply Rle_trans; [exact H|]. rewrite Rmult_assoc. apply Rmult_le_compat_l; [apply rho_range|exact IH].
Qed.

Definition rate : R := sqrt rho.
Definition scale : R := 2 * sqrt (ztot / wmin).
Lemma rate_range : 0 <= rate < 1.
Proof. pose proof rho_range. split; [apply sqrt_pos|]. unfold rate. rewrite <- sqrt_1. apply sqrt_lt_1_alt. lra. Qed.
Lemma scale_pos : 0 <= scale.
Proof. unfold scale. pose proof (sqrt_pos (ztot / wmin)). lra. Qed.
Lemma rate_pow c : rate ^ c * rate ^ c = rho ^ c.
Proof. rewrite <- Rpow_mult_distr. unfold rate. rewrite sqrt_sqrt; [reflexivity|apply rho_range]. Qed.
Lemma iter_close c g B s : (forall s, In s confs -> Rabs (g s) <= B) -> In s confs -> Rabs (iter c g s - wmean g) <= scale * B * rate ^ c.
Proof.
  intros HB Hs. assert (B0 : 0 <= B) by (eapply Rle_trans; [apply Rabs_pos|apply (HB s Hs)]).
  assert (MD : forall s, In s confs -> Rabs (g s - wmean g) <= 2 * B).
  { apply mean_diff. intros s1 s2 H1 H2. pose proof (HB _ H1). pose proof (HB _ H2). unfold Rminus. eapply Rle_trans; [apply Rabs_triang|]. rewrite Rabs_Ropp. lra. }
  pose proof ztot_pos as Z0. pose proof rate_range as RR. pose proof (pow_le rate c (proj1 RR)) as PR.
  assert (N0 : Norm2 (fun s => g s - wmean g) <= 2 * B * (2 * B) * ztot).
  { unfold ztot. rewrite <- total_scal. apply total_le. intros s' Hs'. rewrite Rmult_comm. pose proof (w_pos s' Hs'). apply Rmult_le_compat_r; [lra|].
    specialize (MD s' Hs'). apply Rsqr_le_abs_1. rewrite (Rabs_pos_eq (2 * B)); auto. lra. }
  set (sq := sqrt (ztot / wmin)). assert (SQ : sq * sq = ztot / wmin) by (apply sqrt_sqrt, Rlt_le, Rdiv_lt_0_compat; auto).
  assert (SP : 0 <= sq) by apply sqrt_pos.
  assert (T : 0 <= scale * B * rate ^ c) by (apply Rmult_le_pos; [apply Rmult_le_pos; [apply scale_pos|auto]|auto]).
  rewrite <- (Rabs_pos_eq (scale * B * rate ^ c)) by auto. apply Rsqr_le_abs_0. unfold Rsqr.
  apply Rmult_le_reg_l with wmin; auto.
  replace (wmin * (scale * B * rate ^ c * (scale * B * rate ^ c))) with (rho ^ c * (2 * B * (2 * B) * ztot)).
  2:{ rewrite <- rate_pow. unfold scale. fold sq. replace ztot with (sq * sq * wmin) by (rewrite SQ; field; lra). ring. }
  eapply Rle_trans; [|apply Rmult_le_compat_l; [apply pow_le, rho_range|exact N0]].
  eapply Rle_trans; [|apply iter_contracts].
  eapply Rle_trans; [|apply (total_term (fun s => w s * ((iter c g s - wmean g) * (iter c g s - wmean g))) confs s); auto].
  - apply Rmult_le_compat_r; [apply Rle_0_sqr|now apply w_range].
  - intros s' Hs'. apply Rmult_le_pos; [left; now apply w_pos|apply Rle_0_sqr].
Qed.
End Mix.

Theorem sweeps_forget n W L : (forall s, In s (fields (L * n)) -> W s <> 0) ->
  (forall s x, In s (fields (L * n)) -> (x < L * n)%nat -> Rabs (W (turn x s)) <> Rabs (W s)) ->
  exists rate scale, 0 <= rate < 1 /\ 0 <= scale /\ forall c g B s, (forall s, In s (fields (L * n)) -> Rabs (g s) <= B) -> In s (fields (L * n)) ->
    Rabs (iter n W L c g s - total (fun s => Rabs (W s) * g s) (fields (L * n)) / total (fun s => Rabs (W s)) (fields (L * n))) <= scale * B * rate ^ c.
Proof.
  intros H1 H2. destruct (constants n W L H1) as (delta & wmax & ratio & wmin & Hd & Hx & Hr & Hm & HR & HG).
  eexists. eexists. split; [|split; [|intros c g B s HB Hs; exact (iter_close n W L H1 H2 delta wmax ratio wmin Hd Hx Hr Hm HR HG c g B s HB Hs)]].
  - eapply rate_range; eauto.
  - apply scale_pos.
Qed.
