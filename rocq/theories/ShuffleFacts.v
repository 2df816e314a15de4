(** Proofs about bounded draws and the shuffle of Random.v *)
From Coq Require Import ZArith NArith List Lia Bool Permutation.
From Verif Require Import Base BaseFacts Random RandomSpec RandomFacts.
Import ListNotations.
Local Open Scope N_scope.

Lemma thresh_eq bound : 0 < bound -> bound < two64 -> bounded_thresh bound = two64 mod bound.
Proof.
  intros H0 H. unfold bounded_thresh. rewrite (N.mod_small (two64 - bound)) by lia.
  assert (two64 mod bound = (1 * bound + (two64 - bound)) mod bound) as -> by (f_equal; lia).
  rewrite N.add_comm, N.mod_add by lia. reflexivity.
Qed.

Lemma bounded_accept_lt bound r v : 0 < bound -> bounded_accept bound r = Some v -> v < bound.
Proof.
  intros H0. unfold bounded_accept. destruct (_ <=? _); intros E; inversion E.
  apply N.mod_lt. lia.
Qed.

Lemma bounded_unbiased bound : 0 < bound -> bound < two64 ->
  exists q, two64 < 2 * (q * bound) /\ q * bound <= two64 /\
  forall v, v < bound ->
    has_card (fun r => r < two64 /\ bounded_accept bound r = Some v) q.
Proof.
  intros H0 H. pose (T := two64 mod bound). pose (q := two64 / bound).
  assert (two64 = q * bound + T) as Ediv.
  { unfold q, T. pose proof (N.div_mod' two64 bound). lia. }
  assert (T < bound) as HT by (apply N.mod_lt; lia).
  assert (0 < q) as Hq.
  { apply N.div_str_pos. split; [auto|]. apply N.lt_le_incl; auto. }
  exists q. split; [nia|]. split; [nia|]. intros v Hv.
  assert (forall r, bounded_accept bound r = Some v <-> T <= r /\ r mod bound = v) as Hacc.
  { intros r. unfold bounded_accept. rewrite thresh_eq by auto. fold T.
    destruct (N.leb_spec T r); split; intros E.
    - inversion E; auto.
    - destruct E; congruence.
    - discriminate.
    - lia. }
  pose (r0 := if T <=? v then v else v + bound).
  assert (T <= r0 < T + bound) as Hr0 by (unfold r0; destruct (N.leb_spec T v); lia).
  assert (r0 mod bound = v) as Hr0m.
  { unfold r0. destruct (N.leb_spec T v).
    - now apply N.mod_small.
    - replace (v + bound) with (v + 1 * bound) by lia. rewrite N.mod_add by lia.
      now apply N.mod_small. }
  exists (fun k => r0 + k * bound). split; [|split].
  - intros k Hk. split; [|apply Hacc; split].
    + assert (k * bound + bound <= q * bound) by nia. lia.
    + nia.
    + rewrite N.mod_add by lia. auto.
  - intros k k' _ _ E. nia.
  - intros r [Hr Hac]. apply Hacc in Hac as [Hr1 Hr2].
    pose proof (N.div_mod' r bound) as Er. rewrite Hr2 in Er.
    exists ((r - r0) / bound).
    assert (exists k, r = r0 + k * bound) as [k Ek].
    { unfold r0. destruct (N.leb_spec T v).
      - exists (r / bound). lia.
      - assert (r / bound <> 0) by nia. exists (r / bound - 1). nia. }
    replace (r - r0) with (k * bound) by lia. rewrite N.div_mul by lia.
    split; [|auto]. nia.
Qed.

Lemma get_bounded_ok fuel : forall st bound v st', valid_seed st ->
  get_bounded fuel st bound = Some (v, st') ->
  v < bound /\ valid_seed st' /\
  exists k, (k < fuel)%nat /\ st' = steps (S k) st /\
    Forall (fun r => bounded_accept bound r = None) (outs k st) /\
    bounded_accept bound (nth k (outs (S k) st) 0) = Some v.
Proof.
  unfold get_bounded. intros st bound v st' V. destruct (N.eqb_spec bound 0); [discriminate|].
  revert st V. induction fuel; intros st V; cbn [get_bounded_loop]; [discriminate|].
  rewrite get_uint_ok by auto. cbn [obind].
  destruct (bounded_accept bound _) eqn:Ea.
  - intros E; inversion E; subst. split; [eapply bounded_accept_lt; eauto; lia|].
    split; [now apply step_state_valid|]. exists 0%nat.
    split; [lia|]. split; [reflexivity|]. split; [constructor|]. exact Ea.
  - intros E. apply IHfuel in E; [|now apply step_state_valid].
    destruct E as (H1 & H2 & k & Hk & Es & Hf & Hl). split; [auto|]. split; [auto|].
    exists (S k). split; [lia|]. split; [exact Es|]. split; [constructor; auto|]. exact Hl.
Qed.

Lemma get_bounded_none fuel : forall st bound, valid_seed st -> bound <> 0 ->
  get_bounded fuel st bound = None ->
  Forall (fun r => bounded_accept bound r = None) (outs fuel st).
Proof.
  unfold get_bounded. intros st bound V Hb. destruct (N.eqb_spec bound 0); [contradiction|].
  revert st V. induction fuel; intros st V; cbn [get_bounded_loop outs]; [constructor|].
  rewrite get_uint_ok by auto. cbn [obind].
  destruct (bounded_accept bound _) eqn:Ea; [discriminate|].
  intros E. constructor; auto. apply IHfuel; auto. now apply step_state_valid.
Qed.

Lemma outs_snoc k : forall st, outs (S k) st = outs k st ++ [nth k (outs (S k) st) 0].
Proof.
  induction k; intros st; [reflexivity|].
  change (outs (S (S k)) st)
    with (mul64 (step_word st) 1181783497276652981 :: outs (S k) (step_state st)).
  change (outs (S k) st) with (mul64 (step_word st) 1181783497276652981 :: outs k (step_state st)).
  cbn [app]. f_equal. apply IHk.
Qed.

(** Shuffle *)
Local Open Scope Z_scope.

(** effect of one step on the initialised prefix *)
Definition fy (l : list Z) (j : nat) : list Z :=
  if Nat.eqb j (length l) then l ++ [Z.of_nat (length l)]
  else lset l j (Z.of_nat (length l)) ++ [nth j l 0].

Lemma nth_error_app_at A (l : list A) x tl : nth_error (l ++ x :: tl) (length l) = Some x.
Proof. rewrite nth_error_app2, Nat.sub_diag by lia. reflexivity. Qed.

Lemma lset_app1 A (l tl : list A) i v : (i < length l)%nat -> lset (l ++ tl) i v = lset l i v ++ tl.
Proof.
  revert i; induction l; simpl; intros i H; [lia|]. destruct i; simpl; auto.
  rewrite IHl by lia. auto.
Qed.

Lemma lset_app2 A (l tl : list A) x v : lset (l ++ x :: tl) (length l) v = l ++ v :: tl.
Proof. induction l; simpl; congruence. Qed.

Lemma shuffle_step_ok pre x tl j : (j <= length pre)%nat ->
  shuffle_step (Z.of_nat (length pre)) (Z.of_nat j) (pre ++ x :: tl) = Some (fy pre j ++ tl).
Proof.
  intros Hj. unfold shuffle_step, fy.
  destruct (Nat.eqb_spec j (length pre)).
  - subst. rewrite Z.eqb_refl. cbn [obind].
    rewrite aset_ok by (rewrite app_length; simpl; lia). rewrite Nat2Z.id, lset_app2.
    rewrite <- app_assoc. reflexivity.
  - destruct (Z.eqb_spec (Z.of_nat j) (Z.of_nat (length pre))); [lia|].
    rewrite (aget_nth _ 0) by (rewrite app_length; simpl; lia). cbn [obind].
    rewrite Nat2Z.id, app_nth1 by lia.
    rewrite aset_ok by (rewrite app_length; simpl; lia). cbn [obind].
    rewrite Nat2Z.id, lset_app2.
    rewrite aset_ok by (rewrite app_length; simpl; lia).
    rewrite Nat2Z.id, lset_app1 by lia. rewrite <- app_assoc. reflexivity.
Qed.

Lemma fy_length l j : length (fy l j) = S (length l).
Proof.
  unfold fy. destruct (Nat.eqb _ _); rewrite app_length, ?lset_length; simpl; lia.
Qed.

Lemma lset_perm A (l : list A) j v d : (j < length l)%nat ->
  Permutation (lset l j v ++ [nth j l d]) (l ++ [v]).
Proof.
  revert j; induction l; simpl; intros j H; [lia|].
  destruct j; simpl.
  - rewrite <- !Permutation_cons_append. apply perm_swap.
  - constructor. apply IHl. lia.
Qed.

Lemma fy_perm l j : (j <= length l)%nat -> Permutation (fy l j) (l ++ [Z.of_nat (length l)]).
Proof.
  intros H. unfold fy. destruct (Nat.eqb_spec j (length l)); auto.
  apply lset_perm. lia.
Qed.

Lemma iota_S n : iota_Z (S n) = iota_Z n ++ [Z.of_nat n].
Proof. unfold iota_Z. rewrite seq_S, map_app. reflexivity. Qed.

Lemma iota_length n : length (iota_Z n) = n.
Proof. unfold iota_Z. now rewrite map_length, seq_length. Qed.

Lemma iota_in n x : In x (iota_Z n) <-> 0 <= x < Z.of_nat n.
Proof.
  unfold iota_Z. rewrite in_map_iff. split.
  - intros (y & <- & H). apply in_seq in H. lia.
  - intros H. exists (Z.to_nat x). rewrite in_seq. lia.
Qed.

(** folding choices, last choice outermost *)
Definition fy_run (js : list nat) : list Z := fold_left fy js [].

Lemma fy_run_snoc js j : fy_run (js ++ [j]) = fy (fy_run js) j.
Proof. unfold fy_run. now rewrite fold_left_app. Qed.

Lemma fy_run_length js : length (fy_run js) = length js.
Proof.
  induction js using rev_ind; auto. rewrite fy_run_snoc, fy_length, app_length; simpl. lia.
Qed.

Definition okc (js : list nat) : Prop := forall i, (i < length js)%nat -> (nth i js 0 <= i)%nat.

Lemma okc_snoc js j : okc (js ++ [j]) <-> okc js /\ (j <= length js)%nat.
Proof.
  unfold okc. rewrite app_length. simpl. split.
  - intros H. split.
    + intros i Hi. specialize (H i ltac:(lia)). now rewrite app_nth1 in H by lia.
    + specialize (H (length js) ltac:(lia)). rewrite app_nth2, Nat.sub_diag in H by lia. exact H.
  - intros [H1 H2] i Hi. destruct (Nat.lt_ge_cases i (length js)).
    + rewrite app_nth1 by lia. auto.
    + replace i with (length js) by lia. rewrite app_nth2, Nat.sub_diag by lia. exact H2.
Qed.

Lemma fy_run_perm js : okc js -> Permutation (fy_run js) (iota_Z (length js)).
Proof.
  induction js using rev_ind; intros H; [constructor|].
  apply okc_snoc in H as [H1 H2]. rewrite fy_run_snoc, app_length. simpl.
  rewrite Nat.add_1_r, iota_S.
  eapply perm_trans; [apply fy_perm; rewrite fy_run_length; auto|].
  rewrite fy_run_length. apply Permutation_app_tail. auto.
Qed.

Lemma lset_inj_at (l l' : list Z) j v : length l = length l' -> (j < length l)%nat ->
  lset l j v = lset l' j v -> nth j l 0 = nth j l' 0 -> l = l'.
Proof.
  intros Hl Hj E En. apply (nth_ext _ _ 0 0); auto. intros i Hi.
  destruct (Nat.eq_dec i j) as [->|]; auto.
  apply (f_equal (fun x => nth i x 0)) in E. rewrite !lset_nth_d in E by lia.
  destruct (Nat.eqb_spec j i); congruence.
Qed.

Lemma fy_inj l l' j j' : length l = length l' ->
  (forall x, In x l -> x < Z.of_nat (length l)) -> (forall x, In x l' -> x < Z.of_nat (length l)) ->
  (j <= length l)%nat -> (j' <= length l)%nat -> fy l j = fy l' j' -> l = l' /\ j = j'.
Proof.
  intros Hl Hm Hm' Hj Hj' E. unfold fy in E. rewrite <- Hl in E.
  destruct (Nat.eqb_spec j (length l)), (Nat.eqb_spec j' (length l)); apply app_inj_tail in E as [E1 E2].
  - split; congruence.
  - exfalso. assert (In (nth j' l' 0) l') by (apply nth_In; lia). apply Hm' in H. lia.
  - exfalso. assert (In (nth j l 0) l) by (apply nth_In; lia). apply Hm in H. lia.
  - assert (j = j') as ->.
    { destruct (Nat.eq_dec j j') as [|Hne]; auto. exfalso.
      apply (f_equal (fun x => nth j x 0)) in E1. rewrite !lset_nth_d, Nat.eqb_refl in E1 by lia.
      destruct (Nat.eqb_spec j' j); [congruence|].
      assert (In (nth j l' 0) l') by (apply nth_In; lia). apply Hm' in H. lia. }
    split; auto. eapply lset_inj_at; eauto; lia.
Qed.

Lemma fy_run_lt js x : okc js -> In x (fy_run js) -> x < Z.of_nat (length js).
Proof.
  intros H Hx. apply (Permutation_in _ (fy_run_perm _ H)) in Hx. apply iota_in in Hx. lia.
Qed.

Lemma fy_run_inj js : forall js', okc js -> okc js' -> length js = length js' ->
  fy_run js = fy_run js' -> js = js'.
Proof.
  induction js as [|j js IH] using rev_ind; intros js' H H' Hl E.
  - destruct js'; auto; discriminate.
  - destruct js' as [|j' js' _] using rev_ind; [rewrite app_length in Hl; simpl in Hl; lia|].
    rewrite !app_length in Hl; simpl in Hl.
    apply okc_snoc in H as [H1 H2]. apply okc_snoc in H' as [H1' H2'].
    rewrite !fy_run_snoc in E.
    apply fy_inj in E; rewrite ?fy_run_length; try lia.
    + destruct E as [E1 E2]. apply IH in E1; auto; [|lia]. congruence.
    + intros x Hx. now apply fy_run_lt.
    + intros x Hx. apply fy_run_lt in Hx; auto. lia.
Qed.

Lemma fy_run_surj n : forall pi, Permutation pi (iota_Z n) ->
  exists js, length js = n /\ okc js /\ fy_run js = pi.
Proof.
  induction n; intros pi HP.
  - exists []. repeat split; auto. intros i Hi; simpl in Hi; lia.
    apply Permutation_sym, Permutation_nil in HP. now subst.
  - assert (length pi = S n) as Hl by (rewrite (Permutation_length HP); apply iota_length).
    destruct pi as [|x pi' _] using rev_ind; [discriminate|].
    rewrite app_length in Hl; simpl in Hl.
    assert (exists l j, (j <= n)%nat /\ length l = n /\ fy l j = pi' ++ [x]) as (l & j & Hj & Hln & E).
    { destruct (Z.eq_dec x (Z.of_nat n)) as [->|Hx].
      - exists pi', n. repeat split; auto; [lia|]. unfold fy.
        replace (length pi') with n by lia. now rewrite Nat.eqb_refl.
      - assert (In (Z.of_nat n) (pi' ++ [x])) as Hin.
        { eapply Permutation_in; [apply Permutation_sym; exact HP|]. apply iota_in. lia. }
        apply in_app_iff in Hin as [Hin|[Hin|[]]]; [|congruence].
        apply (In_nth _ _ 0) in Hin as (j & Hj & Ej).
        exists (lset pi' j x), j. split; [lia|]. split; [rewrite lset_length; lia|].
        unfold fy. rewrite lset_length.
        destruct (Nat.eqb_spec j (length pi')); [lia|].
        f_equal.
        + apply (nth_ext _ _ 0 0); [now rewrite !lset_length|].
          intros i Hi. rewrite !lset_length in Hi.
          rewrite !lset_nth_d by (rewrite ?lset_length; lia).
          destruct (Nat.eqb_spec j i); auto. subst i.
          replace (length pi') with n by lia. auto.
        + rewrite lset_nth_d, Nat.eqb_refl by lia. auto. }
    destruct (IHn l) as (js & Hjl & Hok & Er).
    { apply Permutation_app_inv_r with (l := [Z.of_nat n]).
      rewrite <- iota_S. eapply perm_trans; [|exact HP]. rewrite <- E.
      apply Permutation_sym. rewrite <- Hln. apply fy_perm. lia. }
    exists (js ++ [j]). rewrite app_length; simpl. split; [lia|]. split.
    + apply okc_snoc. split; auto; lia.
    + rewrite fy_run_snoc, Er. auto.
Qed.

(** choices as C ints *)
Lemma nonneg_map js : Forall (fun z => 0 <= z) js -> map Z.of_nat (map Z.to_nat js) = js.
Proof. induction 1; simpl; auto. rewrite IHForall. f_equal. lia. Qed.

Lemma choices_nat js : valid_choices js -> exists ks, js = map Z.of_nat ks /\ okc ks.
Proof.
  intros H. exists (map Z.to_nat js). split.
  - rewrite nonneg_map; auto. apply Forall_forall. intros x Hx.
    apply (In_nth _ _ 0) in Hx as (i & Hi & <-). apply H; auto.
  - intros i Hi. rewrite map_length in Hi. change O with (Z.to_nat 0). rewrite map_nth.
    specialize (H i Hi). lia.
Qed.

Lemma nat_choices ks : okc ks -> valid_choices (map Z.of_nat ks).
Proof.
  intros H i Hi. rewrite map_length in Hi. assert (nth i (map Z.of_nat ks) 0 = Z.of_nat (nth i ks 0%nat)) as ->
    by exact (map_nth Z.of_nat ks 0%nat i). specialize (H i Hi). lia.
Qed.

Lemma shuffle_choices_ok ks : forall pre rest tl,
  length rest = length ks ->
  (forall i, (i < length ks)%nat -> (nth i ks 0 <= length pre + i)%nat) ->
  shuffle_choices (Z.of_nat (length pre)) (map Z.of_nat ks) (pre ++ rest ++ tl) =
  Some (fold_left fy ks pre ++ tl).
Proof.
  induction ks as [|k ks IH]; intros pre rest tl Hl Hk; simpl.
  - destruct rest; [|discriminate]. reflexivity.
  - destruct rest as [|x rest]; [discriminate|]. simpl in Hl. cbn [app].
    rewrite shuffle_step_ok by (specialize (Hk 0%nat); simpl in Hk; lia).
    replace (Z.of_nat (length pre) + 1) with (Z.of_nat (length (fy pre k)))
      by (rewrite fy_length; lia).
    apply IH; [lia|]. intros i Hi. rewrite fy_length. specialize (Hk (S i)). simpl in Hk. lia.
Qed.

Lemma shuffle_choices_run ks sq : okc ks -> (length ks <= length sq)%nat ->
  shuffle_choices 0 (map Z.of_nat ks) sq = Some (fy_run ks ++ skipn (length ks) sq).
Proof.
  intros H Hl. rewrite <- (firstn_skipn (length ks) sq) at 1.
  apply (shuffle_choices_ok ks [] (firstn (length ks) sq)); auto.
  rewrite firstn_length. lia.
Qed.

(** relation of the loop with draws to the loop with choices *)
Lemma shuffle_loop_choices fuel n : forall i st sq st' sq', 0 <= i -> valid_seed st ->
  for_from n i
    (fun i '(st, seq) =>
       let* (j, st') := get_bounded fuel st (Z.to_N (i + 1)) in
       let* seq' := shuffle_step i (Z.of_N j) seq in
       Some (st', seq')) (st, sq) = Some (st', sq') ->
  valid_seed st' /\
  exists js, length js = n /\ shuffle_choices i js sq = Some sq' /\
    (forall k, (k < n)%nat -> 0 <= nth k js 0 <= i + Z.of_nat k).
Proof.
  induction n; intros i st sq st' sq' Hi V; cbn [for_from].
  - intros E; inversion E; subst. split; auto. exists []. repeat split; auto; lia.
  - intros E. apply obind_Some in E as ((st1 & sq1) & E1 & E2).
    apply obind_Some in E1 as ((j & st1') & Ej & E1).
    apply obind_Some in E1 as (sq1' & Es & E1). inversion E1; subst st1' sq1'.
    apply get_bounded_ok in Ej as (Hj & V1 & _); auto.
    apply IHn in E2 as (V' & js & Hl & Ec & Hb); [|lia|auto].
    split; auto. exists (Z.of_N j :: js). simpl. rewrite Es. repeat split; auto.
    all: destruct k; [lia|]; specialize (Hb k ltac:(lia)); lia.
Qed.

Lemma shuffle_spec fuel st n sq st' sq' : valid_seed st -> 0 <= n ->
  n <= Z.of_nat (length sq) ->
  shuffle fuel st n sq = Some (st', sq') ->
  valid_seed st' /\
  Permutation (firstn (Z.to_nat n) sq') (iota_Z (Z.to_nat n)) /\
  skipn (Z.to_nat n) sq' = skipn (Z.to_nat n) sq /\
  exists js, Z.of_nat (length js) = n /\ valid_choices js /\ shuffle_choices 0 js sq = Some sq'.
Proof.
  intros V Hn Hl E. unfold shuffle, for_range in E. rewrite Z.sub_0_r in E.
  apply shuffle_loop_choices in E as (V' & js & Hjl & Ec & Hb); [|lia|auto].
  split; auto.
  assert (valid_choices js) as Hv by (intros i Hi; rewrite Hjl in Hi; specialize (Hb i Hi); lia).
  destruct (choices_nat js Hv) as (ks & -> & Hok).
  assert (length ks = Z.to_nat n) as Hkl by (rewrite map_length in Hjl; auto).
  pose proof Ec as Ec'. rewrite shuffle_choices_run in Ec' by (auto; lia). inversion Ec'; subst sq'.
  rewrite <- Hkl. split; [|split].
  - rewrite firstn_app, fy_run_length, Nat.sub_diag, firstn_O, app_nil_r, firstn_all2
      by (rewrite fy_run_length; auto).
    now apply fy_run_perm.
  - rewrite skipn_app, fy_run_length, Nat.sub_diag, skipn_O, skipn_all2; auto.
    rewrite fy_run_length; auto.
  - exists (map Z.of_nat ks). repeat split; auto. rewrite map_length. lia.
    apply Hv; auto. apply Hv; auto.
Qed.

Lemma shuffle_bijective n pi sq : Permutation pi (iota_Z n) -> length sq = n ->
  exists! js, length js = n /\ valid_choices js /\ shuffle_choices 0 js sq = Some pi.
Proof.
  intros HP Hl. destruct (fy_run_surj n pi HP) as (ks & Hk & Hok & Er).
  exists (map Z.of_nat ks). split.
  - rewrite map_length. repeat split; auto; try (apply nat_choices; auto).
    rewrite shuffle_choices_run by (auto; lia).
    rewrite skipn_all2, app_nil_r by lia. congruence.
  - intros js' (Hl' & Hv' & E'). destruct (choices_nat js' Hv') as (ks' & -> & Hok').
    rewrite map_length in Hl'.
    rewrite shuffle_choices_run, skipn_all2, app_nil_r in E' by (auto; lia).
    inversion E'. f_equal. apply fy_run_inj; auto; congruence.
Qed.
