(** Proofs about HashTable.v: simulation with a finite map. *)
From stdpp Require Import gmap strings list.
From Coq Require Import ZArith Lia.
From Verif Require Import Base BaseFacts HashTable HashTableSpec.

Section Facts.
Context {V : Type}.
Implicit Types (t : table V) (c : chain V) (m : gmap string V).

Lemma chain_insert_get c k v k' :
  chain_get (fst (chain_insert c k v)) k' = if String.eqb k' k then Some v else chain_get c k'.
Proof.
  induction c as [|[k0 w] c IH]; simpl.
  - reflexivity.
  - destruct (String.eqb_spec k k0); simpl.
    + subst. destruct (String.eqb_spec k' k0); auto.
    + destruct (chain_insert c k v) as [c' r] eqn:E; simpl in *.
      destruct (String.eqb_spec k' k0).
      * subst. destruct (String.eqb_spec k0 k); congruence.
      * auto.
Qed.

Lemma chain_insert_res c k v : snd (chain_insert c k v) = chain_get c k.
Proof.
  induction c as [|[k0 w] c IH]; simpl; auto.
  destruct (String.eqb_spec k k0); simpl; auto.
  destruct (chain_insert c k v) as [c' r]; simpl in *; auto.
Qed.

Lemma chain_insert_keys c k v :
  (fst (chain_insert c k v)).*1 = match chain_get c k with Some _ => c.*1 | None => c.*1 ++ [k] end.
Proof.
  induction c as [|[k0 w] c IH]; simpl; auto.
  destruct (String.eqb_spec k k0); simpl; auto.
  destruct (chain_insert c k v) as [c' r]; simpl in *.
  unfold fmap in *. simpl. rewrite IH. by destruct (chain_get c k).
Qed.

Lemma chain_get_notin c k : chain_get c k = None <-> k ∉ c.*1.
Proof.
  induction c as [|[k0 w] c IH]; simpl.
  - split; auto. intros _. apply not_elem_of_nil.
  - rewrite not_elem_of_cons. destruct (String.eqb_spec k k0).
    + split; [discriminate | intros [H _]; congruence].
    + rewrite IH. naive_solver.
Qed.

Lemma chain_get_elem c k v : NoDup (c.*1) -> chain_get c k = Some v <-> (k, v) ∈ c.
Proof.
  induction c as [|[k0 w] c IH]; simpl; intros Hn.
  - split; [discriminate | intros H; inversion H].
  - apply NoDup_cons in Hn as [Hk Hn]. rewrite elem_of_cons.
    destruct (String.eqb_spec k k0).
    + subst. split; [intros [= ->]; auto |].
      intros [[= ->] | H]; auto. exfalso. apply Hk. apply elem_of_list_fmap. by exists (k0, v).
    + rewrite IH; auto. naive_solver.
Qed.

Lemma chain_remove_res c k : snd (chain_remove c k) = chain_get c k.
Proof.
  induction c as [|[k0 w] c IH]; simpl; auto.
  destruct (String.eqb_spec k k0); simpl; auto.
  destruct (chain_remove c k) as [c' r]; simpl in *; auto.
Qed.

Lemma chain_remove_sub c k : sublist (fst (chain_remove c k)) c.
Proof.
  induction c as [|[k0 w] c IH]; simpl; auto.
  destruct (String.eqb_spec k k0); simpl.
  - by apply sublist_cons.
  - destruct (chain_remove c k) as [c' r]; simpl in *. by apply sublist_skip.
Qed.

Lemma chain_remove_get c k k' : NoDup (c.*1) ->
  chain_get (fst (chain_remove c k)) k' = if String.eqb k' k then None else chain_get c k'.
Proof.
  induction c as [|[k0 w] c IH]; simpl; intros Hn.
  - by destruct (String.eqb k' k).
  - apply NoDup_cons in Hn as [Hk Hn].
    destruct (String.eqb_spec k k0); simpl.
    + subst. destruct (String.eqb_spec k' k0); auto. subst. by apply chain_get_notin.
    + destruct (chain_remove c k) as [c' r] eqn:E; simpl in *.
      destruct (String.eqb_spec k' k0).
      * subst. destruct (String.eqb_spec k0 k); congruence.
      * auto.
Qed.

Lemma nth_error_lookup {A} (l : list A) i : nth_error l i = l !! i.
Proof. revert i; induction l; intros [|i]; simpl; auto. Qed.

Lemma sublist_fst (c c' : chain V) : sublist c c' -> sublist (c.*1) (c'.*1).
Proof. induction 1; simpl; constructor; auto. Qed.

Lemma sublist_NoDup' {A} (l l' : list A) : sublist l l' -> NoDup l' -> NoDup l.
Proof.
  induction 1 as [|x l l' Hs IH|x l l' Hs IH]; intros Hn; auto.
  - apply NoDup_cons in Hn as [H1 H2]. apply NoDup_cons. split; auto.
    intros Hx. apply H1. eapply elem_of_submseteq; [exact Hx|]. by apply sublist_submseteq.
  - apply NoDup_cons in Hn as [H1 H2]. auto.
Qed.

(** Simulation relation. *)
Record rel t m : Prop := {
  rel_len : Z.of_nat (length (buckets t)) = n_buckets t;
  rel_pos : (0 < n_buckets t < 2^31)%Z;
  rel_cnt : n_entries t = Z.of_nat (size m);
  rel_get : forall k i c, ht_index t k = Some i -> aget (buckets t) i = Some c ->
              chain_get c k = m !! k;
  rel_nd  : forall i c, aget (buckets t) i = Some c -> NoDup (c.*1);
  rel_idx : forall i c k, aget (buckets t) i = Some c -> k ∈ c.*1 -> ht_index t k = Some i
}.

Lemma ht_index_ok t k :
  Z.of_nat (length (buckets t)) = n_buckets t -> (0 < n_buckets t < 2^31)%Z ->
  exists i c, ht_index t k = Some i /\ (0 <= i < Z.of_nat (length (buckets t)))%Z /\
    aget (buckets t) i = Some c.
Proof.
  intros Hl Hp. unfold ht_index.
  assert (n_buckets t mod 2^32 = n_buckets t)%Z as -> by (apply Z.mod_small; lia).
  destruct (Z.eqb_spec (n_buckets t) 0); try lia.
  set (i := (Z.of_N (fnv1a k) mod n_buckets t)%Z).
  assert (0 <= i < n_buckets t)%Z by (apply Z.mod_pos_bound; lia).
  destruct (@aget_ex _ (buckets t) i) as [c Hc]; try lia.
  exists i, c. repeat split; auto; lia.
Qed.

Lemma alloc_rel nb : (0 < nb < 2^31)%Z -> rel (ht_alloc nb) ∅.
Proof.
  intros H. split; simpl.
  - rewrite repeat_length. lia.
  - done.
  - rewrite map_size_empty. done.
  - intros k i c _ Hc. apply aget_Some in Hc as [_ Hc]. apply nth_error_In, repeat_spec in Hc.
    subst. by rewrite lookup_empty.
  - intros i c Hc. apply aget_Some in Hc as [_ Hc]. apply nth_error_In, repeat_spec in Hc.
    subst. constructor.
  - intros i c k Hc Hin. apply aget_Some in Hc as [_ Hc]. apply nth_error_In, repeat_spec in Hc.
    subst. inversion Hin.
Qed.

Lemma ht_index_n t t' k : n_buckets t' = n_buckets t -> ht_index t' k = ht_index t k.
Proof. intros H. unfold ht_index. by rewrite H. Qed.

Lemma insert_sim t m k v : rel t m ->
  exists t', ht_insert t k v = Some (t', m !! k) /\ rel t' (<[k := v]> m).
Proof.
  intros [Hl Hp Hc Hg Hn Hi]. unfold ht_insert.
  destruct (@ht_index_ok t k) as (i & c & Ei & Hi' & Eb); auto.
  rewrite Ei; simpl. rewrite Eb; simpl.
  pose proof (chain_insert_res c k v) as Hr. pose proof (chain_insert_get c k v) as Hgg.
  pose proof (chain_insert_keys c k v) as Hk.
  destruct (chain_insert c k v) as [c' r]; simpl in *.
  rewrite aset_ok by auto; simpl. rewrite (Hg k i c) in Hr, Hk by auto. subst r.
  eexists; split; [reflexivity|]. split; simpl.
  - rewrite lset_length; auto.
  - auto.
  - destruct (m !! k) eqn:Em.
    + rewrite map_size_insert, Em. auto.
    + rewrite map_size_insert, Em. lia.
  - intros k' i' c0 E1 E2. rewrite (ht_index_n t) in E1 by auto.
    rewrite aget_lset in E2 by auto. destruct (Z.eqb_spec i i').
    + inversion E2; subst c0 i'. rewrite Hgg. destruct (String.eqb_spec k' k).
      * subst. by rewrite lookup_insert.
      * rewrite lookup_insert_ne by auto. eauto.
    + assert (k <> k') by congruence. rewrite lookup_insert_ne by auto. eauto.
  - intros i' c0 E2. rewrite aget_lset in E2 by auto. destruct (Z.eqb_spec i i'); eauto.
    inversion E2; subst c0 i'. rewrite Hk. destruct (m !! k) eqn:Em; eauto.
    apply NoDup_app. split; [eauto|]. split.
    + intros x Hx Hx'. apply elem_of_list_singleton in Hx'. subst x.
      apply (proj1 (chain_get_notin c k)); auto. rewrite (Hg k i c); auto.
    + apply NoDup_singleton.
  - intros i' c0 k' E2 Hin. rewrite (ht_index_n t) by auto.
    rewrite aget_lset in E2 by auto. destruct (Z.eqb_spec i i'); eauto.
    inversion E2; subst c0 i'. rewrite Hk in Hin. destruct (m !! k); eauto.
    apply elem_of_app in Hin as [Hin|Hin]; eauto.
    apply elem_of_list_singleton in Hin. congruence.
Qed.

Lemma get_sim t m k : rel t m -> ht_get t k = Some (m !! k).
Proof.
  intros [Hl Hp Hc Hg Hn Hi]. unfold ht_get.
  destruct (@ht_index_ok t k) as (i & c & Ei & Hi' & Eb); auto.
  rewrite Ei; simpl. rewrite Eb; simpl. f_equal. eauto.
Qed.

Lemma remove_sim t m k : rel t m ->
  exists t', ht_remove t k = Some (t', m !! k) /\ rel t' (delete k m).
Proof.
  intros [Hl Hp Hc Hg Hn Hi]. unfold ht_remove.
  destruct (@ht_index_ok t k) as (i & c & Ei & Hi' & Eb); auto.
  rewrite Ei; simpl. rewrite Eb; simpl.
  pose proof (chain_remove_res c k) as Hr. pose proof (@chain_remove_get c k) as Hgg.
  pose proof (chain_remove_sub c k) as Hs.
  destruct (chain_remove c k) as [c' r]; simpl in *.
  rewrite aset_ok by auto; simpl. rewrite (Hg k i c) in Hr by auto. subst r.
  eexists; split; [reflexivity|]. split; simpl.
  - rewrite lset_length; auto.
  - auto.
  - destruct (m !! k) eqn:Em.
    + rewrite map_size_delete, Em. assert (size m <> 0)%nat.
      { intros H0. apply map_size_empty_inv in H0. subst. by rewrite lookup_empty in Em. }
      lia.
    + rewrite delete_notin; auto.
  - intros k' i' c0 E1 E2. rewrite (ht_index_n t) in E1 by auto.
    rewrite aget_lset in E2 by auto. destruct (Z.eqb_spec i i').
    + inversion E2; subst c0 i'. rewrite Hgg by eauto. destruct (String.eqb_spec k' k).
      * subst. by rewrite lookup_delete.
      * rewrite lookup_delete_ne by auto. eauto.
    + assert (k <> k') by congruence. rewrite lookup_delete_ne by auto. eauto.
  - intros i' c0 E2. rewrite aget_lset in E2 by auto. destruct (Z.eqb_spec i i'); eauto.
    inversion E2; subst c0 i'. apply sublist_fst in Hs.
    eapply sublist_NoDup'; eauto.
  - intros i' c0 k' E2 Hin. rewrite (ht_index_n t) by auto.
    rewrite aget_lset in E2 by auto. destruct (Z.eqb_spec i i'); eauto.
    inversion E2; subst c0 i'. apply sublist_fst in Hs.
    eapply Hi; [exact Eb|]. eapply elem_of_submseteq; [exact Hin|]. by apply sublist_submseteq.
Qed.

Lemma run_sim ops : forall t m, rel t m ->
  exists t', ht_run t ops = Some (t', snd (map_run m ops)) /\ rel t' (fst (map_run m ops)).
Proof.
  induction ops as [|o ops IH]; intros t m Hr; simpl.
  - eauto.
  - assert (exists t1, ht_step t o = Some (t1, snd (map_step m o)) /\ rel t1 (fst (map_step m o)))
      as (t1 & E1 & R1).
    { destruct o; simpl.
      - by apply insert_sim.
      - rewrite (get_sim _ m) by auto. simpl. eauto.
      - by apply remove_sim. }
    destruct (map_step m o) as [m1 r] eqn:Em. simpl in *. rewrite E1. simpl.
    destruct (IH t1 m1 R1) as (t2 & E2 & R2).
    destruct (map_run m1 ops) as [m2 rs]. simpl in *. rewrite E2. simpl. eauto.
Qed.

(** DeleteHashTable *)
Lemma ht_delete_concat t : Z.of_nat (length (buckets t)) = n_buckets t ->
  ht_delete t = Some (map snd (concat (buckets t))).
Proof.
  intros Hl. unfold ht_delete.
  destruct (@for_range_inv _ (fun i fr => fr = map snd (concat (take (Z.to_nat i) (buckets t))))
     0 (n_buckets t) (fun i freed => let* c := aget (buckets t) i in Some (freed ++ map snd c)) [])
    as (st & E & H).
  - lia.
  - intros i s Hi ->. destruct (@aget_ex _ (buckets t) i) as [c Hc]; try lia.
    rewrite Hc. simpl. eexists; split; [reflexivity|].
    apply aget_Some in Hc as [_ Hc].
    replace (Z.to_nat (i + 1)) with (S (Z.to_nat i)) by lia.
    erewrite take_S_r; [|rewrite <- nth_error_lookup; eauto].
    rewrite concat_app, map_app. simpl. by rewrite app_nil_r.
  - done.
  - rewrite E, H. rewrite take_ge; auto. rewrite <- Hl. lia.
Qed.

Lemma NoDup_concat_buckets (bs : list (chain V)) (f : string -> nat) (n : nat) :
  (forall i c, bs !! i = Some c -> NoDup (c.*1)) ->
  (forall i c k, bs !! i = Some c -> k ∈ c.*1 -> f k = n + i)%nat ->
  NoDup ((concat bs).*1).
Proof.
  revert n. induction bs as [|c bs IH]; intros n Hn Hi; simpl.
  - constructor.
  - rewrite fmap_app. apply NoDup_app. split; [by apply (Hn 0)|]. split.
    + intros k Hk Hk'. pose proof (Hi 0 c k eq_refl Hk).
      apply elem_of_list_fmap in Hk' as ([k1 v1] & -> & Hin).
      apply elem_of_list_In, in_concat in Hin as (c' & Hc' & Hin).
      apply elem_of_list_In, elem_of_list_lookup in Hc' as [j Hj].
      assert (f k1 = n + S j)%nat.
      { apply (Hi (S j) c' k1); auto. apply elem_of_list_fmap. exists (k1, v1). split; auto.
        by apply elem_of_list_In. }
      simpl in *. lia.
    + apply (IH (S n)).
      * intros i c' H. by apply (Hn (S i)).
      * intros i c' k H Hk. rewrite (Hi (S i) c' k); auto. lia.
Qed.

Lemma delete_sim t m : rel t m ->
  exists l, ht_delete t = Some l /\ l ≡ₚ (map_to_list m).*2.
Proof.
  intros [Hl Hp Hc Hg Hn Hi]. rewrite ht_delete_concat by auto.
  eexists; split; [reflexivity|].
  enough (concat (buckets t) ≡ₚ map_to_list m) as H by (apply (fmap_Permutation snd) in H; exact H).
  assert (forall i c, buckets t !! i = Some c -> aget (buckets t) (Z.of_nat i) = Some c) as Hx.
  { intros i c H. apply aget_Some. rewrite Nat2Z.id, nth_error_lookup. split; auto; lia. }
  apply NoDup_Permutation.
  - apply (NoDup_fmap_1 fst).
    apply (NoDup_concat_buckets (buckets t)
      (fun k => match ht_index t k with Some i => Z.to_nat i | None => 0%nat end) 0).
    + intros; eauto.
    + intros i c k H Hk. erewrite Hi; eauto. lia.
  - apply NoDup_map_to_list.
  - intros [k v]. rewrite elem_of_map_to_list, elem_of_list_In, in_concat. split.
    + intros (c & H1 & H2). apply elem_of_list_In in H1, H2.
      apply elem_of_list_lookup in H1 as [i H1]. apply Hx in H1.
      rewrite <- (Hg k (Z.of_nat i) c); auto.
      * apply chain_get_elem; eauto.
      * eapply Hi; eauto. apply elem_of_list_fmap. by exists (k, v).
    + intros Hm. destruct (@ht_index_ok t k) as (i & c & Ei & Hi' & Eb); auto.
      rewrite <- (Hg k i c) in Hm by auto. apply chain_get_elem in Hm; eauto.
      exists c. split; [|by apply elem_of_list_In].
      apply aget_Some in Eb as [_ Eb]. by apply nth_error_In in Eb.
Qed.

End Facts.
