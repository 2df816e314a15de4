(** Proofs about Profiler.v *)
From stdpp Require Import gmap strings list.
From Coq Require Import ZArith NArith Lia Sorting.Sorted.
From Verif Require Import Base BaseFacts Random HashTable HashTableSpec HashTableFacts Profiler ProfilerSpec.

(** all entries of a table, in the order in which the buckets are visited *)
Lemma concat_perm {V} (t : table V) m : rel t m -> concat (buckets t) ≡ₚ map_to_list m.
Proof.
  intros [Hl Hp Hc Hg Hn Hi].
  assert (forall i c, buckets t !! i = Some c -> aget (buckets t) (Z.of_nat i) = Some c) as Hx.
  { intros i c H. apply aget_Some. rewrite Nat2Z.id, nth_error_lookup. split; auto; lia. }
  apply NoDup_Permutation.
  - apply (NoDup_fmap_1 fst).
    apply (NoDup_concat_buckets (buckets t)
      (fun k => match ht_index t k with Some i => Z.to_nat i | None => 0%nat end) 0).
    + intros; eauto.
    + intros i c k H Hk. erewrite Hi; eauto. lia.
  - apply NoDup_map_to_list.
  - intros [k v]. rewrite elem_of_map_to_list, elem_of_list_In, in_concat. split.
    + intros (c & H1 & H2). apply elem_of_list_In in H1, H2.
      apply elem_of_list_lookup in H1 as [i H1]. apply Hx in H1.
      rewrite <- (Hg k (Z.of_nat i) c); auto.
      * apply chain_get_elem; eauto.
      * eapply Hi; eauto. apply elem_of_list_fmap. by exists (k, v).
    + intros Hm. destruct (ht_index_ok t k) as (i & c & Ei & Hi' & Eb); auto.
      rewrite <- (Hg k i c) in Hm by auto. apply chain_get_elem in Hm; eauto.
      exists c. split; [|by apply elem_of_list_In].
      apply aget_Some in Eb as [_ Eb]. by apply nth_error_In in Eb.
Qed.

Lemma profile_entries_ok pf m : rel (pf_table pf) m ->
  profile_entries pf = Some (concat (buckets (pf_table pf))).
Proof.
  intros R. pose proof (concat_perm _ _ R) as Hp. pose proof (rel_len _ _ R) as Hl.
  pose proof (rel_cnt _ _ R) as Hc. set (t := pf_table pf) in *.
  assert (Z.of_nat (length (concat (buckets t))) = n_entries t) as Hlen.
  { rewrite Hc. f_equal. rewrite Hp. reflexivity. }
  unfold profile_entries. fold t.
  match goal with |- for_range _ _ ?body _ = _ =>
  destruct (@for_range_inv _ (fun i fr => fr = concat (take (Z.to_nat i) (buckets t)))
     0 (n_buckets t) body []) as (st & E & H) end.
  - lia.
  - intros i s Hi ->. destruct (@aget_ex _ (buckets t) i) as [c Hcc]; try lia.
    rewrite Hcc. cbn [obind].
    apply aget_Some in Hcc as [_ Hcc].
    assert (concat (take (Z.to_nat i) (buckets t)) ++ c = concat (take (Z.to_nat (i+1)) (buckets t))) as E.
    { replace (Z.to_nat (i + 1)) with (S (Z.to_nat i)) by lia.
      erewrite take_S_r; [|rewrite <- nth_error_lookup; eauto].
      rewrite concat_app. simpl. by rewrite app_nil_r. }
    rewrite <- app_length, E.
    destruct (Z.leb_spec (Z.of_nat (length (concat (take (Z.to_nat (i + 1)) (buckets t))))) (n_entries t)).
    + eexists; split; [reflexivity|]. done.
    + exfalso. rewrite <- (take_drop (Z.to_nat (i+1)) (buckets t)) in Hlen.
      rewrite concat_app, app_length in Hlen. lia.
  - done.
  - rewrite E, H. rewrite take_ge; auto. lia.
Qed.

(** ** abstraction: a map from names to entries *)
Definition zero_entry := mk_pentry 0 0 0.
Definition upd_begin (e : pentry) (t : N) : pentry :=
  if (pe_start e =? 0)%N then mk_pentry t (pe_calls e + 1) (pe_total e) else e.
Definition upd_end (e : pentry) (t : N) : pentry :=
  mk_pentry 0 (pe_calls e) ((pe_total e + (t + two64 - pe_start e) mod two64) mod two64)%N.

Definition estep (o : option pentry) (e : pevent) : option pentry :=
  match e with
  | PBegin _ _ t => Some (upd_begin (default zero_entry o) t)
  | PEnd _ _ t => match o with Some e => Some (upd_end e t) | None => None end
  end.

(** the pointers in the table, and the entry of every name *)
Definition prel (pf : prof) (m : gmap string nat) (M : string -> option pentry) : Prop :=
  rel (pf_table pf) m /\
  (forall nm, M nm = p ← m !! nm; pf_heap pf !! p) /\
  (forall nm p, m !! nm = Some p -> (p < length (pf_heap pf))%nat) /\
  (forall nm nm' p, m !! nm = Some p -> m !! nm' = Some p -> nm = nm').

Lemma aget_lookup {A} (l : list A) (i : nat) : aget l (Z.of_nat i) = l !! i.
Proof.
  unfold aget. destruct (Z.ltb_spec (Z.of_nat i) 0); [lia|]. by rewrite Nat2Z.id, nth_error_lookup.
Qed.

Lemma lset_insert {A} (l : list A) i x : lset l i x = <[i := x]> l.
Proof. revert i; induction l; intros [|i]; simpl; f_equal; auto. Qed.

Lemma aset_insert {A} (l : list A) (i : nat) x : (i < length l)%nat ->
  aset l (Z.of_nat i) x = Some (<[i := x]> l).
Proof. intros H. rewrite aset_ok by lia. by rewrite Nat2Z.id, lset_insert. Qed.

Lemma heap_upd (hp : list pentry) (m : gmap string nat) nm p e :
  m !! nm = Some p -> (p < length hp)%nat ->
  (forall nm nm' p, m !! nm = Some p -> m !! nm' = Some p -> nm = nm') ->
  forall nm', (q ← m !! nm'; <[p := e]> hp !! q) =
              (if String.eqb nm' nm then Some e else (q ← m !! nm'; hp !! q)).
Proof.
  intros Hm Hp Hi nm'. destruct (String.eqb_spec nm' nm) as [->|Hn].
  - rewrite Hm. simpl. by apply list_lookup_insert.
  - destruct (m !! nm') as [q|] eqn:E; simpl; [|done].
    apply list_lookup_insert_ne. intros ->. apply Hn. eauto.
Qed.

Lemma pstep_ok pf m M e : prel pf m M ->
  exists pf' m', pstep pf e = Some pf' /\
    prel pf' m' (fun nm => if String.eqb nm (ev_name e) then estep (M nm) e else M nm).
Proof.
  intros (R & HM & Hb & Hi). destruct e as [n th t|n th t]; simpl.
  - unfold profile_begin. set (nm := thread_name n th).
    rewrite (get_sim _ _ nm R). cbn [obind].
    destruct (m !! nm) as [p|] eqn:Em.
    + cbn [obind]. rewrite aget_lookup. pose proof (Hb _ _ Em) as Hp.
      destruct (lookup_lt_is_Some_2 _ _ Hp) as [e He]. rewrite He. cbn [obind].
      assert (M nm = Some e) as HMn by (rewrite HM, Em; done).
      destruct (N.eqb_spec (pe_start e) 0) as [Es|Es].
      * rewrite aset_insert by auto. cbn [obind]. eexists _, m. split; [reflexivity|].
        split; [exact R|]. split; [|split; [|exact Hi]].
        -- intros nm'. cbn [pf_heap]. rewrite heap_upd with (nm := nm) by auto.
           destruct (String.eqb_spec nm' nm) as [->|]; [|apply HM].
           rewrite HMn. simpl. unfold upd_begin. by rewrite Es.
        -- cbn [pf_heap]. intros nm' q Hq. rewrite insert_length. eauto.
      * eexists _, m. split; [reflexivity|]. split; [exact R|]. split; [|split; [exact Hb|exact Hi]].
        intros nm'. destruct (String.eqb_spec nm' nm) as [->|]; [|apply HM].
        cbn [pf_heap]. rewrite <- HM, HMn. simpl. unfold upd_begin.
        destruct (N.eqb_spec (pe_start e) 0); done.
    + destruct (insert_sim _ _ nm (length (pf_heap pf)) R) as (tb & Et & R').
      rewrite Et. cbn [obind]. rewrite aget_lookup.
      rewrite lookup_app_r, Nat.sub_diag by lia. cbn [lookup list_lookup obind pe_start].
      rewrite N.eqb_refl. rewrite aset_insert by (rewrite app_length; simpl; lia).
      cbn [obind]. eexists _, _. split; [reflexivity|]. split; [exact R'|].
      assert (forall nm1 nm2 p, <[nm:=length (pf_heap pf)]> m !! nm1 = Some p ->
               <[nm:=length (pf_heap pf)]> m !! nm2 = Some p -> nm1 = nm2) as Hi'.
      { intros nm1 nm2 p H1 H2.
        apply lookup_insert_Some in H1 as [[<- <-]|[? H1]], H2 as [[<- H2]|[? H2]]; eauto.
        - apply Hb in H2. lia.
        - subst p. apply Hb in H1. lia. }
      split; [|split; [|exact Hi']].
      * intros nm'. cbn [pf_heap].
        rewrite heap_upd with (nm := nm); [|apply lookup_insert|rewrite app_length; simpl; lia|exact Hi'].
        destruct (String.eqb_spec nm' nm) as [->|Hn].
        -- rewrite HM, Em. simpl. done.
        -- rewrite lookup_insert_ne by auto. rewrite HM.
           destruct (m !! nm') as [q|] eqn:Eq; simpl; [|done]. by rewrite lookup_app_l by eauto.
      * cbn [pf_heap]. intros nm' q Hq. rewrite insert_length, app_length. simpl.
        apply lookup_insert_Some in Hq as [[_ <-]|[_ Hq]]; [lia|]. apply Hb in Hq. lia.
  - unfold profile_end. set (nm := thread_name n th).
    rewrite (get_sim _ _ nm R). cbn [obind].
    destruct (m !! nm) as [p|] eqn:Em.
    + rewrite aget_lookup. pose proof (Hb _ _ Em) as Hp.
      destruct (lookup_lt_is_Some_2 _ _ Hp) as [e He]. rewrite He. cbn [obind].
      assert (M nm = Some e) as HMn by (rewrite HM, Em; done).
      rewrite aset_insert by auto. cbn [obind]. eexists _, m. split; [reflexivity|].
      split; [exact R|]. split; [|split; [|exact Hi]].
      * intros nm'. cbn [pf_heap]. rewrite heap_upd with (nm := nm) by auto.
        destruct (String.eqb_spec nm' nm) as [->|]; [|apply HM]. by rewrite HMn.
      * cbn [pf_heap]. intros nm' q Hq. rewrite insert_length. eauto.
    + eexists _, m. split; [reflexivity|]. split; [exact R|]. split; [|split; [exact Hb|exact Hi]].
      intros nm'. destruct (String.eqb_spec nm' nm) as [->|]; [|apply HM].
      by rewrite HM, Em.
Qed.

Lemma events_of_cons nm e es : events_of nm (e :: es) =
  if String.eqb nm (ev_name e) then e :: events_of nm es else events_of nm es.
Proof.
  unfold events_of. rewrite filter_cons. destruct (String.eqb_spec nm (ev_name e)) as [->|H].
  - by rewrite decide_True.
  - by rewrite decide_False by congruence.
Qed.

Lemma prun_ok es : forall pf m M, prel pf m M ->
  exists pf' m', prun pf es = Some pf' /\
    prel pf' m' (fun nm => foldl estep (M nm) (events_of nm es)).
Proof.
  induction es as [|e es IH]; intros pf m M H.
  - exists pf, m. split; [done|]. exact H.
  - destruct (pstep_ok _ _ _ e H) as (pf1 & m1 & E1 & H1). cbn [prun]. rewrite E1. cbn [obind].
    destruct (IH _ _ _ H1) as (pf2 & m2 & E2 & H2). exists pf2, m2. split; [exact E2|].
    destruct H2 as (A & B & C & D). split; [exact A|]. split; [|split; [exact C|exact D]].
    intros nm. rewrite <- B. rewrite events_of_cons. destruct (String.eqb nm (ev_name e)); done.
Qed.

Lemma prel_start t0 : prel (profile_start t0) ∅ (fun _ => None).
Proof.
  split; [apply alloc_rel; lia|]. split; [|split].
  - intros nm. by rewrite lookup_empty.
  - intros nm p. by rewrite lookup_empty.
  - intros nm nm' p. by rewrite lookup_empty.
Qed.

(** ** durations *)
Definition lists_ind2 {A} (P : list A -> Prop) (H0 : P []) (H1 : forall x, P [x])
  (H2 : forall x y l, P l -> P (x :: y :: l)) : forall l, P l :=
  fix go l := match l with [] => H0 | [x] => H1 x | x :: y :: l' => H2 x y l' (go l') end.

Lemma sum_bound es : forall lo B ds r, blocks es = Some (ds, r) ->
  StronglySorted N.le (map ev_time es) -> Forall (fun e => lo <= ev_time e <= B)%N es -> (lo <= B)%N ->
  (sumN ds + lo <= B)%N.
Proof.
  induction es as [|x|x y es IH] using lists_ind2; intros lo B ds r E S F Hlo.
  - injection E as <- <-. simpl. lia.
  - destruct x; [|discriminate]. injection E as <- <-. simpl. lia.
  - destruct x as [n th t|]; [|discriminate]. destruct y as [|n' th' t']; [discriminate|].
    cbn [blocks] in E. destruct (blocks es) as [[ds' r']|] eqn:Eb; [|discriminate].
    injection E as <- <-. simpl in S. inversion_clear S as [|? ? S1 S1']. inversion_clear S1 as [|? ? S2 S2'].
    rewrite !Forall_cons in F. destruct F as (F1 & F2 & F). simpl in F1, F2.
    apply Forall_cons in S1' as [S1' _].
    specialize (IH t' B ds' r' eq_refl S2). simpl. fold (sumN ds').
    assert (sumN ds' + t' <= B)%N; [|lia]. apply IH; [|lia].
    apply Forall_forall. intros e He. rewrite Forall_forall in F. specialize (F e He).
    rewrite Forall_forall in S2'. split; [|lia]. apply S2'. apply elem_of_list_In, in_map.
    by apply elem_of_list_In.
Qed.

Lemma foldl_blocks es : forall c tot ds r, blocks es = Some (ds, r) ->
  StronglySorted N.le (map ev_time es) -> Forall (fun e => 0 < ev_time e < two64)%N es ->
  (tot + sumN ds < two64)%N ->
  forall e0, pe_start e0 = 0%N -> pe_calls e0 = c -> pe_total e0 = tot ->
  foldl estep (Some e0) es = Some (mk_pentry (default 0%N r) (c + n_blocks ds r) (tot + sumN ds)).
Proof.
  induction es as [|x|x y es IH] using lists_ind2; intros c tot ds r E S F Hs e0 H0 H1 H2.
  - injection E as <- <-. destruct e0; simpl in *. subst. unfold n_blocks. simpl. f_equal. f_equal; lia.
  - destruct x; [|discriminate]. injection E as <- <-. destruct e0; simpl in *. subst.
    unfold upd_begin, n_blocks. simpl. f_equal. f_equal; lia.
  - destruct x as [n th t|]; [|discriminate]. destruct y as [|n' th' t']; [discriminate|].
    cbn [blocks] in E. destruct (blocks es) as [[ds' r']|] eqn:Eb; [|discriminate].
    injection E as <- <-. simpl in S. inversion_clear S as [|? ? S1 S1']. inversion_clear S1 as [|? ? S2 S2'].
    rewrite !Forall_cons in F. destruct F as (F1 & F2 & F). simpl in F1, F2.
    apply Forall_cons in S1' as [S1' _].
    destruct e0 as [st0 c0 t0]; simpl in H0, H1, H2. subst.
    cbn [foldl estep default]. unfold upd_begin at 1. cbn [pe_start pe_calls pe_total N.eqb].
    simpl in Hs. fold (sumN ds') in Hs.
    assert ((t' + two64 - t) mod two64 = t' - t)%N as Em.
    { replace (t' + two64 - t)%N with ((t' - t) + 1 * two64)%N by lia.
      rewrite N.mod_add by done. apply N.mod_small. lia. }
    cbn [foldl estep]. unfold upd_end. cbn [pe_start pe_calls pe_total].
    cbn [foldl estep default]. unfold upd_begin, upd_end. cbn [pe_start pe_calls pe_total N.eqb default].
    simpl. rewrite Em. rewrite (N.mod_small (tot + (t' - t))) by lia.
    erewrite (IH (c + 1)%Z (tot + (t' - t))%N ds' r' eq_refl); auto; [|lia].
    f_equal. f_equal; unfold n_blocks; simpl; fold (sumN ds'); lia.
Qed.

Lemma foldl_estep_some es : forall o, is_Some (foldl estep o es) <->
  is_Some o \/ exists n th t, PBegin n th t ∈ es.
Proof.
  induction es as [|e es IH]; intros o; simpl.
  - split; [auto|]. intros [H|(n & th & t & H)]; [auto|]. by apply elem_of_nil in H.
  - rewrite IH. destruct e as [n th t|n th t]; simpl.
    + split; intros _; [right|left]; [|eauto]. exists n, th, t. left.
    + destruct o as [e|]; simpl.
      * split; intros _; left; eauto.
      * split; (intros [[? [=]]|(n' & th' & t' & H)]; right; exists n', th', t').
        -- by right.
        -- by apply elem_of_cons in H as [[=]|H].
Qed.

Lemma events_of_elem nm es e : e ∈ events_of nm es <-> ev_name e = nm /\ e ∈ es.
Proof. unfold events_of. by rewrite elem_of_list_filter. Qed.

Lemma sorted_filter nm es : StronglySorted N.le (map ev_time es) ->
  StronglySorted N.le (map ev_time (events_of nm es)).
Proof.
  induction es as [|e es IH]; [done|]. cbn [map]. intros S. inversion_clear S as [|? ? S1 F1].
  rewrite events_of_cons. destruct (String.eqb nm (ev_name e)); [|auto]. cbn [map].
  constructor; [auto|]. rewrite Forall_forall in *. intros t Ht. apply F1.
  apply elem_of_list_In, in_map_iff in Ht as (x & <- & Hx). apply elem_of_list_In, in_map.
  apply elem_of_list_In in Hx. apply events_of_elem in Hx as [_ Hx]. by apply elem_of_list_In.
Qed.

Lemma blocks_entry nm es ds r : clock_ok es -> blocks (events_of nm es) = Some (ds, r) ->
  (ds, r) <> ([], None) ->
  foldl estep None (events_of nm es) =
    Some (mk_pentry (default 0%N r) (n_blocks ds r) (sumN ds)).
Proof.
  intros [S F] Eb Hne.
  assert (Forall (fun e => 0 < ev_time e < two64)%N (events_of nm es)) as F'.
  { rewrite Forall_forall in *. intros e He. apply events_of_elem in He as [_ He]. by apply F. }
  assert (foldl estep None (events_of nm es) = foldl estep (Some zero_entry) (events_of nm es)) as ->.
  { destruct (events_of nm es) as [|e es']; [simpl in Eb; congruence|].
    destruct e; [done|]. simpl in Eb. discriminate. }
  pose proof (sorted_filter nm es S) as S'.
  assert (sumN ds + 0 <= 2 ^ 64 - 1)%N as Hb.
  { apply (sum_bound _ 0 (2^64 - 1) ds r Eb S'); [|lia].
    eapply Forall_impl; [exact F'|]. simpl. change two64 with (2^64)%N. lia. }
  erewrite (foldl_blocks _ 0 0 ds r); auto.
  change two64 with (2^64)%N. lia.
Qed.

Lemma profiler_lemma t0 es : clock_ok es ->
  exists pf ents, prun (profile_start t0) es = Some pf /\ profile_entries pf = Some ents /\
    forall sorted, sorted ≡ₚ ents ->
      exists lines, mapM (profile_line pf) sorted = Some lines /\
        NoDup (map line_name lines) /\
        (forall nm, nm ∈ map line_name lines <->
           exists n th t, PBegin n th t ∈ es /\ thread_name n th = nm) /\
        (forall nm ds r, blocks (events_of nm es) = Some (ds, r) -> (ds, r) <> ([], None) ->
           (nm, n_blocks ds r, sumN ds) ∈ lines).
Proof.
  intros C. destruct (prun_ok es _ _ _ (prel_start t0)) as (pf & m & E & R & HM & Hb & Hi).
  exists pf, (concat (buckets (pf_table pf))). split; [exact E|].
  split; [by eapply profile_entries_ok|]. intros sorted Hs.
  rewrite (concat_perm _ _ R) in Hs.
  assert (forall kp, kp ∈ sorted <-> m !! fst kp = Some (snd kp)) as Hel.
  { intros [k p]. by rewrite Hs, elem_of_map_to_list. }
  assert (exists lines, mapM (profile_line pf) sorted = Some lines) as [lines El].
  { apply mapM_is_Some. apply Forall_forall. intros [k p] Hk. apply Hel in Hk. simpl in Hk.
    unfold compose, profile_line. cbn [snd fst]. rewrite aget_lookup.
    destruct (lookup_lt_is_Some_2 (pf_heap pf) p) as [e ->]; [eauto|]. simpl; eauto. }
  exists lines. split; [exact El|]. apply mapM_Some in El.
  assert (map line_name lines = sorted.*1) as Enames.
  { clear -El. induction El as [|kp l sorted lines H _ IH]; [done|]. cbn [map fmap list_fmap]. f_equal; [|exact IH].
    unfold profile_line in H. destruct (aget _ _); [|discriminate]. injection H as <-. done. }
  split.
  { rewrite Enames, Hs. apply NoDup_fst_map_to_list. }
  split.
  - intros nm. rewrite Enames.
    transitivity (is_Some (m !! nm)).
    { rewrite elem_of_list_fmap. split.
      - intros ([k p] & -> & H). apply Hel in H. eauto.
      - intros [p H]. exists (nm, p). split; [done|]. by apply Hel. }
    transitivity (is_Some (foldl estep None (events_of nm es))).
    { rewrite HM. split.
      - intros [p H]. rewrite H. simpl. apply lookup_lt_is_Some_2. eauto.
      - destruct (m !! nm); [eauto|]. intros [? [=]]. }
    rewrite foldl_estep_some. split.
    + intros [[? [=]]|(n & th & t & H)]. apply events_of_elem in H as [H1 H2]. eauto.
    + intros (n & th & t & H1 & H2). right. exists n, th, t. by apply events_of_elem.
  - intros nm ds r Eb Hne. pose proof (blocks_entry nm es ds r C Eb Hne) as Hf.
    rewrite HM in Hf. destruct (m !! nm) as [p|] eqn:Em; [|discriminate]. simpl in Hf.
    assert ((nm, p) ∈ sorted) as Hin by (by apply Hel).
    apply elem_of_list_lookup in Hin as [i Hin].
    destruct (Forall2_lookup_l _ _ _ _ _ El Hin) as (l & Hl & Hpl).
    cbv beta in Hpl. unfold profile_line in Hpl. cbn [fst snd] in Hpl. rewrite aget_lookup in Hpl. rewrite Hf in Hpl.
    injection Hpl as <-. apply elem_of_list_lookup. eauto.
Qed.

Lemma app_string_inj (a b c : string) : (a ++ b)%string = (a ++ c)%string -> b = c.
Proof. induction a as [|x a IH]; intros H; [exact H|]. change (String x (a ++ b) = String x (a ++ c))%string in H. apply IH. congruence. Qed.

Lemma app_string_self (a : string) c s : (a ++ String c s)%string <> a.
Proof. induction a as [|x a IH]; intros H; [discriminate H|]. change (String x (a ++ String c s) = String x a)%string in H. apply IH. congruence. Qed.

Lemma threads_separate n th th' : (th <= 9)%nat -> (th' <= 9)%nat ->
  thread_name n 0 = n /\ (thread_name n th = thread_name n th' -> th = th').
Proof.
  intros H H'. split; [reflexivity|]. unfold thread_name.
  destruct (Nat.ltb_spec 0 th), (Nat.ltb_spec 0 th'); intros E; try lia.
  - apply app_string_inj in E.
    do 10 (destruct th as [|th]; [do 10 (destruct th' as [|th']; [first [reflexivity | vm_compute in E; discriminate E]|]); lia|]). lia.
  - exfalso. exact (app_string_self n _ _ E).
  - exfalso. exact (app_string_self n _ _ (eq_sym E)).
Qed.
