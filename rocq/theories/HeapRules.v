(** Rules for reasoning about the heap model: ownership of blocks, abandoned blocks and the largest
    amount in use. *)
From Coq Require Import ZArith List String Bool Lia Permutation.
From Verif Require Import Base SimParams Heap HeapSpec.
Import ListNotations.
Local Open Scope string_scope.
Local Open Scope Z_scope.

Lemma total_app l1 l2 : total (l1 ++ l2) = total l1 + total l2.
Proof. induction l1 as [|b l1 IH]; cbn; [reflexivity | unfold total in *; lia]. Qed.

Lemma total_perm l1 l2 : Permutation l1 l2 -> total l1 = total l2.
Proof. induction 1; cbn in *; unfold total in *; lia. Qed.

Lemma live_in p l : live p l = true <-> In p (map fst l).
Proof.
  unfold live. rewrite existsb_exists, in_map_iff. split.
  - intros (b & Hb & E). apply Nat.eqb_eq in E. now exists b.
  - intros (b & E & Hb). exists b. split; [exact Hb | now apply Nat.eqb_eq].
Qed.

Lemma filter_perm {A} (f : A -> bool) l1 l2 : Permutation l1 l2 -> Permutation (filter f l1) (filter f l2).
Proof.
  induction 1 as [|x l1 l2 H IH|x y l|l1 l2 l3 H1 IH1 H2 IH2]; cbn.
  - constructor.
  - destruct (f x); [now constructor | exact IH].
  - destruct (f x), (f y); try apply Permutation_refl. constructor.
  - now transitivity (filter f l2).
Qed.

Lemma filter_other p (l : list (ptr * Z)) :
  ~ In p (map fst l) -> filter (fun b => negb (Nat.eqb (fst b) p)) l = l.
Proof.
  induction l as [|b l IH]; cbn; [reflexivity|]. intros H.
  destruct (Nat.eqb_spec (fst b) p) as [E|E]; [elim H; now left |].
  cbn. f_equal. apply IH. intros H'. apply H. now right.
Qed.

Section Rules.

Variable orc : choice -> nat -> bool.
(** size of a block that a phonon measurement abandons *)
Variable c : Z.
Hypothesis c_nonneg : 0 <= c.

(** [l] are the blocks owned, [n] blocks of size [c] have been abandoned. *)
Record good (B : Z) (n : nat) (l : list (ptr * Z)) (h : heap) : Prop := {
  g_live : exists k, Permutation (h_live h) (k ++ l) /\
    (sound orc -> Forall (fun b => snd b = c) k /\ List.length k = n);
  g_dup : NoDup (map fst (h_live h));
  g_next : Forall (fun b => (fst b < h_next h)%nat) (h_live h);
  g_peak : sound orc -> total (h_live h) <= h_peak h <= B + Z.of_nat n * c }.

Definition spec {A} (B : Z) (n : nat) (l : list (ptr * Z)) (m : M A)
  (Q : A -> nat -> list (ptr * Z) -> Prop) : Prop :=
  forall h, good B n l h -> exists a h' n' l', m h = Some (a, h') /\ good B n' l' h' /\ Q a n' l'.

(** Everything requested is released. *)
Definition neat (B : Z) (l : list (ptr * Z)) (m : M unit) : Prop :=
  forall n, spec B n l m (fun _ n' l' => n' = n /\ l' = l).

Lemma total_garbage k n : Forall (fun b : ptr * Z => snd b = c) k -> List.length k = n -> total k = Z.of_nat n * c.
Proof.
  intros F <-. induction F as [|b k E F IH]; [reflexivity|].
  cbn [total fold_right List.length]. change (fold_right _ 0 k) with (total k). rewrite IH, E. lia.
Qed.

Lemma good_total B n l h : good B n l h -> sound orc -> total (h_live h) = Z.of_nat n * c + total l.
Proof.
  intros G S. destruct (g_live _ _ _ _ G) as (k & P & K). destruct (K S) as [F E].
  rewrite (total_perm _ _ P), total_app, (total_garbage _ _ F E). reflexivity.
Qed.

Lemma good_perm B n l l' h : Permutation l l' -> good B n l h -> good B n l' h.
Proof.
  intros P [(k & Pk & K) D X E]. constructor; try assumption.
  exists k. split; [rewrite Pk; now apply Permutation_app_head | exact K].
Qed.

(** blocks may be abandoned if something went wrong outside *)
Lemma good_drop B n b l h : ~ sound orc -> good B n (b :: l) h -> good B n l h.
Proof.
  intros NS [(k & Pk & _) D X _]. constructor; try assumption; [|intros S; now elim NS].
  exists (k ++ [b])%list. split; [rewrite <- app_assoc; exact Pk | intros S; now elim NS].
Qed.

Lemma good_leak B n p l h : good B n ((p, c) :: l) h -> good B (S n) l h.
Proof.
  intros [(k & Pk & K) D X E]. constructor; try assumption.
  - exists (k ++ [(p, c)])%list. split; [rewrite <- app_assoc; exact Pk|].
    intros S. destruct (K S) as [F L]. split.
    + apply Forall_app. split; [exact F | now constructor].
    + rewrite app_length, L. cbn. lia.
  - intros S. specialize (E S). lia.
Qed.

Lemma spec_ret {A} B n l (a : A) (Q : A -> nat -> list (ptr * Z) -> Prop) : Q a n l -> spec B n l (ret a) Q.
Proof. intros H h G. exists a, h, n, l. split; [reflexivity | split; assumption]. Qed.

Lemma spec_bind {A A'} B n l (m : M A) (k : A -> M A') Q R :
  spec B n l m Q -> (forall a n' l', Q a n' l' -> spec B n' l' (k a) R) -> spec B n l (bind m k) R.
Proof.
  intros H1 H2 h G. destruct (H1 h G) as (a & h1 & n1 & l1 & E1 & G1 & Q1).
  destruct (H2 _ _ _ Q1 h1 G1) as (a2 & h2 & n2 & l2 & E2 & G2 & Q2).
  exists a2, h2, n2, l2. split; [unfold bind; now rewrite E1 | split; assumption].
Qed.

Lemma spec_weaken {A} B n l (m : M A) Q (R : A -> nat -> list (ptr * Z) -> Prop) :
  spec B n l m Q -> (forall a n' l', Q a n' l' -> R a n' l') -> spec B n l m R.
Proof.
  intros H1 H2 h G. destruct (H1 h G) as (a & h1 & n1 & l1 & E1 & G1 & Q1).
  exists a, h1, n1, l1. split; [exact E1 | split; [exact G1 | now apply H2]].
Qed.

Lemma spec_perm {A} B n l l' (m : M A) Q : Permutation l' l -> spec B n l m Q -> spec B n l' m Q.
Proof. intros P H h G. exact (H h (good_perm _ _ _ _ _ P G)). Qed.

Lemma spec_exact {A} B n l0 l (m : M A) (Q : A -> Prop) :
  spec B n l0 m (fun a n' l' => (n' = n /\ Permutation l' l) /\ Q a) ->
  spec B n l0 m (fun a n' l' => (n' = n /\ l' = l) /\ Q a).
Proof.
  intros H h G. destruct (H h G) as (a & h1 & n1 & l1 & E1 & G1 & ([-> P] & Q1)).
  exists a, h1, n, l. split; [exact E1 | split; [exact (good_perm _ _ _ _ _ P G1) | tauto]].
Qed.

Lemma spec_exactly {A} B n l0 l (m : M A) :
  spec B n l0 m (fun a n' l' => n' = n /\ Permutation l' l) ->
  spec B n l0 m (fun a n' l' => n' = n /\ l' = l).
Proof.
  intros H h G. destruct (H h G) as (a & h1 & n1 & l1 & E1 & G1 & [-> P]).
  exists a, h1, n, l. split; [exact E1 | split; [exact (good_perm _ _ _ _ _ P G1) | tauto]].
Qed.

Lemma spec_drop {A} B n b l (m : M A) Q : ~ sound orc -> spec B n l m Q -> spec B n (b :: l) m Q.
Proof. intros S H h G. exact (H h (good_drop _ _ _ _ _ S G)). Qed.

Lemma spec_leak {A} B n p l (m : M A) Q : spec B (S n) l m Q -> spec B n ((p, c) :: l) m Q.
Proof. intros H h G. exact (H h (good_leak _ _ _ _ _ G)). Qed.

Lemma spec_alloc B n l size :
  (sound orc -> total l + size <= B) -> 0 <= size ->
  spec B n l (alloc size) (fun p n' l' => n' = n /\ l' = (p, size) :: l).
Proof.
  intros HB Hs h G. pose proof (good_total _ _ _ _ G) as T.
  destruct G as [(k & Pk & K) D X E].
  eexists _, _, n, ((h_next h, size) :: l). split; [reflexivity|]. split; [|split; reflexivity].
  constructor; cbn.
  - exists k. split; [| exact K].
    transitivity ((h_next h, size) :: k ++ l); [now constructor | apply Permutation_middle].
  - constructor; [|exact D]. rewrite in_map_iff. intros (b & E' & Hb).
    rewrite Forall_forall in X. specialize (X _ Hb). lia.
  - constructor; [cbn; lia|]. revert X. apply Forall_impl. intros b Hb. lia.
  - intros S. specialize (E S). specialize (T S). specialize (HB S).
    change (fold_right _ 0 (h_live h)) with (total (h_live h)). lia.
Qed.

Lemma total_filter p s (l : list (ptr * Z)) : NoDup (map fst l) -> In (p, s) l ->
  total (filter (fun b => negb (Nat.eqb (fst b) p)) l) = total l - s.
Proof.
  induction l as [|b l IH]; cbn; [easy|]. intros D [->|H].
  - cbn. rewrite Nat.eqb_refl. cbn. inversion D; subst. rewrite filter_other by assumption. unfold total. lia.
  - inversion D as [|? ? Hn D']; subst.
    destruct (Nat.eqb_spec (fst b) p) as [E|E]; cbn.
    + elim Hn. rewrite E. change p with (fst (p, s)). now apply in_map.
    + change (fold_right _ 0 ?x) with (total x). rewrite IH by assumption. unfold total. lia.
Qed.

Lemma spec_free B n p size l : 0 <= size ->
  spec B n ((p, size) :: l) (free p) (fun _ n' l' => n' = n /\ l' = l).
Proof.
  intros Hs h [(k & Pk & K) D X E].
  assert (Hin : In (p, size) (h_live h)).
  { apply (Permutation_in _ (Permutation_sym Pk)). apply in_app_iff. right. now left. }
  unfold free. assert (El : live p (h_live h) = true).
  { apply live_in. change p with (fst (p, size)). now apply in_map. }
  rewrite El. eexists _, _, n, l. split; [reflexivity|]. split; [|split; reflexivity].
  assert (D' : NoDup (map fst (k ++ (p, size) :: l))).
  { apply (Permutation_NoDup (Permutation_map fst Pk)). exact D. }
  constructor; cbn.
  - exists k. split; [|exact K]. rewrite (filter_perm _ _ _ Pk).
    rewrite map_app in D'. cbn in D'. apply NoDup_remove in D'. destruct D' as [_ D'].
    rewrite filter_app. cbn. rewrite Nat.eqb_refl. cbn.
    rewrite !filter_other; [reflexivity | |]; intros H; apply D'; apply in_app_iff; auto.
  - assert (G : forall l0 : list (ptr * Z), NoDup (map fst l0) ->
       NoDup (map fst (filter (fun b => negb (Nat.eqb (fst b) p)) l0))).
    { induction l0 as [|b l0 IH]; cbn; [easy|]. intros H. inversion H; subst.
      destruct (negb _); cbn; [|now apply IH]. constructor; [|now apply IH].
      rewrite in_map_iff. intros (b' & E' & Hb'). apply filter_In in Hb'.
      apply H2. rewrite in_map_iff. exists b'. tauto. }
    now apply G.
  - rewrite Forall_forall in *. intros b Hb. apply filter_In in Hb. apply X. tauto.
  - intros S. specialize (E S). rewrite (total_filter _ size); [lia | exact D | exact Hin].
Qed.

Lemma spec_touch B n l ps : incl ps (map fst l) ->
  spec B n l (touch ps) (fun _ n' l' => n' = n /\ l' = l).
Proof.
  intros H h G. exists tt, h, n, l. split; [|split; [exact G | split; reflexivity]].
  unfold touch. destruct (g_live _ _ _ _ G) as (k & Pk & _).
  assert (F : forallb (fun p => live p (h_live h)) ps = true).
  { apply forallb_forall. intros q Hq. apply live_in.
    apply (Permutation_in _ (Permutation_map fst (Permutation_sym Pk))).
    rewrite map_app. apply in_app_iff. right. now apply H. }
  now rewrite F.
Qed.

Lemma spec_decide B n l ch :
  spec B n l (decide orc ch) (fun b n' l' => n' = n /\ l' = l /\ exists k, b = orc ch k).
Proof.
  intros h [K D X E]. eexists _, _, n, l. split; [reflexivity|].
  split; [|split; [reflexivity | split; [reflexivity | eexists; reflexivity]]].
  constructor; assumption.
Qed.

(** a smaller bound *)
Lemma good_local B n l h T : good B n l h -> 0 <= T ->
  good (total l + T) n l (mk_heap (h_live h) (h_next h) (total (h_live h)) (h_step h)).
Proof.
  intros G HT. pose proof (good_total _ _ _ _ G) as E. destruct G as [K D X E0]. constructor; try assumption.
  cbn [h_live h_peak]. intros S. specialize (E S). lia.
Qed.

Lemma neat_par B l a b Ta Tb : 0 <= Ta -> 0 <= Tb ->
  neat (total l + Ta) l a -> neat (total l + Tb) l b ->
  (sound orc -> total l + Ta + Tb <= B) -> neat B l (par a b).
Proof.
  intros HTa HTb Ha Hb HB n h G. pose proof (good_total _ _ _ _ G) as T0.
  destruct (Ha n _ (good_local _ _ _ _ Ta G HTa)) as (ua & ha & n1 & l1 & Ea & Ga & -> & ->).
  pose proof (good_total _ _ _ _ Ga) as T1.
  destruct (Hb n _ (good_local _ _ _ _ Tb Ga HTb)) as (ub & hb & n2 & l2 & Eb & Gb & -> & ->).
  pose proof (good_total _ _ _ _ Gb) as T2.
  eexists _, _, n, l. split; [unfold par; rewrite Ea, Eb; reflexivity|].
  split; [|split; reflexivity].
  destruct G as [K0 D0 X0 P0], Ga as [K1 D1 X1 P1], Gb as [K2 D2 X2 P2].
  constructor; cbn [h_live h_peak h_next] in *; try assumption.
  intros S. specialize (HB S). specialize (T0 S). specialize (T1 S). specialize (T2 S).
  specialize (P0 S). specialize (P1 S). specialize (P2 S). lia.
Qed.

Lemma spec_loop_from {A} (I : nat -> A -> nat -> list (ptr * Z) -> Prop) B body k :
  forall i a n l, I i a n l ->
  (forall j a n l, (i <= j < i + k)%nat -> I j a n l -> spec B n l (body j a) (fun a' n' l' => I (S j) a' n' l')) ->
  spec B n l (loop_from k i body a) (fun a' n' l' => I (i + k)%nat a' n' l').
Proof.
  induction k as [|k IH]; intros i a n l H0 Hb.
  - apply spec_ret. now rewrite Nat.add_0_r.
  - cbn. eapply spec_bind; [apply Hb; [lia | exact H0]|]. intros a' n' l' H1. cbn in H1.
    replace (i + S k)%nat with (S i + k)%nat by lia.
    apply IH; [exact H1|]. intros j a2 n2 l2 Hj. apply Hb. lia.
Qed.

Lemma neat_repeat B l m body :
  (forall i, (i < Z.to_nat m)%nat -> neat B l (body i)) -> neat B l (repeat_m m body).
Proof.
  intros H n. unfold repeat_m, loop.
  apply (spec_loop_from (fun _ _ n' l' => n' = n /\ l' = l)); [easy|].
  intros j a n' l' Hj [-> ->]. apply H. lia.
Qed.

Lemma neat_ret B l : neat B l (ret tt).
Proof. intros n. now apply spec_ret. Qed.

Lemma neat_touch B l ps : incl ps (map fst l) -> neat B l (touch ps).
Proof. intros H n. now apply spec_touch. Qed.

Lemma neat_bind B l m m' : neat B l m -> neat B l m' -> neat B l (bind m (fun _ => m')).
Proof. intros H1 H2 n. eapply spec_bind; [apply H1|]. intros a n' l' [-> ->]. apply H2. Qed.

Lemma spec_neat {A} B n l m (k : unit -> M A) R :
  neat B l m -> (forall u, spec B n l (k u) R) -> spec B n l (bind m k) R.
Proof. intros H1 H2. eapply spec_bind; [apply H1|]. intros a n' l' [-> ->]. apply H2. Qed.

Lemma neat_when B l b m : (b = true -> neat B l m) -> neat B l (when b m).
Proof. destruct b; cbn; [auto | intros _; apply neat_ret]. Qed.

(** *** Structures *)

Definition blocks_of (s : fields) (fs : list (string * Z)) : list (ptr * Z) := combine (ptrs s) (map snd fs).

Lemma spec_alloc_fields B fs : forall n l,
  Forall (fun f => 0 <= snd f) fs ->
  (sound orc -> total l + fold_right (fun f s => snd f + s) 0 fs <= B) ->
  spec B n l (alloc_fields fs)
    (fun s n' l' => n' = n /\ map fst s = map fst fs /\ Permutation l' (blocks_of s fs ++ l)).
Proof.
  induction fs as [|[f size] fs IH]; intros n l F HB; cbn.
  - apply spec_ret. repeat split. apply Permutation_refl.
  - inversion F as [|? ? F0 F']; subst. cbn in F0, HB.
    assert (S0 : 0 <= fold_right (fun f s => snd f + s) 0 fs).
    { clear - F'. induction F' as [|x fs H H' IH]; cbn; [lia | lia]. }
    eapply spec_bind; [apply spec_alloc; [intros S; specialize (HB S); lia | exact F0]|].
    cbn. intros p n' l' [-> ->].
    eapply spec_bind; [apply IH; [exact F' | cbn; intros S; specialize (HB S); unfold total in *; lia]|].
    cbn. intros s n' l' (-> & E & P). apply spec_ret. repeat split; [cbn; now rewrite E|].
    cbn. rewrite P. symmetry. apply Permutation_middle.
Qed.

Lemma field_found s f : In f (map fst s) -> exists p, field s f = Some p.
Proof.
  induction s as [|[g q] s IH]; cbn; [easy|].
  destruct (String.eqb_spec f g) as [->|N]; [eexists; reflexivity|].
  intros [E|H]; [congruence | now apply IH].
Qed.

Lemma field_in s f p : field s f = Some p -> In p (ptrs s).
Proof.
  induction s as [|[g q] s IH]; cbn; [easy|].
  destruct (String.eqb_spec f g) as [->|N]; [intros [= ->]; now left | right; now apply IH].
Qed.

(** the member [f] can be taken out of a structure *)
Fixpoint without {A} (f : string) (s : list (string * A)) : list (string * A) :=
  match s with [] => [] | (g, q) :: s' => if String.eqb f g then s' else (g, q) :: without f s' end.

Lemma without_other {A} f (s : list (string * A)) : ~ In f (map fst s) -> without f s = s.
Proof.
  induction s as [|[g q] s IH]; cbn; [easy|]. destruct (String.eqb_spec f g) as [->|N]; [tauto|].
  intros H. f_equal. apply IH. tauto.
Qed.

Lemma field_without s f g : f <> g -> field (without g s) f = field s f.
Proof.
  intros N. induction s as [|[h q] s IH]; cbn; [easy|].
  destruct (String.eqb_spec g h) as [->|N1].
  - destruct (String.eqb_spec f h); [congruence | reflexivity].
  - cbn. now rewrite IH.
Qed.

Lemma without_fst {A A'} (s : list (string * A)) (fs : list (string * A')) f :
  map fst s = map fst fs -> map fst (without f s) = map fst (without f fs).
Proof.
  revert fs. induction s as [|[g q] s IH]; intros [|[g' q'] fs]; cbn; try easy.
  intros [= -> E]. destruct (String.eqb f g'); [exact E | cbn; f_equal; now apply IH].
Qed.

Lemma blocks_without s fs f : map fst s = map fst fs -> In f (map fst s) ->
  exists p size, field s f = Some p /\ In size (map snd fs) /\
    Permutation (blocks_of s fs) ((p, size) :: blocks_of (without f s) (without f fs)).
Proof.
  revert fs. induction s as [|[g q] s IH]; intros [|[g' q'] fs]; cbn; try easy.
  intros [= -> E]. destruct (String.eqb_spec f g') as [->|N].
  - intros _. exists q, q'. repeat split; [now left | apply Permutation_refl].
  - intros [H|H]; [congruence|]. destruct (IH fs E H) as (p & size & E1 & E2 & P).
    exists p, size. split; [exact E1 | split; [now right|]].
    cbn. unfold blocks_of in P. rewrite P. apply perm_swap.
Qed.

Lemma without_sizes (fs : list (string * Z)) f : Forall (fun f => 0 <= snd f) fs -> Forall (fun f => 0 <= snd f) (without f fs).
Proof.
  induction 1 as [|[g q] fs H H' IH]; cbn; [constructor|]. destruct (String.eqb f g); [exact H' | now constructor].
Qed.

Lemma without_perm {A} (s : list (string * A)) f names :
  Permutation (f :: names) (map fst s) -> Permutation names (map fst (without f s)).
Proof.
  revert names. induction s as [|[g q] s IH]; intros names P; cbn in *.
  - apply Permutation_sym, Permutation_nil in P. discriminate.
  - destruct (String.eqb_spec f g) as [->|N].
    + now apply Permutation_cons_inv in P.
    + assert (Hg : In g names).
      { assert (H : In g (f :: names)) by (apply (Permutation_in _ (Permutation_sym P)); now left).
        destruct H; [congruence | assumption]. }
      apply in_split in Hg. destruct Hg as (n1 & n2 & ->).
      cbn. rewrite <- Permutation_middle. constructor. apply IH.
      apply (Permutation_cons_inv (a := g)). rewrite <- P. rewrite perm_swap. constructor. apply Permutation_middle.
Qed.

Lemma spec_free_fields B names : forall s fs n l,
  map fst s = map fst fs -> Permutation names (map fst s) -> NoDup names -> Forall (fun f => 0 <= snd f) fs ->
  spec B n (blocks_of s fs ++ l) (free_fields s names) (fun _ n' l' => n' = n /\ Permutation l' l).
Proof.
  assert (G : forall names s s0 fs n l,
    (forall f, In f names -> field s0 f = field s f) ->
    map fst s = map fst fs -> Permutation names (map fst s) -> NoDup names -> Forall (fun f => 0 <= snd f) fs ->
    spec B n (blocks_of s fs ++ l) (free_fields s0 names) (fun _ n' l' => n' = n /\ Permutation l' l)).
  2: { intros s fs n l. now apply G. }
  clear names. induction names as [|f names IH]; intros s s0 fs n l H0 E P D F; cbn.
  - apply Permutation_nil in P. destruct s; [|discriminate]. apply spec_ret. split; [reflexivity|].
    destruct fs; [apply Permutation_refl | discriminate].
  - assert (Hf : In f (map fst s)) by (apply (Permutation_in _ P); now left).
    destruct (blocks_without s fs f E Hf) as (p & size & Ep & Hs & Pb).
    assert (Hsize : 0 <= size).
    { rewrite in_map_iff in Hs. destruct Hs as (x & <- & Hx). rewrite Forall_forall in F. now apply F. }
    unfold free_field. rewrite H0 by now left. rewrite Ep.
    eapply spec_perm; [rewrite Pb; apply Permutation_refl|]. cbn.
    eapply spec_bind; [apply spec_free; exact Hsize|]. intros a n' l' [-> ->].
    inversion D as [|? ? Hn D']; subst.
    apply IH; [| now apply without_fst | now apply without_perm | exact D' | now apply without_sizes].
    intros g Hg. rewrite H0 by now right. symmetry. apply field_without. congruence.
Qed.

Lemma blocks_fst s fs : map fst s = map fst fs -> map fst (blocks_of s fs) = ptrs s.
Proof.
  revert fs. induction s as [|[g q] s IH]; intros [|[g' q'] fs]; cbn; try easy.
  intros [= -> E]. f_equal. now apply IH.
Qed.

Lemma blocks_total s fs : map fst s = map fst fs -> total (blocks_of s fs) = fold_right (fun f s => snd f + s) 0 fs.
Proof.
  revert fs. induction s as [|[g q] s IH]; intros [|[g' q'] fs]; cbn; try easy.
  intros [= -> E]. f_equal. now apply IH.
Qed.

Lemma nth_ptr_ok B n l ps i : (i < List.length ps)%nat ->
  spec B n l (nth_ptr ps i) (fun q n' l' => n' = n /\ l' = l /\ nth_error ps i = Some q).
Proof.
  intros H. unfold nth_ptr. destruct (nth_error ps i) as [q|] eqn:E.
  - now apply spec_ret.
  - apply nth_error_None in E. lia.
Qed.

End Rules.

(** finding a block in the list of owned ones *)
Lemma find_here {A} (b : A) l : Permutation (b :: l) (b :: l).
Proof. apply Permutation_refl. Qed.
Lemma find_next {A} (x b : A) l l' : Permutation l (b :: l') -> Permutation (x :: l) (b :: x :: l').
Proof. intros ->. apply perm_swap. Qed.
Ltac find_block := repeat first [apply find_here | apply find_next].

(** rearranging concatenations *)
Lemma part_here {A} (b : list A) l : Permutation (b ++ l) (b ++ l).
Proof. apply Permutation_refl. Qed.
Lemma part_last {A} (b : list A) : Permutation b (b ++ []).
Proof. now rewrite app_nil_r. Qed.
Lemma part_next {A} (x b : list A) l l' : Permutation l (b ++ l') -> Permutation (x ++ l) (b ++ (x ++ l')).
Proof. intros ->. rewrite !app_assoc. apply Permutation_app_tail. apply Permutation_app_comm. Qed.
Lemma part_skip {A} (x : A) b l l' : Permutation l (b ++ l') -> Permutation (x :: l) (b ++ (x :: l')).
Proof. intros ->. apply Permutation_middle. Qed.
Lemma split_app {A} (a l r r' : list A) : Permutation r (a ++ r') -> Permutation l r' -> Permutation (a ++ l) r.
Proof. intros -> ->. reflexivity. Qed.
Lemma split_cons {A} (a : A) l r r' : Permutation r ([a] ++ r') -> Permutation l r' -> Permutation (a :: l) r.
Proof. intros -> ->. reflexivity. Qed.
Lemma split_end {A} (a r : list A) : Permutation r (a ++ []) -> Permutation a r.
Proof. rewrite app_nil_r. now symmetry. Qed.
Ltac find_part := repeat first [apply part_here | apply part_last | apply (find_here (A := _)) | apply part_next | apply part_skip].
Ltac rearrange := rewrite <- ?app_assoc; cbn [app]; rewrite ?app_nil_r;
  repeat first [apply Permutation_refl | (eapply split_app; [find_part|]) | (eapply split_cons; [find_part|]) | (eapply split_end; find_part)];
  rewrite ?app_nil_r; try apply Permutation_refl.
