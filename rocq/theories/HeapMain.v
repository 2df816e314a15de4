(** The heap from the first to the last statement of the program. *)
From Coq Require Import ZArith List String Bool Lia Permutation.
From Verif Require Import Base SimParams ParamSpec Heap HeapSpec HeapRules HeapFacts HeapRun.
Import ListNotations.
Local Open Scope string_scope.
Local Open Scope Z_scope.

(** the oracle has been asked *)
Ltac asked := match goal with E : exists k, true = ?f ?ch k |- exists _ _, _ => destruct E as [? ?]; eexists ch, _; symmetry; eassumption end.
Ltac witness := split; [reflexivity | asked].

Section Main.

Variable orc : choice -> nat -> bool.
Variable p : sim_params.
Hypothesis valid : valid_params p.
Hypothesis neqlt_pos : sp_use_phonons p = true -> 0 < sp_neqlt p.
Hypothesis nsampl_nonneg : sp_use_phonons p = true -> 0 <= sp_nsampl p.
Hypothesis silent : no_late_signal orc.

Let Norb := sp_Norb p.
Let Ncell := sp_Nx p * sp_Ny p.
Let N := Norb * Ncell.
Let L := sp_L p.
Let prodBlen := sp_prodBlen p.
Let nb := L / prodBlen.
Let c := dbl Norb.

Notation neat := (neat orc c).
Notation spec := (spec orc c).

Let Norb0 := Norb_pos p valid.
Let Ncell0 := Ncell_pos p valid.
Let N0 : 0 < N := N_pos p valid.
Let L0 : 0 < L := L_pos p valid.
Let len0 : 0 < prodBlen := len_pos p valid.
Let div0 : (prodBlen | L) := divides p valid.
Let nb0 : 0 < nb := nb_pos L prodBlen L0 len0 div0.

(** *** Files *)

Lemma spec_read B n l d : incl d (map fst l) -> (sound orc -> total l <= B) ->
  spec B n l (read_data orc d) (fun ok n' l' => (n' = n /\ l' = l) /\ (sound orc -> ok = true) /\ (ok = false -> exists ch k, orc ch k = true)).
Proof.
  intros Hd HB. unfold read_data. b_decide a. destruct H as [k E].
  destruct a.
  { apply spec_ret. split; [now split|]. split; [|intros _; now exists NoFile, k]. intros S. elim (unsound orc NoFile k); cbn; auto. }
  eapply spec_bind; [apply spec_alloc; [intros S; specialize (HB S); lia | lia] | cbn beta; intros fd ? ? [-> ->]].
  b_decide a. destruct H as [k' E']. destruct a.
  { assert (NS : ~ sound orc) by (apply (unsound orc BadSize k'); cbn; auto).
    apply spec_drop; [exact NS|]. apply spec_ret. split; [now split | split; [intros S; now elim NS | intros _; now exists BadSize, k']]. }
  b_touch. eapply spec_bind; [l_free | cbn beta; intros ? ? ? [-> ->]]. apply spec_ret. now repeat split.
Qed.

Lemma spec_write B n l d : incl d (map fst l) -> (sound orc -> total l <= B) ->
  spec B n l (write_data orc d) (fun ok n' l' => (n' = n /\ l' = l) /\ (sound orc -> ok = true) /\ (ok = false -> exists ch k, orc ch k = true)).
Proof. exact (spec_read B n l d). Qed.

Lemma spec_read_until B n l ds : Forall (fun d => incl d (map fst l)) ds -> (sound orc -> total l <= B) ->
  spec B n l (read_until orc ds) (fun ok n' l' => (n' = n /\ l' = l) /\ (sound orc -> ok = true) /\ (ok = false -> exists ch k, orc ch k = true)).
Proof.
  intros F HB. induction F as [|d ds Hd F IH]; cbn [read_until]; [apply spec_ret; now repeat split|].
  eapply spec_bind; [now apply spec_read | cbn beta; intros ok ? ? ((-> & ->) & Hok)].
  destruct ok; [exact IH|]. apply spec_ret. split; [now split | exact Hok].
Qed.

Lemma spec_write_until B n l ds : Forall (fun d => incl d (map fst l)) ds -> (sound orc -> total l <= B) ->
  spec B n l (write_until orc ds) (fun ok n' l' => (n' = n /\ l' = l) /\ (sound orc -> ok = true) /\ (ok = false -> exists ch k, orc ch k = true)).
Proof.
  intros F HB. induction F as [|d ds Hd F IH]; cbn [write_until]; [apply spec_ret; now repeat split|].
  eapply spec_bind; [now apply spec_write | cbn beta; intros ok ? ? ((-> & ->) & Hok)].
  destruct ok; [exact IH|]. apply spec_ret. split; [now split | exact Hok].
Qed.

Lemma after_read {A} B n l d (k : bool -> M A) R : incl d (map fst l) -> (sound orc -> total l <= B) ->
  (forall ok, spec B n l (k ok) R) -> spec B n l (bind (read_data orc d) k) R.
Proof. intros H1 H2 H3. eapply spec_bind; [now apply spec_read | cbn beta; intros ok ? ? ((-> & ->) & _)]. apply H3. Qed.

Lemma after_write {A} B n l d (k : bool -> M A) R : incl d (map fst l) -> (sound orc -> total l <= B) ->
  (forall ok, spec B n l (k ok) R) -> spec B n l (bind (write_data orc d) k) R.
Proof. exact (after_read B n l d k R). Qed.

Lemma neat_read_fields B l s fs : incl fs (map fst s) -> incl (ptrs s) (map fst l) -> (sound orc -> total l <= B) ->
  neat B l (read_fields orc s fs).
Proof.
  intros Hf Hs HB. induction fs as [|f fs IH]; [apply neat_ret|]. intros n. cbn [read_fields].
  destruct (field_found s f) as [q E]; [apply Hf; now left|]. rewrite E. apply field_in in E.
  apply after_read; [intros x [<-|[]]; now apply Hs | exact HB | intros _]. apply IH. intros x Hx. apply Hf. now right.
Qed.

Lemma neat_write_fields B l s fs : incl fs (map fst s) -> incl (ptrs s) (map fst l) -> (sound orc -> total l <= B) ->
  neat B l (write_fields orc s fs).
Proof.
  intros Hf Hs HB. induction fs as [|f fs IH]; [apply neat_ret|]. intros n. cbn [write_fields].
  destruct (field_found s f) as [q E]; [apply Hf; now left|]. rewrite E. apply field_in in E.
  apply after_write; [intros x [<-|[]]; now apply Hs | exact HB | intros _]. apply IH. intros x Hx. apply Hf. now right.
Qed.

(** *** Parser *)

Definition entry_ptrs (e : entry) : list ptr := (te_key e :: te_strs e ++ [te_list e; te_entry e])%list.
Definition table_ptrs (t : table) : list ptr := flat_map (fun x => entry_ptrs (snd x)) t.

Definition strings (vs : list string) : Z := fold_right (fun v s => length v + 1 + s) 0 vs.

Lemma strings_nonneg vs : 0 <= strings vs.
Proof. induction vs as [|v vs IH]; cbn [strings fold_right]; [lia|]. fold (strings vs). unfold length. lia. Qed.

Lemma spec_append B lp vs : forall n l strs, In lp (map fst l) -> (sound orc -> total l + strings vs <= B) ->
  spec B n l (append_values lp vs strs) (fun strs' n' l' => exists new,
    n' = n /\ Permutation l' (new ++ l) /\ Permutation strs' (map fst new ++ strs) /\
    total new = strings vs /\ Forall (fun b => 0 <= snd b) new).
Proof.
  induction vs as [|v vs IH]; intros n l strs Hl HB; cbn [append_values].
  - apply spec_ret. exists []. repeat split; [apply Permutation_refl | apply Permutation_refl | constructor].
  - cbn [strings fold_right] in HB. fold (strings vs) in HB. pose proof (strings_nonneg vs).
    assert (0 <= length v) by (unfold length; lia).
    eapply spec_bind; [apply spec_alloc; [unfold strlen; fold (length v); intros S; specialize (HB S); lia | unfold strlen; lia] |
      cbn beta; intros q ? ? [-> ->]].
    eapply spec_bind; [apply spec_touch; intros x [<-|[<-|[]]]; cbn; tauto | cbn beta; intros ? ? ? [-> ->]].
    eapply spec_weaken; [apply IH; [now right | intros S; specialize (HB S); rewrite total_cons; cbn [snd]; unfold strlen; fold (length v); lia]|].
    cbn beta. intros strs' n' l' (new & -> & P1 & P2 & T & F).
    exists ((q, strlen v + 1) :: new). repeat split.
    + rewrite P1. cbn. symmetry. apply Permutation_middle.
    + rewrite P2. cbn. rewrite app_assoc. rewrite <- Permutation_cons_append. reflexivity.
    + rewrite total_cons, T. cbn [snd strings fold_right]. reflexivity.
    + constructor; [cbn; unfold strlen; lia | exact F].
Qed.

Lemma lookup_ptrs k t e : lookup k t = Some e -> incl (entry_ptrs e) (table_ptrs t).
Proof.
  induction t as [|[k' e'] t IH]; cbn [lookup]; [easy|]. destruct (String.eqb k k').
  - intros [= ->]. unfold table_ptrs. cbn [flat_map snd]. now apply incl_appl.
  - intros H. unfold table_ptrs. cbn [flat_map snd]. apply incl_appr. now apply IH.
Qed.

Lemma replace_ptrs k t e e' new : lookup k t = Some e -> Permutation (entry_ptrs e') (new ++ entry_ptrs e) ->
  Permutation (table_ptrs (replace k e' t)) (new ++ table_ptrs t).
Proof.
  intros H P. induction t as [|[k' e0] t IH]; cbn [lookup replace] in *; [discriminate|].
  destruct (String.eqb k k').
  - injection H as ->. unfold table_ptrs. cbn [flat_map snd]. rewrite P, <- app_assoc. reflexivity.
  - unfold table_ptrs in *. cbn [flat_map snd]. rewrite (IH H). rearrange.
Qed.

(** [l] with the blocks of the table *)
Definition table_ok (t : table) (k : list (ptr * Z)) : Prop :=
  Permutation (map fst k) (table_ptrs t) /\ Forall (fun b => 0 <= snd b) k.

Lemma line_nonneg x : 0 < line_bytes x.
Proof. unfold line_bytes. pose proof (strings_nonneg (snd x)). unfold strings in *. unfold length at 1. lia. Qed.

Lemma spec_line B n l k t x : table_ok t k -> (sound orc -> total (k ++ l) + line_bytes x <= B) ->
  spec B n (k ++ l) (load_line t x) (fun t' n' l' => n' = n /\ exists k',
    Permutation l' (k' ++ l) /\ table_ok t' k' /\ total k' <= total k + line_bytes x).
Proof.
  intros [Pk Fk] HB. pose proof (line_nonneg x) as Hx. unfold load_line. destruct x as [name vs].
  destruct vs as [|v vs].
  { apply spec_ret. split; [reflexivity|]. exists k. split; [apply Permutation_refl|]. split; [now split | lia]. }
  set (ws := v :: vs) in *.
  assert (El : line_bytes (name, ws) = 8225 + length name + strings ws) by reflexivity.
  pose proof (strings_nonneg ws) as Hw. assert (Hn : 0 <= length name) by (unfold length; lia). rewrite El in *.
  destruct (lookup name t) as [e|] eqn:E.
  - assert (Hp := lookup_ptrs _ _ _ E).
    eapply spec_bind; [apply spec_append | cbn beta; intros strs n' l' (new & -> & P1 & P2 & T & F)].
    { rewrite map_app, in_app_iff. left. apply (Permutation_in _ (Permutation_sym Pk)), Hp.
      unfold entry_ptrs. cbn [In]. rewrite in_app_iff. cbn. tauto. }
    { intros S. specialize (HB S). lia. }
    apply spec_ret. split; [reflexivity|]. exists (new ++ k)%list. repeat split.
    + rewrite P1. now rewrite app_assoc.
    + rewrite (replace_ptrs _ _ _ _ (map fst new) E).
      * rewrite map_app. now apply Permutation_app_head.
      * unfold entry_ptrs. cbn [te_key te_strs te_list te_entry]. rewrite P2. rearrange.
    + apply Forall_app. now split.
    + rewrite total_app. lia.
  - b_alloc.
    eapply spec_bind; [apply spec_append | cbn beta; intros strs n' l' (new & -> & P1 & P2 & T & F)].
    { now left. }
    { rewrite total_cons. cbn [snd]. intros S. specialize (HB S). lia. }
    eapply spec_perm; [exact P1|].
    assert (HT : total (new ++ (a, 8200) :: k ++ l) = strings ws + 8200 + total (k ++ l)).
    { rewrite total_app, total_cons, T. cbn [snd]. lia. }
    eapply spec_bind; [apply spec_alloc; [intros S; specialize (HB S); lia | lia] | cbn beta; intros e ? ? [-> ->]].
    eapply spec_bind; [apply spec_alloc; [rewrite total_cons; cbn [snd]; unfold strlen; fold (length name); intros S; specialize (HB S); lia
      | unfold strlen; lia] | cbn beta; intros key ? ? [-> ->]].
    eapply spec_bind; [apply spec_touch; intros q [<-|[<-|[]]]; cbn; tauto | cbn beta; intros ? ? ? [-> ->]].
    apply spec_ret. split; [reflexivity|].
    exists ((key, strlen name + 1) :: (e, 24) :: new ++ (a, 8200) :: k)%list. repeat split.
    + cbn. rewrite <- app_assoc. reflexivity.
    + unfold table_ptrs. rewrite flat_map_app. fold (table_ptrs t). rewrite <- Pk.
      cbn [flat_map snd]. unfold entry_ptrs. cbn [te_key te_strs te_list te_entry].
      rewrite app_nil_r in P2. rewrite P2. cbn [map fst]. rewrite map_app. cbn [map fst]. rearrange.
    + constructor; [cbn; unfold strlen; lia|]. constructor; [cbn; lia|]. apply Forall_app. split; [exact F|].
      constructor; [cbn; lia | exact Fk].
    + rewrite !total_cons, total_app, total_cons, T. cbn [snd]. unfold strlen. fold (length name). lia.
Qed.

Definition lines_bytes (ls : list (string * list string)) : Z := fold_right (fun l s => line_bytes l + s) 0 ls.

Lemma lines_nonneg ls : 0 <= lines_bytes ls.
Proof. induction ls as [|x ls IH]; cbn [lines_bytes fold_right]; [lia|]. fold (lines_bytes ls). pose proof (line_nonneg x). lia. Qed.

Lemma spec_lines B ls : forall n l k t, table_ok t k -> (sound orc -> total (k ++ l) + lines_bytes ls <= B) ->
  spec B n (k ++ l) (load_lines t ls) (fun t' n' l' => n' = n /\ exists k',
    Permutation l' (k' ++ l) /\ table_ok t' k' /\ total k' <= total k + lines_bytes ls).
Proof.
  induction ls as [|x ls IH]; intros n l k t K HB; cbn [load_lines].
  - apply spec_ret. split; [reflexivity|]. exists k. split; [apply Permutation_refl | split; [exact K | cbn; lia]].
  - cbn [lines_bytes fold_right] in *. fold (lines_bytes ls) in *. pose proof (lines_nonneg ls).
    eapply spec_bind; [apply spec_line; [exact K | intros S; specialize (HB S); lia] | cbn beta; intros t' n' l' (-> & k' & P & K' & T)].
    eapply spec_perm; [exact P|].
    eapply spec_weaken; [apply IH; [exact K' | intros S; specialize (HB S); rewrite total_app in *; lia]|].
    cbn beta. intros t2 n2 l2 (-> & k2 & P2 & K2 & T2). split; [reflexivity|]. exists k2. split; [exact P2 | split; [exact K2 | lia]].
Qed.

(** taking out one block *)
Lemma take_block q qs k : Permutation (map fst k) (q :: qs) -> Forall (fun b : ptr * Z => 0 <= snd b) k ->
  exists size k', 0 <= size /\ Permutation k ((q, size) :: k') /\ Permutation (map fst k') qs /\ Forall (fun b => 0 <= snd b) k'.
Proof.
  intros P F. assert (H : In q (map fst k)) by (apply (Permutation_in _ (Permutation_sym P)); now left).
  apply in_map_iff in H. destruct H as ([q' size] & E & H). cbn in E. subst q'.
  apply in_split in H. destruct H as (k1 & k2 & ->).
  assert (P' : Permutation (k1 ++ (q, size) :: k2) ((q, size) :: (k1 ++ k2))) by (symmetry; apply Permutation_middle).
  assert (F' : Forall (fun b : ptr * Z => 0 <= snd b) ((q, size) :: (k1 ++ k2))).
  { rewrite Forall_forall in *. intros b Hb. apply F. now apply (Permutation_in _ (Permutation_sym P')). }
  inversion F' as [|? ? Hs F2]; subst. exists size, (k1 ++ k2)%list. repeat split; try assumption.
  apply (Permutation_cons_inv (a := q)). rewrite <- P. rewrite (Permutation_map fst P'). reflexivity.
Qed.

Lemma spec_take B n l k q qs : Permutation (map fst k) (q :: qs) -> Forall (fun b : ptr * Z => 0 <= snd b) k ->
  spec B n (k ++ l) (free q) (fun _ n' l' => n' = n /\ exists k', l' = (k' ++ l)%list /\
    Permutation (map fst k') qs /\ Forall (fun b => 0 <= snd b) k').
Proof.
  intros P F. destruct (take_block _ _ _ P F) as (size & k' & Hs & P1 & P2 & F2).
  eapply spec_perm; [apply Permutation_app_tail; exact P1|]. cbn [app].
  eapply spec_weaken; [apply spec_free; exact Hs|]. cbn beta. intros _ n' l' [-> ->]. split; [reflexivity|]. now exists k'.
Qed.

Lemma spec_free_all B l ps : forall n k qs, Permutation (map fst k) (ps ++ qs) -> Forall (fun b : ptr * Z => 0 <= snd b) k ->
  spec B n (k ++ l) (free_all ps) (fun _ n' l' => n' = n /\ exists k', l' = (k' ++ l)%list /\
    Permutation (map fst k') qs /\ Forall (fun b => 0 <= snd b) k').
Proof.
  induction ps as [|q ps IH]; intros n k qs P F; cbn [free_all].
  - apply spec_ret. split; [reflexivity|]. now exists k.
  - eapply spec_bind; [apply (spec_take B n l k q (ps ++ qs)); [exact P | exact F] | cbn beta; intros _ ? ? (-> & k' & -> & P' & F')].
    now apply IH.
Qed.

Lemma spec_entry B n l k e qs : Permutation (map fst k) (entry_ptrs e ++ qs) -> Forall (fun b : ptr * Z => 0 <= snd b) k ->
  spec B n (k ++ l) (delete_entry e) (fun _ n' l' => n' = n /\ exists k', l' = (k' ++ l)%list /\
    Permutation (map fst k') qs /\ Forall (fun b => 0 <= snd b) k').
Proof.
  intros P F. unfold entry_ptrs in P. cbn [app] in P. rewrite <- app_assoc in P. cbn [app] in P. unfold delete_entry.
  eapply spec_bind; [apply spec_touch | cbn beta; intros ? ? ? [-> ->]].
  { intros q [<-|[]]. rewrite map_app, in_app_iff. left. apply (Permutation_in _ (Permutation_sym P)).
    cbn [In]. rewrite in_app_iff. cbn. tauto. }
  eapply spec_bind; [eapply spec_take; [exact P | exact F] | cbn beta; intros _ ? ? (-> & k1 & -> & P1 & F1)].
  eapply spec_bind; [apply spec_touch | cbn beta; intros ? ? ? [-> ->]].
  { intros q [<-|[]]. rewrite map_app, in_app_iff. left. apply (Permutation_in _ (Permutation_sym P1)).
    rewrite in_app_iff. cbn. tauto. }
  eapply spec_bind; [eapply spec_free_all; [exact P1 | exact F1] | cbn beta; intros _ ? ? (-> & k2 & -> & P2 & F2)].
  eapply spec_bind; [eapply spec_take; [exact P2 | exact F2] | cbn beta; intros _ ? ? (-> & k3 & -> & P3 & F3)].
  eapply spec_bind; [apply spec_touch | cbn beta; intros ? ? ? [-> ->]].
  { intros q [<-|[]]. rewrite map_app, in_app_iff. left. apply (Permutation_in _ (Permutation_sym P3)). now left. }
  now apply spec_take.
Qed.

Lemma spec_entries B l t : forall n k, table_ok t k ->
  spec B n (k ++ l) (delete_entries t) (fun _ n' l' => n' = n /\ l' = l).
Proof.
  induction t as [|[name e] t IH]; intros n k [P F]; cbn [delete_entries].
  - apply Permutation_sym, Permutation_nil, map_eq_nil in P. subst k. now apply spec_ret.
  - eapply spec_bind; [apply (spec_entry B n l k e (table_ptrs t)); [exact P | exact F] | cbn beta; intros _ ? ? (-> & k' & -> & P' & F')].
    apply IH. now split.
Qed.

Definition sizes (fs : list (string * Z)) : Z := fold_right (fun f s => snd f + s) 0 fs.

Lemma params_sizes : sizes (params_layout Norb) = params_bytes p.
Proof. cbn [sizes params_layout fold_right snd]. unfold params_bytes, dbl, matrix, vector. fold Norb. ring. Qed.

Lemma params_nonneg : Forall (fun f => 0 <= snd f) (params_layout Norb).
Proof. unfold params_layout, dbl. repeat (apply Forall_cons; [cbn [snd]; nia|]). apply Forall_nil. Qed.

Lemma spec_parse B n l ls : (sound orc -> total l + table_bytes ls + params_bytes p <= B) ->
  spec B n l (parse_file orc Norb ls) (fun r n' l' => n' = n /\
    match r with
    | inl _ => exists ch k, orc ch k = true
    | inr s => map fst s = map fst (params_layout Norb) /\ l' = (blocks_of s (params_layout Norb) ++ l)%list
    end).
Proof.
  intros HB. pose proof (lines_nonneg ls) as Hl.
  assert (Hp : 0 < params_bytes p) by (unfold params_bytes, matrix, vector; fold Norb; nia).
  assert (HB1 : sound orc -> total l + 512 + lines_bytes ls + params_bytes p <= B).
  { intros S. specialize (HB S). unfold table_bytes in HB. fold (lines_bytes ls) in HB. lia. }
  clear HB. unfold parse_file. b_decide m1. destruct m1; [apply spec_ret; witness|].
  eapply spec_bind; [apply spec_alloc; [intros S; specialize (HB1 S); lia | lia] | cbn beta; intros fd ? ? [-> ->]].
  eapply spec_bind; [apply spec_alloc; [intros S; specialize (HB1 S); rewrite total_cons; cbn [snd]; unfold pointer; lia | unfold pointer; lia]
    | cbn beta; intros bk ? ? [-> ->]].
  eapply spec_bind; [apply (spec_lines B ls n ((bk, pointer 64) :: (fd, 0) :: l) [] []) | cbn beta; intros t ? l1 (-> & k & P & K & T)].
  { split; [apply Permutation_refl | constructor]. }
  { cbn [app]. intros S. specialize (HB1 S). rewrite !total_cons. cbn [snd]. unfold pointer. lia. }
  change (total []) with 0 in T. eapply spec_perm; [exact P|].
  eapply spec_bind; [apply spec_touch | cbn beta; intros ? ? ? [-> ->]].
  { intros q [<-|[<-|[]]]; rewrite map_app, in_app_iff; right; cbn; tauto. }
  eapply spec_bind.
  { eapply spec_perm; [|apply (spec_free orc c B n fd 0 (k ++ (bk, pointer 64) :: l)); lia].
    rewrite perm_swap. symmetry. apply Permutation_middle. }
  cbn beta. intros ? ? ? [-> ->].
  b_decide m2. destruct m2; [apply spec_ret; witness|].
  assert (HT : total (k ++ (bk, pointer 64) :: l) = total k + 512 + total l).
  { rewrite total_app, total_cons. cbn [snd]. unfold pointer. lia. }
  eapply spec_bind; [apply spec_alloc_fields; [exact params_nonneg|] | cbn beta; intros s ? l2 (-> & Es & P2)].
  { fold (sizes (params_layout Norb)). rewrite params_sizes. intros S. specialize (HB1 S). lia. }
  eapply spec_perm; [exact P2|].
  b_decide m3. destruct m3; [apply spec_ret; witness|].
  eapply spec_bind; [apply spec_touch | cbn beta; intros ? ? ? [-> ->]].
  { intros q [<-|Hq]; rewrite !map_app, !in_app_iff.
    - right. right. cbn. tauto.
    - left. rewrite blocks_fst; [exact Hq | exact Es]. }
  eapply spec_perm; [|eapply spec_bind; [apply (spec_entries B ((bk, pointer 64) :: blocks_of s (params_layout Norb) ++ l) t n k K)|]].
  { rearrange. }
  cbn beta. intros ? ? ? [-> ->].
  eapply spec_bind; [apply spec_free; unfold pointer; lia | cbn beta; intros ? ? ? [-> ->]].
  apply spec_ret. now repeat split.
Qed.

(** *** Simulation *)

Definition kin_layout : list (string * Z) := [("expK", dbl (N * N)); ("inv_expK", dbl (N * N))].

Lemma kin_nonneg : Forall (fun f => 0 <= snd f) kin_layout.
Proof. unfold kin_layout, dbl. repeat (apply Forall_cons; [cbn [snd]; nia|]). apply Forall_nil. Qed.
Lemma kin_sizes : sizes kin_layout = 2 * matrix N.
Proof. cbn [sizes kin_layout fold_right snd]. unfold dbl, matrix. ring. Qed.

Lemma strat_nonneg : Forall (fun f => 0 <= snd f) (strat_layout p).
Proof. unfold strat_layout, dbl. fold Norb. repeat (apply Forall_cons; [cbn [snd]; lia|]). apply Forall_nil. Qed.
Lemma strat_sizes : sizes (strat_layout p) = 6 * vector Norb.
Proof. cbn [sizes strat_layout fold_right snd]. fold Norb. unfold dbl, vector. ring. Qed.

(** requesting the members of a structure *)
Lemma spec_fields B fs n l : Forall (fun f => 0 <= snd f) fs -> (sound orc -> total l + sizes fs <= B) ->
  spec B n l (alloc_fields fs) (fun s n' l' => (n' = n /\ l' = blocks_of s fs ++ l)%list /\
    map fst s = map fst fs).
Proof.
  intros F HB h G. destruct (spec_alloc_fields orc c B fs n l F HB h G) as (s & h' & n' & l' & E & G' & -> & Es & P).
  exists s, h', n, (blocks_of s fs ++ l)%list. split; [exact E|]. split; [exact (good_perm _ _ _ _ _ _ _ P G') | tauto].
Qed.

Lemma fields_total s fs : map fst s = map fst fs -> total (blocks_of s fs) = sizes fs.
Proof. exact (blocks_total s fs). Qed.

Lemma fields_ptrs s fs l : map fst s = map fst fs -> incl (ptrs s) (map fst (blocks_of s fs ++ l)).
Proof. intros E q Hq. rewrite map_app, in_app_iff, blocks_fst by exact E. now left. Qed.

Lemma spec_release B names s fs n l : map fst s = map fst fs -> Permutation names (map fst fs) -> NoDup names ->
  Forall (fun f => 0 <= snd f) fs ->
  spec B n (blocks_of s fs ++ l) (free_fields s names) (fun _ n' l' => n' = n /\ l' = l).
Proof. intros E P D F. apply spec_exactly, spec_free_fields; [exact E | now rewrite E | exact D | exact F]. Qed.

Lemma spec_kinetic B n l par_ : incl (ptrs par_) (map fst l) -> (sound orc -> total l + 5 * matrix N + 8 * N <= B) ->
  spec B n l (kinetic_exponential orc p par_) (fun k n' l' => (n' = n /\ l' = blocks_of k kin_layout ++ l)%list /\
    map fst k = map fst kin_layout).
Proof.
  intros Hp HB. assert (M0 := matrix_pos p valid). fold Norb Ncell in M0. fold N in M0.
  unfold kinetic_exponential. fold Norb Ncell N. fold kin_layout.
  b_alloc. eapply spec_bind; [apply spec_touch; intros q [<-|Hq]; [now left | right; now apply Hp] | cbn beta; intros ? ? ? [-> ->]].
  eapply spec_bind; [apply spec_fields; [exact kin_nonneg|] | cbn beta; intros k ? ? ((-> & ->) & Ek)].
  { rewrite kin_sizes, total_cons. cbn [snd]. unfold dbl. intros S. specialize (HB S). unfold matrix in *. lia. }
  assert (Ik := fields_ptrs k kin_layout ((a, dbl (N * N)) :: l) Ek).
  assert (Et : total (blocks_of k kin_layout ++ (a, dbl (N * N)) :: l) = total l + 3 * matrix N).
  { rewrite total_app, total_cons, (fields_total _ _ Ek), kin_sizes. cbn [snd]. unfold dbl, matrix. lia. }
  destruct k as [|[f1 b] [|[f2 d] [|]]]; try discriminate. cbn [ptrs map snd]. cbn [ptrs map snd] in Ik.
  set (k := [(f1, b); (f2, d)]) in *.
  assert (Ia : In a (map fst (blocks_of k kin_layout ++ (a, dbl (N * N)) :: l))).
  { rewrite map_app, in_app_iff. right. now left. }
  apply spec_neat; [| intros _].
  { apply neat_matrix_exp; [exact N0 | intros q [<-|[<-|[]]]; [exact Ia | apply Ik; cbn; tauto] | intros S; specialize (HB S); lia]. }
  apply spec_neat; [| intros _].
  { apply neat_matrix_exp; [exact N0 | intros q [<-|[<-|[]]]; [exact Ia | apply Ik; cbn; tauto] | intros S; specialize (HB S); lia]. }
  eapply spec_bind.
  { eapply spec_perm; [|apply (spec_free orc c B n a (dbl (N * N)) (blocks_of k kin_layout ++ l)); unfold dbl; nia].
    symmetry. apply Permutation_middle. }
  cbn beta. intros ? ? ? [-> ->]. apply spec_ret. now repeat split.
Qed.

Ltac fields_perm := cbn [map fst]; let names := fresh in
  match goal with |- Permutation ?a ?b => change a with (rev b) end; apply Permutation_sym, Permutation_rev.
Ltac names_dup := repeat (constructor; [cbn; intuition discriminate|]); constructor.

Lemma spec_tsm B n l : (sound orc -> total l + steps_bytes p <= B) ->
  spec B n l (alloc_tsm N L prodBlen) (fun t n' l' => (n' = n /\ l' = tsm_blocks N L prodBlen t ++ l)%list /\ tsm_ok L prodBlen t).
Proof.
  intros HB h G. destruct (spec_alloc_tsm orc c N N0 L prodBlen L0 len0 div0 B n l HB h G)
    as (t & h' & n' & l' & E & G' & -> & K & P).
  exists t, h', n, (tsm_blocks N L prodBlen t ++ l)%list. split; [exact E|]. split; [exact (good_perm _ _ _ _ _ _ _ P G') | tauto].
Qed.

Lemma tsm_size t : tsm_ok L prodBlen t -> total (tsm_blocks N L prodBlen t) = steps_bytes p.
Proof. exact (tsm_total N L prodBlen L0 len0 div0 t). Qed.

Lemma spec_del_tsm B n l t : tsm_ok L prodBlen t ->
  spec B n (tsm_blocks N L prodBlen t ++ l) (delete_tsm L prodBlen t) (fun _ n' l' => n' = n /\ l' = l).
Proof. intros K. apply spec_exactly, spec_delete_tsm; [exact N0 | exact L0 | exact len0 | exact div0 | exact K]. Qed.

Lemma spec_simulation B n l par_ eq un ph s xs i :
  incl (ptrs par_) (map fst l) -> incl (ptrs eq) (map fst l) -> incl (ptrs un) (map fst l) -> incl (ptrs ph) (map fst l) ->
  In s (map fst l) -> incl (ptrs xs) (map fst l) ->
  (phonons p = true -> exists a b, ptrs xs = [a; b]) ->
  (phonons p = true -> In "omega" (map fst par_)) ->
  (unequal p = true -> In "Hu" (map fst un) /\ In "Hd" (map fst un)) ->
  (sound orc -> total l + kept_bytes p + work p <= B) ->
  spec B n l (simulation orc p par_ eq un ph s xs i)
    (fun r n' l' => (Z.of_nat n' = Z.of_nat n + leaks p i (fst r) /\ l' = l) /\
       (snd r = false -> fst r = Z.max i (sp_nequil p + sp_nsampl p)) /\ (snd r = true -> exists m, orc Stop m = true) /\ i <= fst r).
Proof.
  intros Ip Ie Iu Ih Is Ix Hx Ho Hh HB.
  assert (M0 := matrix_pos p valid). fold Norb Ncell in M0. fold N in M0.
  assert (W := work_sweep p valid). fold Norb Ncell in W. fold N in W.
  assert (T0 := steps_pos p valid).
  assert (HB' : sound orc -> total l + 4 * matrix N + 6 * vector Norb + 2 * steps_bytes p + work p <= B).
  { intros S. specialize (HB S). unfold kept_bytes in HB. fold Norb Ncell in HB. fold N in HB. lia. }
  assert (V0 : 0 < vector Norb) by (unfold vector; lia).
  clear HB. unfold simulation. fold Norb Ncell N L prodBlen.
  eapply spec_bind; [apply spec_kinetic; [exact Ip | intros S; specialize (HB' S); lia] | cbn beta; intros kin ? ? ((-> & ->) & Ek)].
  assert (Tk := fields_total _ _ Ek). rewrite kin_sizes in Tk.
  eapply spec_bind; [apply spec_touch | cbn beta; intros ? ? ? [-> ->]].
  { intros q Hq. rewrite map_app, in_app_iff. right. now apply Ip. }
  eapply spec_bind; [apply spec_fields; [exact strat_nonneg|] | cbn beta; intros strat ? ? ((-> & ->) & Es)].
  { rewrite strat_sizes, total_app. intros S; specialize (HB' S); lia. }
  assert (Ts := fields_total _ _ Es). rewrite strat_sizes in Ts.
  eapply spec_bind; [apply spec_tsm | cbn beta; intros tu ? ? ((-> & ->) & Ku)].
  { rewrite !total_app. intros S; specialize (HB' S); lia. }
  assert (Tu := tsm_size _ Ku).
  eapply spec_bind; [apply spec_tsm | cbn beta; intros td ? ? ((-> & ->) & Kd)].
  { rewrite !total_app. intros S; specialize (HB' S); lia. }
  assert (Td := tsm_size _ Kd).
  set (l1 := (tsm_blocks N L prodBlen td ++ tsm_blocks N L prodBlen tu ++ blocks_of strat (strat_layout p) ++ blocks_of kin kin_layout ++ l)%list).
  assert (E1 : total l1 = total l + 2 * matrix N + 6 * vector Norb + 2 * steps_bytes p) by (unfold l1; rewrite !total_app; lia).
  assert (Il : incl l l1) by (unfold l1; intros q Hq; rewrite !in_app_iff; tauto).
  assert (Ou : owns L prodBlen tu l1) by (apply (owns_blocks N); [exact Ku | unfold l1; intros q Hq; rewrite !in_app_iff; tauto]).
  assert (Od : owns L prodBlen td l1) by (apply (owns_blocks N); [exact Kd | unfold l1; intros q Hq; rewrite !in_app_iff; tauto]).
  assert (Ilf := incl_map fst Il).
  assert (Isrc : incl (ptrs kin ++ ptrs strat ++ s :: ptrs xs) (map fst l1)).
  { unfold l1. intros q Hq. rewrite !map_app, !in_app_iff, (blocks_fst _ _ Ek), (blocks_fst _ _ Es).
    rewrite !in_app_iff in Hq. cbn [In] in Hq. destruct Hq as [Hq|[Hq|[<-|Hq]]]; auto 8. }
  apply spec_neat; [apply neat_inits; [exact valid | exact Ou | exact Od | exact Isrc | intros S; specialize (HB' S); fold N; fold Norb Ncell; fold N; lia] | intros _].
  eapply spec_bind; [apply spec_alloc; [unfold dbl; intros S; specialize (HB' S); unfold matrix in *; lia | unfold dbl; nia] | cbn beta; intros gu ? ? [-> ->]].
  eapply spec_bind; [apply spec_alloc; [rewrite total_cons; cbn [snd]; unfold dbl; intros S; specialize (HB' S); unfold matrix in *; lia | unfold dbl; nia] |
    cbn beta; intros gd ? ? [-> ->]].
  set (l2 := (gd, dbl (N * N)) :: (gu, dbl (N * N)) :: l1).
  assert (E2 : total l2 = total l1 + 2 * matrix N) by (unfold l2; rewrite !total_cons; cbn [snd]; unfold dbl, matrix; lia).
  assert (I12 : incl l1 l2) by (unfold l2; intros q Hq; cbn [In]; tauto).
  assert (Il2 : incl (map fst l) (map fst l2)) by (apply incl_map; now apply incl_tran with l1).
  assert (Igu : In gu (map fst l2)) by (unfold l2; cbn; tauto).
  assert (Igd : In gd (map fst l2)) by (unfold l2; cbn; tauto).
  assert (R : run_ok p (mk_state kin strat tu td gu gd s xs par_ eq un ph) l2).
  { constructor; cbn [st_tu st_td st_Gu st_Gd st_s st_X st_par st_eq st_un st_ph].
    - exact (owns_weaken _ _ _ _ _ I12 Ou).
    - exact (owns_weaken _ _ _ _ _ I12 Od).
    - intros q [<-|[<-|[<-|[]]]]; [exact Igu | exact Igd | now apply Il2].
    - apply incl_tran with (map fst l1); [exact Isrc | apply incl_map; exact I12].
    - now apply incl_tran with (map fst l).
    - now apply incl_tran with (map fst l).
    - now apply incl_tran with (map fst l).
    - now apply incl_tran with (map fst l).
    - now apply incl_tran with (map fst l).
    - exact Hx.
    - exact Ho.
    - exact Hh. }
  apply spec_neat; [| intros _].
  { apply neat_constructs; [exact valid | | | fold Norb Ncell; fold N; intros S; specialize (HB' S); lia].
    - intros q [<-|Hq]; [exact Igu | now apply (proj2 (ro_u _ _ _ R))].
    - intros q [<-|Hq]; [exact Igd | now apply (proj2 (ro_d _ _ _ R))]. }
  eapply spec_bind; [apply spec_sweeps; [exact valid | exact neqlt_pos | exact R | intros S; specialize (HB' S); lia] |].
  cbn beta. intros [j b] n' l' ((En & ->) & Hj & Hf & Hs). cbn [fst snd] in *.
  unfold l2. b_free. b_free. unfold l1.
  eapply spec_bind; [apply spec_del_tsm; exact Kd | cbn beta; intros ? ? ? [-> ->]].
  eapply spec_bind; [apply spec_del_tsm; exact Ku | cbn beta; intros ? ? ? [-> ->]].
  unfold delete_strat, delete_kinetic.
  eapply spec_bind; [apply spec_release; [exact Es | fields_perm | names_dup | exact strat_nonneg] | cbn beta; intros ? ? ? [-> ->]].
  eapply spec_bind; [apply spec_release; [exact Ek | fields_perm | names_dup | exact kin_nonneg] | cbn beta; intros ? ? ? [-> ->]].
  apply spec_ret. cbn [fst snd]. split; [tauto|]. split; [|split; [exact Hs | exact Hj]]. intros E. rewrite (Hf E). lia.
Qed.

(** *** Start *)

Lemma spec_start B n l i0 s eq un : In s (map fst l) -> incl (ptrs eq) (map fst l) -> incl (ptrs un) (map fst l) ->
  incl eqlt_files (map fst eq) -> (unequal p = true -> incl uneqlt_files (map fst un)) -> (sound orc -> total l <= B) ->
  spec B n l (start orc p i0 s eq un) (fun r n' l' => (n' = n /\ l' = l) /\
    match r with inl code => code < 0 /\ exists ch k, orc ch k = true | inr i => i = 0 \/ i = i0 /\ exists k, orc Checkpoint k = true end).
Proof.
  intros Is Ie Iu Fe Fu HB. unfold start. b_decide found. destruct found; cbn [negb].
  2: { eapply spec_bind; [apply spec_touch; intros q [<-|[]]; exact Is | cbn beta; intros ? ? ? [-> ->]]. apply spec_ret. tauto. }
  eapply spec_bind; [apply spec_read_until | cbn beta; intros ok ? ? ((-> & ->) & _)].
  { repeat (apply Forall_cons; [intros q Hq; cbn [In] in Hq; repeat destruct Hq as [<-|Hq]; try easy|]). apply Forall_nil. }
  { exact HB. }
  destruct ok; cbn [negb]; [|apply spec_ret; split; [tauto | split; [lia | asked]]].
  destruct (_ =? _); [apply spec_ret; split; [tauto | split; [lia | asked]]|].
  apply after_read; [intros q [] | exact HB | intros _]. apply after_read; [intros q [] | exact HB | intros _].
  apply spec_neat; [now apply neat_read_fields | intros _].
  apply spec_neat; [| intros _; apply spec_ret; split; [tauto | right; split; [reflexivity|]];
    match goal with E : exists _, _ |- _ => destruct E as [m Em]; now exists m end].
  apply neat_when. intros Hu n'.
  apply after_read; [intros q [] | exact HB | intros _]. apply after_read; [intros q [] | exact HB | intros _].
  apply neat_read_fields; [now apply Fu | exact Iu | exact HB].
Qed.

(** *** The whole program *)

Definition un_layout : list (string * Z) := if unequal p then
  ("Hu", dbl (N * N * nb * nb)) :: ("Hd", dbl (N * N * nb * nb)) :: uneqlt_layout Norb Ncell L else [].
Definition ph_layout : list (string * Z) := if phonons p then
  phonon_layout Norb (Z.quot (sp_nsampl p * L) (sp_neqlt p)) else [].
Definition x_layout : list (string * Z) := if phonons p then [("X", dbl (L * N)); ("expX", dbl (L * N))] else [].

Lemma eq_nonneg : Forall (fun f => 0 <= snd f) (eqlt_layout Norb Ncell).
Proof.
  assert (0 < Ncell * Norb) by nia. assert (0 < Ncell * Norb * Norb) by nia. assert (0 < Ncell * Ncell) by nia.
  assert (0 < Ncell * Norb * (Ncell * Norb)) by nia.
  unfold eqlt_layout, dbl, int_. repeat (apply Forall_cons; [cbn [snd]; lia|]). apply Forall_nil.
Qed.
Lemma eq_sizes : sizes (eqlt_layout Norb Ncell) = eqlt_bytes p.
Proof.
  cbn [sizes eqlt_layout fold_right snd]. unfold eqlt_bytes, maps_bytes. fold Norb Ncell. fold N. unfold dbl, int_, matrix, vector, N. ring.
Qed.

Lemma un_nonneg : Forall (fun f => 0 <= snd f) un_layout.
Proof.
  assert (0 < Ncell * Norb) by nia. assert (0 < Ncell * Norb * Norb) by nia. assert (0 < Ncell * Ncell) by nia.
  assert (0 < Ncell * Norb * Norb * L) by nia. assert (0 < Ncell * Norb * L) by nia. assert (0 < N * N * nb * nb) by nia.
  unfold un_layout. destruct (unequal p); [|constructor].
  unfold uneqlt_layout, dbl, int_. repeat (apply Forall_cons; [cbn [snd]; lia|]). apply Forall_nil.
Qed.
Lemma un_sizes : sizes un_layout = if unequal p then uneqlt_bytes p else 0.
Proof.
  unfold un_layout. destruct (unequal p); [|reflexivity].
  cbn [sizes uneqlt_layout fold_right snd]. unfold uneqlt_bytes, maps_bytes. fold Norb Ncell L prodBlen. fold N nb.
  unfold dbl, int_, matrix, vector, N. ring.
Qed.

Lemma ph_nonneg : Forall (fun f => 0 <= snd f) ph_layout.
Proof.
  unfold ph_layout. destruct (phonons p) eqn:E; [|constructor].
  assert (0 <= Z.quot (sp_nsampl p * L) (sp_neqlt p)).
  { apply Z.quot_pos; [pose proof (nsampl_nonneg E); nia | now apply neqlt_pos]. }
  set (q := Z.quot _ _) in *. assert (0 <= Norb * q) by nia.
  unfold phonon_layout, dbl. repeat (apply Forall_cons; [cbn [snd]; lia|]). apply Forall_nil.
Qed.
Lemma x_nonneg : Forall (fun f => 0 <= snd f) x_layout.
Proof.
  unfold x_layout. destruct (phonons p); [|constructor]. assert (0 < L * N) by nia.
  unfold dbl. repeat (apply Forall_cons; [cbn [snd]; lia|]). apply Forall_nil.
Qed.
Lemma ph_x_sizes : sizes ph_layout + sizes x_layout = if phonons p then phonon_bytes p else 0.
Proof.
  unfold ph_layout, x_layout. destruct (phonons p) eqn:E; [|reflexivity].
  cbn [sizes phonon_layout fold_right snd]. unfold phonon_bytes. fold Norb Ncell L. fold N.
  rewrite Z.quot_div_nonneg; [|pose proof (nsampl_nonneg E); nia | now apply neqlt_pos].
  unfold dbl, vector. ring.
Qed.
Lemma sizes_nonneg fs : Forall (fun f => 0 <= snd f) fs -> 0 <= sizes fs.
Proof. induction 1 as [|f fs H F IH]; cbn [sizes fold_right]; [lia|]. fold (sizes fs). lia. Qed.

Lemma spec_unequal B n l : (sound orc -> total l + sizes un_layout <= B) ->
  spec B n l (if unequal p then alloc_uneqlt orc Norb Ncell L nb else ret (Some [])) (fun r n' l' => n' = n /\
    match r with None => incl l l' /\ exists ch k, orc ch k = true | Some s => map fst s = map fst un_layout /\ l' = (blocks_of s un_layout ++ l)%list end).
Proof.
  intros HB. pose proof un_nonneg as F. unfold un_layout in *. destruct (unequal p) eqn:E.
  2: { apply spec_ret. now repeat split. }
  assert (0 < N * N * nb * nb) by nia.
  inversion F as [|? ? _ F1]. subst. inversion F1 as [|? ? _ F2]. subst.
  cbn [sizes fold_right snd] in HB. fold (sizes (uneqlt_layout Norb Ncell L)) in HB. pose proof (sizes_nonneg _ F2) as S2.
  unfold alloc_uneqlt. replace (Ncell * Norb) with N by (unfold N; ring).
  b_decide m1. destruct m1; [apply spec_ret; split; [reflexivity | split; [apply incl_refl | asked]]|].
  eapply spec_bind; [apply spec_alloc; [intros S; specialize (HB S); unfold dbl in *; lia | unfold dbl; lia] | cbn beta; intros hu ? ? [-> ->]].
  b_decide m2. destruct m2; [apply spec_ret; split; [reflexivity | split; [intros q Hq; now right | asked]]|].
  eapply spec_bind; [apply spec_alloc; [rewrite total_cons; cbn [snd]; intros S; specialize (HB S); unfold dbl in *; lia | unfold dbl; lia] |
    cbn beta; intros hd ? ? [-> ->]].
  intros h G.
  destruct (spec_fields B (uneqlt_layout Norb Ncell L) n ((hd, dbl (N * N * nb * nb)) :: (hu, dbl (N * N * nb * nb)) :: l)) with (h := h)
    as (s & h' & n' & l' & E1 & G1 & ((-> & ->) & Es)); [exact F2 | | exact G |].
  { rewrite !total_cons. cbn [snd]. intros S; specialize (HB S). lia. }
  eexists _, h', n, _. split; [unfold bind; rewrite E1; reflexivity|].
  split; [|split; [reflexivity|split; [cbn [map fst]; rewrite Es; reflexivity | reflexivity]]].
  eapply good_perm; [|exact G1]. cbn [blocks_of ptrs map snd combine app]. fold (ptrs s). fold (blocks_of s (uneqlt_layout Norb Ncell L)).
  rearrange.
Qed.

Definition bound (lines : list (string * list string)) : Z := most_bytes p lines.

Lemma release_eq B n l s : map fst s = map fst (eqlt_layout Norb Ncell) ->
  spec B n (blocks_of s (eqlt_layout Norb Ncell) ++ l) (delete_eqlt s) (fun _ n' l' => n' = n /\ l' = l).
Proof.
  intros E. apply spec_release; [exact E | | names_dup | exact eq_nonneg].
  cbn [eqlt_layout map fst]. rearrange.
Qed.

Lemma release_un B n l s : map fst s = map fst un_layout ->
  spec B n (blocks_of s un_layout ++ l) (when (unequal p) (delete_uneqlt s)) (fun _ n' l' => n' = n /\ l' = l).
Proof.
  intros E. pose proof un_nonneg as F. unfold un_layout in *. destruct (unequal p); cbn [when].
  - apply spec_release; [exact E | | names_dup | exact F]. cbn [uneqlt_layout map fst]. rearrange.
  - destruct s; [|discriminate]. apply spec_ret. now split.
Qed.

Lemma release_x B n l s ph : map fst s = map fst x_layout -> map fst ph = map fst ph_layout ->
  forall r z, 0 <= z ->
  spec B n (blocks_of s x_layout ++ (r, z) :: blocks_of ph ph_layout ++ l)
    (when (phonons p) (free_fields s ["expX"; "X"] ;; delete_phonon ph)) (fun _ n' l' => n' = n /\ l' = (r, z) :: l).
Proof.
  intros E Eh r z Hz. pose proof x_nonneg as F. pose proof ph_nonneg as Fh. unfold x_layout, ph_layout in *.
  destruct (phonons p); cbn [when].
  - eapply spec_bind; [apply spec_release; [exact E | fields_perm | names_dup | exact F] | cbn beta; intros ? ? ? [-> ->]].
    eapply spec_perm; [|apply spec_release; [exact Eh | | names_dup | exact Fh]].
    + rearrange.
    + cbn [phonon_layout map fst]. rearrange.
  - destruct s; [|discriminate]. destruct ph; [|discriminate]. apply spec_ret. now split.
Qed.

Lemma release_params B n l s : map fst s = map fst (params_layout Norb) ->
  spec B n (blocks_of s (params_layout Norb) ++ l) (delete_params s) (fun _ n' l' => n' = n /\ l' = l).
Proof.
  intros E. apply spec_release; [exact E | | names_dup | exact params_nonneg].
  cbn [params_layout map fst]. rearrange.
Qed.

Lemma spec_main lines i0 :
  spec (bound lines) 0 [] (main orc p lines i0) (fun o n' l' =>
    ((o_status o < 0 /\ exists ch k, orc ch k = true) /\ (sound orc -> n' = 0%nat)) \/
    (0 <= o_status o <= 1 /\ l' = [] /\ Z.of_nat n' = leaks p (o_from o) (o_to o) /\
     (o_from o = 0 \/ o_from o = i0 /\ exists k, orc Checkpoint k = true) /\
     (o_status o = 0 -> o_to o = Z.max (o_from o) (sp_nequil p + sp_nsampl p)) /\
     (o_status o = 1 -> exists m, orc Stop m = true) /\ o_from o <= o_to o)).
Proof.
  unfold main. fold Norb Ncell L prodBlen. fold N nb. set (B := bound lines).
  assert (W := work_sweep p valid). fold Norb Ncell in W. fold N in W.
  assert (M0 := matrix_pos p valid). fold Norb Ncell in M0. fold N in M0.
  assert (T0 := steps_pos p valid).
  pose proof (sizes_nonneg _ un_nonneg) as Zu. pose proof (sizes_nonneg _ ph_nonneg) as Zp. pose proof (sizes_nonneg _ x_nonneg) as Zx.
  pose proof (sizes_nonneg _ params_nonneg) as Za. rewrite params_sizes in Za. pose proof (sizes_nonneg _ eq_nonneg) as Ze. rewrite eq_sizes in Ze.
  assert (HB : params_bytes p + eqlt_bytes p + N * L + kept_bytes p + work p + sizes un_layout + sizes ph_layout + sizes x_layout <= B).
  { unfold B, bound, most_bytes. apply Z.le_trans with (run_bytes p); [|lia]. unfold run_bytes, work. fold Norb Ncell L. fold N.
    rewrite un_sizes. pose proof ph_x_sizes as E. fold (unequal p). fold (phonons p).
    destruct (unequal p), (phonons p); lia. }
  assert (HT : params_bytes p + table_bytes lines <= B) by (unfold B, bound, most_bytes; lia).
  assert (K0 : 0 < kept_bytes p) by (unfold kept_bytes; fold Norb Ncell; fold N; unfold vector; lia).
  assert (LN : 0 < L * N) by nia.
  b_decide m1. destruct m1; [apply spec_ret; left; cbn; split; [split; [lia | asked] | reflexivity]|].
  eapply spec_bind; [apply spec_parse; intros _; change (total []) with 0; lia | cbn beta; intros r ? l1 (-> & Hr)].
  destruct r as [code|par_]; [apply spec_ret; left; cbn; split; [split; [lia | exact Hr] | reflexivity]|]. destruct Hr as [Ea ->].
  assert (Ta := fields_total _ _ Ea). rewrite params_sizes in Ta.
  rewrite app_nil_r. set (la := blocks_of par_ (params_layout Norb)) in *.
  assert (Ia : incl (ptrs par_) (map fst la)) by (unfold la; rewrite (blocks_fst _ _ Ea); apply incl_refl).
  eapply spec_bind; [apply spec_touch; exact Ia | cbn beta; intros ? ? ? [-> ->]].
  b_decide m2. destruct m2; [apply spec_ret; left; cbn; split; [split; [lia | asked] | reflexivity]|].
  b_decide m3. destruct m3; [apply spec_ret; left; cbn; split; [split; [lia | asked] | reflexivity]|].
  eapply spec_bind; [apply spec_alloc; [intros _; lia | lia] | cbn beta; intros fd ? ? [-> ->]].
  eapply spec_bind; [apply spec_fields; [exact eq_nonneg | intros _; rewrite total_cons, eq_sizes; cbn [snd]; lia] |
    cbn beta; intros eq ? ? ((-> & ->) & Ee)].
  assert (Te := fields_total _ _ Ee). rewrite eq_sizes in Te. set (le := blocks_of eq (eqlt_layout Norb Ncell)) in *.
  assert (Ie : incl (ptrs eq) (map fst le)) by (unfold le; rewrite (blocks_fst _ _ Ee); apply incl_refl).
  eapply spec_bind; [apply spec_unequal; intros _; rewrite total_app, total_cons; cbn [snd]; lia | cbn beta; intros un' ? l2 (-> & Hu)].
  destruct un' as [un|].
  2: { eapply spec_bind; [apply spec_touch | cbn beta; intros ? ? ? [-> ->]].
       { intros q [<-|[]]. apply (incl_map fst (proj1 Hu)). rewrite map_app, in_app_iff. right. now left. }
       apply spec_ret. left. cbn. split; [split; [lia | exact (proj2 Hu)] | reflexivity]. }
  destruct Hu as [Eu ->].
  assert (Tu := fields_total _ _ Eu). set (lu := blocks_of un un_layout) in *.
  assert (Iu : incl (ptrs un) (map fst lu)) by (unfold lu; rewrite (blocks_fst _ _ Eu); apply incl_refl).
  eapply spec_bind with (Q := fun ph n' l' => (n' = 0%nat /\ l' = blocks_of ph ph_layout ++ lu ++ le ++ (fd, 0) :: la)%list /\
    map fst ph = map fst ph_layout).
  { pose proof ph_nonneg as F. assert (HP : sizes ph_layout <= B) by lia.
    unfold ph_layout in *. destruct (phonons p) eqn:Ph.
    - destruct (Z.eqb_spec (sp_neqlt p) 0) as [E|_]; [pose proof (neqlt_pos Ph); lia|].
      apply spec_fields; [exact F|]. intros _. rewrite !total_app, total_cons. cbn [snd]. lia.
    - apply spec_ret. now repeat split. }
  cbn beta. intros ph ? ? ((-> & ->) & Eh).
  assert (Th := fields_total _ _ Eh). set (lh := blocks_of ph ph_layout) in *.
  assert (Ih : incl (ptrs ph) (map fst lh)) by (unfold lh; rewrite (blocks_fst _ _ Eh); apply incl_refl).
  eapply spec_bind; [apply spec_alloc; [intros _; rewrite !total_app, total_cons; cbn [snd]; lia | lia] | cbn beta; intros s ? ? [-> ->]].
  set (l3 := (s, L * N) :: (lh ++ lu ++ le ++ (fd, 0) :: la)%list).
  assert (T3 : total l3 = L * N + sizes ph_layout + sizes un_layout + eqlt_bytes p + params_bytes p).
  { unfold l3. rewrite total_cons, !total_app, total_cons. cbn [snd]. lia. }
  assert (P3 : forall q, In q (map fst l3) <-> q = s \/ In q (map fst lh) \/ In q (map fst lu) \/ In q (map fst le) \/ q = fd \/ In q (map fst la)).
  { intros q. unfold l3. cbn [map fst In]. rewrite !map_app, !in_app_iff. cbn [map fst In]. intuition congruence. }
  assert (Is3 : In s (map fst l3)) by (apply P3; tauto).
  assert (Ifd : In fd (map fst l3)) by (apply P3; tauto).
  assert (Ie3 : incl (ptrs eq) (map fst l3)) by (intros q Hq; apply P3; specialize (Ie q Hq); tauto).
  assert (Iu3 : incl (ptrs un) (map fst l3)) by (intros q Hq; apply P3; specialize (Iu q Hq); tauto).
  assert (Ih3 : incl (ptrs ph) (map fst l3)) by (intros q Hq; apply P3; specialize (Ih q Hq); tauto).
  assert (Ia3 : incl (ptrs par_) (map fst l3)) by (intros q Hq; apply P3; specialize (Ia q Hq); tauto).
  assert (Fe : incl eqlt_files (map fst eq)).
  { rewrite Ee. unfold eqlt_files. cbn [eqlt_layout map fst]. intros f Hf. cbn [In] in *. tauto. }
  assert (Fu : unequal p = true -> incl uneqlt_files (map fst un)).
  { rewrite Eu. unfold un_layout. intros ->. unfold uneqlt_files. cbn [uneqlt_layout map fst]. intros f Hf. cbn [In] in *. tauto. }
  assert (Fh : phonons p = true -> incl phonon_files (map fst ph)).
  { rewrite Eh. unfold ph_layout. intros ->. unfold phonon_files. cbn [phonon_layout map fst]. intros f Hf. cbn [In] in *. tauto. }
  eapply spec_bind; [apply spec_start; [exact Is3 | exact Ie3 | exact Iu3 | exact Fe | exact Fu | intros _; lia] |
    cbn beta; intros from ? ? ((-> & ->) & Hf)].
  destruct from as [code|i].
  { eapply spec_bind; [apply spec_touch; intros q [<-|[]]; exact Ifd | cbn beta; intros ? ? ? [-> ->]].
    apply spec_ret. left. cbn. split; [exact Hf | reflexivity]. }
  eapply spec_bind with (Q := fun xs n' l' => (n' = 0%nat /\ l' = blocks_of xs x_layout ++ l3)%list /\
    map fst xs = map fst x_layout).
  { pose proof x_nonneg as F. assert (HP : sizes x_layout + (sizes ph_layout + sizes un_layout) <= B) by lia.
    unfold x_layout in *. destruct (phonons p) eqn:Ph.
    - apply spec_fields; [exact F|]. intros _. lia.
    - apply spec_ret. now repeat split. }
  cbn beta. intros xs ? ? ((-> & ->) & Ex).
  assert (Tx := fields_total _ _ Ex). set (lx := blocks_of xs x_layout) in *.
  assert (Ix : incl (ptrs xs) (map fst lx)) by (unfold lx; rewrite (blocks_fst _ _ Ex); apply incl_refl).
  set (l4 := (lx ++ l3)%list).
  assert (T4 : total l4 = sizes x_layout + total l3) by (unfold l4; rewrite total_app; lia).
  assert (I34 : incl (map fst l3) (map fst l4)) by (unfold l4; rewrite map_app; apply incl_appr, incl_refl).
  assert (Ix4 : incl (ptrs xs) (map fst l4)) by (unfold l4; rewrite map_app; now apply incl_appl).
  assert (Is4 := I34 _ Is3). assert (Ifd4 := I34 _ Ifd).
  assert (Ie4 := incl_tran Ie3 I34). assert (Iu4 := incl_tran Iu3 I34).
  assert (Ih4 := incl_tran Ih3 I34). assert (Ia4 := incl_tran Ia3 I34).
  eapply spec_bind; [apply spec_touch; intros q [<-|Hq]; [exact Ifd4 | now apply Ix4] | cbn beta; intros ? ? ? [-> ->]].
  eapply spec_bind; [apply (spec_simulation B 0 l4 par_ eq un ph s xs i) | cbn beta; intros [j stopped] n' ? ((En & ->) & Hd & Hp & Hj)]; try assumption.
  { intros Ph. unfold x_layout in Ex. rewrite Ph in Ex. destruct xs as [|[? xa] [|[? xb] [|]]]; try discriminate. now exists xa, xb. }
  { intros _. rewrite Ea. cbn. tauto. }
  { intros Hu. rewrite Eu. unfold un_layout. rewrite Hu. cbn. tauto. }
  { intros _. lia. }
  cbn [fst snd] in *. change (Z.of_nat 0) with 0 in En.
  eapply spec_bind; [apply spec_touch | cbn beta; intros ? ? ? [-> ->]].
  { intros q [<-|Hq]; [exact Ifd4|]. rewrite !in_app_iff in Hq. destruct Hq as [Hq|[Hq|Hq]]; auto. }
  assert (B4 : sound orc -> total l4 <= B) by (intros _; lia).
  eapply spec_bind; [apply spec_write_until; [|exact B4] | cbn beta; intros ok ? ? ((-> & ->) & Hok & Hno)].
  { repeat (apply Forall_cons; [intros q Hq; cbn [In] in Hq; repeat destruct Hq as [<-|Hq]; try easy|]). apply Forall_nil. }
  destruct ok; cbn [negb].
  2: { eapply spec_bind; [apply spec_touch; intros q [<-|[]]; exact Ifd4 | cbn beta; intros ? ? ? [-> ->]].
       apply spec_ret. left. cbn. split; [split; [lia | now apply Hno]|]. intros S. specialize (Hok S). discriminate. }
  apply after_write; [intros q [] | exact B4 | intros _]. apply after_write; [intros q [] | exact B4 | intros _].
  apply spec_neat; [now apply neat_write_fields | intros _].
  apply spec_neat; [| intros _].
  { apply neat_when. intros Hu k.
    apply after_write; [intros q [] | exact B4 | intros _]. apply after_write; [intros q [] | exact B4 | intros _].
    apply neat_write_fields; [now apply Fu | exact Iu4 | exact B4]. }
  apply spec_neat; [| intros _].
  { apply neat_when. intros Hu k.
    apply after_write; [intros q [] | exact B4 | intros _]. apply after_write; [intros q [] | exact B4 | intros _].
    apply spec_neat; [apply neat_write_fields; [now apply Fh | exact Ih4 | exact B4] | intros _].
    do 4 (apply after_write; [intros q [] | exact B4 | intros _]). now apply spec_ret. }
  eapply spec_bind; [apply spec_touch; intros q [<-|[]]; exact Ifd4 | cbn beta; intros ? ? ? [-> ->]].
  eapply spec_bind.
  { eapply spec_perm; [|apply (spec_free orc c B n' fd 0 (lx ++ (s, L * N) :: lh ++ lu ++ le ++ la)); lia].
    unfold l4, l3. rearrange. }
  cbn beta. intros ? ? ? [-> ->].
  b_decide late. match goal with E : exists k, late = orc LateSignal k |- _ => destruct E as [kk El] end. rewrite (silent kk) in El. subst late. cbn [when].
  apply spec_neat; [apply neat_ret | intros _].
  eapply spec_bind; [apply release_x; [exact Ex | exact Eh | lia] | cbn beta; intros ? ? ? [-> ->]].
  eapply spec_bind; [apply spec_free; lia | cbn beta; intros ? ? ? [-> ->]].
  eapply spec_bind; [apply release_un; exact Eu | cbn beta; intros ? ? ? [-> ->]].
  eapply spec_bind; [apply release_eq; exact Ee | cbn beta; intros ? ? ? [-> ->]].
  eapply spec_bind; [eapply spec_perm; [|apply (release_params B n' [] par_ Ea)]; rewrite app_nil_r; apply Permutation_refl |
    cbn beta; intros ? ? ? [-> ->]].
  apply spec_ret. right. cbn [o_status o_from o_to]. split; [destruct stopped; lia|]. split; [reflexivity|]. split; [exact En|]. split; [exact Hf|].
  split; [intros E; apply Hd; now destruct stopped|]. split; [intros E; apply Hp; now destruct stopped | exact Hj].
Qed.

End Main.
