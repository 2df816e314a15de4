(** Proofs about ParamParser.v *)
From stdpp Require Import gmap strings list.
From Coq Require Import ZArith NArith List String Ascii Reals Bool Lia.
From Verif Require Import Base BaseFacts HashTable HashTableSpec HashTableFacts SimParams ParamParser ParamSpec ParamLines.
Import ListNotations.
Local Open Scope Z_scope.

Lemma collect_ok toks : forall num, num + Z.of_nat (List.length toks) < max_values -> collect num toks = Some toks.
Proof.
  induction toks as [|t toks IH]; intros num H; cbn [collect List.length] in *.
  - destruct (Z.ltb_spec num max_values); [reflexivity|lia].
  - destruct (Z.ltb_spec num max_values); [|lia]. rewrite ?guard_true, ?guard_false. rewrite IH by lia. reflexivity.
Qed.

Lemma append_values_ok b : forall a, Z.of_nat (List.length a) <= max_values ->
  append_values a b = if Z.of_nat (List.length (a ++ b)) <=? max_values then Some (a ++ b) else None.
Proof.
  induction b as [|v b IH]; intros a H; cbn [append_values].
  - rewrite app_nil_r. destruct (Z.leb_spec (Z.of_nat (List.length a)) max_values); [reflexivity|lia].
  - destruct (Z.ltb_spec (Z.of_nat (List.length a)) max_values); rewrite ?guard_true, ?guard_false.
    + rewrite IH by (rewrite app_length; cbn [List.length]; lia). now rewrite <- app_assoc.
    + rewrite app_length. cbn [List.length]. destruct (Z.leb_spec (Z.of_nat (List.length a + S (List.length b))) max_values); [lia|reflexivity].
Qed.

(** what the table holds after the lines [ls] *)
Definition stored (vs : list string) : option (list string) := match vs with [] => None | _ => Some vs end.
Definition holds (ls : list (list ascii)) (ht : table (list string)) : Prop :=
  exists m, rel ht m /\ (forall name, m !! name = stored (values_in ls name)) /\
    (forall name, Z.of_nat (List.length (values_in ls name)) <= max_values).

Lemma values_in_snoc ls l name : values_in (ls ++ [l]) name = values_in ls name ++ line_values name l.
Proof. unfold values_in. rewrite flat_map_app. cbn. now rewrite app_nil_r. Qed.

Lemma load_line_ok ls ht l : holds ls ht -> (List.length l <= 1023)%nat ->
  (exists ht', load_line ht l = Some ht' /\ holds (ls ++ [l]) ht') \/
  (load_line ht l = None /\ exists name, max_values < Z.of_nat (List.length (values_in (ls ++ [l]) name))).
Proof.
  intros (m & Hr & Hm & Hb) Hl. unfold load_line. rewrite line_text_relevant, tokens_words.
  destruct (words (relevant l)) as [|name toks] eqn:E.
  { left. exists ht. split; [reflexivity|]. exists m. split; [auto|].
    assert (forall n, line_values n l = []) as Hv by (intros n; unfold line_values; now rewrite E).
    split; intros n; rewrite values_in_snoc, Hv, app_nil_r; auto. }
  assert (Z.of_nat (List.length toks) < max_values) as Ht.
  { pose proof (words_bound (relevant l)) as Hw. pose proof (relevant_length l). rewrite E in Hw.
    cbn [List.length] in Hw. unfold max_values. lia. }
  rewrite collect_ok by lia. cbn [obind].
  destruct toks as [|v toks].
  { left. exists ht. split; [reflexivity|]. exists m. split; [auto|].
    assert (forall n, line_values n l = []) as Hv.
    { intros n; unfold line_values; rewrite E. now destruct (String.eqb name n). }
    split; intros n; rewrite values_in_snoc, Hv, app_nil_r; auto. }
  set (vs := v :: toks) in *.
  assert (line_values name l = vs) as Hv1 by (unfold line_values; rewrite E; now rewrite String.eqb_refl).
  assert (forall n, n <> name -> line_values n l = []) as Hv2.
  { intros n Hn. unfold line_values. rewrite E. destruct (String.eqb_spec name n); congruence. }
  rewrite (get_sim _ _ name Hr). cbn [obind].
  assert ((match m !! name with
    | Some pv => let* v0 := append_values pv vs in let* (ht', _) := ht_insert ht name v0 in Some ht'
    | None => let* v0 := append_values [] vs in let* (ht', _) := ht_insert ht name v0 in Some ht'
    end) = let* v0 := append_values (values_in ls name) vs in let* (ht', _) := ht_insert ht name v0 in Some ht') as ->.
  { rewrite Hm. destruct (values_in ls name); reflexivity. }
  rewrite append_values_ok by apply Hb.
  destruct (Z.leb_spec (Z.of_nat (List.length (values_in ls name ++ vs))) max_values) as [Hle|Hgt].
  - left. cbn [obind]. destruct (insert_sim ht m name (values_in ls name ++ vs) Hr) as (ht' & Ei & Hr').
    rewrite Ei. cbn [obind]. exists ht'. split; [reflexivity|]. exists (<[name := values_in ls name ++ vs]> m).
    split; [exact Hr'|]. split.
    + intros n. rewrite values_in_snoc. destruct (decide (n = name)) as [->|Hn].
      * rewrite lookup_insert, Hv1. unfold vs. destruct (values_in ls name); reflexivity.
      * rewrite lookup_insert_ne by auto. rewrite Hv2 by auto. rewrite app_nil_r. apply Hm.
    + intros n. rewrite values_in_snoc. destruct (decide (n = name)) as [->|Hn].
      * now rewrite Hv1.
      * rewrite Hv2 by auto. rewrite app_nil_r. apply Hb.
  - right. split; [reflexivity|]. exists name. rewrite values_in_snoc, Hv1. exact Hgt.
Qed.

Lemma values_in_mono ls ls' name : (List.length (values_in ls name) <= List.length (values_in (ls ++ ls') name))%nat.
Proof. unfold values_in. rewrite flat_map_app, app_length. lia. Qed.

Lemma load_lines_ok ls' : forall ls ht, holds ls ht -> Forall (fun l => (List.length l <= 1023)%nat) ls' ->
  let r := fold_left (fun acc l => let* ht := acc in load_line ht l) ls' (Some ht) in
  (exists ht', r = Some ht' /\ holds (ls ++ ls') ht') \/
  (r = None /\ exists name, max_values < Z.of_nat (List.length (values_in (ls ++ ls') name))).
Proof.
  induction ls' as [|l ls' IH]; intros ls ht H Hl; cbn [fold_left].
  - left. exists ht. rewrite app_nil_r. auto.
  - inversion_clear Hl as [|? ? Hl1 Hl2]. cbn [obind].
    destruct (load_line_ok ls ht l H Hl1) as [(ht' & -> & H')|(-> & name & Hn)].
    + destruct (IH (ls ++ [l]) ht' H' Hl2) as [(h & E & Hh)|(E & n & Hn)]; rewrite <- app_assoc in *; [left|right]; eauto.
    + right. split.
      * clear. induction ls' as [|l' ls' IH]; [reflexivity|]. exact IH.
      * exists name. pose proof (values_in_mono (ls ++ [l]) ls' name) as Hm. rewrite <- app_assoc in Hm.
        cbn [app] in Hm. lia.
Qed.

Lemma load_file_ok f : let ls := read_lines (List.length f) 1023 f in
  (exists ht, load_file f = Some ht /\ (forall name, ht_get ht name = Some (stored (values_in ls name))) /\
     (forall name, Z.of_nat (List.length (values_in ls name)) <= max_values)) \/
  (load_file f = None /\ exists name, max_values < Z.of_nat (List.length (values_in ls name))).
Proof.
  intros ls. unfold load_file. fold ls.
  destruct (load_lines_ok ls [] (ht_alloc 64)) as [(ht & E & m & Hr & Hm & Hb)|(E & n & Hn)].
  - exists ∅. split; [apply alloc_rel; lia|]. split; intros n; [now rewrite lookup_empty|]. cbn. unfold max_values. lia.
  - apply read_lines_length.
  - left. exists ht. split; [exact E|]. split; [|exact Hb]. intros n. rewrite (get_sim _ _ n Hr). now rewrite <- Hm.
  - right. split; [exact E|]. exists n. exact Hn.
Qed.

(** ** the update phase *)
Notation res A := (option (Z + A)%type) (only parsing).
Lemma rbind_inr {A B} (c : res A) (k : A -> res B) b : rbind c k = Some (inr b) ->
  exists a, c = Some (inr a) /\ k a = Some (inr b).
Proof. destruct c as [[e|a]|]; cbn; intros H; try discriminate. eauto. Qed.

Lemma rbind_inl {A B} (c : res A) (k : A -> res B) e : rbind c k = Some (inl e) ->
  c = Some (inl e) \/ exists a, c = Some (inr a) /\ k a = Some (inl e).
Proof. destruct c as [[e'|a]|]; cbn; intros H; try discriminate; [left|right; eauto]. injection H as ->. reflexivity. Qed.

Lemma rbind_ext {A B} (c c' : res A) (k k' : A -> res B) : c = c' -> (forall a, k a = k' a) -> rbind c k = rbind c' k'.
Proof. intros -> H. destruct c' as [[e|a]|]; cbn; auto. Qed.

Section Update.
Variable atof : string -> R.
Variables (ht : table (list string)) (vals : string -> list string).
Hypothesis Hget : forall name, ht_get ht name = Some (stored (vals name)).

Lemma scalar_inv {A} (conv : string -> option A) name x y :
  scalar ht conv name x = Some (inr y) -> scalar_is conv (vals name) x y.
Proof.
  unfold scalar, scalar_is. rewrite Hget. intros H. destruct (vals name) as [|v vs]; cbn [stored] in H; [congruence|].
  change (aget (v :: vs) 0) with (Some v) in H. cbn [app] in H.
  destruct (conv v); congruence.
Qed.
Lemma scalar_no_error {A} (conv : string -> option A) name x e : scalar ht conv name x <> Some (inl e).
Proof.
  unfold scalar. rewrite Hget. destruct (vals name) as [|v vs]; cbn [stored]; [congruence|].
  change (aget (v :: vs) 0) with (Some v). cbn [app]. destruct (conv v); discriminate.
Qed.
Lemma array_inv rd name a b : array ht rd name a = Some (inr b) ->
  match vals name with [] => b = a | vs => rd vs a = Some (0, b) end.
Proof.
  unfold array. rewrite Hget. destruct (vals name) as [|v vs]; cbn [stored]; [congruence|].
  destruct (rd (v :: vs) a) as [[s a']|]; [|congruence]. destruct (Z.eqb_spec s 0); congruence.
Qed.
Lemma array_error rd name a e : array ht rd name a = Some (inl e) ->
  e = -3 /\ vals name <> [] /\ exists s b, s <> 0 /\ rd (vals name) a = Some (s, b).
Proof.
  unfold array. rewrite Hget. destruct (vals name) as [|v vs]; cbn [stored]; [congruence|].
  destruct (rd (v :: vs) a) as [[s a']|]; [|congruence]. destruct (Z.eqb_spec s 0); [congruence|].
  intros H. split; [congruence|]. split; [congruence|]. exists s, a'. auto.
Qed.
End Update.

(** ReadList *)
Lemma read_list_ok atof Norb l a : 0 <= Norb -> Z.of_nat (List.length a) = Norb ->
  read_list atof Norb l a = if Z.of_nat (List.length l) =? Norb then Some (0, map atof l) else Some (-1, a).
Proof.
  intros HN Ha. unfold read_list. destruct (Z.eqb_spec (Z.of_nat (List.length l)) Norb) as [E|E]; cbn [negb]; [|reflexivity].
  destruct (@for_range_inv _ (fun i (b : list R) => Z.of_nat (List.length b) = Norb /\
      forall k, (Z.of_nat k < i) -> nth_error b k = nth_error (map atof l) k)
    0 Norb (fun i a => let* s := aget l i in aset a i (atof s)) a) as (b & -> & Hb1 & Hb2); auto.
  - intros i b Hi (H1 & H2). destruct (@aget_ex _ l i) as (s & Es); [lia|]. rewrite Es. cbn [obind].
    rewrite aset_ok by lia. eexists; split; [reflexivity|]. rewrite lset_length. split; [auto|].
    intros k Hk. destruct (Nat.eq_dec k (Z.to_nat i)) as [->|Hne].
    + rewrite lset_nth_same by lia. apply aget_Some in Es as [_ Es]. symmetry.
      now apply map_nth_error.
    + rewrite lset_nth_other by auto. apply H2. lia.
  - split; [auto|]. intros; lia.
  - cbn [obind]. do 2 f_equal. apply list_eq. intros k. rewrite <- !nth_error_lookup.
    destruct (Z.lt_ge_cases (Z.of_nat k) Norb); [auto|].
    rewrite !(proj2 (nth_error_None _ _)); [reflexivity| |]; rewrite ?map_length; lia.
Qed.

(** ReadHoppings *)
Lemma read_triples_ok atof Norb : 0 <= Norb -> forall l t, Z.of_nat (List.length t) = Norb * Norb ->
  Forall (fun x => let '(a, b, _) := x in atoi a <> None /\ atoi b <> None) (triples l) ->
  exists s t', read_triples atof Norb l t = Some (s, t') /\ Z.of_nat (List.length t') = Norb * Norb /\
    (s = 0 <-> Forall (in_range atoi Norb) (triples l)) /\ (s = 0 \/ s = -2) /\
    (s = 0 -> forall i j, 0 <= i < Norb -> 0 <= j < Norb ->
       bond_is atoi atof (triples l) i j (nth (Z.to_nat (i + Norb * j)) t 0%R) (nth (Z.to_nat (i + Norb * j)) t' 0%R)).
Proof.
  intros HN l.
  assert (forall n l t, (List.length l <= n)%nat -> Z.of_nat (List.length t) = Norb * Norb ->
  Forall (fun x => let '(a, b, _) := x in atoi a <> None /\ atoi b <> None) (triples l) ->
  exists s t', read_triples atof Norb l t = Some (s, t') /\ Z.of_nat (List.length t') = Norb * Norb /\
    (s = 0 <-> Forall (in_range atoi Norb) (triples l)) /\ (s = 0 \/ s = -2) /\
    (s = 0 -> forall i j, 0 <= i < Norb -> 0 <= j < Norb ->
       bond_is atoi atof (triples l) i j (nth (Z.to_nat (i + Norb * j)) t 0%R) (nth (Z.to_nat (i + Norb * j)) t' 0%R))) as H.
  2:{ intros t. now apply (H (List.length l)). }
  clear l. induction n as [|n IH]; intros l t Hl Ht Hd.
  { destruct l; [|cbn in Hl; lia]. exists 0, t. cbn. repeat split; auto.
    intros _ i j _ _. left. split; [constructor|reflexivity]. }
  destruct l as [|sa [|sb [|sv l]]].
  1-3: exists 0, t; cbn; repeat split; auto; intros _ i j _ _; left; (split; [constructor|reflexivity]).
  cbn [triples] in *. inversion_clear Hd as [|? ? H0 Hd']. cbn in H0. destruct H0 as [Ha Hb].
  cbn [read_triples]. destruct (atoi sa) as [a|] eqn:Ea; [|congruence]. destruct (atoi sb) as [b|] eqn:Eb; [|congruence].
  cbn [obind].
  assert (in_range atoi Norb (sa, sb, sv) <-> 0 <= a < Norb /\ 0 <= b < Norb) as Hr.
  { unfold in_range, names_bond. split.
    - intros (i & j & [E1 E2] & H1 & H2). assert (a = i) by congruence. assert (b = j) by congruence. subst; auto.
    - intros [H1 H2]. exists a, b. auto. }
  destruct ((a <? 0) || (Norb <=? a) || (b <? 0) || (Norb <=? b)) eqn:Er.
  - exists (-2), t. split; [reflexivity|]. split; [auto|]. split; [|split; [auto|discriminate]].
    split; [discriminate|]. intros H. inversion_clear H as [|? ? H1 _]. apply Hr in H1.
    rewrite !orb_true_iff, !Z.ltb_lt, !Z.leb_le in Er. lia.
  - rewrite !orb_false_iff, !Z.ltb_ge, !Z.leb_gt in Er.
    assert (0 <= a + Norb * b < Norb * Norb) as Hi by nia.
    rewrite aset_ok by lia. cbn [obind].
    destruct (IH l (lset t (Z.to_nat (a + Norb * b)) (atof sv))) as (s & t' & E & Hlen & Hs & Hs2 & Hb1); auto.
    { cbn [List.length] in Hl. lia. }
    { now rewrite lset_length. }
    exists s, t'. split; [exact E|]. split; [exact Hlen|]. split; [|split; [exact Hs2|]].
    + rewrite Hs. split; [intros H; constructor; [apply Hr; lia|auto]|intros H; inversion_clear H; auto].
    + intros Hs0 i j Hi0 Hj0. specialize (Hb1 Hs0 i j Hi0 Hj0).
      destruct Hb1 as [[Hn Hx]|(ts1 & x & ts2 & Hx1 & Hx2 & Hx3 & Hx4)].
      * rewrite Hx, lset_nth_d by lia.
        destruct (Nat.eqb_spec (Z.to_nat (a + Norb * b)) (Z.to_nat (i + Norb * j))) as [Eij|Eij].
        -- right. exists [], (sa, sb, sv), (triples l). split; [reflexivity|].
           assert (a + Norb * b = i + Norb * j) as Eij' by nia.
           assert (b = j) by nia. assert (a = i) by nia. subst.
           split; [split; auto|]. split; [exact Hn|reflexivity].
        -- left. split; [|reflexivity]. constructor; [|exact Hn]. intros [E1 E2].
           assert (a = i) by congruence. assert (b = j) by congruence. subst. now apply Eij.
      * right. exists ((sa, sb, sv) :: ts1), x, ts2. rewrite Hx1. split; [reflexivity|]. auto.
Qed.

Lemma read_triples_def atof Norb : forall n l t s t', (List.length l <= n)%nat ->
  read_triples atof Norb l t = Some (s, t') -> s = 0 ->
  Forall (fun x => let '(a, b, _) := x in atoi a <> None /\ atoi b <> None) (triples l).
Proof.
  induction n as [|n IH]; intros l t s t' Hl E Hs; [destruct l; [constructor|cbn in Hl; lia]|].
  destruct l as [|sa [|sb [|sv l]]]; try constructor.
  - cbn [read_triples] in E. destruct (atoi sa), (atoi sb); cbn [obind] in E; try discriminate. split; discriminate.
  - cbn [read_triples] in E. destruct (atoi sa) as [a|], (atoi sb) as [b|]; cbn [obind] in E; try discriminate.
    destruct (_ || _ || _ || _).
    + apply (inj Some) in E. injection E as E1 E2. lia.
    + apply obind_Some in E as (t1 & E1 & E2). eapply (IH l t1 s t'); eauto. cbn [List.length] in Hl. lia.
Qed.

Lemma zeros_length n : 0 <= n -> Z.of_nat (List.length (zeros n)) = n.
Proof. intros H. unfold zeros. rewrite repeat_length. lia. Qed.

Lemma zeros_nth n k : nth k (zeros n) 0%R = 0%R.
Proof. unfold zeros. apply nth_repeat. Qed.

Lemma read_hoppings_success atof Norb vs t' : 0 <= Norb ->
  read_hoppings atof Norb vs (zeros (Norb * Norb)) = Some (0, t') -> hoppings_are atoi atof Norb vs t'.
Proof.
  intros HN E. unfold read_hoppings in E.
  destruct (Z.eqb_spec (Z.rem (Z.of_nat (List.length vs)) 3) 0) as [E3|E3]; cbn [negb] in E.
  2:{ apply (inj Some) in E. injection E as E1 E2. lia. }
  pose proof (read_triples_def atof Norb (List.length vs) vs _ _ _ (le_n _) E eq_refl) as Hd.
  assert (Z.of_nat (List.length (zeros (Norb * Norb))) = Norb * Norb) as Hz by (apply zeros_length; nia).
  destruct (read_triples_ok atof Norb HN vs _ Hz Hd) as (s & t1 & E1 & H1 & H2 & _ & H3).
  rewrite E in E1. apply (inj Some) in E1. injection E1 as <- <-.
  split; [exact H1|]. split; [rewrite Z.rem_mod_nonneg in E3 by lia; exact E3|]. split; [now apply H2|].
  intros i j Hi Hj. specialize (H3 eq_refl i j Hi Hj). now rewrite zeros_nth in H3.
Qed.

Lemma hoppings_none atof Norb : 0 <= Norb -> hoppings_are atoi atof Norb [] (zeros (Norb * Norb)).
Proof.
  intros HN. split; [apply zeros_length; nia|]. split; [reflexivity|]. split; [constructor|].
  intros i j _ _. left. split; [constructor|apply zeros_nth].
Qed.

Section UpdateOk.
Variable atof : string -> R.
Variables (ht : table (list string)) (vals : string -> list string).
Hypothesis Hget : forall name, ht_get ht name = Some (stored (vals name)).

Lemma hop_ok Norb name b : 0 < Norb ->
  array ht (read_hoppings atof Norb) name (zeros (Norb * Norb)) = Some (inr b) ->
  hoppings_are atoi atof Norb (vals name) b.
Proof.
  intros HN E. apply (array_inv ht vals Hget) in E. destruct (vals name) as [|v vs].
  - subst b. apply hoppings_none. lia.
  - apply read_hoppings_success in E; [exact E|lia].
Qed.

Lemma list_ok Norb name b : 0 < Norb ->
  array ht (read_list atof Norb) name (zeros Norb) = Some (inr b) -> list_is atof Norb (vals name) b.
Proof.
  intros HN E. apply (array_inv ht vals Hget) in E. destruct (vals name) as [|v vs].
  - exact E.
  - rewrite read_list_ok in E by (try apply zeros_length; lia).
    destruct (Z.eqb_spec (Z.of_nat (List.length (v :: vs))) Norb) as [En|En].
    + apply (inj Some) in E. injection E as <-. split; [reflexivity|exact En].
    + apply (inj Some) in E. injection E as E1 E2. lia.
Qed.

Lemma bool_ok name old b : scalar ht (read_bool old) name old = Some (inr b) -> bool_is (vals name) old b.
Proof.
  intros E. apply (scalar_inv ht vals Hget) in E. unfold scalar_is, bool_is in *.
  destruct (vals name) as [|v vs]; [exact E|]. unfold read_bool in E. apply (inj Some) in E. subst b.
  destruct (String.eqb_spec v "true"), (String.eqb_spec v "1"), (String.eqb_spec v "false"), (String.eqb_spec v "0");
    cbn [orb]; subst; repeat split; intros; try discriminate; try congruence; intuition congruence.
Qed.

Lemma update_success p p' : update atof ht p = Some (inr p') -> params_are atoi atof atoll_u64 vals p p'.
Proof.
  unfold update. intros E.
  apply rbind_inr in E as (Norb & E0 & E).
  assert (exists v vs, vals "Norb"%string = v :: vs /\ atoi v = Some Norb /\ 0 < Norb) as HN.
  { rewrite Hget in E0. destruct (vals "Norb"%string) as [|v vs]; [discriminate E0|].
    cbn [stored] in E0. change (aget (v :: vs) 0) with (Some v) in E0. cbn [app] in E0.
    destruct (atoi v) as [n|] eqn:En; [|discriminate E0]. destruct (Z.leb_spec n 0); [discriminate E0|].
    apply (inj Some) in E0. injection E0 as <-. exists v, vs. auto. }
  assert (0 < Norb) as Hpos by (destruct HN as (? & ? & _ & _ & H); exact H).
  repeat (match type of E with rbind _ _ = _ => 
    let x := fresh "x" in let Ex := fresh "Ex" in apply rbind_inr in E as (x & Ex & E) end).
  apply (inj Some) in E. injection E as <-.
  split; cbn [sp_Norb sp_Nx sp_Ny sp_pbc_shift sp_t t_aa t_ab t_ac t_ad t_bc sp_U sp_eps sp_mu sp_use_phonons
    sp_phonon ph_omega ph_g ph_local_box_width ph_n_local_updates ph_block_box_width ph_n_block_updates
    sp_dt sp_L sp_prodBlen sp_nwraps sp_nequil sp_nsampl sp_neqlt sp_nuneqlt sp_itime sp_max_time];
  first [ exact HN
        | apply hop_ok; assumption
        | apply list_ok; assumption
        | apply bool_ok; assumption
        | match goal with |- scalar_is _ (vals ?n) _ _ =>
            match goal with H : scalar _ _ n _ = _ |- _ => exact (scalar_inv ht vals Hget _ _ _ _ H) end end ].
Qed.

Lemma hop_error Norb name e : 0 < Norb ->
  array ht (read_hoppings atof Norb) name (zeros (Norb * Norb)) = Some (inl e) ->
  e = -3 /\ (Z.of_nat (List.length (vals name)) mod 3 <> 0 \/ ~ Forall (in_range atoi Norb) (triples (vals name))).
Proof.
  intros HN E. apply (array_error ht vals Hget) in E as (He & _ & s & b & Hs & E). split; [exact He|].
  unfold read_hoppings in E. rewrite Z.rem_mod_nonneg in E by lia.
  destruct (Z.eqb_spec (Z.of_nat (List.length (vals name)) mod 3) 0) as [E3|E3]; [|left; exact E3].
  cbn [negb] in E. right. intros HF.
  destruct (read_triples_ok atof Norb ltac:(lia) (vals name) (zeros (Norb * Norb))) as (s' & t' & E' & _ & H0 & _).
  - apply zeros_length. nia.
  - eapply Forall_impl; [|exact HF]. intros [[a b'] v]. unfold in_range, names_bond.
    intros (i & j & [H1 H2] & _). split; congruence.
  - rewrite E in E'. apply (inj Some) in E'. injection E' as <- <-. apply Hs. now apply H0.
Qed.

Lemma list_error Norb name e : 0 < Norb ->
  array ht (read_list atof Norb) name (zeros Norb) = Some (inl e) ->
  e = -3 /\ vals name <> [] /\ Z.of_nat (List.length (vals name)) <> Norb.
Proof.
  intros HN E. apply (array_error ht vals Hget) in E as (He & Hne & s & b & Hs & E). split; [exact He|].
  split; [exact Hne|]. rewrite read_list_ok in E by (try apply zeros_length; lia).
  destruct (Z.eqb_spec (Z.of_nat (List.length (vals name))) Norb) as [En|En]; [|exact En].
  apply (inj Some) in E. injection E as E1 E2. congruence.
Qed.

Lemma update_error p e : update atof ht p = Some (inl e) ->
  (e = -2 /\ bad_norb atoi vals) \/ (e = -3 /\ bad_list atoi vals).
Proof.
  unfold update. intros E.
  apply rbind_inl in E as [E|(Norb & E0 & E)].
  { left. unfold bad_norb. rewrite Hget in E. destruct (vals "Norb"%string) as [|v vs].
    - apply (inj Some) in E. injection E as <-. auto.
    - cbn [stored] in E. change (aget (v :: vs) 0) with (Some v) in E. cbn [app] in E.
      destruct (atoi v) as [n|] eqn:En; [|discriminate E]. destruct (Z.leb_spec n 0); [|discriminate E].
      apply (inj Some) in E. injection E as <-. split; [reflexivity|]. exists n. auto. }
  right.
  assert (exists v vs, vals "Norb"%string = v :: vs /\ atoi v = Some Norb /\ 0 < Norb) as (v & vs & HN1 & HN2 & Hpos).
  { rewrite Hget in E0. destruct (vals "Norb"%string) as [|v vs]; [discriminate E0|].
    cbn [stored] in E0. change (aget (v :: vs) 0) with (Some v) in E0. cbn [app] in E0.
    destruct (atoi v) as [n|] eqn:En; [|discriminate E0]. destruct (Z.leb_spec n 0); [discriminate E0|].
    apply (inj Some) in E0. injection E0 as <-. exists v, vs. auto. }
  repeat (match type of E with rbind _ _ = _ =>
    let x := fresh "x" in let Ex := fresh "Ex" in
    apply rbind_inl in E as [E|(x & Ex & E)];
    [ first [ exfalso; exact (scalar_no_error ht vals Hget _ _ _ _ E)
            | apply (hop_error _ _ _ Hpos) in E as [He Hb]; split; [exact He|];
              exists v, vs, Norb; repeat (split; [assumption|]); left;
              eexists; split; [|exact Hb]; cbn; tauto
            | apply (list_error _ _ _ Hpos) in E as (He & Hb); split; [exact He|];
              exists v, vs, Norb; repeat (split; [assumption|]); right;
              eexists; split; [|exact Hb]; cbn; tauto ]
    | clear Ex ] end).
  discriminate E.
Qed.
End UpdateOk.
