(** Proofs about whole parameter files and about the validation *)
From stdpp Require Import gmap strings list.
From Coq Require Import ZArith NArith List String Ascii Reals Bool Lia.
From Verif Require Import Base BaseFacts HashTable SimParams ParamParser ParamSpec ParamLines ParamFacts.
Import ListNotations.
Local Open Scope Z_scope.

Lemma update_ext atof h1 h2 p : (forall name, In name known_names -> ht_get h1 name = ht_get h2 name) ->
  update atof h1 p = update atof h2 p.
Proof.
  intros H. unfold update.
  apply rbind_ext; [rewrite H by (cbn; tauto); reflexivity|]. intros Norb.
  repeat (apply rbind_ext; [unfold scalar, array; rewrite H by (cbn; tauto); reflexivity|intros ?]).
  reflexivity.
Qed.

Lemma update_defined atof ht vals p : (forall name, ht_get ht name = Some (stored (vals name))) ->
  numbers_ok atoi atoll_u64 vals -> update atof ht p <> None.
Proof.
  intros Hget (H1 & H2 & H3) E.
  assert (forall {A B} (c : option (Z + A)) (k : A -> option (Z + B)), c <> None ->
    (forall a, c = Some (inr a) -> k a <> None) -> rbind c k <> None) as Hb.
  { intros A B [[e|a]|] k Hc Hk; cbn; [discriminate|now apply Hk|congruence]. }
  assert (forall A (conv : string -> option A) name x,
    (forall v vs, vals name = v :: vs -> conv v <> None) -> scalar ht conv name x <> None) as Hs.
  { intros A conv name x Hc. unfold scalar. rewrite Hget. destruct (vals name) as [|v vs]; cbn [stored]; [discriminate|].
    change (aget (v :: vs) 0) with (Some v). cbn [app]. specialize (Hc v vs eq_refl). destruct (conv v); congruence. }
  assert (forall Norb name, 0 < Norb -> In name ["t_aa"; "t_ab"; "t_ac"; "t_ad"; "t_bc"]%string ->
    array ht (read_hoppings atof Norb) name (zeros (Norb * Norb)) <> None) as Hh.
  { intros Norb name HN Hn. unfold array. rewrite Hget. specialize (H3 name Hn).
    destruct (vals name) as [|v vs]; cbn [stored]; [discriminate|].
    unfold read_hoppings. destruct (negb _); [discriminate|].
    destruct (read_triples_ok atof Norb ltac:(lia) (v :: vs) (zeros (Norb * Norb))) as (s & t & -> & _);
      [apply zeros_length; nia|exact H3|]. destruct (s =? 0); discriminate. }
  assert (forall Norb name, 0 < Norb -> array ht (read_list atof Norb) name (zeros Norb) <> None) as Hl.
  { intros Norb name HN. unfold array. rewrite Hget. destruct (vals name) as [|v vs]; cbn [stored]; [discriminate|].
    rewrite read_list_ok by (try apply zeros_length; lia). destruct (Z.of_nat _ =? Norb); discriminate. }
  revert E. unfold update. apply Hb.
  - rewrite Hget. specialize (H1 "Norb"%string). destruct (vals "Norb"%string) as [|v vs]; cbn [stored]; [discriminate|].
    change (aget (v :: vs) 0) with (Some v). cbn [app]. specialize (H1 v vs ltac:(cbn; tauto) eq_refl).
    destruct (atoi v) as [n|]; [|congruence]. destruct (n <=? 0); discriminate.
  - intros Norb E. assert (0 < Norb) as HN.
    { rewrite Hget in E. destruct (vals "Norb"%string) as [|v vs]; cbn [stored] in E; [discriminate|].
      change (aget (v :: vs) 0) with (Some v) in E. cbn [app] in E. destruct (atoi v) as [n|]; [|discriminate].
      destruct (Z.leb_spec n 0); [discriminate|]. apply (inj Some) in E. injection E as <-. exact H. }
    repeat (apply Hb; [first
      [ apply Hh; [exact HN|cbn; tauto]
      | apply Hl; exact HN
      | apply Hs; intros v vs Hv; first [ discriminate | eapply H1; [|exact Hv]; cbn; tauto | eapply H2; exact Hv] ]
      | intros ? _]).
    discriminate.
Qed.

(** ** whole files *)
Definition chunk_values (f : list ascii) (name : string) : list string :=
  values_in (read_lines (List.length f) 1023 f) name.

Lemma parse_overflow atof f p : (exists name, 1024 < Z.of_nat (List.length (chunk_values f name))) ->
  parse_file atof f p = None.
Proof.
  intros (name & H). unfold parse_file.
  destruct (load_file_ok f) as [(ht & _ & _ & Hb)|(-> & _)]; [|reflexivity].
  specialize (Hb name). unfold chunk_values, max_values in *. lia.
Qed.

Lemma load_defined_iff f : load_file f = None <-> exists name, 1024 < Z.of_nat (List.length (chunk_values f name)).
Proof.
  destruct (load_file_ok f) as [(ht & E & _ & Hb)|(E & name & Hn)]; rewrite E.
  - split; [discriminate|]. intros (name & H). specialize (Hb name). unfold chunk_values, max_values in *. lia.
  - split; [|reflexivity]. intros _. exists name. exact Hn.
Qed.

Lemma chunk_values_short f name : short_lines f -> chunk_values f name = values f name.
Proof. intros H. unfold chunk_values. now apply read_lines_values. Qed.

Lemma parse_table atof f p : short_lines f ->
  (forall name, Z.of_nat (List.length (values f name)) <= 1024) ->
  exists ht, (forall name, ht_get ht name = Some (stored (values f name))) /\
    parse_file atof f p = update atof ht p.
Proof.
  intros Hs Hb. unfold parse_file. destruct (load_file_ok f) as [(ht & -> & Hg & _)|(_ & name & Hn)].
  - exists ht. split; [|reflexivity]. intros name. rewrite Hg. now rewrite <- (chunk_values_short f name Hs).
  - fold (chunk_values f name) in Hn. rewrite chunk_values_short in Hn by auto. specialize (Hb name).
    unfold max_values in Hn. lia.
Qed.

Lemma parse_same atof f1 f2 p : short_lines f1 -> short_lines f2 ->
  (forall name, Z.of_nat (List.length (values f1 name)) <= 1024) ->
  (forall name, Z.of_nat (List.length (values f2 name)) <= 1024) ->
  (forall name, In name known_names -> values f1 name = values f2 name) ->
  parse_file atof f1 p = parse_file atof f2 p.
Proof.
  intros S1 S2 B1 B2 H. destruct (parse_table atof f1 p S1 B1) as (h1 & G1 & ->).
  destruct (parse_table atof f2 p S2 B2) as (h2 & G2 & ->). apply update_ext.
  intros name Hn. now rewrite G1, G2, H.
Qed.

Lemma parse_strip atof f p : short_lines f -> parse_file atof (strip_comments f) p = parse_file atof f p.
Proof.
  intros Hs. pose proof (short_strip f Hs) as Hs'.
  destruct (load_file f) as [ht|] eqn:E.
  - assert (forall name, Z.of_nat (List.length (values f name)) <= 1024) as Hb.
    { intros name. destruct (Z.le_gt_cases (Z.of_nat (List.length (values f name))) 1024); [auto|]. exfalso.
      assert (load_file f = None) by (apply load_defined_iff; exists name; rewrite chunk_values_short by auto; lia).
      congruence. }
    apply parse_same; auto.
    + intros name. rewrite values_strip. apply Hb.
    + intros name _. apply values_strip.
  - apply load_defined_iff in E as (name & Hn). rewrite chunk_values_short in Hn by auto.
    rewrite !parse_overflow; [reflexivity| |]; exists name; rewrite chunk_values_short by auto; rewrite ?values_strip; auto.
Qed.

(** ** validation *)
Lemma is_zero_true x : is_zero x = true <-> x = 0%R.
Proof. unfold is_zero. destruct (Req_EM_T x 0); split; intros; congruence. Qed.

Lemma check_taa_ok Norb t : 0 <= Norb -> Z.of_nat (List.length t) = Norb * Norb ->
  exists b, check_taa Norb t = Some b /\
   (b = true <-> (forall i, 0 <= i < Norb -> hop t Norb i i = 0%R) /\
     (forall i j, 0 <= i < Norb -> 0 <= j < Norb -> i <> j -> hop t Norb i j = 0%R \/ hop t Norb j i = 0%R)).
Proof.
  intros HN Ht.
  assert (forall i j, 0 <= i < Norb -> 0 <= j < Norb -> aget t (i + j * Norb) = Some (hop t Norb i j)) as Hg.
  { intros i j Hi Hj. apply aget_nth. nia. }
  unfold check_taa.
  match goal with |- context [for_range 0 Norb ?f true] => set (body := f) end.
  destruct (@for_range_inv _ (fun i (b : bool) => b = true <->
      (forall k, 0 <= k < i -> hop t Norb k k = 0%R) /\
      (forall k j, 0 <= k < i -> k < j < Norb -> hop t Norb k j = 0%R \/ hop t Norb j k = 0%R))
    0 Norb body true) as (b & E & Hb); auto.
  - intros i ok Hi IH. unfold body. destruct ok.
    2:{ exists false. split; [reflexivity|]. split; [discriminate|]. intros [A1 A2]. apply IH.
        split; [intros; apply A1; lia|intros; apply A2; lia]. }
    rewrite Hg by lia. cbn [obind]. destruct (proj1 IH eq_refl) as [I1 I2].
    destruct (is_zero (hop t Norb i i)) eqn:Ez; cbn [negb].
    2:{ exists false. split; [reflexivity|]. split; [discriminate|]. intros [A1 _].
        assert (is_zero (hop t Norb i i) = true) by (apply is_zero_true; apply A1; lia). congruence. }
    apply is_zero_true in Ez.
    match goal with |- context [for_range (i + 1) Norb ?f true] => set (body2 := f) end.
    destruct (@for_range_inv _ (fun j (b : bool) => b = true <->
        (forall k, i < k < j -> hop t Norb i k = 0%R \/ hop t Norb k i = 0%R)) (i + 1) Norb body2 true)
      as (b & E & Hb); auto.
    + lia.
    + intros j ok Hj IH2. unfold body2. destruct ok.
      2:{ exists false. split; [reflexivity|]. split; [discriminate|]. intros A. apply IH2. intros; apply A; lia. }
      rewrite Hg by lia. cbn [obind]. specialize (proj1 IH2 eq_refl) as I3.
      destruct (is_zero (hop t Norb i j)) eqn:E1; cbn [negb].
      * exists true. split; [reflexivity|]. apply is_zero_true in E1. split; [|auto]. intros _ k Hk.
        destruct (Z.eq_dec k j) as [->|]; [auto|apply I3; lia].
      * rewrite Hg by lia. cbn [obind]. exists (is_zero (hop t Norb j i)). split; [reflexivity|]. split.
        -- intros E2. apply is_zero_true in E2. intros k Hk. destruct (Z.eq_dec k j) as [->|]; [auto|apply I3; lia].
        -- intros A. destruct (A j ltac:(lia)) as [A1|A1]; [|now apply is_zero_true].
           apply is_zero_true in A1. congruence.
    + split; [|auto]. intros _ k Hk. lia.
    + exists b. split; [exact E|]. rewrite Hb. split.
      * intros A. split.
        -- intros k Hk. destruct (Z.eq_dec k i) as [->|]; [auto|apply I1; lia].
        -- intros k j Hk Hj. destruct (Z.eq_dec k i) as [->|]; [apply A; lia|apply I2; lia].
      * intros [_ A] k Hk. apply A; lia.
  - split; [|auto]. intros _. split; intros; lia.
  - exists b. split; [exact E|]. rewrite Hb. split.
    + intros [A1 A2]. split; [auto|]. intros i j Hi Hj Hne. destruct (Z.lt_ge_cases i j).
      * apply A2; lia.
      * destruct (A2 j i ltac:(lia) ltac:(lia)); auto.
    + intros [A1 A2]. split; [auto|]. intros; apply A2; lia.
Qed.

Lemma quot_pos_div a b : 0 < b -> Z.rem a b = 0 -> (0 < Z.quot a b <-> 0 < a).
Proof.
  intros Hb Hr. pose proof (Z.quot_rem' a b) as E. rewrite Hr in E. nia.
Qed.

Lemma rem_divide a b : b <> 0 -> (Z.rem a b = 0 <-> (b | a)).
Proof. intros Hb. apply Z.rem_divide. exact Hb. Qed.

Lemma validate_iff p : Z.of_nat (List.length (t_aa (sp_t p))) = sp_Norb p * sp_Norb p ->
  (validate p = Some 0 \/ validate p = Some (-1)) /\ (validate p = Some 0 <-> valid_params p).
Proof.
  intros Ht. unfold validate.
  destruct (Z.leb_spec (sp_Norb p) 0) as [H0|H0].
  { split; [auto|]. split; [discriminate|]. intros []. lia. }
  destruct (Z.leb_spec (sp_Nx p) 0) as [H1|H1]; cbn [orb].
  { split; [auto|]. split; [discriminate|]. intros []. lia. }
  destruct (Z.leb_spec (sp_Ny p) 0) as [H2|H2].
  { split; [auto|]. split; [discriminate|]. intros []. lia. }
  destruct (check_taa_ok (sp_Norb p) (t_aa (sp_t p))) as (b & -> & Hb); [lia|exact Ht|]. cbn [obind].
  destruct b; cbn [negb].
  2:{ split; [auto|]. split; [discriminate|]. intros V. destruct V. destruct Hb as [_ Hb].
      specialize (Hb (conj v_diag v_redundant)). discriminate. }
  destruct (proj1 Hb eq_refl) as [T1 T2].
  destruct (Z.leb_spec (sp_L p) 0) as [H3|H3].
  { split; [auto|]. split; [discriminate|]. intros []. lia. }
  destruct (Z.leb_spec (sp_prodBlen p) 0) as [H4|H4].
  { split; [auto|]. split; [discriminate|]. intros []. lia. }
  unfold cmod, cdiv. destruct (Z.eqb_spec (sp_prodBlen p) 0); [lia|]. cbn [obind].
  destruct (Z.eqb_spec (Z.rem (sp_L p) (sp_prodBlen p)) 0) as [R1|R1]; cbn [negb orb].
  2:{ split; [auto|]. split; [discriminate|]. intros V. pose proof (v_L_mult p V) as D. apply Z.rem_divide in D; [congruence|lia]. }
  pose proof (quot_pos_div (sp_L p) (sp_prodBlen p) H4 R1) as Q1.
  destruct (Z.leb_spec (sp_L p ÷ sp_prodBlen p) 0); [lia|].
  destruct (Z.eqb_spec (Z.rem (sp_nwraps p) (sp_prodBlen p)) 0) as [R2|R2]; cbn [negb orb].
  2:{ split; [auto|]. split; [discriminate|]. intros V. pose proof (v_nwraps_mult p V) as D. apply Z.rem_divide in D; [congruence|lia]. }
  pose proof (quot_pos_div (sp_nwraps p) (sp_prodBlen p) H4 R2) as Q2.
  destruct (Z.leb_spec (sp_nwraps p ÷ sp_prodBlen p) 0).
  { split; [auto|]. split; [discriminate|]. intros []. lia. }
  destruct (N.eqb_spec (sp_itime p) 0).
  { split; [auto|]. split; [discriminate|]. intros []. congruence. }
  split; [auto|]. split; [|auto]. intros _. split; auto; try lia; apply Z.rem_divide; auto; lia.
Qed.

Lemma read_hoppings_ok atof Norb l t : 0 <= Norb -> Z.of_nat (List.length t) = Norb * Norb ->
  Forall (fun x => let '(a, b, _) := x in atoi a <> None /\ atoi b <> None) (triples l) ->
  exists s t', read_hoppings atof Norb l t = Some (s, t') /\ Z.of_nat (List.length t') = Norb * Norb /\
    (s = 0 <-> Z.of_nat (List.length l) mod 3 = 0 /\ Forall (in_range atoi Norb) (triples l)) /\
    (s = 0 -> forall i j, 0 <= i < Norb -> 0 <= j < Norb ->
       bond_is atoi atof (triples l) i j (nth (Z.to_nat (i + Norb * j)) t 0%R)
         (nth (Z.to_nat (i + Norb * j)) t' 0%R)).
Proof.
  intros HN Ht Hd. unfold read_hoppings. rewrite Z.rem_mod_nonneg by lia.
  destruct (Z.eqb_spec (Z.of_nat (List.length l) mod 3) 0) as [E|E]; cbn [negb].
  - destruct (read_triples_ok atof Norb HN l t Ht Hd) as (s & t' & H1 & H2 & H3 & _ & H4).
    exists s, t'. split; [exact H1|]. split; [exact H2|]. split; [|exact H4]. rewrite H3. tauto.
  - exists (-1), t. split; [reflexivity|]. split; [exact Ht|]. split; [|discriminate].
    split; [discriminate|]. intros [? _]. congruence.
Qed.
