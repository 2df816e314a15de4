(** Proofs about file names. *)
From Coq Require Import ZArith NArith List String Ascii Reals Lia.
From Verif Require Import Base SimParams Measure UMeasure PMeasure DataFiles Paths PathsSpec.
Import ListNotations.
Local Open Scope Z_scope.
Set Warnings "-deprecated".

Notation len := String.length.
Notation lz s := (Z.of_nat (len s)).
Lemma len_app a b : len (a ++ b)%string = (len a + len b)%nat.
Proof. induction a as [|c a IH]; [reflexivity|]. change (S (len (a ++ b)%string) = S (len a + len b)). now rewrite IH. Qed.
Lemma app_assoc_s a b c : ((a ++ b) ++ c = a ++ (b ++ c))%string.
Proof. induction a as [|x a IH]; [reflexivity|]. change (String x ((a ++ b) ++ c) = String x (a ++ (b ++ c)))%string. now rewrite IH. Qed.
Notation L := list_ascii_of_string.
Lemma list_app a b : L (a ++ b)%string = (L a ++ L b)%list.
Proof. induction a as [|c a IH]; [reflexivity|]. change (c :: L (a ++ b)%string = c :: (L a ++ L b)%list). now rewrite IH. Qed.
Lemma L_inj a b : L a = L b -> a = b.
Proof. intros H. rewrite <- (string_of_list_ascii_of_string a), <- (string_of_list_ascii_of_string b). now rewrite H. Qed.

Lemma to_buffer_iff s : (exists r, to_buffer s = Some r) <-> lz s + 1 <= 1024.
Proof. unfold to_buffer, path_cap. destruct (Z.leb_spec (lz s + 1) 1024); split; intros H1; try lia; [eauto|destruct H1; discriminate]. Qed.
Lemma to_buffer_same s r : to_buffer s = Some r -> r = s.
Proof. unfold to_buffer. destruct (_ <=? _); congruence. Qed.

(** digits *)
Definition digit (c : ascii) : Prop := (48 <= N_of_ascii c <= 57)%N.
Definition value (l : list ascii) : N := fold_left (fun v c => 10 * v + (N_of_ascii c - 48))%N l 0%N.
Lemma digit_code n : N_of_ascii (ascii_of_N (48 + n mod 10)) = (48 + n mod 10)%N.
Proof. apply N_ascii_embedding. pose proof (N.mod_lt n 10 ltac:(lia)). lia. Qed.
Lemma fold_value l : forall v, fold_left (fun v c => 10 * v + (N_of_ascii c - 48))%N l v = (v * 10 ^ N.of_nat (List.length l) + value l)%N.
Proof.
  unfold value. induction l as [|c l IH]; intros v; cbn [fold_left List.length].
  - cbn. lia.
  - rewrite IH. rewrite (IH (10 * 0 + _)%N). rewrite Nat2N.inj_succ, N.pow_succ_r'. lia.
Qed.
Lemma digits_value f : forall n acc, (0 < f)%nat -> (n < 10 ^ N.of_nat f)%N ->
  value (L (digits f n acc)) = (n * 10 ^ N.of_nat (List.length (L acc)) + value (L acc))%N.
Proof.
  induction f as [|f IH]; intros n acc Hf Hn; [lia|]. cbn [digits].
  assert (value (L (String (ascii_of_N (48 + n mod 10)) acc)) = (n mod 10 * 10 ^ N.of_nat (List.length (L acc)) + value (L acc))%N) as E.
  { cbn [list_ascii_of_string]. unfold value at 1. cbn [fold_left]. rewrite fold_value, digit_code.
    replace (10 * 0 + (48 + n mod 10 - 48))%N with (n mod 10)%N; [reflexivity|]. set (x := (n mod 10)%N). lia. }
  destruct (N.ltb_spec n 10) as [H|H].
  - rewrite E. now rewrite N.mod_small by lia.
  - destruct f as [|f]. { cbn in Hn. lia. }
    assert (n / 10 < 10 ^ N.of_nat (S f))%N as H1.
    { apply N.div_lt_upper_bound; [lia|]. rewrite <- N.pow_succ_r', <- Nat2N.inj_succ. exact Hn. }
    rewrite IH by (auto; lia). rewrite E. cbn [list_ascii_of_string List.length]. rewrite Nat2N.inj_succ, N.pow_succ_r'.
    pose proof (N.div_mod n 10 ltac:(lia)). set (p := (10 ^ N.of_nat (List.length (L acc)))%N). set (q := (n / 10)%N) in *. set (r := (n mod 10)%N) in *.
    rewrite H0. lia.
Qed.
Lemma digits_len f : forall n acc, (len (digits f n acc) <= f + len acc)%nat.
Proof.
  induction f as [|f IH]; intros n acc; cbn [digits]; [lia|]. destruct (n <? 10)%N; cbn [String.length]; [lia|].
  etransitivity; [apply IH|]. cbn. lia.
Qed.
Lemma digits_pos f n acc : (len acc <= len (digits f n acc))%nat.
Proof.
  revert n acc. induction f as [|f IH]; intros n acc; cbn [digits]; [lia|]. destruct (n <? 10)%N; cbn [String.length]; [lia|].
  etransitivity; [|apply IH]. cbn. lia.
Qed.
Lemma digits_digit f : forall n acc, Forall digit (L acc) -> Forall digit (L (digits f n acc)).
Proof.
  induction f as [|f IH]; intros n acc Ha; cbn [digits]; [exact Ha|].
  assert (Forall digit (L (String (ascii_of_N (48 + n mod 10)) acc))) as H1.
  { cbn. constructor; [|exact Ha]. unfold digit. rewrite digit_code. pose proof (N.mod_lt n 10 ltac:(lia)) as Hm. revert Hm. generalize (n mod 10)%N. intros; lia. }
  destruct (n <? 10)%N; [exact H1|]. apply IH. exact H1.
Qed.
Lemma dec_value n : (n < 2 ^ 64)%N -> value (L (dec n)) = n.
Proof.
  intros H. unfold dec. rewrite digits_value; [cbn; unfold value; cbn; lia|lia|]. etransitivity; [exact H|]. vm_compute. reflexivity.
Qed.
Lemma dec_inj a b : (a < 2 ^ 64)%N -> (b < 2 ^ 64)%N -> dec a = dec b -> a = b.
Proof. intros Ha Hb H. rewrite <- (dec_value a Ha), <- (dec_value b Hb). now rewrite H. Qed.
Lemma dec_len n : lz (dec n) <= 20.
Proof. unfold dec. pose proof (digits_len 20 n ""). cbn [String.length] in H. lia. Qed.
Lemma dec_digit n : Forall digit (L (dec n)).
Proof. apply digits_digit. constructor. Qed.

(** file names *)
Definition slash : ascii := "/".
Lemma split_last (a a' b b' : list ascii) : ~ In slash b -> ~ In slash b' -> (a ++ slash :: b = a' ++ slash :: b')%list -> a = a' /\ b = b'.
Proof.
  revert a'. induction a as [|x a IH]; intros [|x' a'] Hb Hb' H; cbn in H.
  - inversion H. auto.
  - inversion H. subst. destruct Hb. apply in_or_app. right. now left.
  - inversion H. subst. destruct Hb'. apply in_or_app. right. now left.
  - inversion H. subst. destruct (IH a' Hb Hb' H2) as [-> ->]. auto.
Qed.
Lemma split_digits (a a' b b' : list ascii) c c' : Forall digit a -> Forall digit a' -> ~ digit c -> ~ digit c' ->
  (a ++ c :: b = a' ++ c' :: b')%list -> a = a' /\ c :: b = c' :: b'.
Proof.
  intros Ha. revert a'. induction Ha as [|x a Hx Ha IH]; intros a' Ha' Hc Hc' H; destruct Ha' as [|x' a' Hx' Ha']; cbn in H.
  - auto.
  - inversion H. subst. contradiction.
  - inversion H. subst. contradiction.
  - inversion H. subst. destruct (IH a' Ha' Hc Hc' H2) as [-> E]. auto.
Qed.

(** the endings: begin with an underscore, contain no slash *)
Definition plain (s : string) : bool :=
  match L s with c :: r => Ascii.eqb c "_" && forallb (fun x => negb (Ascii.eqb x slash)) r | [] => false end.
Lemma plain_shape s : plain s = true -> exists r, L s = "_"%char :: r /\ ~ In slash (L s).
Proof.
  unfold plain. destruct (L s) as [|c r]; [discriminate|]. intros H. apply andb_prop in H as [H1 H2]. apply Ascii.eqb_eq in H1. subst c.
  exists r. split; [reflexivity|]. intros [K|K]; [discriminate|]. rewrite forallb_forall in H2. specialize (H2 _ K). now rewrite Ascii.eqb_refl in H2.
Qed.
Lemma suffixes_plain p s : In s (run_suffixes p) -> plain s = true.
Proof.
  revert s. apply forallb_forall. unfold run_suffixes. destruct (0 <? sp_nuneqlt p), (sp_use_phonons p); vm_compute; reflexivity.
Qed.
Lemma digit_not_slash a : Forall digit a -> ~ In slash a.
Proof. intros H K. rewrite Forall_forall in H. specialize (H _ K). unfold digit in H. vm_compute in H. destruct H. congruence. Qed.

Lemma file_inj d d' t t' s s' : (t < 2 ^ 64)%N -> (t' < 2 ^ 64)%N -> plain s = true -> plain s' = true ->
  file_in d (dec t) s = file_in d' (dec t') s' -> d = d' /\ t = t' /\ s = s'.
Proof.
  intros Ht Ht' Hs Hs' H. apply (f_equal L) in H. unfold file_in in H. rewrite !list_app in H. revert H. generalize (dec_digit t), (dec_digit t'), (dec_inj t t' Ht Ht'). generalize (dec t), (dec t'). intros e e' De De' Ie H. cbn [list_ascii_of_string app] in H.
  apply plain_shape in Hs as (r & Er & Ns). apply plain_shape in Hs' as (r' & Er' & Ns').
  apply split_last in H.
  - destruct H as [H1 H2]. apply L_inj in H1. split; [exact H1|]. injection H2 as H2. rewrite Er, Er' in H2.
    apply split_digits in H2; [|exact De|exact De'|vm_compute; intuition congruence|vm_compute; intuition congruence].
    destruct H2 as [H2 H3]. apply L_inj in H2. split; [now apply Ie|]. apply L_inj. now rewrite Er, Er'.
  - intros K. do 4 (destruct K as [K|K]; [discriminate|]). apply in_app_or in K as [K|K]; [now apply digit_not_slash in K|contradiction].
  - intros K. do 4 (destruct K as [K|K]; [discriminate|]). apply in_app_or in K as [K|K]; [now apply digit_not_slash in K|contradiction].
Qed.

(** the longest ending *)
Lemma suffix_bound p s : In s (run_suffixes p) -> lz s <= longest_suffix p.
Proof.
  intros H. apply Z.leb_le. revert s H. apply forallb_forall. unfold run_suffixes, longest_suffix.
  destruct (0 <? sp_nuneqlt p), (sp_use_phonons p); vm_compute; reflexivity.
Qed.
Lemma in_by (x : string) l : existsb (String.eqb x) l = true -> In x l.
Proof. intros H. apply existsb_exists in H as (y & Hy & E). apply String.eqb_eq in E. now subst y. Qed.
Fixpoint distinctb (l : list string) : bool :=
  match l with [] => true | x :: r => negb (existsb (String.eqb x) r) && distinctb r end.
Lemma distinct_by l : distinctb l = true -> NoDup l.
Proof.
  induction l as [|x r IH]; intros H; [constructor|]. cbn in H. apply andb_prop in H as [H1 H2]. constructor; [|auto].
  intros K. apply Bool.negb_true_iff in H1. assert (existsb (String.eqb x) r = true) by (apply existsb_exists; exists x; now rewrite String.eqb_refl). congruence.
Qed.
Lemma suffix_reached p : exists s, In s (run_suffixes p) /\ lz s = longest_suffix p.
Proof.
  unfold run_suffixes, longest_suffix. destruct (sp_use_phonons p).
  - exists "_phonon_iteration_X_avg.dat"%string. split; [|reflexivity]. apply in_by. destruct (0 <? sp_nuneqlt p); vm_compute; reflexivity.
  - exists "_eqlt_density_u.dat"%string. split; [|reflexivity]. apply in_by. destruct (0 <? sp_nuneqlt p); vm_compute; reflexivity.
Qed.
Lemma suffixes_distinct p : NoDup (run_suffixes p).
Proof. apply distinct_by. unfold run_suffixes. destruct (0 <? sp_nuneqlt p), (sp_use_phonons p); vm_compute; reflexivity. Qed.

Lemma all_paths_some base ss : (forall s, In s ss -> lz base + lz s + 1 <= 1024) -> all_paths base ss = Some (map (fun s => base ++ s)%string ss).
Proof.
  induction ss as [|s ss IH]; intros H; cbn; [reflexivity|]. unfold to_buffer, path_cap.
  assert (lz (base ++ s) + 1 <=? 1024 = true) as -> by (rewrite len_app; specialize (H s (or_introl eq_refl)); apply Z.leb_le; lia).
  cbn [obind]. rewrite IH; [reflexivity|]. intros; apply H; now right.
Qed.
Lemma all_paths_none base ss s : In s ss -> 1024 < lz base + lz s + 1 -> all_paths base ss = None.
Proof.
  induction ss as [|x ss IH]; intros Hi H; [destruct Hi|]. cbn [all_paths]. destruct Hi as [->|Hi].
  - unfold to_buffer, path_cap. assert (lz (base ++ s) + 1 <=? 1024 = false) as -> by (rewrite len_app; apply Z.leb_gt; lia). reflexivity.
  - rewrite IH by auto. destruct (to_buffer _); reflexivity.
Qed.

Lemma run_paths_dir fmt_g p arg dir : output_dir fmt_g p arg = Some dir ->
  run_paths fmt_g p arg = if lz dir + 5 + lz (dec (sp_itime p)) + longest_suffix p + 1 <=? 1024
    then Some (map (file_in dir (dec (sp_itime p))) (run_suffixes p)) else None.
Proof.
  intros E. unfold run_paths, base_name. rewrite E. cbn [obind].
  assert (lz (dir ++ "/sim_" ++ dec (sp_itime p)) = lz dir + 5 + lz (dec (sp_itime p)))%string as EL by (rewrite !len_app; cbn [String.length]; lia).
  assert (0 <= longest_suffix p) as H0 by (unfold longest_suffix; destruct (sp_use_phonons p); lia).
  destruct (Z.leb_spec (lz dir + 5 + lz (dec (sp_itime p)) + longest_suffix p + 1) 1024) as [H|H].
  - unfold to_buffer, path_cap. rewrite EL. assert (_ <=? 1024 = true) as -> by (apply Z.leb_le; lia). cbn [obind].
    rewrite all_paths_some; [|intros s Hs; rewrite EL; pose proof (suffix_bound _ _ Hs); lia].
    f_equal. apply map_ext. intros s. unfold file_in. now rewrite !app_assoc_s.
  - destruct (to_buffer _) as [b|] eqn:Eb; cbn [obind]; [|reflexivity]. apply to_buffer_same in Eb. subst b.
    destruct (suffix_reached p) as (s & Hs & Es). apply (all_paths_none _ _ s Hs). rewrite EL. lia.
Qed.

(** the default directory *)
Lemma split_first (c : ascii) (a a' b b' : list ascii) : ~ In c a -> ~ In c a' -> (a ++ c :: b = a' ++ c :: b')%list -> a = a' /\ b = b'.
Proof.
  revert a'. induction a as [|x a IH]; intros [|x' a'] Ha Ha' H; cbn in H.
  - inversion H. auto.
  - inversion H. subst. destruct Ha'. now left.
  - inversion H. subst. destruct Ha. now left.
  - inversion H. subst. destruct (IH a') as [-> ->]; auto; intros K; [apply Ha|apply Ha']; now right.
Qed.
Lemma dec_int_pos z : 0 <= z -> dec_int z = dec (Z.to_N z).
Proof. intros H. unfold dec_int. now rewrite (proj2 (Z.ltb_ge z 0)). Qed.
Lemma dec_no c n : ~ digit c -> ~ In c (L (dec n)).
Proof. intros Hc H. pose proof (dec_digit n) as D. rewrite Forall_forall in D. exact (Hc (D _ H)). Qed.
Lemma dec_int_inj a b : 0 <= a < 2 ^ 31 -> 0 <= b < 2 ^ 31 -> L (dec_int a) = L (dec_int b) -> a = b.
Proof.
  intros Ha Hb H. rewrite !dec_int_pos in H by lia. apply L_inj, dec_inj in H; lia.
Qed.
Lemma default_tells fmt_g p p' dir : (forall x, ~ In "_"%char (L (fmt_g x))) ->
  0 <= sp_Nx p < 2 ^ 31 -> 0 <= sp_Ny p < 2 ^ 31 -> (sp_itime p < 2 ^ 64)%N ->
  0 <= sp_Nx p' < 2 ^ 31 -> 0 <= sp_Ny p' < 2 ^ 31 -> (sp_itime p' < 2 ^ 64)%N ->
  output_dir fmt_g p None = Some dir -> output_dir fmt_g p' None = Some dir ->
  sp_Nx p = sp_Nx p' /\ sp_Ny p = sp_Ny p' /\ fmt_g (IZR (sp_L p) * sp_dt p)%R = fmt_g (IZR (sp_L p') * sp_dt p')%R /\
  fmt_g (sp_mu p) = fmt_g (sp_mu p') /\ sp_itime p = sp_itime p'.
Proof.
  intros Hg X Y T X' Y' T' E E'. unfold output_dir in E, E'. apply to_buffer_same in E. apply to_buffer_same in E'. rewrite E in E'. clear E dir. rename E' into H.
  apply (f_equal L) in H. rewrite !list_app in H.
  pose proof (Hg (IZR (sp_L p) * sp_dt p)%R) as G1. pose proof (Hg (IZR (sp_L p') * sp_dt p')%R) as G1'. pose proof (Hg (sp_mu p)) as G2. pose proof (Hg (sp_mu p')) as G2'.
  assert (forall z c, 0 <= z -> ~ digit c -> ~ In c (L (dec_int z))) as N by (intros z c Hz Hc; rewrite dec_int_pos by lia; now apply dec_no).
  assert (~ digit "x") as Dx by (vm_compute; intuition congruence). assert (~ digit "_") as Du by (vm_compute; intuition congruence).
  pose proof (N (sp_Nx p) _ (proj1 X) Dx) as A1. pose proof (N (sp_Nx p') _ (proj1 X') Dx) as A1'. pose proof (N (sp_Ny p) _ (proj1 Y) Du) as A2. pose proof (N (sp_Ny p') _ (proj1 Y') Du) as A2'.
  pose proof (dec_int_inj _ _ X X') as I1. pose proof (dec_int_inj _ _ Y Y') as I2. pose proof (dec_inj _ _ T T') as I3. clear N.
  revert H A1 A1' A2 A2' G1 G1' G2 G2' I1 I2 I3.
  generalize (dec_int (sp_Nx p)), (dec_int (sp_Nx p')), (dec_int (sp_Ny p)), (dec_int (sp_Ny p')), (dec (sp_itime p)), (dec (sp_itime p')),
    (fmt_g (IZR (sp_L p) * sp_dt p)%R), (fmt_g (IZR (sp_L p') * sp_dt p')%R), (fmt_g (sp_mu p)), (fmt_g (sp_mu p')).
  intros a a' b b' t t' g g' m m' H A1 A1' A2 A2' G1 G1' G2 G2' I1 I2 I3. cbn [list_ascii_of_string app] in H. injection H as H.
  apply split_first in H as [H1 H]; auto. apply split_first in H as [H2 H]; auto. injection H as H. apply split_first in H as [H3 H]; auto.
  injection H as H. apply split_first in H as [H4 H]; auto. injection H as H.
  split; [auto|]. split; [auto|]. split; [now apply L_inj|]. split; [now apply L_inj|]. apply I3. now apply L_inj.
Qed.
