(** Proofs about the reading of lines and words (ParamParser.v, ParamSpec.v) *)
From Coq Require Import ZArith NArith List String Ascii Reals Bool Lia.
From Verif Require Import Base SimParams ParamParser ParamSpec.
Import ListNotations.

Lemma is_delim_separator c : is_delim c = separator c.
Proof. destruct c as [b0 b1 b2 b3 b4 b5 b6 b7]; destruct b0, b1, b2, b3, b4, b5, b6, b7; reflexivity. Qed.

Lemma split_at_ne sep l : exists w ws, split_at sep l = w :: ws.
Proof.
  induction l as [|c l (w & ws & IH)]; cbn; eauto. destruct (sep c); eauto. rewrite IH; eauto.
Qed.

Lemma tokens_from_split l : forall cur w ws, split_at separator l = w :: ws ->
  tokens_from cur l = map string_of_list_ascii (filter nonempty ((rev cur ++ w) :: ws)).
Proof.
  assert (forall cur, match cur with [] => [] | _ => [string_of_list_ascii (rev cur)] end =
    map string_of_list_ascii (filter nonempty [rev cur])) as Hf.
  { intros [|a cur]; [reflexivity|]. cbn [filter]. destruct (rev (a :: cur)) eqn:E; [|reflexivity].
    apply (f_equal (@List.length _)) in E. rewrite rev_length in E. discriminate. }
  induction l as [|c l IH]; intros cur w ws E.
  - cbn in E. injection E as <- <-. rewrite app_nil_r. cbn [tokens_from]. apply Hf.
  - cbn [tokens_from split_at] in *. rewrite is_delim_separator. destruct (separator c).
    + destruct (split_at_ne separator l) as (w' & ws' & E'). injection E as <- <-.
      rewrite (IH [] _ _ E'). rewrite app_nil_r, E', Hf, <- map_app. f_equal.
      cbn [rev app]. change (rev cur :: w' :: ws') with ([rev cur] ++ w' :: ws').
      now rewrite filter_app.
    + destruct (split_at_ne separator l) as (w' & ws' & E'). rewrite E' in E. injection E as <- <-.
      rewrite (IH (c :: cur) _ _ E'). cbn [rev]. now rewrite <- app_assoc.
Qed.

Lemma tokens_words l : tokens l = words l.
Proof.
  destruct (split_at_ne separator l) as (w & ws & E). unfold tokens, words.
  rewrite (tokens_from_split l [] w ws E), E. reflexivity.
Qed.

Lemma line_text_relevant l : line_text l = relevant l.
Proof.
  unfold line_text. induction l as [|c l IH]; [reflexivity|]. cbn [before relevant].
  rewrite (Ascii.eqb_sym c (chr 0)). change NUL with (chr 0).
  destruct (Ascii.eqb (chr 0) c); cbn [before].
  - now rewrite orb_true_r.
  - rewrite orb_false_r, (Ascii.eqb_sym c). change "#"%char with hash_char.
    destruct (Ascii.eqb hash_char c); [reflexivity|]. now f_equal.
Qed.

(** number of words *)
Lemma words_count sep l : forall w ws, split_at sep l = w :: ws ->
  (2 * List.length (filter nonempty (w :: ws)) <= List.length l + (match w with [] => 0 | _ => 1 end))%nat.
Proof.
  induction l as [|c l IH]; intros w ws E; cbn in E.
  - injection E as <- <-. cbn. lia.
  - destruct (split_at_ne sep l) as (w' & ws' & E'). specialize (IH _ _ E').
    destruct (sep c).
    + injection E as <- <-. rewrite E'. cbn [filter nonempty List.length] in *.
      destruct w'; cbn [filter nonempty List.length] in *; lia.
    + rewrite E' in E. injection E as <- <-. cbn [filter nonempty List.length] in *.
      destruct w'; cbn [filter nonempty List.length] in *; lia.
Qed.

Lemma words_bound l : (2 * List.length (words l) <= List.length l + 1)%nat.
Proof.
  unfold words. rewrite map_length. destruct (split_at_ne separator l) as (w & ws & E).
  pose proof (words_count _ _ _ _ E) as H. rewrite E. destruct w; lia.
Qed.

Lemma relevant_length l : (List.length (relevant l) <= List.length l)%nat.
Proof. induction l as [|c l IH]; cbn; [lia|]. destruct (_ || _); cbn; lia. Qed.

(** ** chunks of the line buffer *)
Lemma fgets_length n : forall f, (List.length (fst (fgets n f)) <= n)%nat.
Proof.
  induction n as [|n IH]; intros [|c f]; cbn [fgets fst List.length]; try lia.
  destruct (Ascii.eqb c newline); cbn [fst List.length]; [lia|].
  specialize (IH f). destruct (fgets n f); cbn in *. lia.
Qed.

Lemma read_lines_length fuel n : forall f, Forall (fun l => (List.length l <= n)%nat) (read_lines fuel n f).
Proof.
  induction fuel as [|fuel IH]; intros [|c f]; cbn; try constructor.
  pose proof (fgets_length n (c :: f)) as H. destruct (fgets n (c :: f)) as [l r]. constructor; auto.
Qed.

Lemma fgets_line f : forall n w ws, lines f = w :: ws -> (List.length w <= n)%nat ->
  (ws = [] /\ w = f /\ fgets n f = (f, [])) \/
  (exists f', ws = lines f' /\ f = w ++ newline :: f' /\
     ((List.length w < n)%nat /\ fgets n f = (w ++ [newline], f') \/
      List.length w = n /\ fgets n f = (w, newline :: f'))).
Proof.
  induction f as [|c f IH]; intros n w ws E Hn.
  - cbn in E. injection E as <- <-. left. destruct n; auto.
  - unfold lines in E. cbn [split_at] in E. rewrite Ascii.eqb_sym in E. change (chr 10) with newline in E.
    destruct (Ascii.eqb c newline) eqn:Ec.
    + injection E as <- <-. right. exists f. split; [reflexivity|]. apply Ascii.eqb_eq in Ec as ->.
      split; [reflexivity|]. destruct n; [right; auto|left]. split; [cbn; lia|]. reflexivity.
    + fold (lines f) in E. destruct (split_at_ne (Ascii.eqb (chr 10)) f) as (w' & ws' & E').
      fold (lines f) in E'. change (split_at (Ascii.eqb newline) f) with (lines f) in E.
      rewrite E' in E. injection E as <- <-.
      destruct n as [|n]; [cbn in Hn; lia|]. cbn [List.length] in Hn.
      destruct (IH n w' ws' E' ltac:(lia)) as [(-> & -> & Hf)|(f' & -> & -> & Hf)].
      * left. split; [auto|]. split; [auto|]. cbn [fgets]. rewrite Ec, Hf. reflexivity.
      * right. exists f'. split; [auto|]. split; [reflexivity|]. cbn [fgets app]. rewrite Ec.
        destruct Hf as [[Hl ->]|[Hl ->]]; [left|right]; (split; [cbn; lia|reflexivity]).
Qed.

Lemma split_at_snoc sep c l : sep c = true -> split_at sep (l ++ [c]) = split_at sep l ++ [[]].
Proof.
  intros H. induction l as [|a l IH]; cbn.
  - now rewrite H.
  - destruct (sep a); rewrite IH; [reflexivity|].
    destruct (split_at_ne sep l) as (w & ws & ->). reflexivity.
Qed.

Lemma words_snoc l c : separator c = true -> words (l ++ [c]) = words l.
Proof.
  intros H. unfold words. rewrite split_at_snoc by exact H. rewrite filter_app. cbn. now rewrite app_nil_r.
Qed.

Lemma line_values_newline name l : line_values name (l ++ [newline]) = line_values name l.
Proof.
  assert (words (relevant (l ++ [newline])) = words (relevant l)) as E.
  { assert (relevant (l ++ [newline]) = relevant l ++ [newline] \/ relevant (l ++ [newline]) = relevant l) as [-> | ->].
    { induction l as [|a l IH]; cbn [app relevant]; [left; reflexivity|]. destruct (_ || _); [right; reflexivity|].
      destruct IH as [-> | ->]; [left|right]; reflexivity. }
    - apply words_snoc. reflexivity.
    - reflexivity. }
  unfold line_values. now rewrite E.
Qed.

Lemma lines_app_newline w f : Forall (fun c => c <> newline) w -> lines (w ++ newline :: f) = w :: lines f.
Proof.
  unfold lines. induction 1 as [|c w Hc _ IH]; cbn [app split_at].
  - reflexivity.
  - destruct (Ascii.eqb_spec (chr 10) c) as [E|_]; [exfalso; apply Hc; rewrite <- E; reflexivity|]. now rewrite IH.
Qed.

Lemma lines_no_newline f : Forall (Forall (fun c => c <> newline)) (lines f).
Proof.
  unfold lines. induction f as [|c f IH]; cbn [split_at]; [repeat constructor|].
  destruct (Ascii.eqb_spec (chr 10) c) as [E|E].
  - constructor; auto.
  - destruct (split_at_ne (Ascii.eqb (chr 10)) f) as (w & ws & Ew). rewrite Ew in *.
    inversion_clear IH. constructor; auto.
Qed.

(** with short lines, the chunks give the same values as the lines *)
Lemma read_lines_values name : forall fuel f, (List.length f <= fuel)%nat -> short_lines f ->
  values_in (read_lines fuel 1023 f) name = values f name.
Proof.
  assert (line_values name [newline] = []) as Hnl.
  { exact (line_values_newline name []). }
  assert (line_values name [] = []) as Hn0 by reflexivity.
  assert (forall n fuel f, (List.length f <= n)%nat -> (List.length f <= fuel)%nat -> short_lines f ->
    values_in (read_lines fuel 1023 f) name = values f name) as H.
  2:{ intros fuel f. now apply (H (List.length f)). }
  induction n as [|n IH]; intros fuel f Hn Hl Hs.
  { destruct f; [|cbn in Hn; lia]. destruct fuel; reflexivity. }
  destruct f as [|c f]; [destruct fuel; reflexivity|].
  destruct fuel as [|fuel]; [cbn in Hl; lia|].
  destruct (split_at_ne (Ascii.eqb (chr 10)) (c :: f)) as (w & ws & E). fold (lines (c :: f)) in E.
  unfold short_lines in Hs. rewrite E in Hs. inversion_clear Hs as [|? ? Hw Hws].
  unfold values. rewrite E. cbn [read_lines].
  destruct (fgets_line (c :: f) 1023 w ws E Hw) as [(-> & -> & ->)|(f' & -> & Ef & [[Hlt ->]|[Hlt ->]])].
  - destruct fuel; cbn; now rewrite app_nil_r.
  - unfold values_in at 1. cbn [flat_map]. rewrite line_values_newline. fold (values_in (read_lines fuel 1023 f') name).
    apply (f_equal (@List.length _)) in Ef. rewrite app_length in Ef. cbn [List.length] in Ef, Hl, Hn.
    rewrite IH; [reflexivity|lia|lia|exact Hws].
  - unfold values_in at 1. cbn [flat_map]. fold (values_in (read_lines fuel 1023 (newline :: f')) name).
    apply (f_equal (@List.length _)) in Ef. rewrite app_length in Ef. cbn [List.length] in Ef, Hl, Hn.
    destruct fuel as [|fuel]; [lia|].
    change (read_lines (S fuel) 1023 (newline :: f')) with ([newline] :: read_lines fuel 1023 f').
    unfold values_in at 1. cbn [flat_map]. rewrite Hnl. cbn [app]. fold (values_in (read_lines fuel 1023 f') name).
    rewrite IH; [reflexivity|lia|lia|exact Hws].
Qed.

(** ** comments *)
Lemma no_hash_incl l : forall P, Forall P l -> Forall P (no_hash l).
Proof. intros P H. induction H as [|c l Hc _ IH]; cbn; auto. destruct (Ascii.eqb c "#"); auto. Qed.

Lemma no_hash_length l : (List.length (no_hash l) <= List.length l)%nat.
Proof. induction l as [|c l IH]; cbn; [lia|]. destruct (Ascii.eqb c "#"); cbn; lia. Qed.

Lemma relevant_no_hash l : relevant (no_hash l) = relevant l.
Proof.
  induction l as [|c l IH]; cbn; [reflexivity|]. destruct (Ascii.eqb c "#") eqn:E; cbn; [reflexivity|].
  rewrite E. cbn. now rewrite IH.
Qed.

Lemma lines_unlines ls : ls <> [] -> Forall (Forall (fun c => c <> newline)) ls -> lines (unlines ls) = ls.
Proof.
  intros Hne H. induction H as [|l ls Hl Hls IH]; [congruence|]. destruct ls as [|l' ls].
  - cbn [unlines]. clear -Hl. unfold lines. induction Hl as [|c l Hc _ IH]; cbn [split_at]; [reflexivity|].
    destruct (Ascii.eqb_spec (chr 10) c) as [E|_]; [exfalso; apply Hc; rewrite <- E; reflexivity|]. now rewrite IH.
  - change (unlines (l :: l' :: ls)) with (l ++ newline :: unlines (l' :: ls)).
    rewrite lines_app_newline by exact Hl. f_equal. apply IH. discriminate.
Qed.

Lemma lines_strip f : lines (strip_comments f) = map no_hash (lines f).
Proof.
  unfold strip_comments. apply lines_unlines.
  - destruct (split_at_ne (Ascii.eqb (chr 10)) f) as (w & ws & E). fold (lines f) in E. now rewrite E.
  - pose proof (lines_no_newline f) as H. induction H; cbn; constructor; auto. now apply no_hash_incl.
Qed.

Lemma values_strip f name : values (strip_comments f) name = values f name.
Proof.
  unfold values. rewrite lines_strip. induction (lines f) as [|l ls IH]; [reflexivity|].
  unfold values_in in *. cbn [map flat_map]. rewrite IH. f_equal. unfold line_values. now rewrite relevant_no_hash.
Qed.

Lemma short_strip f : short_lines f -> short_lines (strip_comments f).
Proof.
  unfold short_lines. rewrite lines_strip. intros H. induction H as [|l ls Hl _ IH]; cbn; constructor; auto.
  pose proof (no_hash_length l). lia.
Qed.
