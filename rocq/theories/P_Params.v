(** Properties C16 - C20: parameter file and validation. *)
From Coq Require Import ZArith NArith List String Ascii Reals Bool Lia.
From Coq Require Import DecimalString.
From Verif Require Import ParamNumbers.
From Verif Require Import Base HashTable SimParams ParamParser ParamSpec ParamLines ParamFacts ParamFile.
Import ListNotations.
Local Open Scope Z_scope.

(** C16.  For every file without over-long lines and without more than 1024 values for a
    name: the outcome is defined whenever the integers in it are representable; if the
    file is accepted, every parameter has the value the file gives it (first value for scalars,
    all values for lists, defaults otherwise, neqlt defaulting to L); it is
    rejected only for the documented reasons. *)
Theorem C16_parameter_lookup :
  forall atof f p, short_lines f -> (forall name, Z.of_nat (List.length (values f name)) <= 1024) ->
  (numbers_ok atoi atoll_u64 (values f) -> parse_file atof f p <> None) /\
  (forall p', parse_file atof f p = Some (inr p') -> params_are atoi atof atoll_u64 (values f) p p') /\
  (forall e, parse_file atof f p = Some (inl e) ->
     (e = -2 /\ bad_norb atoi (values f)) \/ (e = -3 /\ bad_list atoi (values f))).
Proof.
  intros atof f p Hs Hb. destruct (parse_table atof f p Hs Hb) as (ht & Hg & ->).
  exact (conj (update_defined atof ht (values f) p Hg)
    (conj (update_success atof ht (values f) Hg p) (update_error atof ht (values f) Hg p))).
Qed.
Print Assumptions C16_parameter_lookup.

(** C16: decimal numerals denote their value: the C functions applied to the decimal
    representation of an integer return the integer if it is in range, and are undefined else. *)
Theorem C16_integers : forall z,
  let numeral := DecimalString.NilEmpty.string_of_int (Z.to_int z) in
  (- 2^31 <= z < 2^31 -> atoi numeral = Some z) /\
  (z < - 2^31 \/ 2^31 <= z -> atoi numeral = None) /\
  (0 <= z < 2^63 -> atoll_u64 numeral = Some (Z.to_N z)).
Proof.
  intros z numeral. unfold atoi, atoll_u64, numeral. rewrite ParamNumbers.parse_int_print.
  split; [|split]; intros H;
  repeat match goal with |- context [?a <=? ?b] => destruct (Z.leb_spec a b); try lia
                       | |- context [?a <? ?b] => destruct (Z.ltb_spec a b); try lia end; auto.
  cbn [andb]. rewrite Z.mod_small; [reflexivity|lia].
Qed.
Print Assumptions C16_integers.

Example C16_integers_case : DecimalString.NilEmpty.string_of_int (Z.to_int (-120)) = "-120"%string.
Proof. reflexivity. Qed.

(** C16: two files that give the same values to the names that have a meaning are
    read alike, whatever they say about other names. *)
Theorem C16_unknown_names_ignored :
  forall atof f1 f2 p, short_lines f1 -> short_lines f2 ->
  (forall name, Z.of_nat (List.length (values f1 name)) <= 1024) ->
  (forall name, Z.of_nat (List.length (values f2 name)) <= 1024) ->
  (forall name, In name known_names -> values f1 name = values f2 name) ->
  parse_file atof f1 p = parse_file atof f2 p.
Proof. exact parse_same. Qed.
Print Assumptions C16_unknown_names_ignored.

(** C17, full claim: [parse_file atof (strip_comments f) p = parse_file atof f p] for every
    file.  It holds if no line is longer than 1023 characters... *)
Theorem C17_comments_partial :
  forall atof f p, short_lines f -> parse_file atof (strip_comments f) p = parse_file atof f p.
Proof. exact parse_strip. Qed.
Print Assumptions C17_comments_partial.

Definition txt (s : string) : list ascii := list_ascii_of_string s.
Definition p_zero : sim_params :=
  mk_sim_params 0 0 0 0 (mk_bonds [] [] [] [] []) [] [] 0 false (mk_phonon_params [] [] 0 0 0 0) 0
    0 0 0 0 0 0 0 1 0.

(** ... and fails for a longer comment: its tail is read as a parameter. *)
Definition long_comment : list ascii :=
  txt "Norb 1
#" ++ repeat "x"%char 1022 ++ txt "Nx 7".
Theorem C17_comments_refuted :
  exists atof f p p1 p2, parse_file atof f p = Some (inr p1) /\
    parse_file atof (strip_comments f) p = Some (inr p2) /\ sp_Nx p1 = 7 /\ sp_Nx p2 = 0.
Proof.
  exists (fun _ => 0%R), long_comment, p_zero.
  eexists. eexists. split; [vm_compute; reflexivity|]. split; [vm_compute; reflexivity|]. split; reflexivity.
Qed.
Print Assumptions C17_comments_refuted.

(** C18, full claim: [load_file f <> None] for every file (no table is overrun).  What
    holds: the only way to overrun a table is to give more than 1024 values to the same
    name; the table for the words of one line is never overrun. *)
Theorem C18_tables_partial :
  forall f, load_file f = None <->
    exists name, 1024 < Z.of_nat (List.length (values_in (read_lines (List.length f) 1023 f) name)).
Proof. exact load_defined_iff. Qed.
Print Assumptions C18_tables_partial.

Theorem C18_tables_refuted :
  exists f, short_lines f /\ load_file f = None.
Proof.
  exists (List.concat (repeat (txt "U 1 2 3 4 5
") 205)). split.
  - unfold short_lines. apply Forall_forall. intros l Hl.
    assert (forallb (fun l => Nat.leb (List.length l) 1023)
      (lines (List.concat (repeat (txt "U 1 2 3 4 5
") 205))) = true) as H by (vm_compute; reflexivity).
    rewrite forallb_forall in H. apply Nat.leb_le. now apply H.
  - apply load_defined_iff. exists "U"%string. vm_compute. reflexivity.
Qed.
Print Assumptions C18_tables_refuted.

(** C19.  A list of hopping values either is rejected (wrong number of values, or an orbital
    index out of range), or sets exactly the named entries, the last one
    winning; no write outside of the array either way. *)
Theorem C19_hoppings :
  forall atof Norb l t, 0 <= Norb -> Z.of_nat (List.length t) = Norb * Norb ->
  Forall (fun x => let '(a, b, _) := x in atoi a <> None /\ atoi b <> None) (triples l) ->
  exists s t', read_hoppings atof Norb l t = Some (s, t') /\ Z.of_nat (List.length t') = Norb * Norb /\
    (s = 0 <-> Z.of_nat (List.length l) mod 3 = 0 /\ Forall (in_range atoi Norb) (triples l)) /\
    (s = 0 -> forall i j, 0 <= i < Norb -> 0 <= j < Norb ->
       bond_is atoi atof (triples l) i j (nth (Z.to_nat (i + Norb * j)) t 0%R)
         (nth (Z.to_nat (i + Norb * j)) t' 0%R)).
Proof. exact read_hoppings_ok. Qed.
Print Assumptions C19_hoppings.

(** C20.  The validation always answers, and accepts exactly the parameters that meet the
    preconditions listed in [valid_params]. *)
Theorem C20_validation_is_exact :
  forall p, Z.of_nat (List.length (t_aa (sp_t p))) = sp_Norb p * sp_Norb p ->
  (validate p = Some 0 \/ validate p = Some (-1)) /\ (validate p = Some 0 <-> valid_params p).
Proof. exact validate_iff. Qed.
Print Assumptions C20_validation_is_exact.

(** A file with comments, repeated names, an unknown name, a list over two lines. *)
Definition sample_file : list ascii :=
  txt "# a comment; Nx = 3
Norb = 2   # two orbitals
Nx: 4, 5
Nx 9
U = 1.5
t_aa 0,1,0.25
t_ab 0 0 1  1 1 2
t_ab 0 0 3
colour = blue
U = 2.5
L=10 ; prodBlen
itime 42
".
Definition sample_atof (s : string) : R :=
  (if String.eqb s "1.5" then 3/2 else if String.eqb s "2.5" then 5/2 else if String.eqb s "0.25" then 1/4
   else IZR (parse_int s))%R.

Example C16_case : exists p', parse_file sample_atof sample_file p_zero = Some (inr p') /\
  sp_Norb p' = 2 /\ sp_Nx p' = 4 /\ sp_Ny p' = 0 /\ sp_U p' = [3/2; 5/2]%R /\
  t_aa (sp_t p') = [0; 0; 1/4; 0]%R /\ t_ab (sp_t p') = [3; 0; 0; 2]%R /\
  sp_L p' = 10 /\ sp_neqlt p' = 10 /\ sp_itime p' = 42%N /\ short_lines sample_file /\
  (forall name, Z.of_nat (List.length (values sample_file name)) <= 1024) /\
  numbers_ok atoi atoll_u64 (values sample_file).
Proof.
  eexists. split; [vm_compute; reflexivity|]. repeat (split; [reflexivity|]).
  split; [apply Forall_forall; intros l Hl; vm_compute in Hl; repeat (destruct Hl as [<-|Hl]; [vm_compute; lia|]); destruct Hl|].
  split.
  - intros name. unfold values, values_in.
    assert (forall ls, (List.length (flat_map (line_values name) ls) <= List.length (flat_map (fun l => words (relevant l)) ls))%nat) as H.
    { induction ls as [|l ls IH]; cbn [flat_map]; [lia|]. rewrite !app_length.
      assert (List.length (line_values name l) <= List.length (words (relevant l)))%nat; [|lia].
      unfold line_values. destruct (words (relevant l)); [cbn; lia|]. destruct (String.eqb _ _); cbn; lia. }
    specialize (H (lines sample_file)). vm_compute (List.length (flat_map (fun l => words (relevant l)) (lines sample_file))) in H. lia.
  - split; [|split].
    + intros name v vs Hn. repeat (destruct Hn as [<-|Hn]; [intros E; vm_compute in E; try discriminate E; injection E as <- <-; discriminate|]). destruct Hn.
    + intros v vs E. vm_compute in E. injection E as <- <-. discriminate.
    + intros name Hn. repeat (destruct Hn as [<-|Hn]; [
        match goal with |- Forall ?P ?l => let l' := eval vm_compute in l in change (Forall P l') end;
        repeat constructor; discriminate|]). destruct Hn.
Qed.

Example C19_case_bad : exists t, read_hoppings sample_atof 2 ["0"; "1"; "1.5"; "2"; "0"; "2.5"]%string
  (zeros 4) = Some (-2, t).
Proof. eexists. vm_compute. reflexivity. Qed.

Example C20_case : valid_params (mk_sim_params 2 4 4 0 (mk_bonds [0; 0; 1; 0] [] [] [] [])%R [] [] 0 false
  (mk_phonon_params [] [] 0 0 0 0) (1/8) 8 4 8 10 20 2 0 7 0).
Proof.
  split; cbn; try lia.
  - intros i Hi. assert (i = 0 \/ i = 1) as [-> | ->] by lia; reflexivity.
  - intros i j Hi Hj Hne.
    assert (i = 0 \/ i = 1) as [-> | ->] by lia; assert (j = 0 \/ j = 1) as [-> | ->] by lia; try lia; [right|left]; reflexivity.
  - exists 2. reflexivity.
  - exists 2. reflexivity.
Qed.
