(** What a parameter file means: independent of the hash table, of the line buffer and of
    the tables of the parser. *)
From Coq Require Import ZArith NArith List String Ascii Reals Bool.
From Verif Require Import SimParams.
Import ListNotations.
Local Open Scope Z_scope.

Definition chr (n : N) : ascii := ascii_of_N n.

(** Pieces of a list between separators. *)
Fixpoint split_at (sep : ascii -> bool) (l : list ascii) : list (list ascii) :=
  match l with
  | [] => [[]]
  | c :: l' =>
      if sep c then [] :: split_at sep l'
      else match split_at sep l' with
           | [] => [[c]]
           | w :: ws => (c :: w) :: ws
           end
  end.

(** lines of the file (without the newline characters) *)
Definition lines (f : list ascii) : list (list ascii) := split_at (Ascii.eqb (chr 10)) f.

(** what counts of a line: everything before the first '#' (or NUL character) *)
Fixpoint relevant (l : list ascii) : list ascii :=
  match l with
  | [] => []
  | c :: l' => if Ascii.eqb c "#" || Ascii.eqb c (chr 0) then [] else c :: relevant l'
  end.

(** the words of a line, separated by blanks, = : , ; tab and carriage return *)
Definition separator (c : ascii) : bool :=
  Ascii.eqb c " " || Ascii.eqb c "=" || Ascii.eqb c ":" || Ascii.eqb c "," || Ascii.eqb c ";" ||
  Ascii.eqb c (chr 9) || Ascii.eqb c (chr 13) || Ascii.eqb c (chr 10).
Definition nonempty (w : list ascii) : bool := match w with [] => false | _ => true end.
Definition words (l : list ascii) : list string :=
  map string_of_list_ascii (filter nonempty (split_at separator l)).

(** values given to the parameter [name] in these lines, in order *)
Definition line_values (name : string) (l : list ascii) : list string :=
  match words (relevant l) with
  | n :: vs => if String.eqb n name then vs else []
  | [] => []
  end.
Definition values_in (ls : list (list ascii)) (name : string) : list string :=
  flat_map (line_values name) ls.
Definition values (f : list ascii) (name : string) : list string := values_in (lines f) name.

(** no line is longer than the line buffer *)
Definition short_lines (f : list ascii) : Prop :=
  Forall (fun l => (List.length l <= 1023)%nat) (lines f).

(** the file with everything from '#' to the end of the line removed *)
Fixpoint no_hash (l : list ascii) : list ascii :=
  match l with
  | [] => []
  | c :: l' => if Ascii.eqb c "#" then [] else c :: no_hash l'
  end.
Fixpoint unlines (ls : list (list ascii)) : list ascii :=
  match ls with
  | [] => []
  | [l] => l
  | l :: ls' => l ++ chr 10 :: unlines ls'
  end.
Definition strip_comments (f : list ascii) : list ascii := unlines (map no_hash (lines f)).

(** a scalar parameter: the first value given for the name, else the default *)
Definition scalar_is {A} (conv : string -> option A) (vs : list string) (default x : A) : Prop :=
  match vs with
  | [] => x = default
  | v :: _ => conv v = Some x
  end.

(** a list parameter: all values given for the name, or zeros *)
Definition list_is (atof : string -> R) (Norb : Z) (vs : list string) (a : list R) : Prop :=
  match vs with
  | [] => a = repeat 0%R (Z.to_nat Norb)
  | _ => a = map atof vs /\ Z.of_nat (List.length vs) = Norb
  end.

(** hoppings as triples; the last entry for (i, j) wins *)
Fixpoint triples (vs : list string) : list (string * string * string) :=
  match vs with
  | a :: b :: v :: vs' => (a, b, v) :: triples vs'
  | _ => []
  end.

Section Hop.
Variables (atoi : string -> option Z) (atof : string -> R).
Definition names_bond (i j : Z) (x : string * string * string) : Prop :=
  let '(a, b, _) := x in atoi a = Some i /\ atoi b = Some j.
Definition in_range (Norb : Z) (x : string * string * string) : Prop :=
  exists i j, names_bond i j x /\ 0 <= i < Norb /\ 0 <= j < Norb.

(** entry (i, j) is the value of the last triple that names the bond, or [old] if none does *)
Definition bond_is (ts : list (string * string * string)) (i j : Z) (old x : R) : Prop :=
  (Forall (fun t => ~ names_bond i j t) ts /\ x = old) \/
  (exists ts1 t ts2, ts = ts1 ++ t :: ts2 /\ names_bond i j t /\
     Forall (fun t => ~ names_bond i j t) ts2 /\ x = atof (snd t)).

Definition hoppings_are (Norb : Z) (vs : list string) (t : list R) : Prop :=
  Z.of_nat (List.length t) = Norb * Norb /\
  Z.of_nat (List.length vs) mod 3 = 0 /\
  Forall (in_range Norb) (triples vs) /\
  (forall i j, 0 <= i < Norb -> 0 <= j < Norb ->
     bond_is (triples vs) i j 0%R (nth (Z.to_nat (i + Norb * j)) t 0%R)).

(** The parameters [p'] read from a file in which [vals name] are the values given for
    [name], starting from the defaults [p]. *)
Variable atoll : string -> option N.
Definition bool_is (vs : list string) (default x : bool) : Prop :=
  match vs with
  | [] => x = default
  | v :: _ => (v = "true" \/ v = "1" -> x = true) /\ (v = "false" \/ v = "0" -> x = false) /\
              (v <> "true" -> v <> "1" -> v <> "false" -> v <> "0" -> x = default)
  end%string.
Definition real (s : string) : option R := Some (atof s).

Record params_are (vals : string -> list string) (p p' : sim_params) : Prop := {
  is_Norb : exists v vs, vals "Norb"%string = v :: vs /\ atoi v = Some (sp_Norb p') /\ 0 < sp_Norb p';
  is_Nx : scalar_is atoi (vals "Nx"%string) (sp_Nx p) (sp_Nx p');
  is_Ny : scalar_is atoi (vals "Ny"%string) (sp_Ny p) (sp_Ny p');
  is_shift : scalar_is atoi (vals "pbc_shift"%string) (sp_pbc_shift p) (sp_pbc_shift p');
  is_aa : hoppings_are (sp_Norb p') (vals "t_aa"%string) (t_aa (sp_t p'));
  is_ab : hoppings_are (sp_Norb p') (vals "t_ab"%string) (t_ab (sp_t p'));
  is_ac : hoppings_are (sp_Norb p') (vals "t_ac"%string) (t_ac (sp_t p'));
  is_ad : hoppings_are (sp_Norb p') (vals "t_ad"%string) (t_ad (sp_t p'));
  is_bc : hoppings_are (sp_Norb p') (vals "t_bc"%string) (t_bc (sp_t p'));
  is_U : list_is atof (sp_Norb p') (vals "U"%string) (sp_U p');
  is_eps : list_is atof (sp_Norb p') (vals "eps"%string) (sp_eps p');
  is_mu : scalar_is real (vals "mu"%string) (sp_mu p) (sp_mu p');
  is_use_phonons : bool_is (vals "use_phonons"%string) (sp_use_phonons p) (sp_use_phonons p');
  is_omega : list_is atof (sp_Norb p') (vals "phonon_omega"%string) (ph_omega (sp_phonon p'));
  is_g : list_is atof (sp_Norb p') (vals "phonon_g"%string) (ph_g (sp_phonon p'));
  is_lbw : scalar_is real (vals "phonon_local_box_width"%string) (ph_local_box_width (sp_phonon p))
             (ph_local_box_width (sp_phonon p'));
  is_nlu : scalar_is atoi (vals "phonon_n_local_updates"%string) (ph_n_local_updates (sp_phonon p))
             (ph_n_local_updates (sp_phonon p'));
  is_bbw : scalar_is real (vals "phonon_block_box_width"%string) (ph_block_box_width (sp_phonon p))
             (ph_block_box_width (sp_phonon p'));
  is_nbu : scalar_is atoi (vals "phonon_n_block_updates"%string) (ph_n_block_updates (sp_phonon p))
             (ph_n_block_updates (sp_phonon p'));
  is_dt : scalar_is real (vals "dt"%string) (sp_dt p) (sp_dt p');
  is_L : scalar_is atoi (vals "L"%string) (sp_L p) (sp_L p');
  is_prodBlen : scalar_is atoi (vals "prodBlen"%string) (sp_prodBlen p) (sp_prodBlen p');
  is_nwraps : scalar_is atoi (vals "nwraps"%string) (sp_nwraps p) (sp_nwraps p');
  is_nequil : scalar_is atoi (vals "nequil"%string) (sp_nequil p) (sp_nequil p');
  is_nsampl : scalar_is atoi (vals "nsampl"%string) (sp_nsampl p) (sp_nsampl p');
  is_neqlt : scalar_is atoi (vals "neqlt"%string) (sp_L p') (sp_neqlt p');
  is_nuneqlt : scalar_is atoi (vals "nuneqlt"%string) (sp_nuneqlt p) (sp_nuneqlt p');
  is_itime : scalar_is atoll (vals "itime"%string) (sp_itime p) (sp_itime p');
  is_max_time : scalar_is atoi (vals "max_time"%string) (sp_max_time p) (sp_max_time p') }.

(** A file is rejected: no positive Norb (-2), or a malformed list (-3). *)
Definition bad_norb (vals : string -> list string) : Prop :=
  match vals "Norb"%string with
  | [] => True
  | v :: _ => exists n, atoi v = Some n /\ n <= 0
  end.
Definition bad_list (vals : string -> list string) : Prop :=
  exists v vs Norb, vals "Norb"%string = v :: vs /\ atoi v = Some Norb /\
    ((exists name, In name ["t_aa"; "t_ab"; "t_ac"; "t_ad"; "t_bc"]%string /\
        (Z.of_nat (List.length (vals name)) mod 3 <> 0 \/ ~ Forall (in_range Norb) (triples (vals name)))) \/
     (exists name, In name ["U"; "eps"; "phonon_omega"; "phonon_g"]%string /\
        vals name <> [] /\ Z.of_nat (List.length (vals name)) <> Norb)).
End Hop.

(** Names with a meaning. *)
Definition known_names : list string :=
  ["Norb"; "Nx"; "Ny"; "pbc_shift"; "t_aa"; "t_ab"; "t_ac"; "t_ad"; "t_bc"; "U"; "eps"; "mu";
   "use_phonons"; "phonon_omega"; "phonon_g"; "phonon_local_box_width"; "phonon_n_local_updates";
   "phonon_block_box_width"; "phonon_n_block_updates"; "dt"; "L"; "prodBlen"; "nwraps"; "nequil";
   "nsampl"; "neqlt"; "nuneqlt"; "itime"; "max_time"]%string.

Definition int_names : list string :=
  ["Norb"; "Nx"; "Ny"; "pbc_shift"; "phonon_n_local_updates"; "phonon_n_block_updates"; "L"; "prodBlen";
   "nwraps"; "nequil"; "nsampl"; "neqlt"; "nuneqlt"; "max_time"]%string.

(** the integers that are read are representable *)
Definition numbers_ok (atoi : string -> option Z) (atoll : string -> option N)
    (vals : string -> list string) : Prop :=
  (forall name v vs, In name int_names -> vals name = v :: vs -> atoi v <> None) /\
  (forall v vs, vals "itime"%string = v :: vs -> atoll v <> None) /\
  (forall name, In name ["t_aa"; "t_ab"; "t_ac"; "t_ad"; "t_bc"]%string ->
     Forall (fun x => let '(a, b, _) := x in atoi a <> None /\ atoi b <> None) (triples (vals name))).

(** Preconditions of the simulation that the validation is there to establish. *)
Definition hop (t : list R) (Norb i j : Z) : R := nth (Z.to_nat (i + j * Norb)) t 0%R.

Record valid_params (p : sim_params) : Prop := {
  v_Norb : 0 < sp_Norb p;
  v_Nx : 0 < sp_Nx p;
  v_Ny : 0 < sp_Ny p;
  v_diag : forall i, 0 <= i < sp_Norb p -> hop (t_aa (sp_t p)) (sp_Norb p) i i = 0%R;
  v_redundant : forall i j, 0 <= i < sp_Norb p -> 0 <= j < sp_Norb p -> i <> j ->
    hop (t_aa (sp_t p)) (sp_Norb p) i j = 0%R \/ hop (t_aa (sp_t p)) (sp_Norb p) j i = 0%R;
  v_L : 0 < sp_L p;
  v_prodBlen : 0 < sp_prodBlen p;
  v_L_mult : (sp_prodBlen p | sp_L p);
  v_nwraps : 0 < sp_nwraps p;
  v_nwraps_mult : (sp_prodBlen p | sp_nwraps p);
  v_itime : sp_itime p <> 0%N }.
