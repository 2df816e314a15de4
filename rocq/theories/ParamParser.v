(** Model of /repo/src/param_parser.c:55-354 and 393-461: reading the parameter file and
    checking the parameters.

    The file is the list of its bytes.  Library functions: fgets, strchr, strtok,
    atoi, atoll are modelled by what the C standard says about them (a number that is not
    representable makes atoi/atoll undefined); atof is an arbitrary function.
    Memory exhaustion is not modelled.  The program is compiled with NDEBUG
    (Makefile), so the assertions are not there. *)
From Coq Require Import ZArith NArith List String Ascii Reals Bool.
From Verif Require Import Base HashTable SimParams.
Import ListNotations.
Local Open Scope Z_scope.

Definition NUL : ascii := Ascii.zero.
Definition newline : ascii := ascii_of_N 10.
Definition hash_char : ascii := "#".

(** fgets(line, 1024, fd): at most [n] = 1023 characters, up to and including a newline;
    result: the characters read and the rest of the file. *)
Fixpoint fgets (n : nat) (f : list ascii) : list ascii * list ascii :=
  match n, f with
  | O, _ => ([], f)
  | S _, [] => ([], [])
  | S n', c :: f' =>
      if Ascii.eqb c newline then ([c], f')
      else let (l, r) := fgets n' f' in (c :: l, r)
  end.

(** param_parser.c:167-168: the successive contents of [line]; [fuel] bounds the number
    of calls of fgets (every call consumes a character). *)
Fixpoint read_lines (fuel n : nat) (f : list ascii) : list (list ascii) :=
  match fuel, f with
  | O, _ | _, [] => []
  | S fuel', _ => let (l, r) := fgets n f in l :: read_lines fuel' n r
  end.

(** characters before the first one satisfying [p] *)
Fixpoint before (p : ascii -> bool) (l : list ascii) : list ascii :=
  match l with
  | [] => []
  | c :: l' => if p c then [] else c :: before p l'
  end.

(** param_parser.c:170-176: the C string in [line], cut at the first '#' *)
Definition line_text (l : list ascii) : list ascii :=
  before (Ascii.eqb hash_char) (before (Ascii.eqb NUL) l).

(** param_parser.c:179: " =:,;\t\r\n" *)
Definition is_delim (c : ascii) : bool :=
  existsb (Ascii.eqb c) [" "; "="; ":"; ","; ";"; ascii_of_N 9; ascii_of_N 13; newline]%char.

(** strtok called until it returns NULL: the maximal blocks without delimiters.
    [cur] is the (reversed) token being read. *)
Fixpoint tokens_from (cur : list ascii) (l : list ascii) : list string :=
  let flush := match cur with [] => [] | _ => [string_of_list_ascii (rev cur)] end in
  match l with
  | [] => flush
  | c :: l' => if is_delim c then flush ++ tokens_from [] l' else tokens_from (c :: cur) l'
  end.
Definition tokens (l : list ascii) : list string := tokens_from [] l.

(** param_parser.c:43-48: capacity of [value_list_t] *)
Definition max_values : Z := 1024.

(** param_parser.c:188-193: the pointers, including the final NULL, are stored in [value.str] *)
Fixpoint collect (num : Z) (toks : list string) : option (list string) :=
  let* _ := guard (num <? max_values) in
  match toks with
  | [] => Some []
  | t :: toks' => let* l := collect (num + 1) toks' in Some (t :: l)
  end.

(** param_parser.c:55-65 [AppendValues] *)
Fixpoint append_values (list_ ap : list string) : option (list string) :=
  match ap with
  | [] => Some list_
  | v :: ap' =>
      let* _ := guard (Z.of_nat (List.length list_) <? max_values) in
      append_values (list_ ++ [v]) ap'
  end.

(** param_parser.c:170-213: one line.  Simplification: the list of values found in the
    table is changed in place by the code; here the entry is replaced. *)
Definition load_line (ht : table (list string)) (line : list ascii) : option (table (list string)) :=
  match tokens (line_text line) with
  | [] => Some ht
  | name :: toks =>
      let* value := collect 0 toks in
      match value with
      | [] => Some ht
      | _ =>
          let* prev := ht_get ht name in
          match prev with
          | None =>
              let* v := append_values [] value in
              let* (ht', _) := ht_insert ht name v in Some ht'
          | Some pv =>
              let* v := append_values pv value in
              let* (ht', _) := ht_insert ht name v in Some ht'
          end
      end
  end.

(** param_parser.c:162-214: the whole file *)
Definition load_file (f : list ascii) : option (table (list string)) :=
  fold_left (fun acc l => let* ht := acc in load_line ht l)
    (read_lines (List.length f) 1023 f) (Some (ht_alloc 64)).

(** ** Numbers *)
Definition is_space (c : ascii) : bool :=
  existsb (Ascii.eqb c) (map ascii_of_N [9; 10; 11; 12; 13; 32]%N).
Definition digit (c : ascii) : option Z :=
  let n := Z.of_N (N_of_ascii c) in if (48 <=? n) && (n <=? 57) then Some (n - 48) else None.
Fixpoint skip_space (s : string) : string :=
  match s with
  | String c s' => if is_space c then skip_space s' else s
  | EmptyString => s
  end.
Fixpoint digits (acc : Z) (s : string) : Z :=
  match s with
  | String c s' => match digit c with Some d => digits (10 * acc + d) s' | None => acc end
  | EmptyString => acc
  end.
(** value of the longest prefix that looks like an integer, 0 if there is none *)
Definition parse_int (s : string) : Z :=
  match skip_space s with
  | String c s' =>
      if Ascii.eqb c "-" then - digits 0 s'
      else if Ascii.eqb c "+" then digits 0 s'
      else digits 0 (String c s')
  | EmptyString => 0
  end.
(** atoi: [int] *)
Definition atoi (s : string) : option Z :=
  let n := parse_int s in if (- 2^31 <=? n) && (n <? 2^31) then Some n else None.
(** atoll, converted to uint64_t *)
Definition atoll_u64 (s : string) : option N :=
  let n := parse_int s in
  if (- 2^63 <=? n) && (n <? 2^63) then Some (Z.to_N (n mod 2^64)) else None.

Section Parser.
Variable atof : string -> R.

(** param_parser.c:100-124 [ReadHoppings]; result: status and array *)
Fixpoint read_triples (Norb : Z) (l : list string) (t : list R) : option (Z * list R) :=
  match l with
  | sa :: sb :: sv :: l' =>
      let* a := atoi sa in
      let* b := atoi sb in
      if (a <? 0) || (Norb <=? a) || (b <? 0) || (Norb <=? b) then Some (-2, t)
      else let* t' := aset t (a + Norb * b) (atof sv) in read_triples Norb l' t'
  | _ => Some (0, t)
  end.
Definition read_hoppings (Norb : Z) (l : list string) (t : list R) : option (Z * list R) :=
  if negb (Z.rem (Z.of_nat (List.length l)) 3 =? 0) then Some (-1, t) else read_triples Norb l t.

(** param_parser.c:131-146 [ReadList] *)
Definition read_list (Norb : Z) (l : list string) (a : list R) : option (Z * list R) :=
  if negb (Z.of_nat (List.length l) =? Norb) then Some (-1, a)
  else
    let* a' := for_range 0 Norb (fun i a => let* s := aget l i in aset a i (atof s)) a in
    Some (0, a').

(** Outcome of the update phase: error status or new value *)
Notation res A := (option (Z + A)%type) (only parsing).
Definition rbind {A B} (c : res A) (k : A -> res B) : res B :=
  match c with
  | Some (inr a) => k a
  | Some (inl e) => Some (inl e)
  | None => None
  end.
Notation "'do' p '<-' c1 'in' c2" := (rbind c1 (fun p => c2))
  (at level 200, p pattern, c1 at level 100, c2 at level 200, right associativity).

Variable ht : table (list string).

(** [if ((value = HashTableGet(&hashtable, name)) != NULL) { x = conv(value->str[0]); }] *)
Definition scalar {A} (conv : string -> option A) (name : string) (x : A) : res A :=
  match ht_get ht name with
  | None => None
  | Some None => Some (inr x)
  | Some (Some v) => match aget v 0 with
                     | None => None
                     | Some s => match conv s with None => None | Some y => Some (inr y) end
                     end
  end.

(** [if (... != NULL) { if (read(Norb, value, a) != 0) return -3; }] *)
Definition array (read : list string -> list R -> option (Z * list R)) (name : string) (a : list R)
  : res (list R) :=
  match ht_get ht name with
  | None => None
  | Some None => Some (inr a)
  | Some (Some v) => match read v a with
                     | None => None
                     | Some (s, a') => if s =? 0 then Some (inr a') else Some (inl (-3))
                     end
  end.

Definition atof_o (s : string) : option R := Some (atof s).

(** param_parser.c:304-312: use_phonons; an unrecognised word leaves the value *)
Definition read_bool (old : bool) (s : string) : option bool :=
  Some (if String.eqb s "true" || String.eqb s "1" then true
        else if String.eqb s "false" || String.eqb s "0" then false else old).

Definition zeros (n : Z) : list R := repeat 0%R (Z.to_nat n).

(** param_parser.c:217-349: update of the parameters from the hash table *)
Definition update (p : sim_params) : res sim_params :=
  do Norb <- match ht_get ht "Norb" with
             | None => None
             | Some None => Some (inl (-2))
             | Some (Some v) =>
                 match aget v 0 with
                 | None => None
                 | Some s => match atoi s with
                             | None => None
                             | Some n => if n <=? 0 then Some (inl (-2)) else Some (inr n)
                             end
                 end
             end in
  do Nx <- scalar atoi "Nx" (sp_Nx p) in
  do Ny <- scalar atoi "Ny" (sp_Ny p) in
  do shift <- scalar atoi "pbc_shift" (sp_pbc_shift p) in
  do aa <- array (read_hoppings Norb) "t_aa" (zeros (Norb * Norb)) in
  do ab <- array (read_hoppings Norb) "t_ab" (zeros (Norb * Norb)) in
  do ac <- array (read_hoppings Norb) "t_ac" (zeros (Norb * Norb)) in
  do ad <- array (read_hoppings Norb) "t_ad" (zeros (Norb * Norb)) in
  do bc <- array (read_hoppings Norb) "t_bc" (zeros (Norb * Norb)) in
  do U <- array (read_list Norb) "U" (zeros Norb) in
  do eps <- array (read_list Norb) "eps" (zeros Norb) in
  do mu <- scalar atof_o "mu" (sp_mu p) in
  do phn <- scalar (read_bool (sp_use_phonons p)) "use_phonons" (sp_use_phonons p) in
  do omega <- array (read_list Norb) "phonon_omega" (zeros Norb) in
  do g <- array (read_list Norb) "phonon_g" (zeros Norb) in
  do lbw <- scalar atof_o "phonon_local_box_width" (ph_local_box_width (sp_phonon p)) in
  do nlu <- scalar atoi "phonon_n_local_updates" (ph_n_local_updates (sp_phonon p)) in
  do bbw <- scalar atof_o "phonon_block_box_width" (ph_block_box_width (sp_phonon p)) in
  do nbu <- scalar atoi "phonon_n_block_updates" (ph_n_block_updates (sp_phonon p)) in
  do dt <- scalar atof_o "dt" (sp_dt p) in
  do L <- scalar atoi "L" (sp_L p) in
  do prodBlen <- scalar atoi "prodBlen" (sp_prodBlen p) in
  do nwraps <- scalar atoi "nwraps" (sp_nwraps p) in
  do nequil <- scalar atoi "nequil" (sp_nequil p) in
  do nsampl <- scalar atoi "nsampl" (sp_nsampl p) in
  do neqlt <- scalar atoi "neqlt" L in
  do nuneqlt <- scalar atoi "nuneqlt" (sp_nuneqlt p) in
  do itime <- scalar atoll_u64 "itime" (sp_itime p) in
  do maxt <- scalar atoi "max_time" (sp_max_time p) in
  Some (inr (mk_sim_params Norb Nx Ny shift (mk_bonds aa ab ac ad bc) U eps mu phn
    (mk_phonon_params omega g lbw nlu bbw nbu) dt L prodBlen nwraps nequil nsampl neqlt nuneqlt
    itime maxt)).
End Parser.

(** param_parser.c:153-354 [ParseParameterFile] for a file that can be opened; the result is
    the error status, or the parameters (status 0). *)
Definition parse_file (atof : string -> R) (f : list ascii) (p : sim_params) : option (Z + sim_params) :=
  let* ht := load_file f in update atof ht p.

(** ** Validation *)
Definition is_zero (x : R) : bool := if Req_EM_T x 0 then true else false.

(** param_parser.c:409-430: [Some false] = error *)
Definition check_taa (Norb : Z) (t : list R) : option bool :=
  for_range 0 Norb
    (fun i (ok : bool) =>
       if ok then
         let* tii := aget t (i + i * Norb) in
         if negb (is_zero tii) then Some false
         else for_range (i + 1) Norb
           (fun j (ok : bool) =>
              if ok then
                let* tij := aget t (i + j * Norb) in
                if negb (is_zero tij) then
                  let* tji := aget t (j + i * Norb) in Some (is_zero tji)
                else Some true
              else Some false) true
       else Some false) true.

(** [a % b] and [a / b] of C [int]s; undefined for [b = 0] *)
Definition cmod (a b : Z) : option Z := if b =? 0 then None else Some (Z.rem a b).
Definition cdiv (a b : Z) : option Z := if b =? 0 then None else Some (Z.quot a b).

(** param_parser.c:393-461 [ValidateSimulationParameters]; result: the return value *)
Definition validate (p : sim_params) : option Z :=
  let Norb := sp_Norb p in
  if Norb <=? 0 then Some (-1)
  else if (sp_Nx p <=? 0) || (sp_Ny p <=? 0) then Some (-1)
  else
    let* ok := check_taa Norb (t_aa (sp_t p)) in
    if negb ok then Some (-1)
    else if sp_L p <=? 0 then Some (-1)
    else if sp_prodBlen p <=? 0 then Some (-1)
    else
      let* r1 := cmod (sp_L p) (sp_prodBlen p) in
      let* q1 := cdiv (sp_L p) (sp_prodBlen p) in
      if negb (r1 =? 0) || (q1 <=? 0) then Some (-1)
      else
        let* r2 := cmod (sp_nwraps p) (sp_prodBlen p) in
        let* q2 := cdiv (sp_nwraps p) (sp_prodBlen p) in
        if negb (r2 =? 0) || (q2 <=? 0) then Some (-1)
        else if (sp_itime p =? 0)%N then Some (-1)
        else Some 0.
