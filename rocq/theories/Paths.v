(** Model of the names of the files of a run: /repo/src/main.c:82-107 (directory, base name, log file), and the
    sprintf statements of checkpoint.c:26-90 and measurement.c:385-438, 859-928, 1123-1145.

    Strings contain no NUL character.  A buffer char[1024] takes a string of at most 1023 characters; more
    is undefined behaviour.  The conversion %g is a parameter. *)
From Coq Require Import ZArith NArith List String Ascii Reals.
From Verif Require Import Base SimParams Measure UMeasure PMeasure DataFiles.
Import ListNotations.
Local Open Scope Z_scope.

(** [char path[1024]], main.c:82, 98; checkpoint.c:26, 45, 67; measurement.c:391, 421, 866, 904, 1128 *)
Definition path_cap : Z := 1024.

(** sprintf(path, ...) or strcpy(path, ...) of a string to a buffer: the terminating NUL must fit *)
Definition to_buffer (s : string) : option string :=
  if Z.of_nat (String.length s) + 1 <=? path_cap then Some s else None.

(** the conversion %PRIu64: decimal digits without leading zeros; 20 digits are enough for 64 bits *)
Fixpoint digits (fuel : nat) (n : N) (acc : string) : string :=
  match fuel with
  | O => acc
  | S f => let acc := String (ascii_of_N (48 + n mod 10)) acc in
           if (n <? 10)%N then acc else digits f (n / 10) acc
  end.
Definition dec (n : N) : string := digits 20 n "".

(** the conversion %i *)
Definition dec_int (z : Z) : string := if z <? 0 then String "-" (dec (Z.to_N (- z))) else dec (Z.to_N z).

Section Format.
(** the conversion %g *)
Variable fmt_g : R -> string.

(** main.c:83-93: the output directory; [arg] is the second argument of the program *)
Definition output_dir (p : sim_params) (arg : option string) : option string :=
  match arg with
  | None => to_buffer ("output/N" ++ dec_int (sp_Nx p) ++ "x" ++ dec_int (sp_Ny p) ++ "_beta" ++ fmt_g (IZR (sp_L p) * sp_dt p)
                        ++ "_mu" ++ fmt_g (sp_mu p) ++ "_sim_" ++ dec (sp_itime p))
  | Some d => to_buffer d
  end%string.

(** main.c:98-99 *)
Definition base_name (p : sim_params) (arg : option string) : option string :=
  let* dir := output_dir p arg in
  to_buffer (dir ++ "/sim_" ++ dec (sp_itime p))%string.

(** checkpoint.c:29-35, 47-56, 69-84 *)
Definition checkpoint_suffixes : list string := ["_iteration.dat"; "_randseed.dat"; "_hsfield.dat"]%string.

(** all file names a run forms until it has saved its data: main.c:102, 146, 250-272 (those formed
    while loading are among them) *)
Definition run_suffixes (p : sim_params) : list string :=
  "_simulation.log"%string :: checkpoint_suffixes ++
  map e_suffix (save_eqlt (sp_Norb p) (sp_Nx p * sp_Ny p)) ++
  (if 0 <? sp_nuneqlt p then map e_suffix (save_uneqlt (sp_Norb p) (sp_Nx p * sp_Ny p) (sp_L p)) else []) ++
  (if sp_use_phonons p then map e_suffix (save_phonon (sp_Norb p) 0) else []).

(** [sprintf(path, "%s<suffix>", fnbase)] for every one *)
Fixpoint all_paths (base : string) (suffixes : list string) : option (list string) :=
  match suffixes with
  | [] => Some []
  | s :: r => let* a := to_buffer (base ++ s)%string in let* b := all_paths base r in Some (a :: b)
  end.
Definition run_paths (p : sim_params) (arg : option string) : option (list string) :=
  let* base := base_name p arg in
  all_paths base (run_suffixes p).
End Format.
