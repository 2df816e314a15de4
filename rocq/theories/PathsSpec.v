(** What the names of the files of a run should be. *)
From Coq Require Import ZArith List String.
From Verif Require Import SimParams Paths.
Import ListNotations.
Local Open Scope Z_scope.

(** file number of a run in a directory *)
Definition file_in (dir : string) (itime : string) (suffix : string) : string := (dir ++ "/sim_" ++ itime ++ suffix)%string.

(** length of the longest ending of a file name of the run *)
Definition longest_suffix (p : sim_params) : Z := if sp_use_phonons p then 27 else 19.
