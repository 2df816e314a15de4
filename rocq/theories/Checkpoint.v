(** Model of /repo/src/checkpoint.c (except for the signal handler, see Simulation.v). *)
From stdpp Require Import gmap strings.
From Coq Require Import ZArith NArith.
From Verif Require Import Base Random FileSys.



(** file names, checkpoint.c:29,32,35 *)
Definition fn_iteration (base : string) := base +:+ "_iteration.dat".
Definition fn_randseed (base : string) := base +:+ "_randseed.dat".
Definition fn_hsfield (base : string) := base +:+ "_hsfield.dat".

(** checkpoint.c:24-39 [SearchCheckpoint] *)
Definition search_checkpoint (fs : filesys) (base : string) : Z :=
  match fs !! fn_iteration base with
  | None => (-1)%Z
  | Some _ =>
      match fs !! fn_randseed base with
      | None => (-1)%Z
      | Some _ => match fs !! fn_hsfield base with None => (-1)%Z | Some _ => 0%Z end
      end
  end.

(** The variables a checkpoint is loaded into. *)
Record ckpt := mk_ckpt { ck_iter : Z; ck_seed : randseed; ck_s : list N }.

(** checkpoint.c:42-61 [LoadCheckpoint]; returns the status and the new values
    of [*iteration], [*seed] and [s] (partially overwritten on failure). *)
Definition load_checkpoint (fs : filesys) (base : string) (LxN : nat) (old : ckpt) : Z * ckpt :=
  let (st1, b1) := read_data fs (fn_iteration base) (int_bytes (ck_iter old)) 4 in
  if (st1 <? 0)%Z then (st1, old)
  else
    let c1 := mk_ckpt (bytes_int b1) (ck_seed old) (ck_s old) in
    let (st2, b2) := read_data fs (fn_randseed base) (u64s_bytes (rs_s (ck_seed old))) (8 * 16) in
    if (st2 <? 0)%Z then (st2, c1)
    else
      let c2 := mk_ckpt (ck_iter c1) (mk_seed (bytes_u64s 16 b2) 0) (ck_s old) in
      let (st3, b3) := read_data fs (fn_hsfield base) (ck_s old) LxN in
      if (st3 <? 0)%Z then (st3, c2)
      else (0%Z, mk_ckpt (ck_iter c2) (ck_seed c2) b3).

(** checkpoint.c:75-80: the permutation of the generator words that is stored;
    [%] is the C remainder, the array index is checked. *)
Definition saved_words (seed : randseed) : option (list N) :=
  for_range 0 16
    (fun i a => let* w := aget (rs_s seed) (Z.rem (i - rs_p seed + 16) 16) in Some (a ++ [w])%list) [].

(** checkpoint.c:64-89 [SaveCheckpoint]: the elementary file operations, in order *)
Definition save_ops (base : string) (c : ckpt) : option (list fsop) :=
  let* a := saved_words (ck_seed c) in
  Some (write_ops (fn_iteration base) (int_bytes (ck_iter c)) false ++
        write_ops (fn_randseed base) (u64s_bytes a) false ++
        write_ops (fn_hsfield base) (ck_s c) false).

(** complete, uninterrupted save *)
Definition save_checkpoint (fs : filesys) (base : string) (c : ckpt) : option filesys :=
  let* ops := save_ops base c in Some (apply_ops fs ops).
