(** Model of the file functions of /repo/src/util.c on an abstract file system.

    A file system maps file names to byte strings.  Writing is a sequence of
    elementary operations (truncate, append one byte); a crash of the process
    (or a full disk) is modelled as executing only a prefix of that sequence.
    Simplifications: [fopen] for writing succeeds; no reordering of the
    elementary operations by the operating system. *)
From stdpp Require Import gmap strings.
From Coq Require Import ZArith NArith.
From Verif Require Import Base.

Notation file := (list N).               (* bytes, each below 256 *)
Notation filesys := (gmap string (list N)).

(** Elementary effects of [fopen(.., "wb")], [fopen(.., "ab")] and of [fwrite] on one byte. *)
Inductive fsop := Trunc (f : string) | Touch (f : string) | Put (f : string) (b : N).

Definition apply_op (fs : filesys) (o : fsop) : filesys :=
  match o with
  | Trunc f => <[f := []]> fs
  | Touch f => match fs !! f with Some _ => fs | None => <[f := []]> fs end
  | Put f b => <[f := default [] (fs !! f) ++ [b]]> fs
  end.

Definition apply_ops (fs : filesys) (ops : list fsop) : filesys := foldl apply_op fs ops.

(** util.c:50-71 [WriteData]: the elementary operations of a complete write *)
Definition write_ops (f : string) (data : file) (append : bool) : list fsop :=
  (if append then Touch f else Trunc f) :: map (Put f) data.

(** util.c:13-43 [ReadData]: status and new content of the destination buffer
    [old]; [n*size] is the expected size in bytes.  [fread] of a file whose
    size was just checked is assumed to succeed (status -3 does not occur). *)
Definition read_data (fs : filesys) (f : string) (old : file) (nbytes : nat) : Z * file :=
  match fs !! f with
  | None => (-1, old)%Z
  | Some content =>
      if Nat.eqb (length content) nbytes then (0, content)%Z else (-2, old)%Z
  end.

(** little-endian representation of unsigned words of [k] bytes *)
Fixpoint le_bytes (k : nat) (n : N) : file :=
  match k with
  | O => []
  | S k' => (n mod 256)%N :: le_bytes k' (n / 256)%N
  end.

Fixpoint le_word (bs : file) : N :=
  match bs with
  | [] => 0%N
  | b :: bs' => (b + 256 * le_word bs')%N
  end.

(** [int] (4 bytes, two's complement) *)
Definition int_bytes (z : Z) : file := le_bytes 4 (Z.to_N (z mod 2^32)).
Definition bytes_int (bs : file) : Z :=
  let n := Z.of_N (le_word bs) in if (n <? 2^31)%Z then n else (n - 2^32)%Z.

(** arrays of [uint64_t] *)
Definition u64s_bytes (ws : list N) : file := concat (map (le_bytes 8) ws).
Fixpoint bytes_u64s (k : nat) (bs : file) : list N :=
  match k with
  | O => []
  | S k' => le_word (take 8 bs) :: bytes_u64s k' (drop 8 bs)
  end.
