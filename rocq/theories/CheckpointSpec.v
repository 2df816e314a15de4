(** Vocabulary for the statements about checkpoints. *)
From stdpp Require Import gmap strings.
From Coq Require Import ZArith NArith.
From Verif Require Import Random RandomSpec FileSys Checkpoint.

(** The first [k] numbers a generator state delivers ([None] = undefined behaviour). *)
Definition stream (k : nat) (st : randseed) : option (list N) := option_map fst (draws k st).

(** What the simulation can hand to SaveCheckpoint: an int iteration number, a
    representable generator state, any field. *)
Definition valid_ckpt (c : ckpt) : Prop :=
  (-2^31 <= ck_iter c < 2^31)%Z /\ valid_seed (ck_seed c).

(** the three file names are the base name with these suffixes *)
Definition suffixes : list string := ["_iteration.dat"; "_randseed.dat"; "_hsfield.dat"]%string.

(** the file [base ++ suffix] exists and has [n] bytes *)
Definition file_of_size (fs : filesys) (name : string) (n : nat) : Prop :=
  exists bs, fs !! name = Some bs /\ length bs = n.

(** The content of the disk when the process dies after [k] elementary file
    operations of SaveCheckpoint. *)
Definition crash_save (k : nat) (fs : filesys) (base : string) (c : ckpt) : option filesys :=
  match save_ops base c with
  | Some ops => Some (apply_ops fs (take k ops))
  | None => None
  end.
