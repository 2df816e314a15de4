(** Model of /repo/src/hash_table.c (types: /repo/include/hash_table.h).

    Simplifications: a chain of [ht_entry_t] linked by [next] pointers is a
    list of (key, value) pairs, head first; a C string is the sequence of its
    bytes before the terminating NUL; values are non-NULL pointers of an
    arbitrary type [V], the NULL result is [None] of the inner option.
    Memory exhaustion is not modelled. *)
From Coq Require Import ZArith NArith List String Ascii.
From Verif Require Import Base.
Import ListNotations.
Local Open Scope N_scope.

(** hash_table.c:53: [*key] is a (signed) [char], sign-extended when converted
    to [uint32_t]. *)
Definition char_u32 (c : ascii) : N :=
  let b := N_of_ascii c in if b <? 128 then b else b + (2^32 - 256).

(** hash_table.c:48-57 [FNV1a] *)
Fixpoint fnv1a_from (h : N) (key : string) : N :=
  match key with
  | EmptyString => h
  | String c key' => fnv1a_from ((N.lxor h (char_u32 c) * 16777619) mod 2^32) key'
  end.
Definition fnv1a (key : string) : N := fnv1a_from 2166136261 key.

Section Table.
Context {V : Type}.

Definition chain := list (string * V).

(** hash_table.h: [hash_table_t] *)
Record table := mk_table { buckets : list chain; n_buckets : Z; n_entries : Z }.

(** hash_table.c:11-17 [AllocateHashTable] (calloc: all chains empty) *)
Definition ht_alloc (nb : Z) : table := mk_table (repeat [] (Z.to_nat nb)) nb 0.

(** hash_table.c:68,105,127: [FNV1a(key) % ht->n_buckets]; the [int] operand is
    converted to [uint32_t]; modulo zero is undefined. *)
Definition ht_index (t : table) (key : string) : option Z :=
  let nb := (n_buckets t mod 2^32)%Z in
  if (nb =? 0)%Z then None else Some (Z.of_N (fnv1a key) mod nb)%Z.

(** hash_table.c:70-91: walk the chain; replace in place and report the old
    value, or append at the end. *)
Fixpoint chain_insert (c : chain) (key : string) (v : V) : chain * option V :=
  match c with
  | [] => ([(key, v)], None)
  | (k, w) :: c' =>
      if String.eqb key k then ((k, v) :: c', Some w)
      else let (c'', r) := chain_insert c' key v in ((k, w) :: c'', r)
  end.

(** hash_table.c:107-116 *)
Fixpoint chain_get (c : chain) (key : string) : option V :=
  match c with
  | [] => None
  | (k, w) :: c' => if String.eqb key k then Some w else chain_get c' key
  end.

(** hash_table.c:129-150: unlink the first entry with that key *)
Fixpoint chain_remove (c : chain) (key : string) : chain * option V :=
  match c with
  | [] => ([], None)
  | (k, w) :: c' =>
      if String.eqb key k then (c', Some w)
      else let (c'', r) := chain_remove c' key in ((k, w) :: c'', r)
  end.

(** hash_table.c:65-95 [HashTableInsert]; inner result: old value or NULL *)
Definition ht_insert (t : table) (key : string) (v : V) : option (table * option V) :=
  let* i := ht_index t key in
  let* c := aget (buckets t) i in
  let (c', r) := chain_insert c key v in
  let* b' := aset (buckets t) i c' in
  Some (mk_table b' (n_buckets t)
          (match r with Some _ => n_entries t | None => n_entries t + 1 end)%Z, r).

(** hash_table.c:102-117 [HashTableGet] *)
Definition ht_get (t : table) (key : string) : option (option V) :=
  let* i := ht_index t key in
  let* c := aget (buckets t) i in
  Some (chain_get c key).

(** hash_table.c:124-151 [HashTableRemove] *)
Definition ht_remove (t : table) (key : string) : option (table * option V) :=
  let* i := ht_index t key in
  let* c := aget (buckets t) i in
  let (c', r) := chain_remove c key in
  let* b' := aset (buckets t) i c' in
  Some (mk_table b' (n_buckets t)
          (match r with Some _ => n_entries t - 1 | None => n_entries t end)%Z, r).

(** hash_table.c:24-41 [DeleteHashTable]: the values passed to [free_func], in order. *)
Definition ht_delete (t : table) : option (list V) :=
  for_range 0 (n_buckets t)
    (fun i freed => let* c := aget (buckets t) i in Some (freed ++ map snd c)) [].

(** Not a function of the code: a client's sequence of calls on one table. *)
Inductive op := OpInsert (k : string) (v : V) | OpGet (k : string) | OpRemove (k : string).

Definition ht_step (t : table) (o : op) : option (table * option V) :=
  match o with
  | OpInsert k v => ht_insert t k v
  | OpGet k => let* r := ht_get t k in Some (t, r)
  | OpRemove k => ht_remove t k
  end.

Fixpoint ht_run (t : table) (ops : list op) : option (table * list (option V)) :=
  match ops with
  | [] => Some (t, [])
  | o :: ops' =>
      let* (t1, r) := ht_step t o in
      let* (t2, rs) := ht_run t1 ops' in
      Some (t2, r :: rs)
  end.
End Table.

Arguments table : clear implicits.
Arguments chain : clear implicits.
Arguments op : clear implicits.
