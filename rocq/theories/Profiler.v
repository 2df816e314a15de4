(** Model of /repo/src/profiler.c (compiled in: Makefile, -DPROFILE_ENABLE).

    The hash table stores pointers to heap-allocated profile entries; a pointer
    is a position in the list [pf_heap].  Every call of GetTicks() is an
    argument of the modelled function.  Not modelled: the printed text, the
    conversion of ticks to seconds, and the int overflow of [calls]. *)
From Coq Require Import ZArith NArith List String Ascii.
From Verif Require Import Base Random HashTable.
Import ListNotations.

(** profiler.c:10-16 [profile_entry_t] *)
Record pentry := mk_pentry { pe_start : N; pe_calls : Z; pe_total : N }.

(** profiler.c:19,22: the two static variables, and the heap *)
Record prof := mk_prof { pf_table : table nat; pf_heap : list pentry; pf_main : N }.

(** profiler.c:29-34 [Profile_Start] *)
Definition profile_start (ticks : N) : prof := mk_prof (ht_alloc 32) [] ticks.

(** profiler.c:44-50 and 81-87: name of the block on a thread other than the
    main thread; at most two threads run (main.c:48), hence one digit suffices. *)
Definition digit (d : nat) : string := String (ascii_of_nat (48 + d)) EmptyString.
Definition thread_name (name : string) (thread_num : nat) : string :=
  if (0 <? thread_num)%nat then (name ++ String "-" (digit thread_num))%string else name.

(** profiler.c:41-71 [Profile_Begin] *)
Definition profile_begin (pf : prof) (name : string) (thread_num : nat) (ticks : N) : option prof :=
  let name := thread_name name thread_num in
  let* q := ht_get (pf_table pf) name in
  let* (tb, hp, p) :=
    match q with
    | Some p => Some (pf_table pf, pf_heap pf, p)
    | None =>
        (* algn_calloc, HashTableInsert *)
        let p := List.length (pf_heap pf) in
        let* (tb, _) := ht_insert (pf_table pf) name p in
        Some (tb, pf_heap pf ++ [mk_pentry 0 0 0], p)
    end in
  let* e := aget hp (Z.of_nat p) in
  let* hp' :=
    (if (pe_start e =? 0)%N
     then aset hp (Z.of_nat p) (mk_pentry ticks (pe_calls e + 1) (pe_total e))
     else Some hp) in
  Some (mk_prof tb hp' (pf_main pf)).

(** profiler.c:78-101 [Profile_End]; uint64_t arithmetic *)
Definition profile_end (pf : prof) (name : string) (thread_num : nat) (ticks : N) : option prof :=
  let name := thread_name name thread_num in
  let* q := ht_get (pf_table pf) name in
  match q with
  | None => Some pf
  | Some p =>
      let* e := aget (pf_heap pf) (Z.of_nat p) in
      let dur := ((ticks + two64 - pe_start e) mod two64)%N in
      let* hp' := aset (pf_heap pf) (Z.of_nat p)
                    (mk_pentry 0 (pe_calls e) ((pe_total e + dur) mod two64)%N) in
      Some (mk_prof (pf_table pf) hp' (pf_main pf))
  end.

(** profiler.c:139-147: the report lines (name, calls, total) before sorting.
    The array has room for [n_entries] pointers; [None] on overflow. *)
Definition profile_entries (pf : prof) : option (list (string * nat)) :=
  for_range 0 (n_buckets (pf_table pf))
    (fun i acc =>
       let* c := aget (buckets (pf_table pf)) i in
       if (Z.of_nat (List.length acc + List.length c) <=? n_entries (pf_table pf))%Z
       then Some (acc ++ c) else None) [].

(** profiler.c:154-163: the lines printed, in the order of the sorted array;
    [qsort] is any permutation [sorted] of the array. *)
Definition profile_line (pf : prof) (kp : string * nat) : option (string * Z * N) :=
  let* e := aget (pf_heap pf) (Z.of_nat (snd kp)) in Some (fst kp, pe_calls e, pe_total e).

(** A client's sequence of calls. *)
Inductive pevent := PBegin (name : string) (th : nat) (t : N) | PEnd (name : string) (th : nat) (t : N).

Definition pstep (pf : prof) (e : pevent) : option prof :=
  match e with
  | PBegin n th t => profile_begin pf n th t
  | PEnd n th t => profile_end pf n th t
  end.

Fixpoint prun (pf : prof) (es : list pevent) : option prof :=
  match es with
  | [] => Some pf
  | e :: es' => let* pf' := pstep pf e in prun pf' es'
  end.
