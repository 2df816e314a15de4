(** Model of the integer part of /repo/src/random.c (xorshift1024* generator).

    [uint64_t] values are elements of [N] below 2^64; every operation that can
    leave that range is reduced modulo 2^64 explicitly. *)
From Coq Require Import ZArith NArith List.
From Verif Require Import Base.
Import ListNotations.
Local Open Scope N_scope.

Definition two64 : N := 2^64.

(** [x << k] and [x >> k] on uint64_t, [x * y] on uint64_t *)
Definition shl64 (x k : N) : N := (N.shiftl x k) mod two64.
Definition shr64 (x k : N) : N := N.shiftr x k.
Definition mul64 (x y : N) : N := (x * y) mod two64.

(** random.h:13-18 [randseed_t] *)
Record randseed := mk_seed { rs_s : list N; rs_p : Z }.

(** random.c:18-20: one xorshift64 step of the seeding generator *)
Definition xorshift64 (n : N) : N :=
  let n := N.lxor n (shr64 n 12) in
  let n := N.lxor n (shl64 n 25) in
  N.lxor n (shr64 n 27).

(** random.c:16-24: [k] passes of the loop, words in order of storage *)
Fixpoint seed_words (k : nat) (n : N) : list N :=
  match k with
  | O => []
  | S k' => let n' := xorshift64 n in mul64 n' 2685821657736338717 :: seed_words k' n'
  end.

(** random.c:10-27 [Random_SeedInit]; the assertion n > 0 is compiled out
    (Makefile: -DNDEBUG), so that n = 0 is accepted as well. *)
Definition seed_init (n : N) : randseed := mk_seed (seed_words 16 n) 0.

(** main.c:148: seed number derived from the parameter itime *)
Definition main_seed_number (itime : N) : N := mul64 1865811235122147685 itime.

(** random.c:41-53 [Random_GetUint] *)
Definition get_uint (st : randseed) : option (N * randseed) :=
  let* s0 := aget (rs_s st) (rs_p st) in
  let p := Z.land (rs_p st + 1) 15 in
  let* s1 := aget (rs_s st) p in
  let s1 := N.lxor s1 (shl64 s1 31) in
  let s1 := N.lxor s1 (shr64 s1 11) in
  let s0 := N.lxor s0 (shr64 s0 30) in
  let w := N.lxor s0 s1 in
  let* s' := aset (rs_s st) p w in
  Some (mul64 w 1181783497276652981, mk_seed s' p).

(** random.c:63: [(-bound) % bound] in uint64_t arithmetic *)
Definition bounded_thresh (bound : N) : N := ((two64 - bound) mod two64) mod bound.

(** random.c:68-70: is the drawn word accepted, and with which result *)
Definition bounded_accept (bound r : N) : option N :=
  if bounded_thresh bound <=? r then Some (r mod bound) else None.

(** random.c:61-72 [Random_GetBoundedUint]; the unbounded loop is cut after
    [fuel] draws ([None]); bound = 0 divides by zero ([None]). *)
Fixpoint get_bounded_loop (fuel : nat) (st : randseed) (bound : N) : option (N * randseed) :=
  match fuel with
  | O => None
  | S fuel' =>
      let* (r, st') := get_uint st in
      match bounded_accept bound r with
      | Some v => Some (v, st')
      | None => get_bounded_loop fuel' st' bound
      end
  end.
Definition get_bounded (fuel : nat) (st : randseed) (bound : N) : option (N * randseed) :=
  if bound =? 0 then None else get_bounded_loop fuel st bound.

(** random.c:85-89: body of the shuffle loop after drawing [j] *)
Definition shuffle_step (i j : Z) (seq : list Z) : option (list Z) :=
  let* seq1 := (if (j =? i)%Z then Some seq
                else let* x := aget seq j in aset seq i x) in
  aset seq1 j i.

(** random.c:79-91 [Random_Shuffle] *)
Definition shuffle (fuel : nat) (st : randseed) (n : Z) (seq : list Z)
  : option (randseed * list Z) :=
  for_range 0 n
    (fun i '(st, seq) =>
       let* (j, st') := get_bounded fuel st (Z.to_N (i + 1)) in
       let* seq' := shuffle_step i (Z.of_N j) seq in
       Some (st', seq'))
    (st, seq).

(** Not a function of the code: the first [k] numbers delivered by the generator. *)
Fixpoint draws (k : nat) (st : randseed) : option (list N * randseed) :=
  match k with
  | O => Some ([], st)
  | S k' =>
      let* (r, st1) := get_uint st in
      let* (rs, st2) := draws k' st1 in
      Some (r :: rs, st2)
  end.
