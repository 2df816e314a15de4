(** The random number functions as seen by the Monte Carlo code, and the generator of random.c as one
    instance.

    [Some None] of the shuffle and of the bounded draw stands for a rejection loop which has not yet
    returned (random.c:66-71 has no bound on the number of passes); [None] is undefined behaviour. *)
From Coq Require Import ZArith NArith List Reals.
From Verif Require Import Base Random Uniform.
Import ListNotations.
Local Open Scope Z_scope.

Record rand_source (S : Type) := mk_rand {
  (** Random_Shuffle(seed, n, seq) *)
  r_shuffle : S -> Z -> list Z -> option (option (S * list Z));
  (** Random_GetBoundedUint(seed, bound) *)
  r_bounded : S -> Z -> option (option (Z * S));
  (** Random_GetUniform(seed) *)
  r_uniform : S -> option (R * S) }.
Arguments r_shuffle {S}. Arguments r_bounded {S}. Arguments r_uniform {S}.

(** Not in the code: a computation which may fail to return; nothing happens any more after that. *)
Definition may_hang {A B : Type} (f : A -> option (option B)) (o : option A) : option (option B) :=
  match o with None => Some None | Some a => f a end.

(** random.c:61-72 [Random_GetBoundedUint], as [get_bounded] in Random.v, but the end of the fuel is
    distinguished from undefined behaviour *)
Fixpoint bounded_wait_loop (fuel : nat) (st : randseed) (bound : N) : option (option (N * randseed)) :=
  match fuel with
  | O => Some None
  | S fuel' =>
      let* (r, st') := get_uint st in
      match bounded_accept bound r with
      | Some v => Some (Some (v, st'))
      | None => bounded_wait_loop fuel' st' bound
      end
  end.
Definition bounded_wait (fuel : nat) (st : randseed) (bound : N) : option (option (N * randseed)) :=
  if (bound =? 0)%N then None else bounded_wait_loop fuel st bound.

(** random.c:79-91 [Random_Shuffle], likewise *)
Definition shuffle_wait (fuel : nat) (st : randseed) (n : Z) (seq : list Z) : option (option (randseed * list Z)) :=
  for_range 0 n
    (fun i => may_hang (fun '(st, seq) =>
       let* o := bounded_wait fuel st (Z.to_N (i + 1)) in
       match o with
       | None => Some None
       | Some (j, st') =>
         let* seq' := shuffle_step i (Z.of_N j) seq in
         Some (Some (st', seq'))
       end))
    (Some (st, seq)).

(** random.c:41-104; at most [fuel] passes of each rejection loop.  The bound is converted to uint64_t. *)
Definition xorshift_source (fuel : nat) : rand_source randseed := mk_rand randseed
  (shuffle_wait fuel)
  (fun st bound =>
     let* o := bounded_wait fuel st (Z.to_N (bound mod 2^64)) in
     Some (match o with Some (v, st') => Some (Z.of_N v, st') | None => None end))
  get_uniform.
