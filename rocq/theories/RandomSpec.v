(** Vocabulary for the statements about the random number generator. *)
From Coq Require Import ZArith NArith List.
From Verif Require Import Random.
Local Open Scope N_scope.

(** A representable generator state: 16 words of 64 bits and a position. *)
Definition valid_seed (st : randseed) : Prop :=
  length (rs_s st) = 16%nat /\ Forall (fun w => w < 2^64) (rs_s st) /\ (0 <= rs_p st < 16)%Z.

(** The predicate [P] on numbers holds for exactly [q] numbers. *)
Definition has_card (P : N -> Prop) (q : N) : Prop :=
  exists f : N -> N,
    (forall k, k < q -> P (f k)) /\
    (forall k k', k < q -> k' < q -> f k = f k' -> k = k') /\
    (forall r, P r -> exists k, k < q /\ f k = r).

(** 0, 1, ..., n-1 as C ints *)
Definition iota_Z (n : nat) : list Z := map Z.of_nat (seq 0 n).

(** One choice 0 <= j_i <= i for each step i = 0, ..., n-1. *)
Definition valid_choices (js : list Z) : Prop :=
  forall i, (i < length js)%nat -> (0 <= nth i js 0 <= Z.of_nat i)%Z.

(** The shuffle loop with given choices instead of random draws. *)
Fixpoint shuffle_choices (i : Z) (js : list Z) (sq : list Z) : option (list Z) :=
  match js with
  | nil => Some sq
  | cons j js' =>
      match shuffle_step i j sq with
      | Some sq' => shuffle_choices (i + 1) js' sq'
      | None => None
      end
  end.
