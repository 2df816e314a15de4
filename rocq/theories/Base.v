(** Conventions shared by all model files.

    The C code under /repo/src is modelled by total functions.  A result of
    type [option A] is read as follows: [None] is undefined behaviour of the
    C program (out-of-bounds access, division by zero) or, for the real-valued
    code, a value outside of the idealised reals (division by zero,
    logarithm of zero, square root of a negative number). *)
From Coq Require Import ZArith List.
Import ListNotations.

Set Implicit Arguments.

Definition obind {A B : Type} (c : option A) (f : A -> option B) : option B :=
  match c with Some a => f a | None => None end.

Notation "'let*' p ':=' c1 'in' c2" := (obind c1 (fun p => c2))
  (at level 200, p pattern, c1 at level 100, c2 at level 200, right associativity).

(** Stop with undefined behaviour unless [b]. *)
Definition guard (b : bool) : option unit := if b then Some tt else None.

(** Checked array read [a[i]] with a C [int] index. *)
Definition aget {A : Type} (a : list A) (i : Z) : option A :=
  if (i <? 0)%Z then None else nth_error a (Z.to_nat i).

(** Unchecked list update (out of range: unchanged), helper of [aset]. *)
Fixpoint lset {A : Type} (a : list A) (i : nat) (v : A) : list A :=
  match a, i with
  | [], _ => []
  | _ :: a', O => v :: a'
  | x :: a', S i' => x :: lset a' i' v
  end.

(** Checked array write [a[i] = v]. *)
Definition aset {A : Type} (a : list A) (i : Z) (v : A) : option (list A) :=
  if (i <? 0)%Z then None
  else if (Z.to_nat i <? length a)%nat then Some (lset a (Z.to_nat i) v)
  else None.

(** C loop [for (i = lo; i < lo + n; i++) st = body(i, st);] with a body that
    may be undefined. *)
Fixpoint for_from {S : Type} (n : nat) (lo : Z) (body : Z -> S -> option S) (st : S)
  : option S :=
  match n with
  | O => Some st
  | S n' => let* st' := body lo st in for_from n' (lo + 1)%Z body st'
  end.

(** [for (i = lo; i < hi; i++)]; no iteration if [hi <= lo]. *)
Definition for_range {S : Type} (lo hi : Z) (body : Z -> S -> option S) (st : S)
  : option S :=
  for_from (Z.to_nat (hi - lo)) lo body st.

(** [for (i = hi - 1; i >= lo; i--)] *)
Fixpoint for_down {S : Type} (n : nat) (hi : Z) (body : Z -> S -> option S) (st : S)
  : option S :=
  match n with
  | O => Some st
  | S n' => let* st' := body (hi - 1)%Z st in for_down n' (hi - 1)%Z body st'
  end.
