(** Finite sums of reals over a range of integers. *)
From Coq Require Import ZArith Reals.
Local Open Scope R_scope.

(** f lo + f (lo+1) + ... + f (lo+n-1) *)
Fixpoint sum_from (n : nat) (lo : Z) (f : Z -> R) : R :=
  match n with
  | O => 0
  | S n' => f lo + sum_from n' (lo + 1)%Z f
  end.

(** f lo + ... + f (hi-1) *)
Definition sum (lo hi : Z) (f : Z -> R) : R := sum_from (Z.to_nat (hi - lo)) lo f.
