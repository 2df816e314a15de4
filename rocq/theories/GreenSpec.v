(** Green's functions: specification vocabulary. *)
From Coq Require Import ZArith List Reals.
From mathcomp Require Import all_ssreflect ssralg matrix.
From Verif Require Import RField MatSpec TimeStepSpec.
Set Implicit Arguments.
Unset Strict Implicit.
Unset Printing Implicit Defensive.
Local Open Scope ring_scope.

(** row [i] multiplied by [c] *)
Definition scale_row (n : nat) (i : 'I_n) (c : R) (A : 'M[R]_n) : 'M[R]_n :=
  \matrix_(a, b) (if a == i then c * A a b else A a b).

(** the ordered product of all L matrices in cyclic order, beginning with slice [s] as the rightmost
    factor: M (s-1) ... M 0  M (L-1) ... M s *)
Definition cyclic_flow (n : nat) (M : nat -> 'M[R]_n) (L s : nat) : 'M[R]_n :=
  oprod M 0 s *m oprod M s (L - s).

(** [G] is the Green's function (I + A)^-1 of the flow map [A] *)
Definition is_green (n : nat) (G A : 'M[R]_n) : Prop := G *m (1%:M + A) = 1%:M.
