(** Block p-cyclic matrices. *)
From Coq Require Import ZArith List Reals.
From mathcomp Require Import all_ssreflect ssralg matrix.
From Verif Require Import RField MatSpec.
Set Implicit Arguments.
Unset Strict Implicit.
Unset Printing Implicit Defensive.
Local Open Scope ring_scope.

(** a matrix of p x p blocks of size n x n, of which at most the diagonal blocks, the blocks below
    the diagonal and the upper right block are not zero *)
Definition block_cyclic (n p : nat) (A : 'M[R]_(n * p)) : Prop :=
  forall i j : 'I_(n * p), let a := (i %/ n)%N in let b := (j %/ n)%N in
  [|| a == b, a == b.+1 | (a == 0%N) && (b == p.-1)] \/ A i j = 0.
