(** Time flow map: specification vocabulary. *)
From Coq Require Import ZArith List Reals.
From mathcomp Require Import all_ssreflect ssralg matrix.
From Verif Require Import RField MatSpec TimeStep TimeStepSpec Lapack LapackSpec.
Set Implicit Arguments.
Unset Strict Implicit.
Unset Printing Implicit Defensive.
Local Open Scope ring_scope.

(** the structure holds the products of the matrices [M l] of each block of length b; nothing is
    required of the inverse matrices *)
Definition tsm_products (n L b : nat) (M : nat -> 'M[R]_n) (t : tsm) : Prop :=
  tsm_shape n L b t /\
  (forall q, (q * b < L)%N -> mat_at n (ts_Bprod t) q = oprod M (q * b) b).

(** the diagonal matrix of an array *)
Definition dmx (n : nat) (d : list R) : 'M[R]_n := diag_mx (\row_(i < n) vk d (Zn i)).
