(** Matrices of real numbers stored in arrays (specification vocabulary).

    'M[R]_n, *m, 1%:M, \det, invmx are those of mathcomp over the standard library reals (see RField.v). *)
From Coq Require Import ZArith List Reals.
From mathcomp Require Import all_ssreflect ssralg matrix.
From Verif Require Import RField.
Set Implicit Arguments.
Unset Strict Implicit.
Unset Printing Implicit Defensive.
Local Open Scope ring_scope.

(** the m x n matrix with entries f i j *)
Definition mxf (m n : nat) (f : Z -> Z -> R) : 'M[R]_(m, n) :=
  \matrix_(i < m, j < n) f (Z.of_nat i) (Z.of_nat j).

(** the n x n matrix stored in an array in column major order *)
Definition mat (n : nat) (A : list R) : 'M[R]_n :=
  \matrix_(i < n, j < n) nth R0 A (i + j * n).

(** A_{k-1} ... A_1 A_0 *)
Fixpoint mprod (n : nat) (As : list 'M[R]_n) : 'M[R]_n :=
  match As with
  | nil => 1%:M
  | A :: As' => mprod As' *m A
  end.
