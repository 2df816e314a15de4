(** Electrons in second quantisation, independent of the code.

    There are m modes.  A state of the Fock space is a set of occupied modes; the 2^m states are
    numbered by mathcomp's enumeration of {set 'I_m}, so that operators are matrices. *)
From mathcomp Require Import all_ssreflect ssralg matrix.
Set Implicit Arguments.
Unset Strict Implicit.
Unset Printing Implicit Defensive.
Local Open Scope ring_scope.
Import GRing.Theory.

(** dimension of the Fock space *)
Definition fdim (m : nat) : nat := #|{set 'I_m}|.

Section Fock.
Variables (K : comRingType) (m : nat).
Notation op := 'M[K]_(fdim m).

(** the matrix with elements <T| O |S> *)
Definition opf (f : {set 'I_m} -> {set 'I_m} -> K) : op := \matrix_(a, b) f (enum_val a) (enum_val b).

(** number of electrons in modes before [j] *)
Definition below (S : {set 'I_m}) (j : 'I_m) : nat := #|[set i in S | (i < j)%N]|.

(** c^dag_j: adds an electron in mode [j], with the usual sign *)
Definition create (j : 'I_m) : op :=
  opf (fun T S => if (j \notin S) && (T == j |: S) then (-1) ^+ below S j else 0).
(** c_j, the adjoint *)
Definition annihilate (j : 'I_m) : op := (create j)^T.
(** n_j *)
Definition num (j : 'I_m) : op := create j *m annihilate j.

(** sum of h_ij c^dag_i c_j *)
Definition one_body (h : 'M[K]_m) : op := \sum_i \sum_j h i j *: (create i *m annihilate j).

(** product of the factors d_j of the occupied modes *)
Definition occupied_prod (d : 'I_m -> K) : op := opf (fun T S => if T == S then \prod_(j in S) d j else 0).
End Fock.
