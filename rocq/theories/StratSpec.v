(** Reading of the Hubbard-Stratonovich tables. *)
From Coq Require Import ZArith List Reals.
Import ListNotations.

(** entry [o] of the table for field value [s] (0 or 1) *)
Definition tab (t : list (list R)) (s : nat) (o : Z) : R := nth (Z.to_nat o) (nth s t []) 0%R.

(** occupation number as a real *)
Definition occ (n : bool) : R := if n then 1%R else 0%R.
(** v^n for an occupation number n *)
Definition pow_occ (v : R) (n : bool) : R := if n then v else 1%R.
