(** The periodic lattice, independent of the code.

    Cells sit at integer coordinates (x, y).  Going Nx cells in x direction leads back to the
    same cell, going Ny cells in y direction leads to the cell displaced by [shift] in
    x direction.  Cell number c of the program is the one at (c mod Nx, c / Nx). *)
From Coq Require Import ZArith List.
Local Open Scope Z_scope.

Definition same_cell (Nx Ny shift : Z) (p q : Z * Z) : Prop :=
  exists a b, fst q = fst p + a * Nx - b * shift /\ snd q = snd p + b * Ny.

Definition coords (Nx c : Z) : Z * Z := (c mod Nx, c / Nx).
Definition vplus (p q : Z * Z) : Z * Z := (fst p + fst q, snd p + snd q).

(** number of the cell at coordinates (x, y) *)
Definition wrap (Nx Ny shift : Z) (p : Z * Z) : Z :=
  (fst p + shift * (snd p / Ny)) mod Nx + Nx * (snd p mod Ny).

(** entry i of an array *)
Definition at_ (m : list Z) (i : Z) : Z := nth (Z.to_nat i) m (-1).

(** [plus] is an Abelian group on the cells 0 .. n-1 with neutral element 0 *)
Record abelian_group (n : Z) (plus : Z -> Z -> Z) : Prop := {
  g_closed : forall a b, 0 <= a < n -> 0 <= b < n -> 0 <= plus a b < n;
  g_assoc : forall a b c, 0 <= a < n -> 0 <= b < n -> 0 <= c < n ->
    plus a (plus b c) = plus (plus a b) c;
  g_comm : forall a b, 0 <= a < n -> 0 <= b < n -> plus a b = plus b a;
  g_zero : 0 <= 0 < n /\ forall a, 0 <= a < n -> plus 0 a = a;
  g_inv : forall a, 0 <= a < n -> exists b, 0 <= b < n /\ plus a b = 0 }.
