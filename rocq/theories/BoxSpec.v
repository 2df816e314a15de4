(** Functions of a list of real numbers: continuity and integrals over boxes. *)
From Coq Require Import List Reals.
From Coquelicot Require Import Coquelicot.
Import ListNotations.
Local Open Scope R_scope.

(** all entries between -M and M *)
Definition in_box (M : R) (X : list R) : Prop := List.Forall (fun x => Rabs x <= M) X.
(** lists of the same length with entries closer than d *)
Definition near (d : R) (X Y : list R) : Prop := Forall2 (fun x y => Rabs (x - y) < d) X Y.

(** continuous as a function of [m] real numbers *)
Definition continuous_in (m : nat) (f : list R -> R) : Prop :=
  forall X, length X = m -> forall eps, 0 < eps -> exists d, 0 < d /\ forall Y, near d X Y -> Rabs (f X - f Y) < eps.

(** integral over all lists of [m] numbers between -M and M *)
Fixpoint box_int (m : nat) (M : R) (f : list R -> R) : R :=
  match m with
  | O => f []
  | S m' => RInt (fun x => box_int m' M (fun X => f (x :: X))) (- M) M
  end.
