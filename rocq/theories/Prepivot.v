(** Model of /repo/src/time_flow.c:428-436: the insertion sort that orders the columns by their
    norms.  [lt] is the result of the C comparison [<]; with NaN among the operands it need
    not be an order, hence it is an argument. *)
From Coq Require Import ZArith List Reals.
From Verif Require Import Base.
Import ListNotations.
Local Open Scope Z_scope.

Section Sort.
Context {A : Type} (lt : A -> A -> bool).

(** time_flow.c:432-435: [for (j = i; j > 0 && norms[jpvt[j-1]] < norms[i]; j--) jpvt[j] = jpvt[j-1];
    jpvt[j] = i;] *)
Fixpoint shift_in (norms : list A) (i : Z) (j : nat) (jpvt : list Z) : option (list Z) :=
  match j with
  | O => aset jpvt 0 i
  | S j' =>
      let* p := aget jpvt (Z.of_nat j') in
      let* y := aget norms p in
      let* x := aget norms i in
      if lt y x
      then let* jpvt := aset jpvt (Z.of_nat (S j')) p in shift_in norms i j' jpvt
      else aset jpvt (Z.of_nat (S j')) i
  end.

(** time_flow.c:429-436 *)
Definition prepivot (N : Z) (norms : list A) (jpvt : list Z) : option (list Z) :=
  let* jpvt := aset jpvt 0 0 in
  for_range 1 N (fun i jpvt => shift_in norms i (Z.to_nat i) jpvt) jpvt.
End Sort.

(** comparison of real numbers *)
Definition Rltb (x y : R) : bool := if Rlt_dec x y then true else false.
