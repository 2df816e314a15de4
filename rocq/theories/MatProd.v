(** Model of /repo/src/linalg.c:97-143: products of matrix sequences. *)
From Coq Require Import ZArith List Reals.
From Verif Require Import Base Blas.
Import ListNotations.
Local Open Scope Z_scope.

(** a block of n doubles returned by algn_malloc; its contents are arbitrary *)
Definition fresh (junk : Z -> R) (n : Z) : list R :=
  map (fun k => junk (Z.of_nat k)) (seq 0 (Z.to_nat n)).

(** linalg.c:97-143 [MatrixProductSequence].  The two buffers are [W] and [ret]; [flag] tells
    that the pointer T1 currently points to [ret] (and T2 to [W]). *)
Definition product_sequence (junk : Z -> R) (n num : Z) (A : list (list R)) (ret : list R)
  : option (list R) :=
  let W := fresh junk (n * n) in
  let flag := Z.odd num in
  let* A0 := aget A 0 in
  let* st := (if flag
    then let* r := copy (n * n) A0 0 ret 0 in Some (W, r, flag)
    else let* w := copy (n * n) A0 0 W 0 in Some (w, ret, flag)) in
  let* st := for_range 1 num (fun i st =>
    let '(w, r, f) := st in
    let* Ai := aget A i in
    if (f : bool)
    then let* w := dgemm false n n n 1 Ai 0 n r 0 n 0 w 0 n in Some (w, r, false)
    else let* r := dgemm false n n n 1 Ai 0 n w 0 n 0 r 0 n in Some (w, r, true)) st in
  let '(_, r, _) := st in Some r.
