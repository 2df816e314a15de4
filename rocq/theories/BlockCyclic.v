(** Model of the inversion of block p-cyclic matrices, /repo/src/linalg.c.

    H is an N x N array in column major order, N = n*p.  The scalar factors of the reflectors are
    addressed by an offset into tau (the C code advances the pointer).  The error codes
    of dgeqrf and dormqr (negative: illegal argument or NaN in the input) do not occur over the
    reals; that of dtrtri (positive: zero on the diagonal) is passed on as in the C code. *)
From Coq Require Import ZArith List Reals.
From Verif Require Import Base RealOps Blas MatProd Lapack.
Import ListNotations.
Local Open Scope Z_scope.

(** linalg.c:168-182, loop body of [BlockCyclicQR] *)
Definition cyclic_qr_step (la : lapack) (n p : Z) (i : Z) (st : list R * list R) : option (list R * list R) :=
  let N := n * p in
  let '(H, tau) := st in
  let* (H, tau) := dgeqrf la (2 * n) n H ((1 + N) * i * n) N tau (i * n) in
  let* H := dormqr_LT (2 * n) n n H ((1 + N) * i * n) N tau (i * n) H ((i + N * (i + 1)) * n) N in
  let* H := dormqr_LT (2 * n) n n H ((1 + N) * i * n) N tau (i * n) H ((i + N * (p - 1)) * n) N in
  Some (H, tau).

(** linalg.c:161-192 [BlockCyclicQR] *)
Definition cyclic_qr (la : lapack) (n p : Z) (H tau : list R) : option (list R * list R) :=
  let N := n * p in
  let* (H, tau) := for_range 0 (p - 2) (cyclic_qr_step la n p) (H, tau) in
  dgeqrf la (2 * n) (2 * n) H ((1 + N) * (p - 2) * n) N tau (Z.max 0 (p - 2) * n).

(** linalg.c:235-259, loop body of [BlockCyclicTriangularInverse]; nothing happens after an error
    (the C function returns) *)
Definition cyclic_trinv_step (la : lapack) (n p : Z) (i : Z) (st : list R * Z) : option (list R * Z) :=
  let N := n * p in
  let '(A, info) := st in
  if negb (info =? 0) then Some (A, info)
  else
    let oii := (1 + N) * i * n in
    let oii1 := (i + N * (i + 1)) * n in
    let* (A, info) := dtrtri la n A oii N in
    if negb (info =? 0) then Some (A, info)
    else
      let* A := dtrmm_left n n (-1) A oii N A ((i + N * (p - 1)) * n) N in
      let* A := dtrmm_left n n (-1) A oii N A oii1 N in
      let* A := dgemm false n (n * (p - i - 2)) n 1 A oii1 N A (((i + 1) + N * (i + 2)) * n) N 1 A ((i + N * (i + 2)) * n) N in
      let* A := dtrmm_right n n 1 A ((1 + N) * (i + 1) * n) N A oii1 N in
      Some (A, info).

(** linalg.c:209-266 [BlockCyclicTriangularInverse]; result: array and return value *)
Definition cyclic_trinv (la : lapack) (n p : Z) (A : list R) : option (list R * Z) :=
  let N := n * p in
  if p <=? 2 then dtrtri la N A 0 N
  else
    let* (A, info) := dtrtri la (3 * n) A ((1 + N) * (p - 3) * n) N in
    if negb (info =? 0) then Some (A, info)
    else if 3 <? p then
      let* A := dtrmm_right (n * (p - 3)) n 1 A ((1 + N) * (p - 1) * n) N A (N * (p - 1) * n) N in
      for_down (Z.to_nat (p - 3)) (p - 3) (cyclic_trinv_step la n p) (A, info)
    else Some (A, info).

(** linalg.c:280-294 [MoveStrictlyLowerTriangularMatrix]; result: A and B *)
Definition move_lower (m n : Z) (A : list R) (oa lda : Z) (B : list R) (ldb : Z) : option (list R * list R) :=
  for_range 0 n (fun j st =>
  for_range (j + 1) m (fun i st =>
    let '(A, B) := st in
    let* a := aget A (oa + i + j * lda) in
    let* B := aset B (i + ldb * j) a in
    let* A := aset A (oa + i + j * lda) 0%R in
    Some (A, B)) st) (A, B).

(** linalg.c:329-339, loop body of [BlockCyclicInverseRotation] *)
Definition cyclic_rotation_step (n p : Z) (tau : list R) (i : Z) (st : list R * list R) : option (list R * list R) :=
  let N := n * p in
  let '(A, Q) := st in
  let* (A, Q) := move_lower (2 * n) n A ((1 + N) * i * n) N Q (2 * n) in
  let* A := dormqr_RT N (2 * n) n Q 0 (2 * n) tau (i * n) A (N * i * n) N in
  Some (A, Q).

(** linalg.c:312-344 [BlockCyclicInverseRotation] *)
Definition cyclic_rotation (n p : Z) (A tau : list R) : option (list R) :=
  let N := n * p in
  let Q := repeat 0%R (Z.to_nat (4 * n * n)) in
  let* (A, Q) := move_lower (2 * n) (2 * n) A ((1 + N) * (p - 2) * n) N Q (2 * n) in
  let* A := dormqr_RT N (2 * n) (2 * n) Q 0 (2 * n) tau ((p - 2) * n) A (N * (p - 2) * n) N in
  let* (A, _) := for_down (Z.to_nat (p - 2)) (p - 2) (cyclic_rotation_step n p tau) (A, Q) in
  Some A.

(** linalg.c:361-376 [BlockCyclicInverse]; result: array and return value.  [junk] is the initial
    contents of the allocated array of reflector factors. *)
Definition cyclic_inverse (la : lapack) (junk : Z -> R) (n p : Z) (H : list R) : option (list R * Z) :=
  let N := n * p in
  let tau := fresh junk N in
  let* (H, tau) := cyclic_qr la n p H tau in
  let* (H, info) := cyclic_trinv la n p H in
  if negb (info =? 0) then Some (H, info)
  else
    let* H := cyclic_rotation n p H tau in
    Some (H, 0).
