(** LAPACK routines called by the program.

    The factorisation routines are not modelled; a record of functions stands for the library, and
    the theorems assume the contracts of LapackSpec.v about these functions (every function
    satisfying the contract is covered).  A function takes and returns matrices in packed column
    major form; the wrappers below copy the block out of and back into the caller's array, with
    checked accesses.

    The application of the orthogonal factor (dormqr) is modelled by its reference semantics: the
    reflectors are applied one after the other. *)
From Coq Require Import ZArith List Reals.
From Verif Require Import Base RealOps Blas.
Import ListNotations.
Local Open Scope Z_scope.

Record lapack := mk_lapack {
  (** LAPACKE_dgeqp3, n x n, arguments: n, matrix, jpvt; results: matrix, jpvt, tau *)
  la_geqp3 : Z -> list R -> list Z -> list R * list Z * list R;
  (** LAPACKE_dgeqrf, arguments: m, n, matrix; results: matrix, tau *)
  la_geqrf : Z -> Z -> list R -> list R * list R;
  (** LAPACKE_dgetrf, n x n, arguments: n, matrix; results: matrix, ipiv *)
  la_getrf : Z -> list R -> list R * list Z;
  (** LAPACKE_dgetrs 'N', n x n, arguments: n, factorised matrix, ipiv, right sides; result: solution *)
  la_getrs : Z -> list R -> list Z -> list R -> list R;
  (** LAPACKE_dtrtri 'U' 'N', arguments: n, matrix; result: matrix, info *)
  la_trtri : Z -> list R -> list R * Z;
  (** LAPACKE_dsyev 'V' 'U', arguments: n, matrix; results: eigenvectors, eigenvalues, info *)
  la_syev : Z -> list R -> list R * list R * Z }.

(** copy an m x n block into packed form and back *)
Definition gather (m n : Z) (A : list R) (off ld : Z) : option (list R) :=
  write_block m n 0 m (fun i j => mget A off ld i j) (repeat 0%R (Z.to_nat (m * n))).
Definition scatter (m n : Z) (P : list R) (A : list R) (off ld : Z) : option (list R) :=
  write_block m n off ld (fun i j => mget P 0 m i j) A.

(** LAPACKE_dgeqrf(LAPACK_COL_MAJOR, m, n, &A[off], ld, &tau[ot]), for n <= m *)
Definition dgeqrf (la : lapack) (m n : Z) (A : list R) (off ld : Z) (tau : list R) (ot : Z)
  : option (list R * list R) :=
  let* P := gather m n A off ld in
  let '(P', t) := la_geqrf la m n P in
  let* A := scatter m n P' A off ld in
  let* tau := copy n t 0 tau ot in
  Some (A, tau).

(** LAPACKE_dgeqp3(LAPACK_COL_MAJOR, n, n, A, n, jpvt, tau) *)
Definition dgeqp3 (la : lapack) (n : Z) (A : list R) (jpvt : list Z) (tau : list R)
  : option (list R * list Z * list R) :=
  let* P := gather n n A 0 n in
  let '(P', jp, t) := la_geqp3 la n P jpvt in
  let* A := scatter n n P' A 0 n in
  let* tau := copy n t 0 tau 0 in
  Some (A, jp, tau).

(** entry i of the vector of reflector k *)
Definition refl_vec (A : list R) (off ld k i : Z) : option R :=
  if i <? k then Some 0%R else if i =? k then Some 1%R else mget A off ld i k.

(** C := H C and C := C H for H = I - tau v v^T, C of size m x n *)
Definition refl_left (m n : Z) (v : Z -> option R) (t : R) (C : list R) (oc ldc : Z) : option (list R) :=
  write_block m n oc ldc (fun i j =>
    let* s := osum 0 m (fun l => let* x := v l in let* c := mget C oc ldc l j in Some (x * c)%R) in
    let* x := v i in let* c := mget C oc ldc i j in Some (c - t * x * s)%R) C.
Definition refl_right (m n : Z) (v : Z -> option R) (t : R) (C : list R) (oc ldc : Z) : option (list R) :=
  write_block m n oc ldc (fun i j =>
    let* s := osum 0 n (fun l => let* c := mget C oc ldc i l in let* x := v l in Some (c * x)%R) in
    let* x := v j in let* c := mget C oc ldc i j in Some (c - t * s * x)%R) C.

(** LAPACKE_dormqr(LAPACK_COL_MAJOR, side, trans, m, n, k, &A[oa], lda, &tau[ot], &C[oc], ldc)
    with Q = H_0 H_1 ... H_{k-1}.  'R','N': C Q *)
Definition dormqr_RN (m n k : Z) (A : list R) (oa lda : Z) (tau : list R) (ot : Z) (C : list R) (oc ldc : Z)
  : option (list R) :=
  for_range 0 k (fun l C => let* t := aget tau (ot + l) in
    refl_right m n (refl_vec A oa lda l) t C oc ldc) C.
(** 'R','T': C Q^T *)
Definition dormqr_RT (m n k : Z) (A : list R) (oa lda : Z) (tau : list R) (ot : Z) (C : list R) (oc ldc : Z)
  : option (list R) :=
  for_down (Z.to_nat k) k (fun l C => let* t := aget tau (ot + l) in
    refl_right m n (refl_vec A oa lda l) t C oc ldc) C.
(** 'L','T': Q^T C *)
Definition dormqr_LT (m n k : Z) (A : list R) (oa lda : Z) (tau : list R) (ot : Z) (C : list R) (oc ldc : Z)
  : option (list R) :=
  for_range 0 k (fun l C => let* t := aget tau (ot + l) in
    refl_left m n (refl_vec A oa lda l) t C oc ldc) C.

(** LAPACKE_dgetrf(LAPACK_COL_MAJOR, n, n, A, n, ipiv) *)
Definition dgetrf (la : lapack) (n : Z) (A : list R) : option (list R * list Z) :=
  let* P := gather n n A 0 n in
  let '(P', ipiv) := la_getrf la n P in
  let* A := scatter n n P' A 0 n in
  Some (A, ipiv).

(** LAPACKE_dgetrs(LAPACK_COL_MAJOR, 'N', n, n, A, n, ipiv, B, n) *)
Definition dgetrs (la : lapack) (n : Z) (A : list R) (ipiv : list Z) (B : list R) : option (list R) :=
  let* P := gather n n A 0 n in
  let* X := gather n n B 0 n in
  scatter n n (la_getrs la n P ipiv X) B 0 n.

(** LAPACKE_dtrtri(LAPACK_COL_MAJOR, 'U', 'N', n, &A[off], ld); result: array and info *)
Definition dtrtri (la : lapack) (n : Z) (A : list R) (off ld : Z) : option (list R * Z) :=
  let* P := gather n n A off ld in
  let '(P', info) := la_trtri la n P in
  let* A := scatter n n P' A off ld in
  Some (A, info).

(** LAPACKE_dsyev(LAPACK_COL_MAJOR, 'V', 'U', n, A, n, w); result: A, w, info *)
Definition dsyev (la : lapack) (n : Z) (A : list R) (w : list R) : option (list R * list R * Z) :=
  let* P := gather n n A 0 n in
  let '(P', w', info) := la_syev la n P in
  let* A := scatter n n P' A 0 n in
  let* w := copy n w' 0 w 0 in
  Some (A, w, info).
