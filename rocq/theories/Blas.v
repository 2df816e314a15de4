(** BLAS routines called by the program, modelled by their reference semantics over the reals,
    and the memory copies.

    A matrix argument is (array, offset, leading dimension): entry (i, j) is
    array[offset + i + j*ld] (column major).  All accesses are checked.  The output is computed
    from the contents of the arrays at the time of the call; output and input blocks of the
    calls in this program never overlap (except where the routine works in place). *)
From Coq Require Import ZArith List Reals.
From Verif Require Import Base RealOps.
Import ListNotations.
Local Open Scope Z_scope.

(** checked entry (i, j) *)
Definition mget (A : list R) (off ld i j : Z) : option R := aget A (off + i + j * ld).

(** sum of [f lo], ..., [f (hi-1)] *)
Definition osum (lo hi : Z) (f : Z -> option R) : option R :=
  for_range lo hi (fun i s => let* x := f i in Some (s + x)%R) 0%R.

(** entry (i, j) := f i j for all i < m, j < n *)
Definition write_block (m n off ld : Z) (f : Z -> Z -> option R) (C : list R) : option (list R) :=
  for_range 0 n (fun j C =>
  for_range 0 m (fun i C =>
    let* v := f i j in aset C (off + i + j * ld) v) C) C.

(** memcpy(&B[ob], &A[oa], n*sizeof(double)) *)
Definition copy (n : Z) (A : list R) (oa : Z) (B : list R) (ob : Z) : option (list R) :=
  write_block n 1 ob n (fun i _ => aget A (oa + i)) B.

(** memset(&A[off], 0, n*sizeof(double)) *)
Definition zero_fill (n : Z) (A : list R) (off : Z) : option (list R) :=
  write_block n 1 off n (fun _ _ => Some 0%R) A.

(** cblas_dscal(n, alpha, &x[off], inc) *)
Definition dscal (n : Z) (alpha : R) (x : list R) (off inc : Z) : option (list R) :=
  write_block 1 n off inc (fun _ j => let* v := aget x (off + j * inc) in Some (alpha * v)%R) x.

(** cblas_daxpy(n, alpha, x, 1, y, 1): y += alpha x *)
Definition daxpy (n : Z) (alpha : R) (x y : list R) : option (list R) :=
  write_block n 1 0 n (fun i _ => let* a := aget x i in let* b := aget y i in Some (alpha * a + b)%R) y.

(** cblas_dnrm2(n, &x[off], 1) *)
Definition dnrm2 (n : Z) (x : list R) (off : Z) : option R :=
  let* s := osum 0 n (fun i => let* v := aget x (off + i) in Some (v * v)%R) in rsqrt s.

(** cblas_dger(CblasColMajor, m, n, alpha, x, 1, y, 1, A, lda): A += alpha x y^T *)
Definition dger (m n : Z) (alpha : R) (x y : list R) (A : list R) (lda : Z) : option (list R) :=
  write_block m n 0 lda (fun i j =>
    let* a := aget x i in let* b := aget y j in let* c := mget A 0 lda i j in
    Some (c + alpha * a * b)%R) A.

(** cblas_dgemm(CblasColMajor, NoTrans, transB, m, n, k, alpha, A, lda, B, ldb, beta, C, ldc):
    C := alpha A op(B) + beta C; C is not read if beta is zero *)
Definition dgemm (transB : bool) (m n k : Z) (alpha : R) (A : list R) (oa lda : Z)
    (B : list R) (ob ldb : Z) (beta : R) (C : list R) (oc ldc : Z) : option (list R) :=
  write_block m n oc ldc (fun i j =>
    let* s := osum 0 k (fun l =>
      let* a := mget A oa lda i l in
      let* b := (if transB then mget B ob ldb j l else mget B ob ldb l j) in
      Some (a * b)%R) in
    if Req_EM_T beta 0 then Some (alpha * s)%R
    else let* c := mget C oc ldc i j in Some (alpha * s + beta * c)%R) C.

(** cblas_dtrmm(CblasColMajor, CblasLeft, CblasUpper, NoTrans, NonUnit, m, n, alpha, A, lda, B, ldb):
    B := alpha triu(A) B with A an m x m matrix; the entries of A below the diagonal are not read *)
Definition dtrmm_left (m n : Z) (alpha : R) (A : list R) (oa lda : Z) (B : list R) (ob ldb : Z)
  : option (list R) :=
  write_block m n ob ldb (fun i j =>
    let* s := osum i m (fun l =>
      let* a := mget A oa lda i l in let* b := mget B ob ldb l j in Some (a * b)%R) in
    Some (alpha * s)%R) B.

(** same with CblasRight: B := alpha B triu(A) with A an n x n matrix *)
Definition dtrmm_right (m n : Z) (alpha : R) (A : list R) (oa lda : Z) (B : list R) (ob ldb : Z)
  : option (list R) :=
  write_block m n ob ldb (fun i j =>
    let* s := osum 0 (j + 1) (fun l =>
      let* b := mget B ob ldb i l in let* a := mget A oa lda l j in Some (b * a)%R) in
    Some (alpha * s)%R) B.

(** linalg.c:17-40 [domatcopy] without MKL (the MKL version is the library routine with the
    same specification) *)
Definition domatcopy (rows cols : Z) (alpha : R) (A : list R) (oa lda : Z) (B : list R) (ob ldb : Z)
  : option (list R) :=
  let* B := for_range 0 cols (fun j B => copy rows A (oa + j * lda) B (ob + j * ldb)) B in
  if Req_EM_T alpha 1 then Some B
  else for_range 0 cols (fun j B => dscal rows alpha B (ob + j * ldb) 1) B.
