(** Contracts of the LAPACK routines. *)
From Coq Require Import ZArith List Reals.
From mathcomp Require Import all_ssreflect fingroup perm ssralg matrix.
From Verif Require Import RField MatSpec Lapack.
Set Implicit Arguments.
Unset Strict Implicit.
Unset Printing Implicit Defensive.
Local Open Scope ring_scope.

Notation "'Zn' n" := (Z.of_nat n) (at level 9, n at level 9, only parsing).

(** entry (i, j) of a packed matrix with m rows *)
Definition pk (A : list R) (m : nat) (i j : Z) : R := List.nth (Z.to_nat (i + j * Zn m)) A R0.
(** element of a vector *)
Definition vk (t : list R) (i : Z) : R := List.nth (Z.to_nat i) t R0.

(** elementary reflectors: the vector of reflector k has zeros above position k, a one at position
    k, and below it the entries of column k of [a] *)
Definition hvec (m : nat) (a : Z -> Z -> R) (k : nat) : 'cV[R]_m :=
  mxf m 1 (fun i _ => if (i <? Zn k)%Z then R0 else if (i =? Zn k)%Z then R1 else a i (Zn k)).
Definition hmx (m : nat) (a : Z -> Z -> R) (t : Z -> R) (k : nat) : 'M[R]_m :=
  1%:M - t (Zn k) *: (hvec m a k *m (hvec m a k)^T).
(** H_0 H_1 ... H_{k-1} *)
Fixpoint qmx (m : nat) (a : Z -> Z -> R) (t : Z -> R) (k : nat) : 'M[R]_m :=
  match k with O => 1%:M | S k' => qmx m a t k' *m hmx m a t k' end.
(** reflector k is the identity or a reflection with a positive factor *)
Definition refl_ok (m : nat) (a : Z -> Z -> R) (t : Z -> R) (k : nat) : Prop :=
  t (Zn k) = R0 \/ (Rlt R0 (t (Zn k)) /\ t (Zn k) * ((hvec m a k)^T *m hvec m a k) ord0 ord0 = 1 + 1).

(** the upper and the unit lower triangular part *)
Definition upper (a : Z -> Z -> R) (i j : Z) : R := if (i <=? j)%Z then a i j else R0.
Definition unit_lower (a : Z -> Z -> R) (i j : Z) : R :=
  if (i <? j)%Z then R0 else if (i =? j)%Z then R1 else a i j.

(** QR decomposition A = Q R *)
Definition geqrf_post (m n : nat) (A : list R) (res : list R * list R) : Prop :=
  let '(A', tau) := res in
  List.length A' = (m * n)%N /\ List.length tau = n /\
  (forall k, (k < n)%N -> refl_ok m (pk A' m) (vk tau) k) /\
  mxf m n (pk A m) = qmx m (pk A' m) (vk tau) n *m mxf m n (upper (pk A' m)).

(** QR decomposition of the matrix with permuted columns; the permutation is 1-based *)
Definition geqp3_post (n : nat) (A : list R) (res : list R * list Z * list R) : Prop :=
  let '(A', jpvt, tau) := res in
  List.length jpvt = n /\
  exists s : 'S_n, (forall j : 'I_n, List.nth j jpvt 0%Z = (Zn (s j) + 1)%Z) /\
    List.length A' = (n * n)%N /\ List.length tau = n /\
    (forall k, (k < n)%N -> refl_ok n (pk A' n) (vk tau) k) /\
    col_perm s (mat n A) = qmx n (pk A' n) (vk tau) n *m mxf n n (upper (pk A' n)).

(** row interchanges i <-> ipiv[i] - 1 for i = 0, ..., k-1, one after the other *)
Definition swap_rows (i p : Z) (f : Z -> Z -> R) (r c : Z) : R :=
  if (r =? i)%Z then f p c else if (r =? p)%Z then f i c else f r c.
Fixpoint swaps (ipiv : list Z) (k : nat) (f : Z -> Z -> R) : Z -> Z -> R :=
  match k with
  | O => f
  | S k' => swap_rows (Zn k') (List.nth k' ipiv 0%Z - 1) (swaps ipiv k' f)
  end.
Definition ipiv_ok (n : nat) (ipiv : list Z) : Prop :=
  List.length ipiv = n /\ forall i, (i < n)%N -> (Zn i + 1 <= List.nth i ipiv 0 <= Zn n)%Z.

(** LU decomposition with partial pivoting: P A = L U *)
Definition getrf_post (n : nat) (A : list R) (res : list R * list Z) : Prop :=
  let '(A', ipiv) := res in
  List.length A' = (n * n)%N /\ ipiv_ok n ipiv /\ 
  mxf n n (swaps ipiv n (pk A n)) = mxf n n (unit_lower (pk A' n)) *m mxf n n (upper (pk A' n)).

(** solution of L U X = P B *)
Definition getrs_post (n : nat) (A' : list R) (ipiv : list Z) (B X : list R) : Prop :=
  List.length X = (n * n)%N /\ 
  mxf n n (unit_lower (pk A' n)) *m mxf n n (upper (pk A' n)) *m mat n X = mxf n n (swaps ipiv n (pk B n)).

(** the diagonal has no zero *)
Definition diag_nz (n : nat) (A : list R) : Prop := forall i, (i < n)%N -> pk A n (Zn i) (Zn i) <> R0.

(** inverse of the upper triangular part; the strictly lower part is kept *)
Definition trtri_post (n : nat) (A : list R) (res : list R * Z) : Prop :=
  let '(A', info) := res in
  info = 0%Z /\ List.length A' = (n * n)%N /\ 
  mxf n n (upper (pk A' n)) *m mxf n n (upper (pk A n)) = 1%:M /\ 
  (forall i j, (j < i < n)%N -> pk A' n (Zn i) (Zn j) = pk A n (Zn i) (Zn j)).

(** eigenvalues and orthonormal eigenvectors *)
Definition syev_post (n : nat) (A : list R) (res : list R * list R * Z) : Prop :=
  let '(U, w, info) := res in
  List.length U = (n * n)%N /\ List.length w = n /\ 
  (info = 0%Z -> (mat n U)^T *m mat n U = 1%:M /\ 
     mat n A = mat n U *m diag_mx (\row_(i < n) vk w (Zn i)) *m (mat n U)^T).

(** the library meets its contracts *)
Record lapack_ok (la : lapack) : Prop := {
  ok_geqp3 : forall n A, List.length A = (n * n)%N ->
    geqp3_post n A (la_geqp3 la (Zn n) A (List.repeat 0%Z n));
  ok_geqrf : forall m n A, (n <= m)%N -> List.length A = (m * n)%N ->
    geqrf_post m n A (la_geqrf la (Zn m) (Zn n) A);
  ok_getrf : forall n A, List.length A = (n * n)%N -> getrf_post n A (la_getrf la (Zn n) A);
  ok_getrs : forall n A ipiv B, List.length A = (n * n)%N -> ipiv_ok n ipiv -> List.length B = (n * n)%N ->
    diag_nz n A -> getrs_post n A ipiv B (la_getrs la (Zn n) A ipiv B);
  ok_trtri : forall n A, List.length A = (n * n)%N -> diag_nz n A -> trtri_post n A (la_trtri la (Zn n) A);
  ok_syev : forall n A, List.length A = (n * n)%N -> (mat n A)^T = mat n A ->
    syev_post n A (la_syev la (Zn n) A) }.
