(** Model of MatrixExp, /repo/src/linalg.c:47-90, and of the second half of
    RectangularKineticExponential, /repo/src/kinetic.c:91-105.

    Doubles are real numbers and exp is the exponential function of the reals.  [junk] is the
    contents of freshly allocated memory.  The temporary arrays that MatrixExp does not free when
    the eigensolver fails are not tracked. *)
From Coq Require Import ZArith List Reals.
From Verif Require Import Base RealOps Blas MatProd SimParams Lapack Kinetic TimeStep.
Import ListNotations.
Local Open Scope Z_scope.

(** linalg.c:64-69: exponential of the eigenvalues *)
Definition exp_values (n : Z) (w : list R) : option (list R) :=
  for_range 0 n (fun i w => let* x := aget w i in aset w i (exp x)) w.

(** linalg.c:71-78: column i of a copy of U is scaled by w[i] *)
Definition scale_columns (n : Z) (w U : list R) : option (list R) :=
  for_range 0 n (fun i V => let* x := aget w i in dscal n x V (i * n) 1) U.

(** linalg.c:47-90 [MatrixExp]; results: the contents of [ret] and the return value *)
Definition matrix_exp (la : lapack) (junk : Z -> R) (n : Z) (A ret : list R) : option (list R * Z) :=
  let* U := copy (n * n) A 0 (fresh junk (n * n)) 0 in
  let* (Uw, info) := dsyev la n U (fresh junk n) in
  let '(U, w) := Uw in
  if 0 <? info then Some (ret, info)
  else
    let* w := exp_values n w in
    let* UexpD := copy (n * n) U 0 (fresh junk (n * n)) 0 in
    let* UexpD := scale_columns n w UexpD in
    let* ret := dgemm true n n n 1 UexpD 0 n U 0 n 0 ret 0 n in
    Some (ret, 0).

(** kinetic.c:11-105 [RectangularKineticExponential]; the return values of MatrixExp are ignored.
    [kinetic_matrix] (kinetic.c:26-89) yields T = -dt K *)
Definition kinetic_exponential (la : lapack) (junk : Z -> R) (p : sim_params) : option kinetic :=
  let Ncell := sp_Nx p * sp_Ny p in
  let N := sp_Norb p * Ncell in
  let* T := kinetic_matrix p in
  let* (eK, _) := matrix_exp la junk N T (fresh junk (N * N)) in
  let* T := dscal1 (N * N) (-1)%R T in
  let* (iK, _) := matrix_exp la junk N T (fresh junk (N * N)) in
  Some (mk_kinetic eK iK (sp_Norb p) Ncell).
