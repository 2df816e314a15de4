(** Model of /repo/src/kinetic.c: the hopping matrix.

    Doubles are real numbers; arrays are checked.  The second half of
    RectangularKineticExponential (the calls of MatrixExp) is in KineticExp.v. *)
From Coq Require Import ZArith List Reals Bool.
From Verif Require Import Base ParamParser SimParams.
Import ListNotations.
Local Open Scope Z_scope.

(** [a[i] -= v] *)
Definition asub (a : list R) (i : Z) (v : R) : option (list R) :=
  let* x := aget a i in aset a i (x - v)%R.

(** the two lines [T[r + c*N] -= t[o + p*Norb]; T[r*N + c] -= t[o + p*Norb];] *)
Definition sub_bond (N r c : Z) (t : list R) (k : Z) (T : list R) : option (list R) :=
  let* v := aget t k in
  let* T := asub T (r + c * N) v in
  let* v := aget t k in
  asub T (r * N + c) v.

(** kinetic.c:39-72: body of the four loops *)
Definition hop_cell (p : sim_params) (o q j i : Z) (T : list R) : option (list R) :=
  let Norb := sp_Norb p in
  let Nx := sp_Nx p in
  let Ny := sp_Ny p in
  let Ncell := Nx * Ny in
  let N := Norb * Ncell in
  let j_next := if j <? Ny - 1 then j + 1 else 0 in
  let i_next := if i <? Nx - 1 then i + 1 else 0 in
  let* is_ := cmod (i + (if j_next =? 0 then sp_pbc_shift p else 0)) Nx in
  let is_next := if is_ <? Nx - 1 then is_ + 1 else 0 in
  let a := i + j * Nx in
  let b := i_next + j * Nx in
  let c := is_ + j_next * Nx in
  let d := is_next + j_next * Nx in
  let* T := sub_bond N (a + o * Ncell) (a + q * Ncell) (t_aa (sp_t p)) (o + q * Norb) T in
  let* T := sub_bond N (a + o * Ncell) (b + q * Ncell) (t_ab (sp_t p)) (o + q * Norb) T in
  let* T := sub_bond N (a + o * Ncell) (c + q * Ncell) (t_ac (sp_t p)) (o + q * Norb) T in
  let* T := sub_bond N (a + o * Ncell) (d + q * Ncell) (t_ad (sp_t p)) (o + q * Norb) T in
  sub_bond N (b + o * Ncell) (c + q * Ncell) (t_bc (sp_t p)) (o + q * Norb) T.

(** cblas_dscal(n, alpha, x, 1) (reference BLAS): x[i] *= alpha for i < n *)
Definition dscal1 (n : Z) (alpha : R) (x : list R) : option (list R) :=
  for_range 0 n (fun i x => let* v := aget x i in aset x i (alpha * v)%R) x.

(** kinetic.c:26-89: the matrix that is exponentiated, -dt * K *)
Definition kinetic_matrix (p : sim_params) : option (list R) :=
  let Norb := sp_Norb p in
  let Ncell := sp_Nx p * sp_Ny p in
  let N := Norb * Ncell in
  let T := repeat 0%R (Z.to_nat (N * N)) in
  let* T :=
    for_range 0 Norb (fun o T =>
    for_range 0 Norb (fun q T =>
    for_range 0 (sp_Ny p) (fun j T =>
    for_range 0 (sp_Nx p) (fun i T => hop_cell p o q j i T) T) T) T) T in
  let* T :=
    for_range 0 Norb (fun o T =>
    for_range 0 Ncell (fun i T =>
      let index := i + o * Ncell in
      let* e := aget (sp_eps p) o in
      aset T (index + N * index) (- sp_mu p + e)%R) T) T in
  dscal1 (N * N) (- sp_dt p)%R T.
