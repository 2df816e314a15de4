(** Model of /repo/src/greens_func.c:11-162: Green's function structure and its construction. *)
From Coq Require Import ZArith List Reals.
From Verif Require Import Base RealOps ParamParser Blas MatProd TimeStep Lapack TimeFlow.
Import ListNotations.
Local Open Scope Z_scope.

(** include/greens_func.h:12-19 *)
Record greens_func := mk_greens { gf_mat : list R; gf_logdet : R; gf_sgndet : Z; gf_N : Z }.

(** greens_func.c:14-20 [AllocateGreensFunction]; logdet and sgndet are set to 0 and 1 there *)
Definition allocate_greens (junk : Z -> R) (N : Z) : greens_func := mk_greens (fresh junk (N * N)) 0 1 N.

(** greens_func.c:37-47 [CopyGreensFunction]; the dimension of the destination is kept
    (the code asserts that both are equal) *)
Definition copy_greens (src dst : greens_func) : option greens_func :=
  let* m := copy (gf_N src * gf_N src) (gf_mat src) 0 (gf_mat dst) 0 in
  Some (mk_greens m (gf_logdet src) (gf_sgndet src) (gf_N dst)).

(** greens_func.c:82-87: diagonal matrix D_b^-1; fabs(d) > 1 *)
Definition diag_big (N : Z) (d : list R) (G : list R) : option (list R) :=
  for_range 0 N (fun i G =>
    let* di := aget d i in
    let* x := if Rlt_dec 1 (Rabs di) then rdiv 1 di else Some 1%R in
    aset G (i + i * N) x) G.

(** greens_func.c:91-98: D_s T; fabs(d) <= 1 *)
Definition scale_small (N : Z) (d : list R) (T : list R) : option (list R) :=
  for_range 0 N (fun i T =>
    let* di := aget d i in
    if Rle_dec (Rabs di) 1 then dscal N di T i N else Some T) T.

(** greens_func.c:114-120 and 135-142: take the sign and subtract log|t| *)
Definition add_factor (t : R) (ls : R * Z) : option (R * Z) :=
  let '(logdet, sgndet) := ls in
  let '(t, sgndet) := if Rlt_dec t 0 then ((- t)%R, (- sgndet)%Z) else (t, sgndet) in
  let* x := rlog t in
  Some ((logdet - x)%R, sgndet).

(** greens_func.c:110-127: contribution of the LU decomposition *)
Definition det_lu (N : Z) (T : list R) (ipiv : list Z) (ls : R * Z) : option (R * Z) :=
  for_range 0 N (fun i ls =>
    let* t := aget T (i + i * N) in
    let* ls := add_factor t ls in
    let* p := aget ipiv i in
    Some (fst ls, if p =? i + 1 then snd ls else - snd ls)) ls.

(** greens_func.c:128-143: contribution of D_b^-1 *)
Definition det_big (N : Z) (d : list R) (ls : R * Z) : option (R * Z) :=
  for_range 0 N (fun i ls =>
    let* di := aget d i in
    if Rle_dec (Rabs di) 1 then Some ls else add_factor di ls) ls.

(** greens_func.c:144-151: contribution of Q *)
Definition det_refl (N : Z) (tau : list R) (ls : R * Z) : option (R * Z) :=
  for_range 0 N (fun i ls =>
    let* t := aget tau i in
    Some (fst ls, if Rlt_dec 0 t then - snd ls else snd ls)) ls.

(** greens_func.c:62-162 [GreenConstruct] *)
Definition green_construct (la : lapack) (junk : Z -> R) (t : tsm) (slice_shift : Z) (G : greens_func)
  : option greens_func :=
  let N := ts_N t in
  let* f := time_flow_map la junk t slice_shift (fresh junk (N * N)) (fresh junk N) (fresh junk N) (fresh junk (N * N)) in
  let '(Q, tau, d, T) := f in
  let* g := zero_fill (N * N) (gf_mat G) 0 in
  let* g := diag_big N d g in
  let* g := dormqr_RT N N N Q 0 N tau 0 g 0 N in
  let* T := scale_small N d T in
  let* T := daxpy (N * N) 1 g T in
  let* r := dgetrf la N T in
  let '(T, ipiv) := r in
  let* ls := det_lu N T ipiv (0%R, 1) in
  let* ls := det_big N d ls in
  let* ls := det_refl N tau ls in
  let* g := dgetrs la N T ipiv g in
  Some (mk_greens g (fst ls) (snd ls) (gf_N G)).
