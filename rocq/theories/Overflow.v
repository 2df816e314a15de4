(** C integer arithmetic in the size and index expressions of the program. *)
From Coq Require Import ZArith List Bool.
From Verif Require Import Base SimParams ParamParser.
Import ListNotations.
Local Open Scope Z_scope.

(** * [int] expressions *)
Inductive ivar := vNorb | vNx | vNy | vL | vprodBlen | vnsampl | vneqlt | idx (k : Z).
Inductive iexpr :=
  | Lit (z : Z) | Var (v : ivar)
  | Add (a b : iexpr) | Sub (a b : iexpr) | Mul (a b : iexpr) | Quot (a b : iexpr).

Definition INT_MIN : Z := -2147483648.
Definition INT_MAX : Z := 2147483647.
(** C11 6.5 p5: the behaviour is undefined if the result is not representable *)
Definition in_int (z : Z) : option Z := if (INT_MIN <=? z) && (z <=? INT_MAX) then Some z else None.

Section Eval.
Variable env : ivar -> Z.
Fixpoint ieval (e : iexpr) : option Z :=
  match e with
  | Lit z => Some z
  | Var v => Some (env v)
  | Add a b => let* x := ieval a in let* y := ieval b in in_int (x + y)
  | Sub a b => let* x := ieval a in let* y := ieval b in in_int (x - y)
  | Mul a b => let* x := ieval a in let* y := ieval b in in_int (x * y)
  | Quot a b => let* x := ieval a in let* y := ieval b in let* q := cdiv x y in in_int q
  end.

(** two's complement wrap-around, what the usual compilers produce without optimisation *)
Definition wrap (z : Z) : Z := (z + 2147483648) mod 4294967296 - 2147483648.
Fixpoint weval (e : iexpr) : option Z :=
  match e with
  | Lit z => Some z
  | Var v => Some (env v)
  | Add a b => let* x := weval a in let* y := weval b in Some (wrap (x + y))
  | Sub a b => let* x := weval a in let* y := weval b in Some (wrap (x - y))
  | Mul a b => let* x := weval a in let* y := weval b in Some (wrap (x * y))
  | Quot a b => let* x := weval a in let* y := weval b in let* q := cdiv x y in Some (wrap q)
  end.

(** exact value *)
Fixpoint value (e : iexpr) : Z :=
  match e with
  | Lit z => z
  | Var v => env v
  | Add a b => value a + value b
  | Sub a b => value a - value b
  | Mul a b => value a * value b
  | Quot a b => Z.quot (value a) (value b)
  end.
End Eval.

Declare Scope int_scope. Delimit Scope int_scope with int. Bind Scope int_scope with iexpr.
Notation "a + b" := (Add a b) : int_scope. Notation "a - b" := (Sub a b) : int_scope.
Notation "a * b" := (Mul a b) : int_scope. Notation "a / b" := (Quot a b) : int_scope.

Definition Norb := Var vNorb. Definition Nx := Var vNx. Definition Ny := Var vNy. Definition L := Var vL.
Definition prodBlen := Var vprodBlen. Definition nsampl := Var vnsampl. Definition neqlt := Var vneqlt.
Definition i0 := Var (idx 0). Definition i1 := Var (idx 1). Definition i2 := Var (idx 2). Definition i3 := Var (idx 3).
Definition i4 := Var (idx 4).
Definition i5 := Var (idx 5).

(** measurement.c:85-86, 446-447; kinetic.c:17; main.c:134 *)
Definition Ncell : iexpr := (Nx * Ny)%int.
Definition N : iexpr := (Ncell * Norb)%int.
(** main.c:134-136, kinetic.c:18 *)
Definition N' : iexpr := (Norb * Ncell)%int.
Definition LxN : iexpr := (L * N')%int.
(** main.c:119, time_flow.c:124 *)
Definition numBprod : iexpr := (L / prodBlen)%int.

(** * Allocations *)
Record request := mk_request { rq_count : iexpr; rq_elem : Z }.

(** what is passed to malloc: the [int] is converted to [size_t] and multiplied by the element size *)
Definition size_t (z : Z) : Z := z mod 18446744073709551616.
Definition bytes (env : ivar -> Z) (r : request) : option Z :=
  let* n := ieval env (rq_count r) in Some (size_t (size_t n * rq_elem r)).
Definition wbytes (env : ivar -> Z) (r : request) : option Z :=
  let* n := weval env (rq_count r) in Some (size_t (size_t n * rq_elem r)).

Definition base_requests : list request := [
  mk_request (Norb * Norb)%int 8;          (* param_parser.c:17-21 *)
  mk_request Norb 8;                       (* param_parser.c:367-370, stratonovich.c:14-19, measurement.c:96-98 *)
  mk_request (N * N)%int 8;                (* measurement.c:101-102 *)
  mk_request (N' * N')%int 8;              (* kinetic.c:26, 91, 92, linalg.c:55, 73, 103, greens_func.c:16, 67, 70, 205, time_flow.c:136-141, 346 *)
  mk_request (Ncell * Norb * Norb)%int 8;  (* measurement.c:106-113 *)
  mk_request N 8;                          (* measurement.c:116-118 *)
  mk_request N' 8;                         (* linalg.c:52, greens_func.c:68, 69, 176, 185, time_flow.c:350, 358 *)
  mk_request N' 4;                         (* greens_func.c:104, time_flow.c:354, monte_carlo.c:59, 529 *)
  mk_request (Ncell * Ncell)%int 4;        (* measurement.c:121 *)
  mk_request Ncell 4;                      (* measurement.c:125-128 *)
  mk_request LxN 1;                        (* main.c:142 *)
  mk_request L 8;                          (* time_flow.c:127-128 *)
  mk_request numBprod 8 ].                 (* time_flow.c:130 *)

(** main.c:116-124; AccumulateUnequalTimeMeasurement *)
Definition Hsize : iexpr := (N * N * numBprod * numBprod)%int.
Definition unequal_requests : list request := [
  mk_request Hsize 8;                          (* measurement.c:458-459 *)
  mk_request (Ncell * Norb * Norb * L)%int 8;  (* measurement.c:462-472 *)
  mk_request (N * L)%int 8;                    (* measurement.c:475-485 *)
  mk_request (Ncell * Ncell)%int 4;            (* measurement.c:488 *)
  mk_request Ncell 4;                          (* measurement.c:492-495 *)
  mk_request (N * L * N)%int 8;                (* measurement.c:562, 567 *)
  mk_request (N * N * L)%int 8;                (* measurement.c:563, 564, 568, 569 *)
  mk_request (Lit 4 * N * N)%int 8;            (* linalg.c:321 with n = N *)
  mk_request (N * numBprod)%int 8 ].           (* linalg.c:363, 366 *)

(** main.c:127-131, 194-195, monte_carlo.c:223-224, 371-372 *)
Definition phonon_requests : list request := [
  mk_request LxN 8;
  mk_request Norb 8;                                   (* measurement.c:949-956, 1011 *)
  mk_request (Norb * (nsampl * L / neqlt))%int 8;      (* measurement.c:958-959 *)
  mk_request L 8 ].

Definition requests (p : sim_params) : list request :=
  base_requests ++ (if 0 <? sp_nuneqlt p then unequal_requests else []) ++ (if sp_use_phonons p then phonon_requests else []).

(** the variables of the expressions; [k]: loop indices *)
Definition env_of (p : sim_params) (k : Z -> Z) (v : ivar) : Z :=
  match v with
  | vNorb => sp_Norb p | vNx => sp_Nx p | vNy => sp_Ny p | vL => sp_L p | vprodBlen => sp_prodBlen p
  | vnsampl => sp_nsampl p | vneqlt => sp_neqlt p | idx j => k j
  end.

(** * Array accesses
    base[inner] with the loop indices below the given bounds; size: number of allocated elements *)
Record maccess := mk_maccess { ma_base : iexpr; ma_inner : iexpr; ma_size : iexpr; ma_bounds : list (Z * iexpr) }.
Definition zero := Lit 0.

(** a column of a block that domatcopy (linalg.c:19-31) or a BLAS function accesses: row i4, column i5 *)
Definition entry (ld : iexpr) : iexpr := (i4 + i5 * ld)%int.
Definition block (rows cols : iexpr) : list (Z * iexpr) := [(4, rows); (5, cols)].

Definition base_accesses : list maccess := [
  (* greens_func.c:91, 180, time_flow.c:377, monte_carlo.c:89: mat[i + j*N] *)
  mk_maccess zero (i0 + i1 * N') (N' * N') [(0, N'); (1, N')];
  (* greens_func.c:187: Gmat[N*i ...] *)
  mk_maccess (N' * i0) i1 (N' * N') [(0, N'); (1, N')];
  (* main.c:153, monte_carlo.c:89: s[i + l*N] *)
  mk_maccess zero (i0 + i1 * N') LxN [(0, N'); (1, L)];
  (* measurement.c:209-240: mat[io + N*jp] with io = i + Ncell*o, jp = j + p*Ncell *)
  mk_maccess zero ((i0 + Ncell * i1) + N * (i2 + i3 * Ncell)) (N * N) [(0, Ncell); (1, Norb); (2, Ncell); (3, Norb)];
  (* measurement.c:204, 225-240: k + Ncell * (o + Norb*p) *)
  mk_maccess zero (i0 + Ncell * (i1 + Norb * i2)) (Ncell * Norb * Norb) [(0, Ncell); (1, Norb); (2, Norb)];
  (* measurement.c:38: latt_sum_map[ij + Ncell*kl] with ij = i + Nx*j, kl = k + Nx*l *)
  mk_maccess zero ((i0 + Nx * i1) + Ncell * (i2 + Nx * i3)) (Ncell * Ncell) [(0, Nx); (1, Ny); (2, Nx); (3, Ny)];
  (* measurement.c:214: latt_sum_map[k + Ncell*i] *)
  mk_maccess zero (i0 + Ncell * i1) (Ncell * Ncell) [(0, Ncell); (1, Ncell)] ]%int.

Definition unequal_accesses : list maccess := [
  (* greens_func.c:248: H[i + i*numBprod*N] *)
  mk_maccess zero (i0 + i0 * numBprod * N) Hsize [(0, numBprod * N)];
  (* greens_func.c:257: &H[((i + 1) + numBprod*N*i)*N], i < numBprod - 1 *)
  mk_maccess (((i0 + Lit 1) + numBprod * N * i0) * N) (entry (numBprod * N)) Hsize ((0, numBprod - Lit 1) :: block N N);
  (* greens_func.c:262: &H[numBprod*N*(numBprod - 1)*N] *)
  mk_maccess (numBprod * N * (numBprod - Lit 1) * N) (entry (numBprod * N)) Hsize (block N N);
  (* greens_func.c:274: &H[(i/prodBlen)*N] *)
  mk_maccess ((i0 / prodBlen) * N) (entry (numBprod * N)) Hsize ((0, L) :: block N N);
  (* greens_func.c:287: &H[(i/prodBlen)*numBprod*N*N] *)
  mk_maccess ((i0 / prodBlen) * numBprod * N * N) (entry (numBprod * N)) Hsize ((0, L) :: block N N);
  (* greens_func.c:319: &H[(ib + ib*numBprod*N)*N] *)
  mk_maccess (((i0 / prodBlen) + (i0 / prodBlen) * numBprod * N) * N) (entry (numBprod * N)) Hsize ((0, L) :: block N N);
  (* greens_func.c:274, 278: &Gtau0[i*N], leading dimension L*N *)
  mk_maccess (i0 * N) (entry (L * N)) (N * L * N) ((0, L) :: block N N);
  (* greens_func.c:287, 303, 309, 319, 323: &G0tau[i*N*N], &Geqlt[i*N*N] *)
  mk_maccess (i0 * N * N) (entry N) (N * N * L) ((0, L) :: block N N);
  (* measurement.c:591, 603-608: k + Ncell * (o + Norb*p + Norb*Norb*l) *)
  mk_maccess zero (i0 + Ncell * (i1 + Norb * i2 + Norb * Norb * i3)) (Ncell * Norb * Norb * L)
    [(0, Ncell); (1, Norb); (2, Norb); (3, L)];
  (* measurement.c:595-626: cur[io + N*(jp + N*l)] *)
  mk_maccess zero (i0 + N * (i1 + N * i2)) (N * N * L) [(0, N); (1, N); (2, L)];
  (* measurement.c:605, 623: curGtau0[io + N*(l + L*jp)] *)
  mk_maccess zero (i0 + N * (i2 + L * i1)) (N * L * N) [(0, N); (1, N); (2, L)];
  (* measurement.c:641, 684-700: Gt0_base = &curGtau0[(Ncell*o) + N*(l + L*(Ncell*o))], Gt0_base[i + N*L*j] *)
  mk_maccess (Ncell * i0 + N * (i1 + L * (Ncell * i0))) (i2 + N * L * i3) (N * L * N)
    [(0, Norb); (1, L); (2, Ncell); (3, Ncell)];
  (* measurement.c:645, 653: G0t_base = &curG0tau[(Ncell*o) + N*((Ncell*o) + N*l)], G0t_base[i + N*j] *)
  mk_maccess (Ncell * i0 + N * (Ncell * i0 + N * i1)) (i2 + N * i3) (N * N * L)
    [(0, Norb); (1, L); (2, Ncell); (3, Ncell)];
  (* measurement.c:656, 688: k + (Ncell*o + N*l) *)
  mk_maccess zero (i0 + (Ncell * i1 + N * i2)) (N * L) [(0, Ncell); (1, Norb); (2, L)] ]%int.

Definition phonon_accesses : list maccess := [
  (* main.c:200-206, monte_carlo.c, measurement.c:1020: X[i + o*Ncell + l*N] *)
  mk_maccess zero (i0 + i1 * Ncell + i2 * N) LxN [(0, Ncell); (1, Norb); (2, L)];
  (* measurement.c:1022, 1028: iteration_X_avg[o + nsampl * Norb] for a number of samples below the maximum *)
  mk_maccess zero (i0 + i1 * Norb) (Norb * (nsampl * L / neqlt)) [(0, Norb); (1, nsampl * L / neqlt)] ]%int.

(** linalg.c:161-344, n = N, p = numBprod >= 2; N of the code is n*p *)
Definition np : iexpr := (N * numBprod)%int.
Definition cyclic_accesses : list maccess := [
  (* linalg.c:171, 185, 226, 241, 324, 335: &H[(1 + N)*i*n], 2n x n; the last one 2n x 2n with i = p - 2 *)
  mk_maccess ((Lit 1 + np) * i0 * N) (entry np) Hsize ((0, numBprod - Lit 1) :: block (Lit 2 * N) N);
  mk_maccess ((Lit 1 + np) * (numBprod - Lit 2) * N) (entry np) Hsize (block (Lit 2 * N) (Lit 2 * N));
  (* linalg.c:178: &H[(i + N*(i + 1))*n], 2n x n *)
  mk_maccess ((i0 + np * (i0 + Lit 1)) * N) (entry np) Hsize ((0, numBprod - Lit 1) :: block (Lit 2 * N) N);
  (* linalg.c:179: &H[(i + N*(p - 1))*n], 2n x n *)
  mk_maccess ((i0 + np * (numBprod - Lit 1)) * N) (entry np) Hsize ((0, numBprod - Lit 1) :: block (Lit 2 * N) N);
  (* linalg.c:235: &R[N*(p - 1)*n], n*(p - 3) x n *)
  mk_maccess (np * (numBprod - Lit 1) * N) (entry np) Hsize (block (N * (numBprod - Lit 3)) N);
  (* linalg.c:258: &R[(i + N*(i + 2))*n], n x n*(p - i - 2) *)
  mk_maccess ((i0 + np * (i0 + Lit 2)) * N) (entry np) Hsize ((0, numBprod - Lit 2) :: block N (N * (numBprod - i0 - Lit 2)));
  (* linalg.c:258: &R[((i + 1) + N*(i + 2))*n], n x n*(p - i - 2) *)
  mk_maccess (((i0 + Lit 1) + np * (i0 + Lit 2)) * N) (entry np) Hsize ((0, numBprod - Lit 2) :: block N (N * (numBprod - i0 - Lit 2)));
  (* linalg.c:327, 338: &A[N*i*n], N x 2n *)
  mk_maccess (np * i0 * N) (entry np) Hsize ((0, numBprod - Lit 1) :: block np (Lit 2 * N)) ]%int.

Definition accesses (p : sim_params) : list maccess :=
  base_accesses ++ (if 0 <? sp_nuneqlt p then unequal_accesses else []) ++ (if sp_use_phonons p then phonon_accesses else []) ++
  (if (0 <? sp_nuneqlt p) && (2 <=? Z.quot (sp_L p) (sp_prodBlen p)) then cyclic_accesses else []).
