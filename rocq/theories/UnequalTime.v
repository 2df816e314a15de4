(** Model of the computation of unequal time Green's functions, /repo/src/greens_func.c:238-327,
    and of the complete accumulation of an unequal time measurement.

    The return value of BlockCyclicInverse is ignored as in the C code. *)
From Coq Require Import ZArith List Reals.
From Verif Require Import Base RealOps Blas MatProd ParamParser Lapack TimeStep BlockCyclic UMeasure.
Import ListNotations.
Local Open Scope Z_scope.

(** greens_func.c:242-249: H is set to the identity *)
Definition uneq_identity (N nb : Z) (H : list R) : option (list R) :=
  let* H := zero_fill (N * N * nb * nb) H 0 in
  for_range 0 (nb * N) (fun i H => aset H (i + i * nb * N) 1%R) H.

(** greens_func.c:251-264: the products are copied into H *)
Definition uneq_blocks (N nb : Z) (Bprod : list (list R)) (H : list R) : option (list R) :=
  for_range 0 nb (fun i H =>
    let* P := aget Bprod i in
    if i <? nb - 1 then domatcopy N N (-1) P 0 N H (((i + 1) + nb * N * i) * N) (nb * N)
    else domatcopy N N 1 P 0 N H (nb * N * (nb - 1) * N) (nb * N)) H.

(** greens_func.c:269-280: first block column *)
Definition uneq_tau0 (N L nb b : Z) (B : list (list R)) (H G : list R) : option (list R) :=
  for_range 0 L (fun i G =>
    let* r := cmod i b in
    if r =? 0 then
      let* q := cdiv i b in
      domatcopy N N 1 H (q * N) (nb * N) G (i * N) (L * N)
    else
      let* Bm := aget B (i - 1) in
      dgemm false N N N 1 Bm 0 N G ((i - 1) * N) (L * N) 0 G (i * N) (L * N)) G.

(** greens_func.c:282-311: first block row; [junk] is the contents of the temporary matrix *)
Definition uneq_0tau (junk : Z -> R) (N L nb b : Z) (invB : list (list R)) (H G : list R) : option (list R) :=
  for_range 0 L (fun i G =>
    let* r := cmod i b in
    if r =? 0 then
      let* q := cdiv i b in
      domatcopy N N 1 H (q * nb * N * N) (nb * N) G (i * N * N) N
    else if i =? 1 then
      let* T := domatcopy N N 1 H 0 (nb * N) (fresh junk (N * N)) 0 N in
      let* T := for_range 0 N (fun j T => let* t := aget T (j + N * j) in aset T (j + N * j) (t - 1)%R) T in
      let* iB := aget invB (i - 1) in
      dgemm false N N N 1 T 0 N iB 0 N 0 G (i * N * N) N
    else
      let* iB := aget invB (i - 1) in
      dgemm false N N N 1 G ((i - 1) * N * N) N iB 0 N 0 G (i * N * N) N) G.

(** greens_func.c:202-215 [GreenTimeSliceWrap] for the matrix beginning at &G[off] *)
Definition slice_wrap_at (junk : Z -> R) (N : Z) (B invB G : list R) (off : Z) : option (list R) :=
  let* T := dgemm false N N N 1 B 0 N G off N 0 (fresh junk (N * N)) 0 N in
  dgemm false N N N 1 T 0 N invB 0 N 0 G off N.

(** greens_func.c:313-326: diagonal blocks *)
Definition uneq_eqlt (junk : Z -> R) (N L nb b : Z) (B invB : list (list R)) (H G : list R) : option (list R) :=
  for_range 0 L (fun i G =>
    let* r := cmod i b in
    if r =? 0 then
      let* ib := cdiv i b in
      domatcopy N N 1 H ((ib + ib * nb * N) * N) (nb * N) G (i * N * N) N
    else
      let* G := copy (N * N) G ((i - 1) * N * N) G (i * N * N) in
      let* Bm := aget B (i - 1) in
      let* iB := aget invB (i - 1) in
      slice_wrap_at junk N Bm iB G (i * N * N)) G.

(** greens_func.c:238-327 [ComputeUnequalTimeGreensFunction]; results: H, Gtau0, G0tau, Geqlt *)
Definition unequal_time_greens (la : lapack) (junk : Z -> R) (N L : Z) (t : tsm) (H Gtau0 G0tau Geqlt : list R)
  : option (list R * (list R * list R * list R)) :=
  let nb := ts_numBprod t in
  let b := ts_prodBlen t in
  let* H := uneq_identity N nb H in
  let* H := uneq_blocks N nb (ts_Bprod t) H in
  let* (H, _) := cyclic_inverse la junk N nb H in
  let* Gtau0 := uneq_tau0 N L nb b (ts_B t) H Gtau0 in
  let* G0tau := uneq_0tau junk N L nb b (ts_invB t) H G0tau in
  let* Geqlt := uneq_eqlt junk N L nb b (ts_B t) (ts_invB t) H Geqlt in
  Some (H, (Gtau0, G0tau, Geqlt)).

(** measurement.c:561-578: Green's functions of both spin species; [Hu] and [Hd] are the temporary
    matrices of the measurement structure *)
Definition current_greens (la : lapack) (junk : Z -> R) (N L : Z) (tu td : tsm) (Hu Hd : list R)
  : option (list R * list R * cur_greens) :=
  let* (Hu, gu) := unequal_time_greens la junk N L tu Hu (fresh junk (N * L * N)) (fresh junk (N * N * L)) (fresh junk (N * N * L)) in
  let* (Hd, gd) := unequal_time_greens la junk N L td Hd (fresh junk (N * L * N)) (fresh junk (N * N * L)) (fresh junk (N * N * L)) in
  let '(gtu, g0u, geu) := gu in
  let '(gtd, g0d, ged) := gd in
  Some (Hu, Hd, mk_cur gtu g0u geu gtd g0d ged).

(** measurement.c:551-810 [AccumulateUnequalTimeMeasurement]; result: Hu, Hd and the measurement data *)
Definition accumulate_unequal_time (la : lapack) (junk : Z -> R) (sign : R) (tu td : tsm) (Hu Hd : list R) (m : umeas)
  : option (list R * list R * umeas) :=
  let N := u_Ncell m * u_Norb m in
  let* (HH, c) := current_greens la junk N (u_L m) tu td Hu Hd in
  let* m := uaccumulate sign c m in
  Some (HH, m).
