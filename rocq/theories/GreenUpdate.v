(** Model of /repo/src/greens_func.c:169-215: rank-1 update and time slice wrap. *)
From Coq Require Import ZArith List Reals.
From Verif Require Import Base RealOps Blas MatProd.
Import ListNotations.
Local Open Scope Z_scope.

(** greens_func.c:169-195 [GreenShermanMorrisonUpdate] *)
Definition sherman_morrison (junk : Z -> R) (delta : R) (N i : Z) (G : list R) : option (list R) :=
  let* c := for_range 0 N (fun j c => let* v := aget G (i + j * N) in aset c j v) (fresh junk N) in
  let* ci := aget c i in
  let* c := aset c i (ci - 1)%R in
  let* d := copy N G (N * i) (fresh junk N) 0 in
  let* ci := aget c i in
  let* a := rdiv delta (1 - delta * ci) in
  dger N N a d c G N.

(** greens_func.c:202-215 [GreenTimeSliceWrap] *)
Definition slice_wrap (junk : Z -> R) (N : Z) (B invB G : list R) : option (list R) :=
  let* T := dgemm false N N N 1 B 0 N G 0 N 0 (fresh junk (N * N)) 0 N in
  dgemm false N N N 1 T 0 N invB 0 N 0 G 0 N.
