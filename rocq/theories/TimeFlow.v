(** Model of /repo/src/time_flow.c:327-495: the imaginary-time flow map as Q diag(d) T. *)
From Coq Require Import ZArith List Reals.
From Verif Require Import Base RealOps ParamParser Blas MatProd TimeStep Prepivot Lapack.
Import ListNotations.
Local Open Scope Z_scope.

(** time_flow.c:373-382 and 449-459: d[i] = Q[i + i*N], replaced by 1 if zero; v[i] = 1/d[i] *)
Definition extract_diag (N : Z) (Q : list R) (dv : list R * list R) : option (list R * list R) :=
  for_range 0 N (fun i dv =>
    let '(d, v) := dv in
    let* q := aget Q (i + i * N) in
    let di := if Req_EM_T q 0 then 1%R else q in
    let* d := aset d i di in
    let* vi := rdiv 1 di in
    let* v := aset v i vi in
    Some (d, v)) dv.

(** time_flow.c:384-395: the first matrix T *)
Definition first_T (N : Z) (Q : list R) (v : list R) (jpvt : list Z) (T : list R) : option (list Z * list R) :=
  let* T := zero_fill (N * N) T 0 in
  for_range 0 N (fun j st =>
    let '(jpvt, T) := st in
    let* p := aget jpvt j in
    let* jpvt := aset jpvt j (p - 1) in
    let* T := for_range 0 (j + 1) (fun i T =>
      let* vi := aget v i in
      let* q := aget Q (i + j * N) in
      aset T (i + (p - 1) * N) (vi * q)%R) T in
    Some (jpvt, T)) (jpvt, T).

(** time_flow.c:437-441: permuted columns of W *)
Definition permute_cols (N : Z) (jpvt : list Z) (W Q : list R) : option (list R) :=
  for_range 0 N (fun j Q => let* p := aget jpvt j in copy N W (p * N) Q (j * N)) Q.

(** time_flow.c:461-468: upper triangular part divided by the diagonal *)
Definition scale_upper (N : Z) (v : list R) (Q : list R) : option (list R) :=
  for_range 0 N (fun j Q =>
  for_range 0 (j + 1) (fun i Q =>
    let* q := aget Q (i + j * N) in
    let* vi := aget v i in
    aset Q (i + j * N) (q * vi)%R) Q) Q.

(** time_flow.c:470-481: rows of T permuted *)
Definition permute_rows (N : Z) (jpvt : list Z) (vT : list R * list R) : option (list R * list R) :=
  for_range 0 N (fun j vT =>
    let '(v, T) := vT in
    let* v := for_range 0 N (fun i v =>
      let* p := aget jpvt i in let* x := aget T (p + j * N) in aset v i x) v in
    let* T := copy N v 0 T (j * N) in
    Some (v, T)) vT.

(** state of the loop: Q, tau, d, T and the work arrays jpvt, W, norms, v *)
Record tfm := mk_tfm {
  f_Q : list R; f_tau : list R; f_d : list R; f_T : list R;
  f_jpvt : list Z; f_W : list R; f_norms : list R; f_v : list R }.

(** time_flow.c:361-397: initial QR decomposition *)
Definition tfm_first (la : lapack) (N : Z) (src : list R) (f : tfm) : option tfm :=
  let* Q := copy (N * N) src 0 (f_Q f) 0 in
  let* r := dgeqp3 la N Q (repeat 0 (Z.to_nat N)) (f_tau f) in
  let '(Q, jpvt, tau) := r in
  let* dv := extract_diag N Q (f_d f, f_v f) in
  let '(d, v) := dv in
  let* st := first_T N Q v jpvt (f_T f) in
  let '(jpvt, T) := st in
  Some (mk_tfm Q tau d T jpvt (f_W f) (f_norms f) v).

(** time_flow.c:402-486: one more factor *)
Definition tfm_next (la : lapack) (N : Z) (src : list R) (f : tfm) : option tfm :=
  let* W := copy (N * N) src 0 (f_W f) 0 in
  let* W := dormqr_RN N N N (f_Q f) 0 N (f_tau f) 0 W 0 N in
  let* W := for_range 0 N (fun i W => let* di := aget (f_d f) i in dscal N di W (i * N) 1) W in
  let* norms := for_range 0 N (fun j norms => let* x := dnrm2 N W (j * N) in aset norms j x) (f_norms f) in
  let* jpvt := prepivot Rltb N norms (f_jpvt f) in
  let* Q := permute_cols N jpvt W (f_Q f) in
  let* r := dgeqrf la N N Q 0 N (f_tau f) 0 in
  let '(Q, tau) := r in
  let* dv := extract_diag N Q (f_d f, f_v f) in
  let '(d, v) := dv in
  let* Q := scale_upper N v Q in
  let* vT := permute_rows N jpvt (v, f_T f) in
  let '(v, T) := vT in
  let* T := dtrmm_left N N 1 Q 0 N T 0 N in
  Some (mk_tfm Q tau d T jpvt W norms v).

(** time_flow.c:327-495 [TimeFlowMap]; the output arrays Q, tau, d, T and the allocated work arrays
    have arbitrary initial contents *)
Definition time_flow_map (la : lapack) (junk : Z -> R) (t : tsm) (slice_shift : Z) (Q tau d T : list R)
  : option (list R * list R * list R * list R) :=
  let N := ts_N t in
  let* pss := cdiv slice_shift (ts_prodBlen t) in
  let f := mk_tfm Q tau d T [] (fresh junk (N * N)) (fresh junk N) (fresh junk N) in
  let* k := cmod pss (ts_numBprod t) in
  let* src := aget (ts_Bprod t) k in
  let* f := tfm_first la N src f in
  let* f := for_range 1 (ts_numBprod t) (fun l f =>
    let* k := cmod (l + pss) (ts_numBprod t) in
    let* src := aget (ts_Bprod t) k in
    tfm_next la N src f) f in
  Some (f_Q f, f_tau f, f_d f, f_T f).
