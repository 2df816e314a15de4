(** Model of /repo/src/time_flow.c:15-301: time step matrices and their products. *)
From Coq Require Import ZArith List Reals.
From Verif Require Import Base RealOps ParamParser Blas MatProd.
Import ListNotations.
Local Open Scope Z_scope.

(** kinetic.h:11-18 [kinetic_t] *)
Record kinetic := mk_kinetic { expK : list R; inv_expK : list R; k_Norb : Z; k_Ncell : Z }.

(** [expV[v][o]] *)
Definition vtab (expV : list (list R)) (v o : Z) : option R :=
  let* row := aget expV v in aget row o.

(** time_flow.c:15-34 [ComputeTimeStepMatrix]; the field of the slice is s[so], ..., s[so+N-1] *)
Definition compute_step (k : kinetic) (expV : list (list R)) (s : list Z) (so : Z) (B : list R)
  : option (list R) :=
  let Ncell := k_Ncell k in
  let N := k_Ncell k * k_Norb k in
  let* B := copy (N * N) (expK k) 0 B 0 in
  for_range 0 N (fun i B =>
    let* o := cdiv i Ncell in
    let* si := aget s (so + i) in
    let* v := vtab expV si o in
    dscal N v B i N) B.

(** time_flow.c:40-59 [ComputeInverseTimeStepMatrix] *)
Definition compute_inv_step (k : kinetic) (expV : list (list R)) (s : list Z) (so : Z) (invB : list R)
  : option (list R) :=
  let Ncell := k_Ncell k in
  let N := k_Ncell k * k_Norb k in
  let* invB := copy (N * N) (inv_expK k) 0 invB 0 in
  for_range 0 N (fun i invB =>
    let* o := cdiv i Ncell in
    let* si := aget s (so + i) in
    let* v := vtab expV (1 - si) o in
    dscal N v invB (i * N) 1) invB.

(** time_flow.c:66-85 [ComputePhononTimeStepMatrix] *)
Definition compute_phonon_step (k : kinetic) (expV : list (list R)) (s : list Z) (expX : list R) (so : Z)
    (B : list R) : option (list R) :=
  let Ncell := k_Ncell k in
  let N := k_Ncell k * k_Norb k in
  let* B := copy (N * N) (expK k) 0 B 0 in
  for_range 0 N (fun i B =>
    let* o := cdiv i Ncell in
    let* si := aget s (so + i) in
    let* v := vtab expV si o in
    let* x := aget expX (so + i) in
    dscal N (v * x)%R B i N) B.

(** time_flow.c:91-110 [ComputeInversePhononTimeStepMatrix] *)
Definition compute_inv_phonon_step (k : kinetic) (expV : list (list R)) (s : list Z) (expX : list R) (so : Z)
    (invB : list R) : option (list R) :=
  let Ncell := k_Ncell k in
  let N := k_Ncell k * k_Norb k in
  let* invB := copy (N * N) (inv_expK k) 0 invB 0 in
  for_range 0 N (fun i invB =>
    let* o := cdiv i Ncell in
    let* si := aget s (so + i) in
    let* v := vtab expV (1 - si) o in
    let* x := aget expX (so + i) in
    let* q := rdiv v x in
    dscal N q invB (i * N) 1) invB.

(** time_flow.h:12-22 [time_step_matrices_t] *)
Record tsm := mk_tsm { ts_B : list (list R); ts_invB : list (list R); ts_Bprod : list (list R);
  ts_N : Z; ts_L : Z; ts_prodBlen : Z; ts_numBprod : Z }.

(** time_flow.c:117-143 [AllocateTimeStepMatrices] *)
Definition allocate_tsm (junk : Z -> R) (N L prodBlen : Z) : option tsm :=
  let* numBprod := cdiv L prodBlen in
  let M := fresh junk (N * N) in
  Some (mk_tsm (repeat M (Z.to_nat L)) (repeat M (Z.to_nat L)) (repeat M (Z.to_nat numBprod))
    N L prodBlen numBprod).

(** time_flow.c:175-211 [CopyTimeStepMatrices] *)
Definition copy_tsm (src dst : tsm) : option tsm :=
  let N := ts_N src in
  let* st := for_range 0 (ts_L src) (fun l st =>
    let '(B, invB) := st in
    let* sB := aget (ts_B src) l in
    let* dB := aget B l in
    let* m := copy (N * N) sB 0 dB 0 in
    let* B := aset B l m in
    let* sB := aget (ts_invB src) l in
    let* dB := aget invB l in
    let* m := copy (N * N) sB 0 dB 0 in
    let* invB := aset invB l m in
    Some (B, invB)) (ts_B dst, ts_invB dst) in
  let '(B, invB) := st in
  let* P := for_range 0 (ts_numBprod src) (fun l P =>
    let* sB := aget (ts_Bprod src) l in
    let* dB := aget P l in
    let* m := copy (N * N) sB 0 dB 0 in
    aset P l m) (ts_Bprod dst) in
  Some (mk_tsm B invB P (ts_N dst) (ts_L dst) (ts_prodBlen dst) (ts_numBprod dst)).

(** time_flow.c:228-235, 252-259: the loop over the products *)
Definition form_products (junk : Z -> R) (N : Z) (t : tsm) : option tsm :=
  let* P := for_range 0 (ts_numBprod t) (fun l P =>
    let* r := aget P l in
    let* m := product_sequence junk N (ts_prodBlen t)
                (skipn (Z.to_nat (l * ts_prodBlen t)) (ts_B t)) r in
    aset P l m) (ts_Bprod t) in
  Some (mk_tsm (ts_B t) (ts_invB t) P (ts_N t) (ts_L t) (ts_prodBlen t) (ts_numBprod t)).

(** time_flow.c:224-227: both matrices of slice [l]; [cs], [ci] compute them into a buffer *)
Definition set_slice (cs ci : list R -> option (list R)) (l : Z) (t : tsm) : option tsm :=
  let* b := aget (ts_B t) l in
  let* b := cs b in
  let* B := aset (ts_B t) l b in
  let* c := aget (ts_invB t) l in
  let* c := ci c in
  let* invB := aset (ts_invB t) l c in
  Some (mk_tsm B invB (ts_Bprod t) (ts_N t) (ts_L t) (ts_prodBlen t) (ts_numBprod t)).

(** time_flow.c:218-236 [InitTimeStepMatrices] *)
Definition init_tsm (junk : Z -> R) (k : kinetic) (expV : list (list R)) (s : list Z) (t : tsm) : option tsm :=
  let N := k_Ncell k * k_Norb k in
  let* t := for_range 0 (ts_L t) (fun l t =>
    set_slice (compute_step k expV s (l * N)) (compute_inv_step k expV s (l * N)) l t) t in
  form_products junk N t.

(** time_flow.c:242-260 [InitPhononTimeStepMatrices] *)
Definition init_phonon_tsm (junk : Z -> R) (k : kinetic) (expV : list (list R)) (s : list Z) (expX : list R)
    (t : tsm) : option tsm :=
  let N := k_Ncell k * k_Norb k in
  let* t := for_range 0 (ts_L t) (fun l t =>
    set_slice (compute_phonon_step k expV s expX (l * N))
              (compute_inv_phonon_step k expV s expX (l * N)) l t) t in
  form_products junk N t.

(** time_flow.c:275-280, 295-300: recompute one product if [l] ends its interval *)
Definition update_product (junk : Z -> R) (l : Z) (t : tsm) : option tsm :=
  let* r := cmod l (ts_prodBlen t) in
  if r =? ts_prodBlen t - 1
  then
    let lstart := l - (ts_prodBlen t - 1) in
    let* q := cdiv lstart (ts_prodBlen t) in
    let* ret := aget (ts_Bprod t) q in
    let* m := product_sequence junk (ts_N t) (ts_prodBlen t) (skipn (Z.to_nat lstart) (ts_B t)) ret in
    let* P := aset (ts_Bprod t) q m in
    Some (mk_tsm (ts_B t) (ts_invB t) P (ts_N t) (ts_L t) (ts_prodBlen t) (ts_numBprod t))
  else Some t.

(** time_flow.c:268-281 [UpdateTimeStepMatrices] *)
Definition update_tsm (junk : Z -> R) (k : kinetic) (expV : list (list R)) (s : list Z) (l : Z) (t : tsm)
  : option tsm :=
  let* t := set_slice (compute_step k expV s (l * ts_N t)) (compute_inv_step k expV s (l * ts_N t)) l t in
  update_product junk l t.

(** time_flow.c:288-301 [UpdatePhononTimeStepMatrices] *)
Definition update_phonon_tsm (junk : Z -> R) (k : kinetic) (expV : list (list R)) (s : list Z) (expX : list R)
    (l : Z) (t : tsm) : option tsm :=
  let* t := set_slice (compute_phonon_step k expV s expX (l * ts_N t))
                      (compute_inv_phonon_step k expV s expX (l * ts_N t)) l t in
  update_product junk l t.
