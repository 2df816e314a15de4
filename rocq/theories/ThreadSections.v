(** The functions called in the parallel sections, as programs of the machine of Threads.v.

    What is kept of every function: which arrays are passed to which routine, in which order, under
    which loops and conditions, and where memory is allocated.  A routine (memcpy, a BLAS or LAPACK
    function, or an inner loop over array elements) is an arbitrary program that obtains numbers, the
    arrays that it only reads and the arrays that it may also write, and returns a number. *)
From Coq Require Import ZArith List Bool.
From Verif Require Import Threads ThreadsSpec.
Import ListNotations.
Local Open Scope Z_scope.

Section Sections.
Variable V : Type.
Variable routine : list Z -> list name -> list name -> prog name V Z.
(** contents of newly allocated memory *)
Variable junk : Z -> list V.
Local Notation prog := (prog name V).

Definition alloc (s : spin) (k : Z) : prog unit := pnew (Tmp s k) (junk k).
Definition call (args : list Z) (rd wr : list name) : prog unit := do _ <- routine args rd wr; Ret tt.
Definition loop (lo hi : Z) (body : Z -> prog unit) : prog unit := pfor lo hi (fun i _ => body i) tt.

(** kinetic_t and time_step_matrices_t: kinetic.h:11-18, time_flow.h:12-22 *)
Record dims := mk_dims { dN : Z; dL : Z; dprodBlen : Z; dnumBprod : Z }.

(** time_flow.c:15-110: [ComputeTimeStepMatrix] (inv = false), [ComputeInverseTimeStepMatrix], and the versions
    for phonons; so: offset of the slice in the fields *)
Definition p_compute (d : dims) (s : spin) (ph inv : bool) (so : Z) (B : name) : prog unit :=
  (* memcpy(B, kinetic->expK, N*N * sizeof(double)) *)
  do _ <- call [1; dN d * dN d] [Kinetic inv] [B];
  (* cblas_dscal(N, expV[s[i]][o] * expX[i], ...) *)
  loop 0 (dN d) (fun i => call [2; i; so] ([ExpV s false; ExpV s true; Field] ++ if ph then [ExpX] else []) [B]).

(** linalg.c:97-143 [MatrixProductSequence]; the factors are A lstart, A (lstart + 1), ... *)
Definition p_product (d : dims) (s : spin) (A : Z -> name) (lstart : Z) (ret : name) : prog unit :=
  let W := Tmp s 0 in
  do _ <- alloc s 0;
  let '(T1, T2) := if Z.even (dprodBlen d) then (W, ret) else (ret, W) in
  do _ <- call [3; dN d] [A lstart] [T1];
  do _ <- pfor 1 (dprodBlen d) (fun i st =>
    let '(T1, T2) := st in
    do _ <- call [4; dN d] [A (lstart + i); T1] [T2];
    Ret (T2, T1)) (T1, T2);
  Ret tt.

(** time_flow.c:218-260 [InitTimeStepMatrices], [InitPhononTimeStepMatrices] *)
Definition p_init (d : dims) (s : spin) (trial ph : bool) : prog unit :=
  do _ <- loop 0 (dL d) (fun l =>
    do _ <- p_compute d s ph false (l * dN d) (Bmat s trial l);
    p_compute d s ph true (l * dN d) (Binv s trial l));
  loop 0 (dnumBprod d) (fun l => p_product d s (Bmat s trial) (l * dprodBlen d) (Bprod s trial l)).

(** time_flow.c:268-301 [UpdateTimeStepMatrices], [UpdatePhononTimeStepMatrices] *)
Definition p_update (d : dims) (s : spin) (ph : bool) (l : Z) : prog unit :=
  do _ <- p_compute d s ph false (l * dN d) (Bmat s false l);
  do _ <- p_compute d s ph true (l * dN d) (Binv s false l);
  if Z.rem l (dprodBlen d) =? dprodBlen d - 1
  then
    let lstart := l - (dprodBlen d - 1) in
    p_product d s (Bmat s false) lstart (Bprod s false (Z.quot lstart (dprodBlen d)))
  else Ret tt.

(** time_flow.c:324-491 [TimeFlowMap]; W = Tmp 1, norms = Tmp 2, jpvt = Tmp 3, v = Tmp 4 *)
Definition p_time_flow_map (d : dims) (s : spin) (trial : bool) (slice_shift : Z) (Q tau dd T : name) : prog unit :=
  let W := Tmp s 1 in let norms := Tmp s 2 in let jpvt := Tmp s 3 in let v := Tmp s 4 in
  let shift := Z.quot slice_shift (dprodBlen d) in
  do _ <- alloc s 1; do _ <- alloc s 2; do _ <- alloc s 3; do _ <- alloc s 4;
  (* memcpy(Q, srcBprod, ...) *)
  do _ <- call [5; dN d] [Bprod s trial (Z.rem shift (dnumBprod d))] [Q];
  (* memset(jpvt, ...), LAPACKE_dgeqp3 *)
  do _ <- call [6; dN d] [] [jpvt];
  do _ <- call [7; dN d] [] [Q; jpvt; tau];
  (* diagonal entries; T_1 *)
  do _ <- loop 0 (dN d) (fun i => call [8; i] [Q] [dd; v]);
  do _ <- call [9; dN d] [] [T];
  do _ <- loop 0 (dN d) (fun j => call [10; j] [v; Q] [jpvt; T]);
  loop 1 (dnumBprod d) (fun l =>
    do _ <- call [11; dN d] [Bprod s trial (Z.rem (l + shift) (dnumBprod d))] [W];
    (* LAPACKE_dormqr *)
    do _ <- call [12; dN d] [Q; tau] [W];
    do _ <- loop 0 (dN d) (fun i => call [13; i] [dd] [W]);
    do _ <- loop 0 (dN d) (fun j => call [14; j] [W] [norms]);
    (* insertion sort *)
    do _ <- call [15; dN d] [norms] [jpvt];
    do _ <- loop 0 (dN d) (fun j => call [16; j] [W; jpvt] [Q]);
    (* LAPACKE_dgeqrf *)
    do _ <- call [17; dN d] [] [Q; tau];
    do _ <- loop 0 (dN d) (fun i => call [18; i] [Q] [dd; v]);
    do _ <- loop 0 (dN d) (fun j => call [19; j] [v] [Q]);
    do _ <- loop 0 (dN d) (fun j => call [20; j] [jpvt] [v; T]);
    (* cblas_dtrmm *)
    call [21; dN d] [Q] [T]).

(** greens_func.c:60-161 [GreenConstruct]; Q = Tmp 5, tau = Tmp 6, d = Tmp 7, T = Tmp 8, ipiv = Tmp 9 *)
Definition p_construct (d : dims) (s : spin) (trial : bool) (slice_shift : Z) : prog unit :=
  let Q := Tmp s 5 in let tau := Tmp s 6 in let dd := Tmp s 7 in let T := Tmp s 8 in let ipiv := Tmp s 9 in
  let G := Gmat s trial in let det := Gdet s trial in
  do _ <- alloc s 5; do _ <- alloc s 6; do _ <- alloc s 7; do _ <- alloc s 8;
  do _ <- p_time_flow_map d s trial slice_shift Q tau dd T;
  (* D_b^{-1}, LAPACKE_dormqr *)
  do _ <- call [22; dN d] [] [G];
  do _ <- loop 0 (dN d) (fun i => call [23; i] [dd] [G]);
  do _ <- call [24; dN d] [Q; tau] [G];
  (* D_s T; cblas_daxpy *)
  do _ <- loop 0 (dN d) (fun i => call [25; i] [dd] [T]);
  do _ <- call [26; dN d] [G] [T];
  (* LAPACKE_dgetrf *)
  do _ <- alloc s 9;
  do _ <- call [27; dN d] [] [T; ipiv];
  (* determinant *)
  do _ <- call [28] [] [det];
  do _ <- loop 0 (dN d) (fun i => call [29; i] [T; ipiv] [det]);
  do _ <- loop 0 (dN d) (fun i => call [30; i] [dd] [det]);
  do _ <- loop 0 (dN d) (fun i => call [31; i] [tau] [det]);
  (* LAPACKE_dgetrs *)
  call [32; dN d] [T; ipiv] [G].

(** linalg.c:161-192 [BlockCyclicQR]; returns info *)
Definition p_cyclic_qr (d : dims) (H tau : name) : prog Z :=
  let p := dnumBprod d in
  do st <- pfor 0 (p - 2) (fun i st =>
    if st =? 0 then
      do info <- routine [33; i] [] [H; tau];
      if info <? 0 then Ret info else
      do info <- routine [34; i] [tau] [H];
      if info <? 0 then Ret info else
      do info <- routine [35; i] [tau] [H];
      if info <? 0 then Ret info else Ret 0
    else Ret st) 0;
  if st =? 0 then
    do info <- routine [36; p] [] [H; tau];
    if info <? 0 then Ret info else Ret 0
  else Ret st.

(** linalg.c:209-266 [BlockCyclicTriangularInverse]; returns info *)
Definition p_cyclic_tri (d : dims) (H : name) : prog Z :=
  let p := dnumBprod d in
  if p <=? 2 then routine [37; p] [] [H]
  else
    do info <- routine [38; p] [] [H];
    if negb (info =? 0) then Ret info
    else if p <=? 3 then Ret 0
    else
      do _ <- call [39; p] [] [H];
      pfor 0 (p - 3) (fun k st =>
        let i := p - 4 - k in
        if st =? 0 then
          do info <- routine [40; i] [] [H];
          if negb (info =? 0) then Ret info
          else
            do _ <- call [41; i] [] [H]; do _ <- call [42; i] [] [H];
            do _ <- call [43; i] [] [H]; do _ <- call [44; i] [] [H];
            Ret 0
        else Ret st) 0.

(** linalg.c:312-344 [BlockCyclicInverseRotation]; Q = Tmp 10 *)
Definition p_cyclic_rotation (d : dims) (s : spin) (H tau : name) : prog unit :=
  let p := dnumBprod d in let Q := Tmp s 10 in
  do _ <- alloc s 10;
  do _ <- call [45; p] [] [H; Q];
  do _ <- call [46; p] [Q; tau] [H];
  loop 0 (p - 2) (fun k =>
    let i := p - 3 - k in
    do _ <- call [47; i] [] [H; Q];
    call [48; i] [Q; tau] [H]).

(** linalg.c:361-376 [BlockCyclicInverse]; tau = Tmp 11; the caller ignores the result *)
Definition p_cyclic_inverse (d : dims) (s : spin) (H : name) : prog unit :=
  let tau := Tmp s 11 in
  do _ <- alloc s 11;
  do info <- p_cyclic_qr d H tau;
  if negb (info =? 0) then Ret tt
  else
    do info <- p_cyclic_tri d H;
    if negb (info =? 0) then Ret tt else p_cyclic_rotation d s H tau.

(** greens_func.c:202-215 [GreenTimeSliceWrap]; T = Tmp 12 *)
Definition p_wrap (d : dims) (s : spin) (B invB G : name) : prog unit :=
  do _ <- alloc s 12;
  do _ <- call [49; dN d] [B; G] [Tmp s 12];
  call [50; dN d] [Tmp s 12; invB] [G].

(** greens_func.c:237-323 [ComputeUnequalTimeGreensFunction]; Gtau0, G0tau, Geqlt = Utau 0, 1, 2; T = Tmp 13 *)
Definition p_unequal (d : dims) (s : spin) : prog unit :=
  let H := Hbuf s in let Gtau0 := Utau s 0 in let G0tau := Utau s 1 in let Geqlt := Utau s 2 in
  do _ <- call [51; dN d] [] [H];
  do _ <- loop 0 (dnumBprod d * dN d) (fun i => call [52; i] [] [H]);
  do _ <- loop 0 (dnumBprod d) (fun i => call [53; i] [Bprod s false i] [H]);
  do _ <- p_cyclic_inverse d s H;
  do _ <- loop 0 (dL d) (fun i =>
    if Z.rem i (dprodBlen d) =? 0 then call [54; i] [H] [Gtau0]
    else call [55; i] [Bmat s false (i - 1)] [Gtau0]);
  do _ <- loop 0 (dL d) (fun i =>
    if Z.rem i (dprodBlen d) =? 0 then call [56; i] [H] [G0tau]
    else if i =? 1 then
      do _ <- alloc s 13;
      do _ <- call [57; i] [H] [Tmp s 13];
      do _ <- loop 0 (dN d) (fun j => call [58; j] [] [Tmp s 13]);
      call [59; i] [Tmp s 13; Binv s false (i - 1)] [G0tau]
    else call [60; i] [Binv s false (i - 1)] [G0tau]);
  loop 0 (dL d) (fun i =>
    if Z.rem i (dprodBlen d) =? 0 then call [61; i] [H] [Geqlt]
    else
      do _ <- call [62; i] [] [Geqlt];
      p_wrap d s (Bmat s false (i - 1)) (Binv s false (i - 1)) Geqlt).

(** greens_func.c:169-195 [GreenShermanMorrisonUpdate]; c, d = Tmp 14, 15; [flip]: the argument [delta] is read from
    the table of the Hubbard-Stratonovich parameters in the section *)
Definition p_rank1 (d : dims) (s : spin) (flip : bool) (i l : Z) : prog unit :=
  let c := Tmp s 14 in let dd := Tmp s 15 in let G := Gmat s false in
  do delta <- routine [63; i; l] (if flip then [Field; Delta false; Delta true] else []) [];
  do _ <- alloc s 14;
  do _ <- loop 0 (dN d) (fun j => call [64; i; j] [G] [c]);
  do _ <- call [65; i] [] [c];
  do _ <- alloc s 15;
  do _ <- call [66; i] [G] [dd];
  call [67; delta; i] [c; dd] [G].

(** the body of a section; [shift]: the argument slice_shift of [GreenConstruct]; [i], [l]: the site and the slice
    that are updated *)
Definition section_program (d : dims) (c : construct) (i l shift : Z) (s : spin) : prog unit :=
  match c with
  | Wrap k => p_wrap d s (Bmat s false k) (Binv s false k) (Gmat s false)
  | FlipUpdate => p_rank1 d s true i l
  | ShiftUpdate => p_rank1 d s false i l
  | Rebuild k ph => p_update d s ph k
  | Init trial ph => p_init d s trial ph
  | Construct trial => p_construct d s trial shift
  | Unequal => p_unequal d s
  end.
End Sections.
