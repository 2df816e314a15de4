(** Model of /repo/src/monte_carlo.c:31-178: one Monte Carlo sweep over the Hubbard-Stratonovich field.

    The accumulation of equal time data is a parameter ([measure]).  The two sections of each
    parallel region are executed one after the other (see Threads.v for interleavings).  Profiling and
    the debug output (DEBUG is not defined in the makefile) are left out. *)
From Coq Require Import ZArith List Reals.
From Verif Require Import Base RealOps ParamParser Blas MatProd TimeStep Strat GreenUpdate Lapack TimeFlow GreenConstruct RandSource.
Import ListNotations.
Local Open Scope Z_scope.

(** monte_carlo.c:89-90: determinant ratio for scaling row i by 1 + delta *)
Definition det_ratio_at (N i : Z) (delta : R) (G : greens_func) : option R :=
  let* g := aget (gf_mat G) (i + i * N) in Some (1 + (1 - g) * delta)%R.

(** monte_carlo.c:102-105: determinant after the update *)
Definition det_scaled (du : R) (G : greens_func) : option greens_func :=
  let* x := rlog (Rabs du) in
  Some (mk_greens (gf_mat G) (gf_logdet G - x)%R (if Rlt_dec du 0 then - gf_sgndet G else gf_sgndet G) (gf_N G)).

(** monte_carlo.c:94-100: GreenShermanMorrisonUpdate(delta, N, i, G->mat) *)
Definition rank1 (junk : Z -> R) (delta : R) (N i : Z) (G : greens_func) : option greens_func :=
  let* m := sherman_morrison junk delta N i (gf_mat G) in
  Some (mk_greens m (gf_logdet G) (gf_sgndet G) (gf_N G)).

(** monte_carlo.c:93-105: accepted update of both Green's functions *)
Definition update_both (junk : Z -> R) (N i : Z) (delta_u delta_d du dd : R) (Gu Gd : greens_func)
  : option (greens_func * greens_func) :=
  let* Gu := rank1 junk delta_u N i Gu in
  let* Gd := rank1 junk delta_d N i Gd in
  let* Gu := det_scaled du Gu in
  let* Gd := det_scaled dd Gd in
  Some (Gu, Gd).

(** entry [v][o] of a table of two arrays *)
Definition tab2 (t : list (list R)) (v o : Z) : option R := let* r := aget t v in aget r o.

(** the state changed by a sweep; [mc_order] is the work array orb_cell_order *)
Record mcstate (RS MT : Type) := mk_mc {
  mc_seed : RS; mc_order : list Z; mc_s : list Z; mc_tu : tsm; mc_td : tsm;
  mc_Gu : greens_func; mc_Gd : greens_func; mc_meas : MT }.
Arguments mk_mc {RS MT}. Arguments mc_seed {RS MT}. Arguments mc_order {RS MT}. Arguments mc_s {RS MT}.
Arguments mc_tu {RS MT}. Arguments mc_td {RS MT}. Arguments mc_Gu {RS MT}. Arguments mc_Gd {RS MT}. Arguments mc_meas {RS MT}.

Section Sweep.
Context {RS MT : Type}.
Variable rng : rand_source RS.
Variable measure : greens_func -> greens_func -> MT -> option MT.
Variable la : lapack.
Variable junk : Z -> R.

(** monte_carlo.c:67-73: time slice wraps *)
Definition wrap_both (l : Z) (m : mcstate RS MT) : option (mcstate RS MT) :=
  let N := ts_N (mc_tu m) in
  let* Bu := aget (ts_B (mc_tu m)) l in
  let* iBu := aget (ts_invB (mc_tu m)) l in
  let* gu := slice_wrap junk N Bu iBu (gf_mat (mc_Gu m)) in
  let* Bd := aget (ts_B (mc_td m)) l in
  let* iBd := aget (ts_invB (mc_td m)) l in
  let* gd := slice_wrap junk N Bd iBd (gf_mat (mc_Gd m)) in
  Some (mk_mc (mc_seed m) (mc_order m) (mc_s m) (mc_tu m) (mc_td m)
    (mk_greens gu (gf_logdet (mc_Gu m)) (gf_sgndet (mc_Gu m)) (gf_N (mc_Gu m)))
    (mk_greens gd (gf_logdet (mc_Gd m)) (gf_sgndet (mc_Gd m)) (gf_N (mc_Gd m))) (mc_meas m)).

(** monte_carlo.c:83-109: proposal to flip s_{i,l} *)
Definition hs_site (k : kinetic) (st : strat) (l i : Z) (m : mcstate RS MT) : option (mcstate RS MT) :=
  let N := ts_N (mc_tu m) in
  let* o := cdiv i (k_Ncell k) in
  let* si := aget (mc_s m) (i + l * N) in
  let* delta_u := tab2 (st_delta st) si o in
  let* du := det_ratio_at N i delta_u (mc_Gu m) in
  let* delta_d := tab2 (st_delta st) (1 - si) o in
  let* dd := det_ratio_at N i delta_d (mc_Gd m) in
  let* ux := r_uniform rng (mc_seed m) in
  let '(u, seed) := ux in
  if Rlt_dec u (Rabs (du * dd)) then
    let* G := update_both junk N i delta_u delta_d du dd (mc_Gu m) (mc_Gd m) in
    let* s := aset (mc_s m) (i + l * N) (1 - si) in
    Some (mk_mc seed (mc_order m) s (mc_tu m) (mc_td m) (fst G) (snd G) (mc_meas m))
  else Some (mk_mc seed (mc_order m) (mc_s m) (mc_tu m) (mc_td m) (mc_Gu m) (mc_Gd m) (mc_meas m)).

(** monte_carlo.c:78-110 and 550-582: all sites in random order *)
Definition hs_sites (k : kinetic) (st : strat) (l : Z) (m : mcstate RS MT) : option (option (mcstate RS MT)) :=
  let N := ts_N (mc_tu m) in
  let* sh := r_shuffle rng (mc_seed m) N (mc_order m) in
  match sh with
  | None => Some None
  | Some (seed, order) =>
    let m := mk_mc seed order (mc_s m) (mc_tu m) (mc_td m) (mc_Gu m) (mc_Gd m) (mc_meas m) in
    let* m := for_range 0 N (fun j m => let* i := aget (mc_order m) j in hs_site k st l i m) m in
    Some (Some m)
  end.

(** monte_carlo.c:124-160: recompute the Green's functions after every nwraps slices *)
Definition recompute_both (nwraps l : Z) (m : mcstate RS MT) : option (mcstate RS MT) :=
  let* r := cmod (l + 1) nwraps in
  if r =? 0 then
    let* sh := cmod (l + 1) (ts_L (mc_tu m)) in
    let* Gu := green_construct la junk (mc_tu m) sh (mc_Gu m) in
    let* Gd := green_construct la junk (mc_td m) sh (mc_Gd m) in
    Some (mk_mc (mc_seed m) (mc_order m) (mc_s m) (mc_tu m) (mc_td m) Gu Gd (mc_meas m))
  else Some m.

(** monte_carlo.c:113-121: new time step matrices *)
Definition update_tsms (k : kinetic) (st : strat) (l : Z) (m : mcstate RS MT) : option (mcstate RS MT) :=
  let* tu := update_tsm junk k (expVu st) (mc_s m) l (mc_tu m) in
  let* td := update_tsm junk k (expVd st) (mc_s m) l (mc_td m) in
  Some (mk_mc (mc_seed m) (mc_order m) (mc_s m) tu td (mc_Gu m) (mc_Gd m) (mc_meas m)).

(** monte_carlo.c:162-168: equal time measurement *)
Definition measure_slice (neqlt l : Z) (m : mcstate RS MT) : option (mcstate RS MT) :=
  if 0 <? neqlt then
    let* r := cmod (l + 1) neqlt in
    if r =? 0 then
      let* d := measure (mc_Gu m) (mc_Gd m) (mc_meas m) in
      Some (mk_mc (mc_seed m) (mc_order m) (mc_s m) (mc_tu m) (mc_td m) (mc_Gu m) (mc_Gd m) d)
    else Some m
  else Some m.

(** monte_carlo.c:65-169: one time slice *)
Definition dqmc_slice (k : kinetic) (st : strat) (nwraps neqlt l : Z) (m : mcstate RS MT)
  : option (option (mcstate RS MT)) :=
  let* m := wrap_both l m in
  let* o := hs_sites k st l m in
  match o with
  | None => Some None
  | Some m =>
    let* m := update_tsms k st l m in
    let* m := recompute_both nwraps l m in
    let* m := measure_slice neqlt l m in
    Some (Some m)
  end.

(** monte_carlo.c:31-178 [DQMCIteration] *)
Definition dqmc_iteration (k : kinetic) (st : strat) (nwraps neqlt : Z) (m : mcstate RS MT)
  : option (option (mcstate RS MT)) :=
  for_range 0 (ts_L (mc_tu m)) (fun l => may_hang (dqmc_slice k st nwraps neqlt l)) (Some m).

(** monte_carlo.c:770-808, without phonons: initial time step matrices and Green's functions *)
Definition dqmc_setup (k : kinetic) (st : strat) (N L prodBlen : Z) (seed : RS) (order s : list Z) (d : MT)
  : option (mcstate RS MT) :=
  let* tu := allocate_tsm junk N L prodBlen in
  let* td := allocate_tsm junk N L prodBlen in
  let* tu := init_tsm junk k (expVu st) s tu in
  let* td := init_tsm junk k (expVd st) s td in
  let* Gu := green_construct la junk tu 0 (allocate_greens junk N) in
  let* Gd := green_construct la junk td 0 (allocate_greens junk N) in
  Some (mk_mc seed order s tu td Gu Gd d).

(** monte_carlo.c:818-842, without phonons: [count] sweeps; [neqlt] may depend on the sweep *)
Definition dqmc_sweeps (k : kinetic) (st : strat) (nwraps : Z) (neqlt : Z -> Z) (count : Z) (m : mcstate RS MT)
  : option (option (mcstate RS MT)) :=
  for_range 0 count (fun it => may_hang (dqmc_iteration k st nwraps (neqlt it))) (Some m).
End Sweep.
