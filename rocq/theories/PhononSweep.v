(** Model of /repo/src/monte_carlo.c:181-724: Monte Carlo sweep with phonons.

    Doubles are real numbers; expm1(x) is exp(x) - 1.  The two accumulation functions are parameters,
    the sections of a parallel region are executed one after the other, profiling and debug output are
    left out, and the update counters do not wrap around. *)
From Coq Require Import ZArith List Reals.
From Verif Require Import Base RealOps SimParams ParamParser Blas MatProd TimeStep Strat GreenUpdate Lapack TimeFlow GreenConstruct RandSource Sweep.
Import ListNotations.
Local Open Scope Z_scope.

(** include/measurement.h: counters of measurement_data_phonon_t *)
Record counts := mk_counts {
  n_local_accept : Z; n_local_total : Z; n_block_accept : Z; n_block_total : Z; n_flip_accept : Z; n_flip_total : Z }.
Definition count_local (acc tot : Z) (c : counts) : counts :=
  mk_counts (n_local_accept c + acc) (n_local_total c + tot) (n_block_accept c) (n_block_total c) (n_flip_accept c) (n_flip_total c).
Definition count_block (acc tot : Z) (c : counts) : counts :=
  mk_counts (n_local_accept c) (n_local_total c) (n_block_accept c + acc) (n_block_total c + tot) (n_flip_accept c) (n_flip_total c).
Definition count_flip (acc tot : Z) (c : counts) : counts :=
  mk_counts (n_local_accept c) (n_local_total c) (n_block_accept c) (n_block_total c) (n_flip_accept c + acc) (n_flip_total c + tot).

(** the state changed by a sweep: as without phonons, and the phonon field, its exponential, the counters
    and the other phonon measurement data *)
Record phstate (RS MT PT : Type) := mk_ph {
  p_mc : mcstate RS MT; p_X : list R; p_expX : list R; p_cnt : counts; p_meas : PT }.
Arguments mk_ph {RS MT PT}. Arguments p_mc {RS MT PT}. Arguments p_X {RS MT PT}. Arguments p_expX {RS MT PT}.
Arguments p_cnt {RS MT PT}. Arguments p_meas {RS MT PT}.

(** [m] with another seed *)
Definition set_seed {RS MT} (seed : RS) (m : mcstate RS MT) : mcstate RS MT :=
  mk_mc seed (mc_order m) (mc_s m) (mc_tu m) (mc_td m) (mc_Gu m) (mc_Gd m) (mc_meas m).
(** [m] with other Green's functions *)
Definition set_greens {RS MT} (Gu Gd : greens_func) (m : mcstate RS MT) : mcstate RS MT :=
  mk_mc (mc_seed m) (mc_order m) (mc_s m) (mc_tu m) (mc_td m) Gu Gd (mc_meas m).
(** [m] with other time step matrices *)
Definition set_tsms {RS MT} (tu td : tsm) (m : mcstate RS MT) : mcstate RS MT :=
  mk_mc (mc_seed m) (mc_order m) (mc_s m) tu td (mc_Gu m) (mc_Gd m) (mc_meas m).

(** monte_carlo.c:251-257: copy of entries i + l*N *)
Definition save_col (junk : Z -> R) (L N i : Z) (A : list R) : option (list R) :=
  for_range 0 L (fun l c => let* v := aget A (i + l * N) in aset c l v) (fresh junk L).
(** monte_carlo.c:309-314: restore them *)
Definition restore_col (L N i : Z) (c A : list R) : option (list R) :=
  for_range 0 L (fun l A => let* v := aget c l in aset A (i + l * N) v) A.

(** monte_carlo.c:262-268: change of the energy by a block update *)
Definition block_dE (w dx : R) (L N i : Z) (X : list R) : option R :=
  let* e := for_range 0 L (fun l e => let* x := aget X (i + l * N) in Some (e + (dx + 2 * x))%R) 0%R in
  Some (e * (0.5 * (w * w) * dx))%R.

(** monte_carlo.c:270-275: shift of the phonon field at all slices *)
Definition block_shift (dt g dx : R) (L N i : Z) (Xe : list R * list R) : option (list R * list R) :=
  for_range 0 L (fun l Xe =>
    let '(X, eX) := Xe in
    let* x := aget X (i + l * N) in
    let* X := aset X (i + l * N) (x + dx)%R in
    let* x := aget X (i + l * N) in
    let* eX := aset eX (i + l * N) (exp (- dt * g * x)) in
    Some (X, eX)) Xe.

(** monte_carlo.c:409-417: reflection of the phonon field at all slices and change of the energy *)
Definition flip_shift (dt g w flip : R) (L N i : Z) (ref : list R) (st : R * (list R * list R)) : option (R * (list R * list R)) :=
  for_range 0 L (fun l st =>
    let '(e, (X, eX)) := st in
    let* r := aget ref l in
    let e := (e + 0.5 * (w * w) * (- flip) * (- flip + 2 * r))%R in
    let* X := aset X (i + l * N) (flip - r)%R in
    let* x := aget X (i + l * N) in
    let* eX := aset eX (i + l * N) (exp (- dt * g * x)) in
    Some (e, (X, eX))) st.

Section PhononSweep.
Context {RS MT PT : Type}.
Variable rng : rand_source RS.
Variable measure : greens_func -> greens_func -> MT -> option MT.
Variable measure_ph : greens_func -> greens_func -> Z -> list R -> PT -> option PT.
Variable la : lapack.
Variable junk : Z -> R.

(** state of the loop of block and flip updates: also the storage for the new time step matrices and
    Green's functions (monte_carlo.c:228-237) *)
Record blkstate := mk_blk { b_p : phstate RS MT PT; b_tu : tsm; b_td : tsm; b_Gu : greens_func; b_Gd : greens_func }.

(** monte_carlo.c:277-315 and 419-458: decide about the new field [X], [eX]; [Xi], [eXi] are the saved entries *)
Definition block_decide (k : kinetic) (st : strat) (dt : R) (L N i : Z) (count : Z -> Z -> counts -> counts)
    (dE : R) (Xi eXi X eX : list R) (b : blkstate) : option blkstate :=
  let p := b_p b in
  let m := p_mc p in
  let* tun := init_phonon_tsm junk k (expVu st) (mc_s m) eX (b_tu b) in
  let* tdn := init_phonon_tsm junk k (expVd st) (mc_s m) eX (b_td b) in
  let* Gun := green_construct la junk tun 0 (b_Gu b) in
  let* Gdn := green_construct la junk tdn 0 (b_Gd b) in
  let* ux := r_uniform rng (mc_seed m) in
  let '(u, seed) := ux in
  if Rlt_dec u (exp ((gf_logdet (mc_Gu m) + gf_logdet (mc_Gd m)) - (gf_logdet Gun + gf_logdet Gdn) - dt * dE)) then
    let* Gu := copy_greens Gun (mc_Gu m) in
    let* Gd := copy_greens Gdn (mc_Gd m) in
    let* tu := copy_tsm tun (mc_tu m) in
    let* td := copy_tsm tdn (mc_td m) in
    Some (mk_blk (mk_ph (mk_mc seed (mc_order m) (mc_s m) tu td Gu Gd (mc_meas m)) X eX (count 1 1 (p_cnt p)) (p_meas p)) tun tdn Gun Gdn)
  else
    let* X := restore_col L N i Xi X in
    let* eX := restore_col L N i eXi eX in
    Some (mk_blk (mk_ph (set_seed seed m) X eX (count 0 1 (p_cnt p)) (p_meas p)) tun tdn Gun Gdn).

(** monte_carlo.c:241-316: one block update *)
Definition block_update (k : kinetic) (st : strat) (ph : phonon_params) (dt : R) (b : blkstate) : option (option blkstate) :=
  let p := b_p b in
  let m := p_mc p in
  let N := ts_N (mc_tu m) in
  let L := ts_L (mc_tu m) in
  let* r := r_bounded rng (mc_seed m) N in
  match r with
  | None => Some None
  | Some (i, seed) =>
    let b := mk_blk (mk_ph (set_seed seed m) (p_X p) (p_expX p) (p_cnt p) (p_meas p)) (b_tu b) (b_td b) (b_Gu b) (b_Gd b) in
    let* o := cdiv i (k_Ncell k) in
    let* g := aget (ph_g ph) o in
    if Req_EM_T g 0 then Some (Some b) else
    let* Xi := save_col junk L N i (p_X p) in
    let* eXi := save_col junk L N i (p_expX p) in
    let* ux := r_uniform rng seed in
    let '(u, seed) := ux in
    let b := mk_blk (mk_ph (set_seed seed m) (p_X p) (p_expX p) (p_cnt p) (p_meas p)) (b_tu b) (b_td b) (b_Gu b) (b_Gd b) in
    let dx := ((u - 0.5) * ph_block_box_width ph)%R in
    let* w := aget (ph_omega ph) o in
    let* dE := block_dE w dx L N i (p_X p) in
    let* Xe := block_shift dt g dx L N i (p_X p, p_expX p) in
    let '(X, eX) := Xe in
    let* b := block_decide k st dt L N i count_block dE Xi eXi X eX b in
    Some (Some b)
  end.

(** monte_carlo.c:389-459: one flip update *)
Definition flip_update (k : kinetic) (st : strat) (ph : phonon_params) (dt mu : R) (b : blkstate) : option (option blkstate) :=
  let p := b_p b in
  let m := p_mc p in
  let N := ts_N (mc_tu m) in
  let L := ts_L (mc_tu m) in
  let* r := r_bounded rng (mc_seed m) N in
  match r with
  | None => Some None
  | Some (i, seed) =>
    let b := mk_blk (mk_ph (set_seed seed m) (p_X p) (p_expX p) (p_cnt p) (p_meas p)) (b_tu b) (b_td b) (b_Gu b) (b_Gd b) in
    let* o := cdiv i (k_Ncell k) in
    let* g := aget (ph_g ph) o in
    if Req_EM_T g 0 then Some (Some b) else
    let* Xi := save_col junk L N i (p_X p) in
    let* eXi := save_col junk L N i (p_expX p) in
    let* flip := rdiv (2 * mu) g in
    let* w := aget (ph_omega ph) o in
    let* eXe := flip_shift dt g w flip L N i Xi (0%R, (p_X p, p_expX p)) in
    let '(dE, (X, eX)) := eXe in
    let* b := block_decide k st dt L N i count_flip dE Xi eXi X eX b in
    Some (Some b)
  end.

(** monte_carlo.c:201-325 [PhononBlockUpdates] and 349-468 [PhononFlipUpdates], with [upd] the update of one site *)
Definition block_updates (ph : phonon_params) (upd : blkstate -> option (option blkstate)) (p : phstate RS MT PT)
  : option (option (phstate RS MT PT)) :=
  let tu := mc_tu (p_mc p) in
  let td := mc_td (p_mc p) in
  let N := ts_N tu in
  let L := ts_L tu in
  if ph_n_block_updates ph <=? 0 then Some (Some p) else
  let* tun := allocate_tsm junk N L (ts_prodBlen tu) in
  let* tdn := allocate_tsm junk N L (ts_prodBlen td) in
  let* o := for_range 0 (ph_n_block_updates ph) (fun _ => may_hang upd)
              (Some (mk_blk p tun tdn (allocate_greens junk N) (allocate_greens junk N))) in
  Some (match o with None => None | Some b => Some (b_p b) end).

(** monte_carlo.c:587-588: next and previous time slice; 616: change of the energy by a local update *)
Definition local_dE (dt w dx : R) (L N l i : Z) (X : list R) : option R :=
  let* l_next := cmod (l + 1) L in
  let* l_prev := cmod (l + L - 1) L in
  let* inv_dt_sq := rdiv 1 (dt * dt) in
  let* x := aget X (i + l * N) in
  let* xn := aget X (i + l_next * N) in
  let* xp := aget X (i + l_prev * N) in
  Some (dx * (0.5 * (w * w) * (dx + 2 * x) + inv_dt_sq * (dx - (xn - 2 * x + xp))))%R.

(** monte_carlo.c:597-639: local update at site i of slice l *)
Definition local_update (k : kinetic) (ph : phonon_params) (dt : R) (l i : Z) (p : phstate RS MT PT) : option (phstate RS MT PT) :=
  let m := p_mc p in
  let N := ts_N (mc_tu m) in
  let L := ts_L (mc_tu m) in
  let* o := cdiv i (k_Ncell k) in
  let* g := aget (ph_g ph) o in
  if Req_EM_T g 0 then Some p else
  let* ux := r_uniform rng (mc_seed m) in
  let '(u, seed) := ux in
  let dx := ((u - 0.5) * ph_local_box_width ph)%R in
  let delta := (exp (- dt * g * dx) - 1)%R in
  let* du := det_ratio_at N i delta (mc_Gu m) in
  let* dd := det_ratio_at N i delta (mc_Gd m) in
  let* w := aget (ph_omega ph) o in
  let* dE := local_dE dt w dx L N l i (p_X p) in
  let* ux := r_uniform rng seed in
  let '(u, seed) := ux in
  if Rlt_dec u (Rabs (du * dd) * exp (- dt * dE)) then
    let* G := update_both junk N i delta delta du dd (mc_Gu m) (mc_Gd m) in
    let* x := aget (p_X p) (i + l * N) in
    let* X := aset (p_X p) (i + l * N) (x + dx)%R in
    let* x := aget X (i + l * N) in
    let* eX := aset (p_expX p) (i + l * N) (exp (- dt * g * x)) in
    Some (mk_ph (set_seed seed (set_greens (fst G) (snd G) m)) X eX (count_local 1 1 (p_cnt p)) (p_meas p))
  else Some (mk_ph (set_seed seed m) (p_X p) (p_expX p) (count_local 0 1 (p_cnt p)) (p_meas p)).

(** monte_carlo.c:592-640: all local updates of a slice *)
Definition local_updates (k : kinetic) (ph : phonon_params) (dt : R) (l : Z) (p : phstate RS MT PT) : option (option (phstate RS MT PT)) :=
  let m := p_mc p in
  let N := ts_N (mc_tu m) in
  let* sh := r_shuffle rng (mc_seed m) N (mc_order m) in
  match sh with
  | None => Some None
  | Some (seed, order) =>
    let p := mk_ph (mk_mc seed order (mc_s m) (mc_tu m) (mc_td m) (mc_Gu m) (mc_Gd m) (mc_meas m)) (p_X p) (p_expX p) (p_cnt p) (p_meas p) in
    let* p := for_range 0 (ph_n_local_updates ph) (fun j p =>
      let* r := cmod j N in let* i := aget (mc_order (p_mc p)) r in local_update k ph dt l i p) p in
    Some (Some p)
  end.

(** monte_carlo.c:643-651 *)
Definition update_phonon_tsms (k : kinetic) (st : strat) (l : Z) (p : phstate RS MT PT) : option (phstate RS MT PT) :=
  let m := p_mc p in
  let* tu := update_phonon_tsm junk k (expVu st) (mc_s m) (p_expX p) l (mc_tu m) in
  let* td := update_phonon_tsm junk k (expVd st) (mc_s m) (p_expX p) l (mc_td m) in
  Some (mk_ph (set_tsms tu td m) (p_X p) (p_expX p) (p_cnt p) (p_meas p)).

(** monte_carlo.c:692-703 *)
Definition measure_phonon_slice (neqlt l : Z) (p : phstate RS MT PT) : option (phstate RS MT PT) :=
  if 0 <? neqlt then
    let* r := cmod (l + 1) neqlt in
    if r =? 0 then
      let* m := measure_slice measure neqlt l (p_mc p) in
      let* d := measure_ph (mc_Gu m) (mc_Gd m) l (p_X p) (p_meas p) in
      Some (mk_ph m (p_X p) (p_expX p) (p_cnt p) d)
    else Some p
  else Some p.

(** monte_carlo.c:535-704: one time slice *)
Definition phonon_slice (k : kinetic) (noHS : bool) (st : strat) (ph : phonon_params) (dt : R) (nwraps neqlt l : Z)
    (p : phstate RS MT PT) : option (option (phstate RS MT PT)) :=
  let* m := wrap_both junk l (p_mc p) in
  let* o := (if noHS then Some (Some m) else hs_sites rng junk k st l m) in
  match o with
  | None => Some None
  | Some m =>
    let* o := local_updates k ph dt l (mk_ph m (p_X p) (p_expX p) (p_cnt p) (p_meas p)) in
    match o with
    | None => Some None
    | Some p =>
      let* p := update_phonon_tsms k st l p in
      let* m := recompute_both la junk nwraps l (p_mc p) in
      let* p := measure_phonon_slice neqlt l (mk_ph m (p_X p) (p_expX p) (p_cnt p) (p_meas p)) in
      Some (Some p)
    end
  end.

(** monte_carlo.c:495-724 [DQMCPhononIteration] *)
Definition phonon_iteration (k : kinetic) (noHS : bool) (st : strat) (ph : phonon_params) (dt mu : R) (nwraps neqlt : Z)
    (p : phstate RS MT PT) : option (option (phstate RS MT PT)) :=
  let* o := for_range 0 (ts_L (mc_tu (p_mc p))) (fun l => may_hang (phonon_slice k noHS st ph dt nwraps neqlt l)) (Some p) in
  let* o := may_hang (block_updates ph (block_update k st ph dt)) o in
  may_hang (block_updates ph (flip_update k st ph dt mu)) o.

(** monte_carlo.c:818-838, with phonons: [count] sweeps; [neqlt] may depend on the sweep *)
Definition phonon_sweeps (k : kinetic) (noHS : bool) (st : strat) (ph : phonon_params) (dt mu : R) (nwraps : Z) (neqlt : Z -> Z) (count : Z)
    (p : phstate RS MT PT) : option (option (phstate RS MT PT)) :=
  for_range 0 count (fun it => may_hang (phonon_iteration k noHS st ph dt mu nwraps (neqlt it))) (Some p).

(** monte_carlo.c:770-808, with phonons: initial time step matrices and Green's functions *)
Definition phonon_setup (k : kinetic) (st : strat) (N L prodBlen : Z) (seed : RS) (order s : list Z) (X expX : list R)
    (c : counts) (d : MT) (e : PT) : option (phstate RS MT PT) :=
  let* tu := allocate_tsm junk N L prodBlen in
  let* td := allocate_tsm junk N L prodBlen in
  let* tu := init_phonon_tsm junk k (expVu st) s expX tu in
  let* td := init_phonon_tsm junk k (expVd st) s expX td in
  let* Gu := green_construct la junk tu 0 (allocate_greens junk N) in
  let* Gd := green_construct la junk td 0 (allocate_greens junk N) in
  Some (mk_ph (mk_mc seed order s tu td Gu Gd d) X expX c e).

(** main.c:196-211: initial phonon field at one slice and site *)
Definition init_phonon_site (ph : phonon_params) (dt : R) (Ncell N l i : Z) (st : RS * (list R * list R)) : option (RS * (list R * list R)) :=
    let '(seed, (X, eX)) := st in
    let* o := cdiv i Ncell in
    let* g := aget (ph_g ph) o in
    let* xs := (if Req_EM_T g 0 then Some (0%R, seed) else
                let* ux := r_uniform rng seed in
                Some (((fst ux - 0.5) * ph_local_box_width ph)%R, snd ux)) in
    let '(x, seed) := xs in
    let* X := aset X (i + l * N) x in
    let* x := aget X (i + l * N) in
    let* eX := aset eX (i + l * N) (exp (- dt * g * x)) in
    Some (seed, (X, eX)).
(** main.c:192-214: all slices and sites *)
Definition init_phonon_field (ph : phonon_params) (dt : R) (Ncell N L : Z) (seed : RS) : option (RS * (list R * list R)) :=
  for_range 0 L (fun l => for_range 0 N (init_phonon_site ph dt Ncell N l)) (seed, (fresh junk (L * N), fresh junk (L * N))).
End PhononSweep.
