(** Model of the control flow of /repo/src/main.c:140-310 (main) and of
    /repo/src/monte_carlo.c:741-862 (DQMCSimulation), together with the parts of
    DQMCIteration / DQMCPhononIteration that decide when measurements are made.

    The Monte Carlo moves themselves, and the numbers that a measurement adds up,
    are parameters of this file (arbitrary functions): [C] is everything stored
    in a checkpoint apart from the iteration number (generator and field), [X] the
    phonon field, the rest of the state being recomputed from these.  The disk
    holds either nothing or the files written by a complete run of main (the
    reading and writing of the files is the subject of Checkpoint.v).

    Ghost output: the log of iterations executed and measurements taken. *)
From Coq Require Import ZArith List Reals Lra.
From Verif Require Import Base.
Import ListNotations.
Local Open Scope Z_scope.

(** sim_params.h, the parameters that matter here *)
Record dparams := mk_dparams {
  d_nequil : Z; d_nsampl : Z; d_L : Z; d_neqlt : Z; d_nuneqlt : Z; d_phonons : bool }.

(** measurement.h: number of samples and the accumulated numbers (sign first);
    [None] stands for "not a number". *)
Record meas := mk_meas { m_n : Z; m_val : option (list R) }.

(** measurement.c:83-113 and similar: all counters zero *)
Definition meas_zero (d : nat) : meas := mk_meas 0 (Some (repeat 0%R d)).

Definition vadd (v w : list R) : list R := map (fun '(a, b) => (a + b)%R) (combine v w).
Definition vscale (c : R) (v : list R) : list R := map (Rmult c) v.

(** measurement.c:170-313, 550-811, 992-1061: add the sample [v] and count it *)
Definition meas_add (m : meas) (v : list R) : meas :=
  mk_meas (m_n m + 1) (option_map (fun a => vadd a v) (m_val m)).

(** measurement.c:320-349, 818-852, 1068-1088: multiply by 1.0 / nsampl *)
Definition meas_normalize (m : meas) : meas :=
  mk_meas (m_n m)
    (if m_n m =? 0 then None else option_map (vscale (1 / IZR (m_n m))) (m_val m)).

(** log entries: iteration executed; equal time / phonon sample after time slice
    [l] of iteration [i]; unequal time sample in iteration [i] *)
Inductive dlog := LIter (i : Z) | LMeas (i l : Z) (v : list R) | LPhonon (i l : Z) (v : list R)
  | LUneq (i : Z) (v : list R).

(** The environment of one run: does the clock exceed the limit at the check of
    iteration [i] (monte_carlo.c:820); does SIGINT arrive after installation of
    the handler and before the first check; does it arrive during iteration [i]. *)
Record doracle := mk_oracle { o_time : Z -> bool; o_sig0 : bool; o_sig : Z -> bool }.

Section Driver.
Variables (C X : Type).
Variable slice : Z -> C * X -> C * X.         (* moves on time slice l *)
Variable post : C * X -> C * X.               (* block and flip updates, monte_carlo.c:706-715 *)
Variable eq_sample : C * X -> list R.         (* AccumulateMeasurement *)
Variable ph_sample : C * X -> list R.         (* AccumulatePhononData *)
Variable uneq_sample : C * X -> list R.       (* AccumulateUnequalTimeMeasurement *)
Variable fresh : C.                           (* main.c:147-155 *)
Variable init_X : C -> C * X.                 (* main.c:190-214, draws random numbers *)
Variable no_X : X.
Variable reload : C -> C.                     (* effect of save and load, cf. C08 *)
Variables (dim_eq dim_ph dim_un : nat).

Record dstate := mk_dstate { ds_c : C * X; ds_eq : meas; ds_ph : meas; ds_un : meas }.

(** monte_carlo.c:62-169 (and 532-715 with phonons): loop over time slices.
    [neqlt] is 0 while equilibrating. *)
Definition iteration_loop (p : dparams) (neqlt i : Z) (st : dstate) : option (dstate * list dlog) :=
  let* (st, lg) := for_range 0 (d_L p)
    (fun l '(st, lg) =>
       let c := slice l (ds_c st) in
       if (0 <? neqlt) && (Z.rem (l + 1) neqlt =? 0) then
         let v := eq_sample c in
         let st1 := mk_dstate c (meas_add (ds_eq st) v) (ds_ph st) (ds_un st) in
         if d_phonons p then
           let w := ph_sample c in
           Some (mk_dstate c (ds_eq st1) (meas_add (ds_ph st) w) (ds_un st),
                 lg ++ [LMeas i l v; LPhonon i l w])
         else Some (st1, lg ++ [LMeas i l v])
       else Some (mk_dstate c (ds_eq st) (ds_ph st) (ds_un st), lg))%bool
    (st, []) in
  Some (if d_phonons p then mk_dstate (post (ds_c st)) (ds_eq st) (ds_ph st) (ds_un st) else st, lg).

(** monte_carlo.c:818-853: the main loop; result: iteration counter, state,
    [stopped], log *)
Fixpoint sim_loop (fuel : nat) (p : dparams) (o : doracle) (i : Z) (st : dstate) (stopped : bool)
    (lg : list dlog) : option (Z * dstate * bool * list dlog) :=
  if i <? d_nequil p + d_nsampl p then
    let stopped := (stopped || o_time o i)%bool in
    if stopped then Some (i, st, stopped, lg)
    else match fuel with
    | O => None
    | S fuel' =>
      let neqlt := if d_nequil p <=? i then d_neqlt p else 0 in
      let* (st1, lg1) := iteration_loop p neqlt i st in
      let (st2, lg2) :=
        (if (d_nequil p <=? i) && (0 <? d_nuneqlt p) && (Z.rem i (d_nuneqlt p) =? 0) then
           let v := uneq_sample (ds_c st1) in
           (mk_dstate (ds_c st1) (ds_eq st1) (ds_ph st1) (meas_add (ds_un st1) v), [LUneq i v])
         else (st1, []))%bool in
      sim_loop fuel' p o (i + 1) st2 (o_sig o i) (lg ++ [LIter i] ++ lg1 ++ lg2)
    end
  else Some (i, st, stopped, lg).

(** What is on disk between two runs. *)
Record disk := mk_disk { dk_iter : Z; dk_c : C; dk_eq : meas; dk_un : meas; dk_ph : meas }.

(** main.c:140-310.  Results: new disk content, exit status, log.
    Measurement data of phonons are written but never read back. *)
Definition main_run (p : dparams) (o : doracle) (dk : option disk) : option (option disk * Z * list dlog) :=
  let start :=
    match dk with
    | None => Some (0, fresh, meas_zero dim_eq, meas_zero dim_un)
    | Some d =>
        if dk_iter d =? d_nequil p + d_nsampl p then None
        else Some (dk_iter d, reload (dk_c d), dk_eq d,
                   if 0 <? d_nuneqlt p then dk_un d else meas_zero dim_un)
    end in
  match start with
  | None => Some (dk, -6, [])
  | Some (i0, c0, eq0, un0) =>
      let cx := if d_phonons p then init_X c0 else (c0, no_X) in
      let st0 := mk_dstate cx eq0 (meas_zero dim_ph) un0 in
      let fuel := Z.to_nat (d_nequil p + d_nsampl p - i0) in
      let* (i, st, stopped, lg) := sim_loop fuel p o i0 st0 (o_sig0 o) [] in
      let complete := i =? d_nequil p + d_nsampl p in
      let eq1 := if complete then meas_normalize (ds_eq st) else ds_eq st in
      let un1 := if (complete && (0 <? d_nuneqlt p))%bool then meas_normalize (ds_un st) else ds_un st in
      let ph1 := if (complete && d_phonons p)%bool then meas_normalize (ds_ph st) else ds_ph st in
      Some (Some (mk_disk i (fst (ds_c st)) eq1 un1 ph1), if stopped then 1 else 0, lg)
  end.

(** A history of runs with the same parameters. *)
Fixpoint main_runs (p : dparams) (os : list doracle) (dk : option disk)
  : option (option disk * list Z * list dlog) :=
  match os with
  | [] => Some (dk, [], [])
  | o :: os' =>
      let* (dk1, s1, lg1) := main_run p o dk in
      let* (dk2, s2, lg2) := main_runs p os' dk1 in
      Some (dk2, s1 :: s2, lg1 ++ lg2)
  end.
End Driver.
