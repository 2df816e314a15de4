(** Model of /repo/src/progress.c.  The time stamps are kept, the printed time
    estimates are not modelled. *)
From Coq Require Import ZArith NArith List.
Import ListNotations.
Local Open Scope Z_scope.

(** progress.c:14 *)
Inductive phase := INIT | EQUILIB | MEASURE | OUTPUT.

(** progress.c:12-25 [dqmc_progress_t]; [*iteration] is an argument of the functions below *)
Record progress := mk_progress {
  pg_state : phase; pg_nequil : Z; pg_nsampl : Z; pg_niter : Z;
  pg_t_start : N; pg_t_equilib_start : N; pg_t_measure_start : N; pg_t_last_iter : N }.

(** progress.c:91-109 [InitProgressTracking] *)
Definition init_progress (nequil nsampl : Z) (t : N) : progress :=
  mk_progress INIT nequil nsampl 0 t t t t.

(** progress.c:116-157 [UpdateProgress] with the current value of [*iteration] *)
Definition update_progress (p : progress) (iteration : Z) (t : N) : progress :=
  match pg_state p with
  | INIT =>
      mk_progress (if iteration <? pg_nequil p then EQUILIB else MEASURE)
        (pg_nequil p) (pg_nsampl p) (pg_niter p) (pg_t_start p) t t (pg_t_last_iter p)
  | EQUILIB =>
      if iteration + 1 =? pg_nequil p then
        mk_progress MEASURE (pg_nequil p) (pg_nsampl p) 0
          (pg_t_start p) (pg_t_equilib_start p) t t
      else
        mk_progress EQUILIB (pg_nequil p) (pg_nsampl p) (pg_niter p + 1)
          (pg_t_start p) (pg_t_equilib_start p) (pg_t_measure_start p) t
  | MEASURE =>
      mk_progress (if iteration + 1 =? pg_nequil p + pg_nsampl p then OUTPUT else MEASURE)
        (pg_nequil p) (pg_nsampl p) (pg_niter p + 1)
        (pg_t_start p) (pg_t_equilib_start p) (pg_t_measure_start p) t
  | OUTPUT => p
  end.

(** progress.c:35-84 [PrintProgress]: the iteration counts that are printed
    ("Completed ... iterations: %d out of %d") and whether a time per iteration
    is computed, i.e. a division by [niter] takes place (with its divisor). *)
Inductive printed :=
| PrInit
| PrEquilib (completed total : Z) (divisor : option Z)
| PrMeasure (completed total : Z) (divisor : option Z)
| PrOutput.

Definition print_progress (p : progress) (iteration : Z) : printed :=
  let dv := if 0 <? pg_niter p then Some (pg_niter p) else None in
  match pg_state p with
  | INIT => PrInit
  | EQUILIB => PrEquilib iteration (pg_nequil p) dv
  | MEASURE => PrMeasure (iteration - pg_nequil p) (pg_nsampl p) dv
  | OUTPUT => PrOutput
  end.

(** The calls made by one run (monte_carlo.c:818-851 in DQMCSimulation): one
    call before the loop and one at the end of each of the [n] iterations
    [i0], [i0+1], ...; [t] gives the clock. *)
Fixpoint progress_after (n : nat) (i0 nequil nsampl : Z) (t : nat -> N) : progress :=
  match n with
  | O => update_progress (init_progress nequil nsampl (t 0%nat)) i0 (t 1%nat)
  | S n' => update_progress (progress_after n' i0 nequil nsampl t) (i0 + Z.of_nat n') (t (2 + n')%nat)
  end.
