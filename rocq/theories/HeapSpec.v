(** How much memory a run needs. *)
From Coq Require Import ZArith List String.
From Verif Require Import Base SimParams ParamSpec Heap.
Import ListNotations.
Local Open Scope Z_scope.

(** Bytes of one square matrix of doubles per site pair, and of a vector. *)
Definition matrix (n : Z) : Z := 8 * (n * n).
Definition vector (n : Z) : Z := 8 * n.

Section Need.
Variable p : sim_params.
Let Norb := sp_Norb p.
Let Ncell := sp_Nx p * sp_Ny p.
Let N := Norb * Ncell.
Let L := sp_L p.
Let blocks := sp_L p / sp_prodBlen p.

(** maps of the lattice *)
Definition maps_bytes : Z := 4 * (Ncell * Ncell + 4 * Ncell).

Definition params_bytes : Z := 5 * matrix Norb + 4 * vector Norb.
Definition eqlt_bytes : Z := 3 * vector Norb + 2 * matrix N + 6 * Ncell * matrix Norb + 3 * vector N + maps_bytes.
Definition uneqlt_bytes : Z :=
  2 * matrix (N * blocks) + 9 * L * Ncell * matrix Norb + 7 * vector (N * L) + maps_bytes.
Definition phonon_bytes : Z := 8 * vector Norb + 2 * vector (Norb * (sp_nsampl p * L / sp_neqlt p)) + 2 * vector (N * L).

(** time step matrices, inverses and products for one spin *)
Definition steps_bytes : Z := (2 * L + blocks) * (8 + matrix N).
(** what the simulation keeps: exponentials of the kinetic matrix, Green's functions, factors of the
    field and the time step matrices *)
Definition kept_bytes : Z := 4 * matrix N + 6 * vector Norb + 2 * steps_bytes.
(** temporary arrays: Green's functions of both spins, order of the sites *)
Definition sweep_bytes : Z := 2 * (3 * matrix N + 5 * vector N).
(** phonon updates of whole columns *)
Definition column_bytes : Z := 2 * matrix N + 2 * vector L + 2 * steps_bytes.
(** an unequal time measurement *)
Definition measure_bytes : Z := 6 * L * matrix N + 2 * (4 * matrix N + vector (N * blocks)).

(** everything: independent of the number of sweeps, but for the recorded history of the phonons *)
Definition run_bytes : Z :=
  params_bytes + eqlt_bytes + N * L + kept_bytes + sweep_bytes +
  (if 0 <? sp_nuneqlt p then uneqlt_bytes + measure_bytes else 0) +
  (if sp_use_phonons p then phonon_bytes + column_bytes else 0).

End Need.

(** table of the parameter file: one list of at most 1024 strings per line with values *)
Definition length (s : string) : Z := Z.of_nat (String.length s).
Definition line_bytes (l : string * list string) : Z :=
  8225 + length (fst l) + fold_right (fun v s => length v + 1 + s) 0 (snd l).
Definition table_bytes (ls : list (string * list string)) : Z :=
  512 + fold_right (fun l s => line_bytes l + s) 0 ls.

(** Number of phonon measurements of the sweeps from iteration [i] up to [j]. *)
Definition phonon_measurements (p : sim_params) (i j : Z) : Z :=
  Z.max 0 (j - Z.max i (sp_nequil p)) * (sp_L p / sp_neqlt p).

(** Blocks of [8 * Norb] bytes that are left over: one for every measurement of the phonons. *)
Definition left_over (p : sim_params) (i j : Z) : Z := if sp_use_phonons p then phonon_measurements p i j else 0.

(** The most that is in use at any time, apart from what is left over. *)
Definition most_bytes (p : sim_params) (ls : list (string * list string)) : Z :=
  Z.max (params_bytes p + table_bytes ls) (run_bytes p).

(** Nothing goes wrong outside of the program: files can be opened, read and written, the linear algebra
    routines converge. *)
Definition sound (orc : choice -> nat -> bool) : Prop :=
  forall c, In c [NoFile; BadSize; LapackFails] -> forall n, orc c n = false.

(** No signal arrives after the log file has been closed. *)
Definition no_late_signal (orc : choice -> nat -> bool) : Prop := forall n, orc LateSignal n = false.
