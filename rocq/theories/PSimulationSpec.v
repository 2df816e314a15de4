(** A complete simulation with phonons as seen by the user: the Metropolis chain with a record of the
    configurations at which measurements are made, and what the results mean. *)
From Coq Require Import ZArith List Reals.
From mathcomp Require Import all_ssreflect ssralg matrix.
From Verif Require Import Base RField MatSpec TimeStep TimeStepSpec GreenSpec Strat SimParams RandSource SweepSpec PhononSpec WickSpec
  Measure MeasureSpec UMeasure UMeasureSpec UnequalTimeSpec SimulationSpec PMeasure PMeasureSpec.
Set Implicit Arguments.
Unset Strict Implicit.
Unset Printing Implicit Defensive.
Local Open Scope ring_scope.
Delimit Scope R_scope with coqR.

(** Hubbard-Stratonovich field and phonon field *)
Definition fields : Type := list Z * list R.
(** equal time and phonon measurements: time slice, counted from 1, and fields *)
Definition ph_record : Type := list (nat * fields).

Section Chain.
Context {RS : Type}.
Variables (rng : rand_source RS) (n L : nat) (k : kinetic) (st : strat) (p : sim_params) (noHS : bool).
Let ph := sp_phonon p.
Let dt := sp_dt p.
Let conf : Type := RS * list Z * list Z * list R.
Let ratio := weight_ratio n L k st ph dt.

(** one slice of the chain with the measurement after it *)
Definition pchain_slice (neqlt l : Z) (x : conf * ph_record) : option (option (conf * ph_record)) :=
  obind (PhononSpec.chain_slice n L k st ph dt rng noHS ratio l (fst x)) (fun r =>
    Some (match r with
      | None => None
      | Some (seed, order, s, X) => Some ((seed, order, s, X), if due_at neqlt (l + 1) then snd x ++ [:: ((Z.to_nat l).+1, (s, X))] else snd x)
      end)).
(** shifts and reflections at all slices, without measurements *)
Definition pchain_blocks (c : conf) : option (option conf) :=
  obind (for_range 0 (ph_n_block_updates ph) (fun _ => may_hang (chain_block n L k st ph dt rng)) (Some c)) (fun o =>
  for_range 0 (ph_n_block_updates ph) (fun _ => may_hang (chain_flip n L k st ph dt rng (sp_mu p))) o).
Definition pchain_sweep (neqlt : Z) (x : conf * ph_record) : option (option (conf * ph_record)) :=
  obind (for_range 0 (Z.of_nat L) (fun l => may_hang (pchain_slice neqlt l)) (Some x)) (fun o =>
    match o with
    | None => Some None
    | Some (c, eq) => obind (pchain_blocks c) (fun r => Some (match r with None => None | Some c => Some (c, eq) end))
    end).

(** generator, fields, equal time record, fields at the unequal time measurements *)
Definition phistory : Type := RS * fields * ph_record * list fields.

Definition pchain_iteration (order : list Z) (it : Z) (h : phistory) : option (option phistory) :=
  let '(seed, (s, X), eq, un) := h in
  let equilibrated := (sp_nequil p <=? it)%Z in
  obind (pchain_sweep (if equilibrated then sp_neqlt p else 0%Z) ((seed, order, s, X), eq)) (fun r =>
    Some (match r with
      | None => None
      | Some ((seed, _, s, X), eq) => Some (seed, (s, X), eq, if equilibrated && due_at (sp_nuneqlt p) it then un ++ [:: (s, X)] else un)
      end)).
Definition pchain (order : list Z) (seed : RS) (c : fields) : option (option phistory) :=
  for_range 0 (sp_nequil p + sp_nsampl p) (fun it => may_hang (pchain_iteration order it)) (Some (seed, c, [::], [::])).
End Chain.

Section Observables.
Variables (n L : nat) (k : kinetic) (st : strat) (p : sim_params).
Let ph := sp_phonon p.
Let dt := sp_dt p.
(** sign of the weight of a configuration *)
Definition psgn (c : fields) : R := sgn (phonon_weight n L k st ph dt (fst c) (snd c)).
(** time step matrices of the two fields *)
Definition psteps_of (c : fields) (sp : spin) : nat -> 'M[R]_n :=
  phonon_step_mx n k (match sp with up => expVu st | dn => expVd st end) (fst c) (exp_field n k ph dt (snd c)).
(** the electrons in the fields [snd x] at time slice [fst x] *)
Definition pstate_at (x : nat * fields) : WickSpec.config :=
  equal_time (fun sp => entry_of (green_eqlt (psteps_of (snd x) sp) L (fst x))).
(** the electrons in the fields [c] at the times of slices [l] and 0 *)
Definition pstates_at (l : nat) (c : fields) : WickSpec.config :=
  mk_config (fun sp => entry_of (green_eqlt (psteps_of c sp) L l)) (fun sp => entry_of (green_eqlt (psteps_of c sp) L 0))
    (fun sp => entry_of (green_tau0 (psteps_of c sp) L l)) (fun sp => entry_of (green_0tau (psteps_of c sp) L l)) (l == 0%N).

(** means over the measurements, weighted with the sign of the weight *)
Definition peq_mean (eq : ph_record) (f : WickSpec.config -> R) : R :=
  list_mean (fun x => Rmult (psgn (snd x)) (f (pstate_at x))) eq.
Definition pun_mean (un : list fields) (l : nat) (f : WickSpec.config -> R) : R :=
  list_mean (fun c => Rmult (psgn c) (f (pstates_at l c))) un.
(** the same for functions of the phonon field *)
Definition field_mean (eq : ph_record) (f : list R -> R) : R :=
  list_mean (fun x => Rmult (psgn (snd x)) (f (snd (snd x)))) eq.

Let Norb := sp_Norb p.
Let Ncell := Z.mul (sp_Nx p) (sp_Ny p).
Let Lz := sp_L p.
Let fld := field Norb Ncell.
Let vel := velocity Norb Ncell Lz dt.
Let avg := lattice_average Ncell Lz.

(** the phonon data: means of the averages over all cells and time slices.  The electron density is that of
    the slice after which the measurement is made.  The kinetic energy is listed for one orbital only. *)
Record phonon_results (eq : ph_record) (e : pmeas) : Prop := {
  pr_sign : p_sign e = list_mean (fun x => psgn (snd x)) eq;
  pr_nsampl : p_nsampl e = Z.of_nat (List.length eq);
  pr_X : forall o, (0 <= o < Norb)%Z -> val (p_arr e X_avg) o = field_mean eq (fun X => avg (fld X o));
  pr_X_sq : forall o, (0 <= o < Norb)%Z -> val (p_arr e X_sq_avg) o = field_mean eq (fun X => avg (fun i l => (fld X o i l) ^ 2)%coqR);
  pr_V : forall o, (0 <= o < Norb)%Z -> val (p_arr e V_avg) o = field_mean eq (fun X => avg (vel X o));
  pr_V_sq : forall o, (0 <= o < Norb)%Z -> val (p_arr e V_sq_avg) o = field_mean eq (fun X => avg (fun i l => (vel X o i l) ^ 2)%coqR);
  pr_PE : forall o, (0 <= o < Norb)%Z -> val (p_arr e PE) o =
    field_mean eq (fun X => avg (fun i l => / 2 * val (ph_omega ph) o ^ 2 * fld X o i l ^ 2)%coqR);
  pr_KE : Norb = 1%Z -> val (p_arr e KE) 0 =
    field_mean eq (fun X => / (2 * dt) - avg (fun i l => / 2 * vel X 0%Z i l ^ 2))%coqR;
  (** the square of the average is not weighted with the sign *)
  pr_X_avg_sq : forall o, (0 <= o < Norb)%Z ->
    val (p_arr e X_avg_sq) o = list_mean (fun x => (avg (fld (snd (snd x)) o) ^ 2)%coqR) eq;
  pr_nX : forall o, (0 <= o < Norb)%Z -> val (p_arr e nX) o =
    list_mean (fun x => Rmult (psgn (snd x)) (average Ncell (fun i =>
      (expect_00 (pstate_at x) (number up (site Ncell i o)) + expect_00 (pstate_at x) (number dn (site Ncell i o))) *
      fld (snd (snd x)) o i (Z.of_nat (fst x) - 1))%coqR)) eq;
  (** histories: one entry per measurement *)
  pr_history : forall o j x, (0 <= o < Norb)%Z -> nth_error eq j = Some x ->
    val (p_arr e iteration_X_avg) (o + Z.of_nat j * Norb) = Rmult (psgn (snd x)) (avg (fld (snd (snd x)) o)) /\
    val (p_arr e iteration_X0) (o + Z.of_nat j * Norb) = Rmult (psgn (snd x)) (average Lz (fun l => fld (snd (snd x)) o 0%Z l)) }.
End Observables.
