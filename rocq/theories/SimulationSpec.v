(** A complete simulation as seen by the user: the Metropolis chain with a record of the configurations
    at which measurements are made. *)
From Coq Require Import ZArith List Reals.
From mathcomp Require Import all_ssreflect ssralg matrix.
From Verif Require Import Base RField MatSpec TimeStep TimeStepSpec GreenSpec Strat SimParams RandSource SweepSpec LatticeSpec WickSpec
  Measure MeasureSpec UMeasure UMeasureSpec UnequalTimeSpec.
Set Implicit Arguments.
Unset Strict Implicit.
Unset Printing Implicit Defensive.
Local Open Scope ring_scope.

(** an event is due: every [every] steps, never for 0 *)
Definition due_at (every t : Z) : bool := ((0 <? every)%Z && (Z.modulo t every =? 0)%Z)%bool.

Section Chain.
Context {RS : Type}.
Variables (rng : rand_source RS) (n : nat) (W : list Z -> R) (L : nat).

(** equal time measurements: time slice and field *)
Definition eq_record := list (nat * list Z).

(** one slice of the chain; the slices are numbered from 1 when the measurement is made *)
Definition chain_slice (neqlt l : Z) (x : (RS * list Z * list Z) * eq_record) : option (option ((RS * list Z * list Z) * eq_record)) :=
  obind (metropolis_slice rng n W l (fst x)) (fun r =>
    Some (match r with
      | None => None
      | Some c => Some (c, if due_at neqlt (l + 1) then snd x ++ [:: ((Z.to_nat l).+1, snd c)] else snd x)
      end)).
Definition chain_sweep (neqlt : Z) (x : (RS * list Z * list Z) * eq_record) : option (option ((RS * list Z * list Z) * eq_record)) :=
  for_range 0 (Z.of_nat L) (fun l => may_hang (chain_slice neqlt l)) (Some x).

(** generator, field, equal time record, fields at the unequal time measurements *)
Definition history : Type := RS * list Z * eq_record * list (list Z).

(** [order]: contents of the array for the shuffled sites before the sweep *)
Definition chain_iteration (p : sim_params) (order : list Z) (it : Z) (h : history) : option (option history) :=
  let '(seed, s, eq, un) := h in
  let equilibrated := (sp_nequil p <=? it)%Z in
  obind (chain_sweep (if equilibrated then sp_neqlt p else 0%Z) ((seed, order, s), eq)) (fun r =>
    Some (match r with
      | None => None
      | Some ((seed, _, s), eq) => Some (seed, s, eq, if equilibrated && due_at (sp_nuneqlt p) it then un ++ [:: s] else un)
      end)).
Definition chain (p : sim_params) (order : list Z) (seed : RS) (s : list Z) : option (option history) :=
  for_range 0 (sp_nequil p + sp_nsampl p) (fun it => may_hang (chain_iteration p order it)) (Some (seed, s, [::], [::])).
End Chain.

(** the initial field: 0 for a random number below 1/2 and 1 otherwise *)
Fixpoint random_field (RS : Type) (rng : rand_source RS) (len : nat) (seed : RS) : option (list Z * RS) :=
  match len with
  | 0 => Some ([::], seed)
  | len.+1 => obind (r_uniform rng seed) (fun '(u, seed) =>
      obind (random_field rng len seed) (fun '(s, seed) => Some ((if Rlt_dec u (Rdiv 1 2) then 0%Z else 1%Z) :: s, seed)))
  end.

(** entry (i, j) of a matrix, zero outside *)
Definition entry_of (n : nat) (A : 'M[R]_n) (i j : Z) : R :=
  match insub (Z.to_nat i), insub (Z.to_nat j) with
  | Some i, Some j => A i j
  | _, _ => R0
  end.

Definition sgn (x : R) : R := if Rlt_dec x R0 then (Ropp R1) else R1.

(** mean over a list *)
Definition list_mean (A : Type) (f : A -> R) (xs : list A) : R := Rdiv (lsum f xs) (INR (List.length xs)).

Section Observables.
Variables (n L : nat) (k : kinetic) (st : strat).
(** time step matrices of a field *)
Definition steps_of (s : list Z) (sp : spin) : nat -> 'M[R]_n := step_mx n k (match sp with up => expVu st | dn => expVd st end) s.
(** the electrons in the field [snd x] at time slice [fst x]: Green's functions (I + B_l ... B_1 B_L ... B_{l+1})^-1 *)
Definition state_at (x : nat * list Z) : config :=
  equal_time (fun sp => entry_of (green_eqlt (steps_of (snd x) sp) L (fst x))).
(** the electrons in the field [s] at the times of slices [l] and 0 *)
Definition states_at (l : nat) (s : list Z) : config :=
  mk_config (fun sp => entry_of (green_eqlt (steps_of s sp) L l)) (fun sp => entry_of (green_eqlt (steps_of s sp) L 0))
    (fun sp => entry_of (green_tau0 (steps_of s sp) L l)) (fun sp => entry_of (green_0tau (steps_of s sp) L l)) (l == 0%N).

(** means over the measurements, weighted with the sign of the weight of the field *)
Definition eq_mean (eq : eq_record) (f : config -> R) : R :=
  list_mean (fun x => Rmult (sgn (weight n L k st (snd x))) (f (state_at x))) eq.
Definition un_mean (un : list (list Z)) (l : nat) (f : config -> R) : R :=
  list_mean (fun s => Rmult (sgn (weight n L k st s)) (f (states_at l s))) un.
End Observables.

(** every entry of the arrays is the mean of the average over all cells of the named expectation value *)
Section Results.
Variable p : sim_params.
Let Norb := sp_Norb p.
Let Nx := sp_Nx p.
Let Ny := sp_Ny p.
Let shift := sp_pbc_shift p.
Let Ncell := Z.mul Nx Ny.
Let N := Z.mul Norb Ncell.
Let neighbour (o c : Z) (d : Z * Z) : Z := site Ncell (cell_step Nx Ny shift d c) o.

Record equal_time_results (mean : (config -> R) -> R) (m : meas) : Prop := {
  er_shape : m_Norb m = Norb /\ m_Ncell m = Ncell /\ forall f, Z.of_nat (List.length (m_arr m f)) = mfield_len Norb Ncell f;
  er_two_point : forall f o q d, In f two_point_fields -> (0 <= o < Norb)%Z -> (0 <= q < Norb)%Z -> (0 <= d < Ncell)%Z ->
    val (m_arr m f) (entry Norb Ncell o q d) =
      mean (fun w => average Ncell (fun i => two_point f w (site Ncell i o) (site Ncell (cell_plus Nx Ny shift d i) q)));
  er_density_u : forall o, (0 <= o < Norb)%Z ->
    val (m_arr m density_u) o = mean (fun w => average Ncell (fun i => expect_00 w (number up (site Ncell i o))));
  er_density_d : forall o, (0 <= o < Norb)%Z ->
    val (m_arr m density_d) o = mean (fun w => average Ncell (fun i => expect_00 w (number dn (site Ncell i o))));
  er_doubleocc : forall o, (0 <= o < Norb)%Z ->
    val (m_arr m doubleocc) o = mean (fun w => average Ncell (fun i =>
      correlation w (number up (site Ncell i o)) (number dn (site Ncell i o))));
  er_green_u : forall i j, (0 <= i < N)%Z -> (0 <= j < N)%Z -> val (m_arr m grfun_u) (i + N * j) = mean (fun w => g00 w up i j);
  er_green_d : forall i j, (0 <= i < N)%Z -> (0 <= j < N)%Z -> val (m_arr m grfun_d) (i + N * j) = mean (fun w => g00 w dn i j);
  er_pair : forall f o d, Z.modulo shift Nx = 0%Z -> In f pair_fields -> (0 <= o < Norb)%Z -> (0 <= d < Ncell)%Z ->
    val (m_arr m f) (d + Ncell * o) = mean (fun w => average Ncell (fun i => let j := cell_plus Nx Ny shift d i in
      pair_correlation w (pair_op (site Ncell i o) (pair_shape f (neighbour o i))) (pair_op (site Ncell j o) (pair_shape f (neighbour o j))))) }.

Record unequal_time_results (mean : nat -> (config -> R) -> R) (u : umeas) : Prop := {
  ur_two_point : forall f l o q d, In f u_two_point_fields -> (0 <= l < sp_L p)%Z -> (0 <= o < Norb)%Z -> (0 <= q < Norb)%Z -> (0 <= d < Ncell)%Z ->
    val (u_arr u f) (uentry Norb Ncell o q l d) = mean (Z.to_nat l) (fun w => average Ncell (fun i =>
      u_two_point f w (site Ncell i o) (site Ncell (cell_plus Nx Ny shift d i) q)));
  ur_bond : forall f l o d, Z.modulo shift Nx = 0%Z -> In f u_bond_fields -> (f = ram_b1g -> (Nx = 1 <-> Ny = 1)%Z) ->
    (0 <= l < sp_L p)%Z -> (0 <= o < Norb)%Z -> (0 <= d < Ncell)%Z ->
    val (u_arr u f) (d + (Ncell * o + N * l)) = mean (Z.to_nat l) (fun w => average Ncell (fun i => let j := cell_plus Nx Ny shift d i in
      u_bond f w (site Ncell i o) (site Ncell j o) (neighbour o i) (neighbour o j))) }.
End Results.

(** number of multiples of [q] in [from, to) *)
Definition multiples (q from to : Z) : Z := ((to + q - 1) / q - (from + q - 1) / q)%Z.
