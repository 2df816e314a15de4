(** Monte Carlo sweeps with phonons: specification vocabulary. *)
From Coq Require Import ZArith List Reals Permutation.
From mathcomp Require Import all_ssreflect ssralg matrix.
From Verif Require Import Base RField SimParams MatSpec TimeStep TimeStepSpec Strat StratSpec GreenSpec GreenConstruct RandSource Sweep SweepSpec PhononSweep.
Set Implicit Arguments.
Unset Strict Implicit.
Unset Printing Implicit Defensive.
Local Open Scope ring_scope.

(** phonon parameters for all orbitals *)
Definition phonon_ok (Norb : Z) (ph : phonon_params) : Prop :=
  Z.of_nat (List.length (ph_g ph)) = Norb /\ Z.of_nat (List.length (ph_omega ph)) = Norb.

Section Phonon.
Variables (n L : nat) (k : kinetic) (st : strat) (ph : phonon_params) (dt : R).

(** coupling and frequency at site [i] *)
Definition coupling (i : nat) : R := nth R0 (ph_g ph) (Z.to_nat (Z.of_nat i / k_Ncell k)).
Definition frequency (i : nat) : R := nth R0 (ph_omega ph) (Z.to_nat (Z.of_nat i / k_Ncell k)).

(** the phonon field at slice [l] and site [i] *)
Definition field_at (X : list R) (l i : nat) : R := nth R0 X (l * n + i).

(** energy of the phonon field: 1/2 omega^2 X^2 + 1/2 (dX/dtau)^2 with periodic imaginary time *)
Definition phonon_energy (X : list R) : R :=
  \sum_(i < n) \sum_(l < L)
    (Rplus (Rmult (/2) (Rmult (Rsqr (frequency i)) (Rsqr (field_at X l i))))
           (Rmult (/2) (Rsqr (Rdiv (Rminus (field_at X (l.+1 %% L) i) (field_at X l i)) dt)))).

(** exp(-dt g X) *)
Definition exp_field (X : list R) : list R :=
  mkseq (fun p => exp (Rmult (Rmult (Ropp dt) (coupling (p %% n))) (nth R0 X p))) (size X).

(** product of the two fermion determinants, and weight of a configuration *)
Definition phonon_dets (s : list Z) (X : list R) : R :=
  \det (1%:M + cyclic_flow (phonon_step_mx n k (expVu st) s (exp_field X)) L 0) *
  \det (1%:M + cyclic_flow (phonon_step_mx n k (expVd st) s (exp_field X)) L 0).
Definition phonon_weight (s : list Z) (X : list R) : R :=
  phonon_dets s X * exp (Ropp (Rmult dt (phonon_energy X))).

(** the three kinds of proposals: shift at one slice, shift at all slices, reflection at all slices *)
Definition shift_one (l i : nat) (dx : R) (X : list R) : list R :=
  lset X (l * n + i) (Rplus (field_at X l i) dx).
Definition shift_all (i : nat) (dx : R) (X : list R) : list R :=
  mkseq (fun p => if p %% n == i then Rplus (nth R0 X p) dx else nth R0 X p) (size X).
Definition reflect_all (i : nat) (c : R) (X : list R) : list R :=
  mkseq (fun p => if p %% n == i then Rminus c (nth R0 X p) else nth R0 X p) (size X).

(** the Metropolis chain with phonons, reading random numbers from [rng].  [rl s X l i dx] is the
    acceptance ratio of a local shift; for the chain belonging to the weight it is the ratio of the
    absolute weights. *)
Section Chain.
Context {RS : Type}.
Variables (rng : rand_source RS) (noHS : bool) (mu : R) (rl : list Z -> list R -> nat -> nat -> R -> R).
Let W := phonon_weight.

(** seed, order of the sites, Hubbard-Stratonovich field, phonon field *)
Definition config := (RS * list Z * list Z * list R)%type.

(** accept [X'] in place of [X] with the given ratio *)
Definition accept (u ratio : R) (X X' : list R) : list R := if Rlt_dec u ratio then X' else X.

Definition chain_local (l i : nat) (c : config) : option config :=
  let '(seed, order, s, X) := c in
  if Req_EM_T (coupling i) R0 then Some c else
  obind (r_uniform rng seed) (fun '(u, seed) =>
  let dx := Rmult (Rminus u (/2)) (ph_local_box_width ph) in
  obind (r_uniform rng seed) (fun '(u, seed) =>
  Some (seed, order, s, accept u (rl s X l i dx) X (shift_one l i dx X)))).

Definition chain_slice (l : Z) (c : config) : option (option config) :=
  let '(seed, order, s, X) := c in
  obind (if noHS then Some (Some (seed, order, s)) else metropolis_slice rng n (fun s => W s X) l (seed, order, s)) (fun o =>
  match o with
  | None => Some None
  | Some (seed, order, s) =>
    obind (r_shuffle rng seed (Z.of_nat n) order) (fun sh =>
    match sh with
    | None => Some None
    | Some (seed, order) =>
      obind (for_range 0 (ph_n_local_updates ph)
        (fun j => chain_local (Z.to_nat l) (Z.to_nat (nth 0%Z order (Z.to_nat j %% n)))) (seed, order, s, X)) (fun c =>
      Some (Some c))
    end)
  end).

(** shift by a random amount, or reflection, of the field at a random site for all slices *)
Definition chain_block (c : config) : option (option config) :=
  let '(seed, order, s, X) := c in
  obind (r_bounded rng seed (Z.of_nat n)) (fun o =>
  match o with
  | None => Some None
  | Some (i, seed) =>
    let i := Z.to_nat i in
    if Req_EM_T (coupling i) R0 then Some (Some (seed, order, s, X)) else
    obind (r_uniform rng seed) (fun '(u, seed) =>
    let X' := shift_all i (Rmult (Rminus u (/2)) (ph_block_box_width ph)) X in
    obind (r_uniform rng seed) (fun '(u, seed) =>
    Some (Some (seed, order, s, accept u (Rdiv (Rabs (W s X')) (Rabs (W s X))) X X'))))
  end).
Definition chain_flip (c : config) : option (option config) :=
  let '(seed, order, s, X) := c in
  obind (r_bounded rng seed (Z.of_nat n)) (fun o =>
  match o with
  | None => Some None
  | Some (i, seed) =>
    let i := Z.to_nat i in
    if Req_EM_T (coupling i) R0 then Some (Some (seed, order, s, X)) else
    let X' := reflect_all i (Rdiv (Rmult 2 mu) (coupling i)) X in
    obind (r_uniform rng seed) (fun '(u, seed) =>
    Some (Some (seed, order, s, accept u (Rdiv (Rabs (W s X')) (Rabs (W s X))) X X')))
  end).

Definition chain_sweep (c : config) : option (option config) :=
  obind (for_range 0 (Z.of_nat L) (fun l => may_hang (chain_slice l)) (Some c)) (fun o =>
  obind (for_range 0 (ph_n_block_updates ph) (fun _ => may_hang chain_block) o) (fun o =>
  for_range 0 (ph_n_block_updates ph) (fun _ => may_hang chain_flip) o)).
End Chain.

(** the chain belonging to the weight *)
Definition weight_ratio (s : list Z) (X : list R) (l i : nat) (dx : R) : R :=
  Rdiv (Rabs (phonon_weight s (shift_one l i dx X))) (Rabs (phonon_weight s X)).
Definition metropolis_phonon_sweep {RS : Type} (rng : rand_source RS) (noHS : bool) (mu : R) (c : RS * list Z * list Z * list R) :=
  chain_sweep rng noHS mu weight_ratio c.

(** the whole state belongs to the fields [mc_s] and [p_X] *)
Record ph_consistent (RS MT PT : Type) (valid : RS -> Prop) (MI : MT -> Prop) (PI : PT -> Prop) (b : nat)
    (p : phstate RS MT PT) : Prop := {
  phc_seed : valid (mc_seed (p_mc p));
  phc_order : List.length (mc_order (p_mc p)) = n;
  phc_field : field_ok n L (mc_s (p_mc p));
  phc_X : List.length (p_X p) = (L * n)%N;
  phc_expX : p_expX p = exp_field (p_X p);
  phc_tu : tsm_holds L b (phonon_step_mx n k (expVu st) (mc_s (p_mc p)) (p_expX p)) (mc_tu (p_mc p));
  phc_td : tsm_holds L b (phonon_step_mx n k (expVd st) (mc_s (p_mc p)) (p_expX p)) (mc_td (p_mc p));
  phc_Gu : green_of (cyclic_flow (phonon_step_mx n k (expVu st) (mc_s (p_mc p)) (p_expX p)) L 0) (mc_Gu (p_mc p));
  phc_Gd : green_of (cyclic_flow (phonon_step_mx n k (expVd st) (mc_s (p_mc p)) (p_expX p)) L 0) (mc_Gd (p_mc p));
  phc_meas : MI (mc_meas (p_mc p));
  phc_pmeas : PI (p_meas p) }.

(** the phonon measurement is defined for all slices, fields and Green's functions of this size *)
Definition measure_ph_ok (PT : Type) (measure_ph : greens_func -> greens_func -> Z -> list R -> PT -> option PT) (PI : PT -> Prop) : Prop :=
  forall Au Ad Gu Gd l X d, green_of (n:=n) Au Gu -> green_of (n:=n) Ad Gd -> (l < L)%N -> List.length X = (L * n)%N -> PI d ->
    exists d', measure_ph Gu Gd (Z.of_nat l) X d = Some d' /\ PI d'.
End Phonon.
