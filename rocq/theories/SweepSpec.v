(** Monte Carlo sweeps: specification vocabulary. *)
From Coq Require Import ZArith List Reals Permutation.
From mathcomp Require Import all_ssreflect ssralg matrix.
From Verif Require Import Base RField MatSpec TimeStep TimeStepSpec Strat StratSpec GreenSpec GreenConstruct RandSource Sweep.
Set Implicit Arguments.
Unset Strict Implicit.
Unset Printing Implicit Defensive.
Local Open Scope ring_scope.

(** a source of random numbers: shuffles give permutations, bounded numbers are below the bound, uniform
    numbers are in (0, 1]; otherwise arbitrary.  Shuffles and bounded draws may fail to return. *)
Record rand_ok (S : Type) (rng : rand_source S) (valid : S -> Prop) : Prop := {
  ro_shuffle : forall st n seq, valid st -> List.length seq = n ->
    exists r, r_shuffle rng st (Z.of_nat n) seq = Some r /\
      forall st' seq', r = Some (st', seq') -> valid st' /\ Permutation seq' (List.map Z.of_nat (List.seq 0 n));
  ro_bounded : forall st bound, valid st -> (0 < bound < 2^64)%Z ->
    exists r, r_bounded rng st bound = Some r /\
      forall v st', r = Some (v, st') -> (0 <= v < bound)%Z /\ valid st';
  ro_uniform : forall st, valid st ->
    exists u st', r_uniform rng st = Some (u, st') /\ Rlt R0 u /\ Rle u R1 /\ valid st' }.

(** [G] is the Green's function (I + A)^-1 together with its determinant *)
Record green_of (n : nat) (A : 'M[R]_n) (G : greens_func) : Prop := {
  go_N : gf_N G = Z.of_nat n;
  go_len : List.length (gf_mat G) = (n * n)%N;
  go_green : is_green (mat n (gf_mat G)) A;
  go_sgn : gf_sgndet G = 1%Z \/ gf_sgndet G = (-1)%Z;
  go_det : Rmult (IZR (gf_sgndet G)) (exp (gf_logdet G)) = \det (mat n (gf_mat G)) }.

(** Hubbard-Stratonovich tables: flipping the field at a site with value v multiplies the factor
    of spin up by 1 + delta[v] and the factor of spin down by 1 + delta[1-v] *)
Record strat_ok (Norb : Z) (st : strat) : Prop := {
  so_u : expV_ok Norb (expVu st);
  so_d : expV_ok Norb (expVd st);
  so_two : List.length (st_delta st) = 2%N;
  so_len : List.Forall (fun row => Z.of_nat (List.length row) = Norb) (st_delta st);
  so_flip_u : forall v o, (v <= 1)%N -> (0 <= o < Norb)%Z ->
    tab (expVu st) (1 - v) o = (1 + tab (st_delta st) v o) * tab (expVu st) v o;
  so_flip_d : forall v o, (v <= 1)%N -> (0 <= o < Norb)%Z ->
    tab (expVd st) (1 - v) o = (1 + tab (st_delta st) (1 - v) o) * tab (expVd st) v o }.

(** the field with the value at site [i] of slice [l] replaced by the other one *)
Definition flipped (n l i : nat) (s : list Z) : list Z :=
  lset s (l * n + i) (1 - List.nth (l * n + i) s 0)%Z.

(** the weight of a field configuration: product of the two fermion determinants *)
Definition weight (n L : nat) (k : kinetic) (st : strat) (s : list Z) : R :=
  \det (1%:M + cyclic_flow (step_mx n k (expVu st) s) L 0) *
  \det (1%:M + cyclic_flow (step_mx n k (expVd st) s) L 0).

(** the whole state belongs to the field [mc_s m]: field values 0 or 1, time step matrices with
    inverses and block products, both Green's functions at slice 0 with their determinants *)
Record mc_consistent (RS MT : Type) (valid : RS -> Prop) (MI : MT -> Prop) (n L b : nat) (k : kinetic) (st : strat)
    (m : mcstate RS MT) : Prop := {
  mcc_seed : valid (mc_seed m);
  mcc_order : List.length (mc_order m) = n;
  mcc_field : field_ok n L (mc_s m);
  mcc_tu : tsm_holds L b (step_mx n k (expVu st) (mc_s m)) (mc_tu m);
  mcc_td : tsm_holds L b (step_mx n k (expVd st) (mc_s m)) (mc_td m);
  mcc_Gu : green_of (cyclic_flow (step_mx n k (expVu st) (mc_s m)) L 0) (mc_Gu m);
  mcc_Gd : green_of (cyclic_flow (step_mx n k (expVd st) (mc_s m)) L 0) (mc_Gd m);
  mcc_meas : MI (mc_meas m) }.

(** the measurement is defined for all Green's functions of this size and keeps the invariant [MI] *)
Definition measure_ok (MT : Type) (n : nat) (measure : greens_func -> greens_func -> MT -> option MT) (MI : MT -> Prop) : Prop :=
  forall Au Ad Gu Gd d, green_of (n:=n) Au Gu -> green_of (n:=n) Ad Gd -> MI d ->
    exists d', measure Gu Gd d = Some d' /\ MI d'.

(** the Metropolis chain for a weight function on field configurations, reading random numbers from
    [rng]: in each slice the sites are visited in random order; a flip is accepted if a uniform random
    number is below the ratio of the absolute weights *)
Section Metropolis.
Context {RS : Type}.
Variables (rng : rand_source RS) (n : nat) (W : list Z -> R).

Fixpoint metropolis_sites (l : nat) (sites : list Z) (seed : RS) (s : list Z) : option (RS * list Z) :=
  match sites with
  | nil => Some (seed, s)
  | i :: sites =>
    obind (r_uniform rng seed) (fun '(u, seed) =>
      let s' := flipped n l (Z.to_nat i) s in
      metropolis_sites l sites seed (if Rlt_dec u (Rdiv (Rabs (W s')) (Rabs (W s))) then s' else s))
  end.

(** configuration of the chain: seed, order of the sites, field *)
Definition metropolis_slice (l : Z) (c : RS * list Z * list Z) : option (option (RS * list Z * list Z)) :=
  let '(seed, order, s) := c in
  obind (r_shuffle rng seed (Z.of_nat n) order) (fun sh =>
    match sh with
    | None => Some None
    | Some (seed, order) =>
      obind (metropolis_sites (Z.to_nat l) order seed s) (fun '(seed, s) => Some (Some (seed, order, s)))
    end).

Definition metropolis_sweep (L : nat) (c : RS * list Z * list Z) : option (option (RS * list Z * list Z)) :=
  for_range 0 (Z.of_nat L) (fun l => may_hang (metropolis_slice l)) (Some c).
End Metropolis.
