(** Unequal time Green's functions for the time step matrices M 0, ..., M (L-1):
    A = M (L-1) ... M 0 is the flow through all slices. *)
From Coq Require Import ZArith List Reals.
From mathcomp Require Import all_ssreflect ssralg matrix.
From Verif Require Import Base RField MatSpec Lapack TimeStep TimeStepSpec GreenSpec WickSpec UMeasure UMeasureSpec UnequalTime.
Set Implicit Arguments.
Unset Strict Implicit.
Unset Printing Implicit Defensive.
Local Open Scope ring_scope.
Import GRing.Theory.

(** G(tau_i, 0) = M (i-1) ... M 0 (1 + A)^-1 *)
Definition green_tau0 (n : nat) (M : nat -> 'M[R]_n) (L i : nat) : 'M[R]_n :=
  oprod M 0 i *m invmx (1%:M + oprod M 0 L).

(** G(0, tau_i) = - (1 + A)^-1 M (L-1) ... M i for i > 0; the entry for i = 0 is the equal time
    Green's function *)
Definition green_0tau (n : nat) (M : nat -> 'M[R]_n) (L i : nat) : 'M[R]_n :=
  if i == 0%N then invmx (1%:M + oprod M 0 L)
  else - (invmx (1%:M + oprod M 0 L) *m oprod M i (L - i)).

(** equal time Green's function (1 + M (i-1) ... M 0 M (L-1) ... M i)^-1 at slice i *)
Definition green_eqlt (n : nat) (M : nat -> 'M[R]_n) (L i : nat) : 'M[R]_n :=
  invmx (1%:M + cyclic_flow M L i).

(** block [i] of an (L n) x n array *)
Definition column_block (n L : nat) (G : list R) (i : nat) : 'M[R]_n :=
  \matrix_(r, c) nth R0 G (i * n + r + L * n * c).

(** matrix [i] of a sequence of n x n matrices *)
Definition matrix_no (n : nat) (G : list R) (i : nat) : 'M[R]_n :=
  \matrix_(r, c) nth R0 G (i * (n * n) + r + n * c).

(** the Green's functions in [c] are those of the time step matrices [Mu] (spin up) and [Md] (spin down) *)
Definition greens_match (n L : nat) (Mu Md : nat -> 'M[R]_n) (c : cur_greens) : Prop :=
  forall l (i j : 'I_n), (l < L)%N -> forall s,
    let M := match s with up => Mu | dn => Md end in
    let w := uconfig (Z.of_nat n) (Z.of_nat L) (Z.of_nat l) c in
    let i' := Z.of_nat i in let j' := Z.of_nat j in
    gtt w s i' j' = green_eqlt M L l i j /\ g00 w s i' j' = green_eqlt M L 0 i j /\
    gt0 w s i' j' = green_tau0 M L l i j /\ g0t w s i' j' = green_0tau M L l i j.

(** one measurement: initial contents of allocated memory, sign, time step matrices *)
Record sample := mk_sample { sa_junk : Z -> R; sa_sign : R; sa_up : tsm; sa_dn : tsm }.

(** the time step matrices of a sample hold [Mu] and [Md], and 1 + A is invertible for both *)
Definition sample_of (n L b : nat) (Mu Md : nat -> 'M[R]_n) (x : sample) : Prop :=
  tsm_holds L b Mu (sa_up x) /\ tsm_holds L b Md (sa_dn x) /\
  1%:M + oprod Mu 0 L \in unitmx /\ 1%:M + oprod Md 0 L \in unitmx.

(** a sequence of measurements *)
Fixpoint measure_samples (la : lapack) (xs : list sample) (Hu Hd : list R) (m : umeas) : option (list R * list R * umeas) :=
  match xs with
  | nil => Some (Hu, Hd, m)
  | cons x xs =>
    let* (HH, m) := accumulate_unequal_time la (sa_junk x) (sa_sign x) (sa_up x) (sa_dn x) Hu Hd m in
    let '(Hu, Hd) := HH in measure_samples la xs Hu Hd m
  end.
