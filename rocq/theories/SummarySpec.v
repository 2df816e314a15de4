(** What the summary at the end of a simulation should say, independent of the code that prints it. *)
From Coq Require Import ZArith List Reals.
From mathcomp Require Import all_ssreflect ssralg matrix.
From Verif Require Import Base RField TimeStep TimeStepSpec Strat SimParams LatticeSpec SweepSpec WickSpec Sums MeasureSpec SimulationSpec Summary.
Set Implicit Arguments.
Unset Strict Implicit.
Unset Printing Implicit Defensive.

(** the estimate of an expectation value by the measured configurations: sum of sign times value, divided by the sum of the signs *)
Definition sign_average (n L : nat) (k : kinetic) (st : strat) (eq : eq_record) (f : config -> R) : R :=
  Rdiv (lsum (fun x => Rmult (sgn (weight n L k st (snd x))) (f (state_at n L k st x))) eq)
       (lsum (fun x => sgn (weight n L k st (snd x))) eq).

(** the lines of the summary when expectation values are estimated by [est]: for the sites of an orbital the number of electrons, the number
    of electrons with either spin, the probability of two electrons, and the square of the spin; all per unit cell.  First comes the sign, and
    the number of electrons in a unit cell. *)
Definition summary_lines (Norb Ncell : Z) (sign : R) (est : (config -> R) -> R) : list line :=
  let cells f := est (fun w => average Ncell (f w)) in
  [:: (None, average_sign, sign);
      (None, average_total_density, cells (fun w i => sum 0 Norb (fun o => expect_00 w (charge (site Ncell i o)))))] ++
  List.flat_map (fun o => let x i := site Ncell i o in
    [:: (Some o, average_total_density, cells (fun w i => expect_00 w (charge (x i))));
        (Some o, average_spin_up_density, cells (fun w i => expect_00 w (number up (x i))));
        (Some o, average_spin_down_density, cells (fun w i => expect_00 w (number dn (x i))));
        (Some o, average_double_occupancy, cells (fun w i => correlation w (number up (x i)) (number dn (x i))));
        (Some o, average_local_moment, cells (fun w i => correlation w (spin_z (x i)) (spin_z (x i))))])
    (List.map Z.of_nat (List.seq 0 (Z.to_nat Norb))).
