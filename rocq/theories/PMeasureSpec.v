(** What the phonon measurements mean, independent of the code. *)
From Coq Require Import ZArith List Reals.
From Verif Require Import Sums GreenConstruct MeasureSpec PMeasure.
Import ListNotations.
Local Open Scope Z_scope.

Section Spec.
Variables (Norb Ncell L : Z) (dt : R) (omega : list R).

(** the field of orbital o in cell i at time slice l *)
Definition field (X : list R) (o i l : Z) : R := val X (site Ncell i o + Ncell * Norb * l).
(** its velocity; time is periodic *)
Definition velocity (X : list R) (o i l : Z) : R :=
  ((field X o i ((l + 1) mod L) - field X o i l) / dt)%R.
(** average over cells and time slices *)
Definition lattice_average (f : Z -> Z -> R) : R := average L (fun l => average Ncell (fun i => f i l)).
(** the electron density at a site *)
Definition electrons (Gu Gd : greens_func) (x : Z) : R :=
  ((1 - val (gf_mat Gu) (x + Ncell * Norb * x)) + (1 - val (gf_mat Gd) (x + Ncell * Norb * x)))%R.

(** the observables of orbital o, for one configuration *)
Definition observable (s : psample) (f : pfield) (o : Z) : R :=
  let X := ps_X s in
  match f with
  | X_avg => lattice_average (field X o)
  | X_avg_sq => (lattice_average (field X o) ^ 2)%R
  | X_sq_avg => lattice_average (fun i l => field X o i l ^ 2)%R
  | V_avg => lattice_average (velocity X o)
  | V_sq_avg => lattice_average (fun i l => velocity X o i l ^ 2)%R
  | PE => lattice_average (fun i l => / 2 * val omega o ^ 2 * field X o i l ^ 2)%R
  | KE => (/ (2 * dt) - lattice_average (fun i l => / 2 * velocity X o i l ^ 2))%R
  | nX => average Ncell (fun i => electrons (ps_Gu s) (ps_Gd s) (site Ncell i o) * field X o i (ps_l s))%R
  | _ => 0%R
  end.

(** the observables recorded for every orbital *)
Definition orbital_fields : list pfield := [X_avg; X_avg_sq; X_sq_avg; V_avg; V_sq_avg; PE; KE; nX].

(** what the two histories record for each sample *)
Definition history (s : psample) (f : pfield) (o : Z) : R :=
  match f with
  | iteration_X_avg => lattice_average (field (ps_X s) o)
  | iteration_X0 => average L (fun l => field (ps_X s) o 0 l)
  | _ => 0%R
  end.

Definition psign (s : psample) : R := sign_of (ps_Gu s) (ps_Gd s).

(** arguments of the right dimensions *)
Definition psample_ok (s : psample) : Prop :=
  let N := Ncell * Norb in
  Z.of_nat (length (gf_mat (ps_Gu s))) = N * N /\ Z.of_nat (length (gf_mat (ps_Gd s))) = N * N /\
  Z.of_nat (length (ps_X s)) = N * L /\ 0 <= ps_l s < L.
End Spec.
