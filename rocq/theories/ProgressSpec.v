(** The phase a simulation is in when [done] iterations are completed. *)
From Coq Require Import ZArith.
From Verif Require Import Progress.
Local Open Scope Z_scope.

Definition phase_at (nequil nsampl done : Z) : phase :=
  if done <? nequil then EQUILIB else if done <? nequil + nsampl then MEASURE else OUTPUT.

(** number of iterations of the current phase (equilibration or measurement)
    which the current run, started at [i0], has completed *)
Definition in_phase (nequil i0 done : Z) : Z :=
  if done <? nequil then done - i0 else done - Z.max i0 nequil.

(** printed counts make sense: 0 <= completed <= total, positive divisor *)
Definition sensible (pr : printed) : Prop :=
  match pr with
  | PrEquilib c t dv | PrMeasure c t dv =>
      0 <= c <= t /\ match dv with Some d => 0 < d | None => True end
  | _ => True
  end.
