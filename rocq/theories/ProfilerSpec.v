(** Vocabulary for the statements about the profiler. *)
From stdpp Require Import list strings.
From Coq Require Import ZArith NArith Sorting.Sorted.
From Verif Require Import Profiler.

(** name under which a call is booked, and time of the call *)
Definition ev_name (e : pevent) : string :=
  match e with PBegin n th _ | PEnd n th _ => thread_name n th end.
Definition ev_time (e : pevent) : N := match e with PBegin _ _ t | PEnd _ _ t => t end.

(** The clock never goes back, never shows 0 and does not wrap around. *)
Definition clock_ok (es : list pevent) : Prop :=
  StronglySorted N.le (map ev_time es) /\ Forall (fun e => 0 < ev_time e < 2^64)%N es.

(** the calls booked under one name, in order *)
Definition events_of (nm : string) (es : list pevent) : list pevent :=
  filter (fun e => ev_name e = nm) es.

(** The durations of the completed blocks, and the start of the running block;
    [None] unless the calls alternate Begin, End, Begin, End, ... *)
Fixpoint blocks (es : list pevent) : option (list N * option N) :=
  match es with
  | [] => Some ([], None)
  | [PBegin _ _ t] => Some ([], Some t)
  | PBegin _ _ t :: PEnd _ _ t' :: es' =>
      match blocks es' with Some (ds, r) => Some ((t' - t)%N :: ds, r) | None => None end
  | _ => None
  end.

Definition sumN (ds : list N) : N := foldr N.add 0%N ds.
Definition n_blocks (ds : list N) (r : option N) : Z :=
  (Z.of_nat (length ds) + match r with Some _ => 1 | None => 0 end)%Z.

(** name in a line (name, calls, total) of the report *)
Definition line_name (l : string * Z * N) : string := fst (fst l).
