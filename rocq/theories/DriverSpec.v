(** Vocabulary for the statements about the driver: what a log contains. *)
From Coq Require Import ZArith List Reals.
From Verif Require Import Base Driver.
Import ListNotations.
Local Open Scope Z_scope.

(** admissible parameters (param_parser.c:393-461 checks these and more) *)
Definition dvalid (p : dparams) : Prop :=
  0 <= d_nequil p /\ 0 <= d_nsampl p /\ 0 <= d_L p /\ 0 <= d_neqlt p.

Definition d_total (p : dparams) : Z := d_nequil p + d_nsampl p.

(** iteration numbers executed, samples taken, in order *)
Definition iters (lg : list dlog) : list Z :=
  flat_map (fun e => match e with LIter i => [i] | _ => [] end) lg.
Definition eq_vals (lg : list dlog) : list (list R) :=
  flat_map (fun e => match e with LMeas _ _ v => [v] | _ => [] end) lg.
Definition ph_vals (lg : list dlog) : list (list R) :=
  flat_map (fun e => match e with LPhonon _ _ v => [v] | _ => [] end) lg.
Definition un_vals (lg : list dlog) : list (list R) :=
  flat_map (fun e => match e with LUneq _ v => [v] | _ => [] end) lg.

(** lo, lo+1, ..., hi-1 *)
Definition interval (lo hi : Z) : list Z := map (fun k => lo + Z.of_nat k) (seq 0 (Z.to_nat (hi - lo))).

(** number of equal time samples per iteration *)
Definition per_iter (p : dparams) : Z := if 0 <? d_neqlt p then d_L p / d_neqlt p else 0.

(** iterations among 0..k-1 in which an unequal time sample is due *)
Definition uneq_due (p : dparams) (k : Z) : list Z :=
  filter (fun i => (0 <? d_nuneqlt p) && (i mod d_nuneqlt p =? 0))%bool (interval (d_nequil p) k).

(** sum and mean of a list of vectors of dimension [d] *)
Definition vsum (d : nat) (vs : list (list R)) : list R := fold_left vadd vs (repeat 0%R d).
Definition vmean (d : nat) (vs : list (list R)) : list R :=
  vscale (1 / IZR (Z.of_nat (length vs))) (vsum d vs).

(** a run without any stop request *)
Definition undisturbed (o : doracle) : Prop :=
  o_sig0 o = false /\ (forall i, o_time o i = false) /\ (forall i, o_sig o i = false).

(** number of iterations completed according to the disk *)
Definition completed {C} (dk : option (disk C)) : Z := match dk with None => 0 | Some d => dk_iter C d end.

(** a logged sample was due: not before the end of the equilibration, and after the
    right time slices / in the right iterations only *)
Definition due (p : dparams) (e : dlog) : Prop :=
  match e with
  | LIter _ => True
  | LMeas i l _ => d_nequil p <= i /\ 0 <= l < d_L p /\ (l + 1) mod d_neqlt p = 0
  | LPhonon i l _ =>
      d_nequil p <= i /\ 0 <= l < d_L p /\ (l + 1) mod d_neqlt p = 0 /\ d_phonons p = true
  | LUneq i _ => d_nequil p <= i /\ 0 < d_nuneqlt p /\ i mod d_nuneqlt p = 0
  end.

(** the same parameters with another number of sampling iterations *)
Definition with_nsampl (p : dparams) (n : Z) : dparams :=
  mk_dparams (d_nequil p) n (d_L p) (d_neqlt p) (d_nuneqlt p) (d_phonons p).
