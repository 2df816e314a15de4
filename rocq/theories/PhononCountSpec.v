(** What the summary of the phonon data and the acceptance counters should say. *)
From Coq Require Import ZArith List Reals.
From Verif Require Import WickSpec PMeasure PMeasureSpec PhononSweep Summary.
Import ListNotations.
Local Open Scope Z_scope.

(** between [c0] and [c] the three kinds of updates were proposed at most [nl], [nb] and [nf] times (exactly as
    often if [all] holds), and no more were accepted than proposed *)
Record counted (all : Prop) (nl nb nf : Z) (c0 c : counts) : Prop := {
  cn_local : 0 <= n_local_accept c - n_local_accept c0 <= n_local_total c - n_local_total c0 /\ n_local_total c - n_local_total c0 <= nl;
  cn_block : 0 <= n_block_accept c - n_block_accept c0 <= n_block_total c - n_block_total c0 /\ n_block_total c - n_block_total c0 <= nb;
  cn_flip : 0 <= n_flip_accept c - n_flip_accept c0 <= n_flip_total c - n_flip_total c0 /\ n_flip_total c - n_flip_total c0 <= nf;
  cn_all : all -> n_local_total c - n_local_total c0 = nl /\ n_block_total c - n_block_total c0 = nb /\ n_flip_total c - n_flip_total c0 = nf }.

(** counters at the start of the program *)
Definition no_counts : counts := mk_counts 0 0 0 0 0 0.

(** sum of sign times value, divided by the sum of the signs *)
Definition phonon_average (Norb Ncell L : Z) (dt : R) (omega : list R) (samples : list psample) (f : pfield) (o : Z) : R :=
  (lsum (fun s => psign s * observable Norb Ncell L dt omega s f o) samples / lsum psign samples)%R.

(** the lines of the summary: the sign, and for every orbital the fractions of accepted proposals and the averages [est] *)
Definition phonon_summary_lines (Norb : Z) (sign local block flip : R) (est : pfield -> Z -> R) : list line :=
  (None, average_sign, sign) ::
  flat_map (fun o =>
    [(Some o, local_acceptance_ratio, local); (Some o, block_acceptance_ratio, block); (Some o, flip_acceptance_ratio, flip);
     (Some o, average_X, est X_avg o); (Some o, average_X2, est X_sq_avg o); (Some o, average_V2, est V_sq_avg o);
     (Some o, average_phonon_KE, est KE o); (Some o, average_phonon_PE, est PE o); (Some o, average_sum_nX, est nX o)])
    (map Z.of_nat (seq 0 (Z.to_nat Norb))).
