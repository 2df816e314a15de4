(** Averages over ideal random numbers for the sweeps with phonons. *)
From Coq Require Import ZArith List Reals.
From Verif Require Import Base RandomSpec SimParams TimeStep Strat RandSource GreenConstruct Sweep PhononSweep PhononSpec IdealSpec.
Import ListNotations.
Local Open Scope R_scope.

(** The random numbers written down in advance: the choices of a shuffle (random.c:83-90, choice i between 0 and i) or
    the site chosen for a block or flip update (monte_carlo.c:243, 391), each with the uniform numbers drawn until the
    next shuffle or choice of a site. *)
Inductive entry := Order (js : list Z) (us : list R) | Site (j : Z) (us : list R).

(** Not in the code: a source delivering the numbers of the entries; numbers left over are discarded *)
Definition phonon_source : rand_source (list R * list entry) := mk_rand _
  (fun st n sq =>
     match snd st with
     | Order js us :: t =>
         if (Z.of_nat (length js) =? n)%Z
         then match shuffle_choices 0 js sq with Some sq' => Some (Some ((us, t), sq')) | None => None end
         else Some None
     | _ => Some None
     end)
  (fun st bound =>
     match snd st with
     | Site j us :: t => if ((0 <=? j) && (j <? bound))%Z%bool then Some (Some (j, (us, t))) else Some None
     | _ => Some None
     end)
  (fun st => match fst st with [] => Some (1, st) | u :: us => Some (u, (us, snd st)) end).

(** what is drawn: a shuffle or a site, and the number of uniform numbers *)
Inductive draw := DOrder (c : nat) | DSite (c : nat).

(** the numbers which can be drawn *)
Definition drawn_as (n : nat) (d : draw) (e : entry) : Prop :=
  match d, e with
  | DOrder c, Order js us => length js = n /\ valid_choices js /\ length us = c /\ List.Forall (fun u => 0 < u <= 1) us
  | DSite c, Site j us => (0 <= j < Z.of_nat n)%Z /\ length us = c /\ List.Forall (fun u => 0 < u <= 1) us
  | _, _ => False
  end.

(** the draws of one sweep with [nl] local updates per slice and [nb] block and flip updates *)
Definition sweep_draws (noHS : bool) (n L nl nb : nat) : list draw :=
  concat (repeat ((if noHS then [] else [DOrder n]) ++ [DOrder (2 * nl)]) L) ++ repeat (DSite 2) nb ++ repeat (DSite 1) nb.

(** mean over the numbers: independent, all orders and sites with equal probability, numbers uniform in [0,1] *)
Fixpoint draws_mean (n : nat) (ds : list draw) (f : list entry -> R) : R :=
  match ds with
  | [] => f []
  | DOrder c :: ds => choice_mean 0 n (fun js => uniform_mean c (fun us => draws_mean n ds (fun t => f (Order js us :: t))))
  | DSite c :: ds => total (fun j => uniform_mean c (fun us => draws_mean n ds (fun t => f (Site (Z.of_nat j) us :: t)))) (seq 0 n) / INR n
  end.

(** both fields after setting up the simulation from the fields [s] and [X] and [count] sweeps with the given numbers *)
Definition fields_after {MT PT : Type} measure measure_ph la junk (k : kinetic) (noHS : bool) (st : strat) (ph : phonon_params) (dt mu : R)
    (n L b nwraps count : nat) neqlt order (c : counts) (d : MT) (e : PT) (t : list entry) (s : list Z) (X : list R) : option (list Z * list R) :=
  match phonon_setup la junk k st (Z.of_nat n) (Z.of_nat L) (Z.of_nat b) ([], t) order s X (exp_field n k ph dt X) c d e with
  | Some p =>
    match phonon_sweeps phonon_source measure measure_ph la junk k noHS st ph dt mu (Z.of_nat nwraps) neqlt (Z.of_nat count) p with
    | Some (Some p') => Some (mc_s (p_mc p'), p_X p')
    | _ => None
    end
  | None => None
  end.
