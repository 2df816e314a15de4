(** Averages over ideal random numbers: independent, uniformly distributed. *)
From Coq Require Import ZArith List Reals.
From Coquelicot Require Import Coquelicot.
From Verif Require Import Base Random RandomSpec Strat TimeStep RandSource GreenConstruct Sweep.
Import ListNotations.
Local Open Scope R_scope.

(** The random numbers of a simulation, written down in advance: for each time slice the choices of the shuffle
    (random.c:83-90, choice i between 0 and i) and the uniform numbers of the acceptance tests. *)
Definition tape := list (list Z * list R).

(** Not in the code: a source delivering the numbers on the tape, without block updates (no bounded draws) *)
Definition ideal_source : rand_source (list R * tape) := mk_rand _
  (fun st n sq =>
     match snd st with
     | [] => Some None
     | (js, us) :: t =>
         if (Z.of_nat (length js) =? n)%Z
         then match shuffle_choices 0 js sq with Some sq' => Some (Some ((us, t), sq')) | None => None end
         else Some None
     end)
  (fun _ _ => Some None)
  (fun st => match fst st with [] => Some (1, st) | u :: us => Some (u, (us, snd st)) end).

Definition total {A : Type} (f : A -> R) (xs : list A) : R := fold_right Rplus 0 (map f xs).

(** mean over [k] independent numbers uniform in [0,1] *)
Fixpoint uniform_mean (k : nat) (f : list R -> R) : R :=
  match k with
  | O => f []
  | S k' => RInt (fun u => uniform_mean k' (fun us => f (u :: us))) 0 1
  end.

(** mean over [m] independent choices, the first one uniform in 0..i, the next one in 0..i+1, and so on *)
Fixpoint choice_mean (i m : nat) (f : list Z -> R) : R :=
  match m with
  | O => f []
  | S m' => total (fun j => choice_mean (S i) m' (fun js => f (Z.of_nat j :: js))) (seq 0 (S i)) / INR (S i)
  end.

(** mean over tapes for [r] time slices of [n] sites *)
Fixpoint tape_mean (n r : nat) (f : tape -> R) : R :=
  match r with
  | O => f []
  | S r' => choice_mean 0 n (fun js => uniform_mean n (fun us => tape_mean n r' (fun t => f ((js, us) :: t))))
  end.

(** all fields with [k] entries 0 or 1 *)
Fixpoint fields (k : nat) : list (list Z) :=
  match k with
  | O => [[]]
  | S k' => map (cons 0%Z) (fields k') ++ map (cons 1%Z) (fields k')
  end.

(** the numbers of one slice of [n] sites, as the generator delivers them: choice i between 0 and i, numbers in (0,1] *)
Definition slice_tape_ok (n : nat) (p : list Z * list R) : Prop :=
  length (fst p) = n /\ valid_choices (fst p) /\ length (snd p) = n /\ List.Forall (fun u => 0 < u <= 1) (snd p).

(** the field after setting up the simulation from the field [s] and [count] sweeps with the random numbers on the tape *)
Definition field_after {MT : Type} measure la junk (k : kinetic) (st : strat) (n L b nwraps count : nat) neqlt order (d : MT) (t : tape) (s : list Z) : option (list Z) :=
  match dqmc_setup la junk k st (Z.of_nat n) (Z.of_nat L) (Z.of_nat b) ([], t) order s d with
  | Some m =>
    match dqmc_sweeps ideal_source measure la junk k st (Z.of_nat nwraps) neqlt (Z.of_nat count) m with
    | Some (Some m') => Some (mc_s m')
    | _ => None
    end
  | None => None
  end.
