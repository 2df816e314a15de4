(** Time step matrices: what the arrays should contain. *)
From Coq Require Import ZArith List Reals.
From mathcomp Require Import all_ssreflect ssralg matrix.
From Verif Require Import RField MatSpec TimeStep.
Set Implicit Arguments.
Unset Strict Implicit.
Unset Printing Implicit Defensive.
Local Open Scope ring_scope.

(** n lattice sites; the arrays of the kinetic structure are n x n matrices, inverse to each other *)
Record kinetic_ok (n : nat) (k : kinetic) : Prop := {
  ko_Ncell : (0 < k_Ncell k)%Z;
  ko_dim : (k_Ncell k * k_Norb k)%Z = Z.of_nat n;
  ko_expK : List.length (expK k) = (n * n)%N;
  ko_inv_expK : List.length (inv_expK k) = (n * n)%N;
  ko_inverse : mat n (inv_expK k) *m mat n (expK k) = 1%:M }.

(** two tables of length Norb, entrywise inverse to each other *)
Record expV_ok (Norb : Z) (expV : list (list R)) : Prop := {
  vo_two : List.length expV = 2%N;
  vo_len : List.Forall (fun row => Z.of_nat (List.length row) = Norb) expV;
  vo_inverse : forall o, (Z.of_nat o < Norb)%Z ->
                 nth R0 (nth nil expV 0) o * nth R0 (nth nil expV 1) o = 1 }.

(** field values 0 or 1 for L slices of n sites *)
Definition field_ok (n L : nat) (s : list Z) : Prop :=
  List.length s = (L * n)%N /\ List.Forall (fun v => v = 0%Z \/ v = 1%Z) s.

(** the factor of site [i] in slice [l] *)
Definition field_factor (n : nat) (Ncell : Z) (expV : list (list R)) (s : list Z) (l i : nat) : R :=
  nth R0 (nth nil expV (Z.to_nat (nth 0%Z s (l * n + i)))) (Z.to_nat (Z.of_nat i / Ncell)).

(** the time step matrix of slice [l]: exp(V_l) exp(-dt K) *)
Definition step_mx (n : nat) (k : kinetic) (expV : list (list R)) (s : list Z) (l : nat) : 'M[R]_n :=
  diag_mx (\row_(i < n) field_factor n (k_Ncell k) expV s l i) *m mat n (expK k).

(** the same with phonons: exp(V_l) exp(X_l) exp(-dt K) *)
Definition phonon_step_mx (n : nat) (k : kinetic) (expV : list (list R)) (s : list Z) (expX : list R) (l : nat)
  : 'M[R]_n :=
  diag_mx (\row_(i < n) (field_factor n (k_Ncell k) expV s l i * nth R0 expX (l * n + i)))
  *m mat n (expK k).

(** allocated structure for L = numBprod * prodBlen slices *)
Record tsm_shape (n L b : nat) (t : tsm) : Prop := {
  sh_N : ts_N t = Z.of_nat n;
  sh_L : ts_L t = Z.of_nat L;
  sh_prodBlen : ts_prodBlen t = Z.of_nat b;
  sh_pos : (0 < b)%N /\ (0 < L)%N;
  sh_numBprod : Z.of_nat L = (ts_numBprod t * Z.of_nat b)%Z;
  sh_B : List.length (ts_B t) = L /\ List.Forall (fun m => List.length m = (n * n)%N) (ts_B t);
  sh_invB : List.length (ts_invB t) = L /\ List.Forall (fun m => List.length m = (n * n)%N) (ts_invB t);
  sh_Bprod : Z.of_nat (List.length (ts_Bprod t)) = ts_numBprod t /\
             List.Forall (fun m => List.length m = (n * n)%N) (ts_Bprod t) }.

(** matrix number [l] of an array of matrices *)
Definition mat_at (n : nat) (Ms : list (list R)) (l : nat) : 'M[R]_n := mat n (nth nil Ms l).

(** M (lo+len-1) ... M (lo+1) M lo *)
Definition oprod (n : nat) (M : nat -> 'M[R]_n) (lo len : nat) : 'M[R]_n :=
  mprod (map M (iota lo len)).

(** the structure holds the matrices [M l], their inverses, and the products of blocks of length b *)
Definition tsm_holds (n L b : nat) (M : nat -> 'M[R]_n) (t : tsm) : Prop :=
  tsm_shape n L b t /\
  (forall l, (l < L)%N -> mat_at n (ts_B t) l = M l /\
     mat_at n (ts_invB t) l *m M l = 1%:M /\ M l *m mat_at n (ts_invB t) l = 1%:M) /\
  (forall q, (q * b < L)%N -> mat_at n (ts_Bprod t) q = oprod M (q * b) b).

(** effect of an update of slice [l]: matrix [l] and its inverse are replaced, all others are
    kept; the product of a block is recomputed if [l] is its last slice and kept otherwise *)
Definition updated n L b l (Ml : 'M[R]_n) (t t' : tsm) : Prop :=
  tsm_shape n L b t' /\
  mat_at n (ts_B t') l = Ml /\
  mat_at n (ts_invB t') l *m Ml = 1%:M /\ Ml *m mat_at n (ts_invB t') l = 1%:M /\
  (forall l', l' <> l -> mat_at n (ts_B t') l' = mat_at n (ts_B t) l' /\ mat_at n (ts_invB t') l' = mat_at n (ts_invB t) l') /\
  (forall q, (q * b < L)%N -> mat_at n (ts_Bprod t') q =
       if l.+1 == (q.+1 * b)%N then oprod (mat_at n (ts_B t')) (q * b) b else mat_at n (ts_Bprod t) q).
