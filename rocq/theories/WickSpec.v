(** Expectation values of products of electron operators in one field configuration, independent
    of the code.

    For a fixed configuration of the auxiliary fields the electrons are free, and by Wick's
    theorem every expectation value is a sum of products of Green's functions.  A mode is a spin
    together with a site.  An operator at the later time tau stands left of an operator at time 0. *)
From Coq Require Import ZArith List Reals Bool.
Import ListNotations.
Local Open Scope R_scope.

Inductive spin := up | dn.
Definition mode := (spin * Z)%type.
Definition same_spin (a b : mode) : bool :=
  match fst a, fst b with up, up | dn, dn => true | _, _ => false end.

(** the Green's functions of one configuration, for both spins:
    [gtt] is <c_i(tau) c^dag_j(tau)>, [g00] is <c_i(0) c^dag_j(0)>, [gt0] is <c_i(tau) c^dag_j(0)>;
    [g0t] is G(0,tau), i.e. -<c^dag_j(tau) c_i(0)> for tau > 0 and <c_i(0) c^dag_j(0)> for tau = 0 *)
Record config := mk_config {
  gtt : spin -> Z -> Z -> R;
  g00 : spin -> Z -> Z -> R;
  gt0 : spin -> Z -> Z -> R;
  g0t : spin -> Z -> Z -> R;
  tau_zero : bool }.

(** equal times *)
Definition equal_time (G : spin -> Z -> Z -> R) : config := mk_config G G G G true.

Definition delta (i j : Z) : R := if (i =? j)%Z then 1 else 0.
Definition only (b : bool) (x : R) : R := if b then x else 0.

Section Wick.
Variable w : config.
(** <c^dag_a(tau) c_b(tau)> *)
Definition cdag_c_tt (a b : mode) : R :=
  only (same_spin a b) (delta (snd a) (snd b) - gtt w (fst a) (snd b) (snd a)).
(** <c^dag_a(0) c_b(0)> *)
Definition cdag_c_00 (a b : mode) : R :=
  only (same_spin a b) (delta (snd a) (snd b) - g00 w (fst a) (snd b) (snd a)).
(** <c^dag_a(tau) c_b(0)> *)
Definition cdag_c_t0 (a b : mode) : R :=
  only (same_spin a b) (only (tau_zero w) (delta (snd a) (snd b)) - g0t w (fst a) (snd b) (snd a)).
(** <c_a(tau) c^dag_b(0)> *)
Definition c_cdag_t0 (a b : mode) : R :=
  only (same_spin a b) (gt0 w (fst a) (snd a) (snd b)).

(** sum of x c^dag_a c_b *)
Definition bilinear := list (R * mode * mode).
Definition lsum {A : Type} (f : A -> R) (l : list A) : R := fold_right (fun a s => f a + s) 0 l.

(** <A(tau)> and <A(0)> *)
Definition expect_tt (A : bilinear) : R := lsum (fun '(x, a, b) => x * cdag_c_tt a b) A.
Definition expect_00 (A : bilinear) : R := lsum (fun '(x, a, b) => x * cdag_c_00 a b) A.

(** <A(tau) B(0)> *)
Definition correlation (A B : bilinear) : R :=
  lsum (fun '(x, a, b) => lsum (fun '(y, c, d) =>
    x * y * (cdag_c_tt a b * cdag_c_00 c d + cdag_c_t0 a d * c_cdag_t0 b c)) B) A.

(** sum of x c_a c_b *)
Definition pairing := list (R * mode * mode).
(** <A(tau) B(0)^dag> *)
Definition pair_correlation (A B : pairing) : R :=
  lsum (fun '(x, a, b) => lsum (fun '(y, c, d) =>
    x * y * (c_cdag_t0 a c * c_cdag_t0 b d - c_cdag_t0 a d * c_cdag_t0 b c)) B) A.
End Wick.

(** operators at a site *)
Definition number (s : spin) (i : Z) : bilinear := [(1, (s, i), (s, i))].
(** n_up + n_dn *)
Definition charge (i : Z) : bilinear := [(1, (up, i), (up, i)); (1, (dn, i), (dn, i))].
(** n_up - n_dn *)
Definition spin_z (i : Z) : bilinear := [(1, (up, i), (up, i)); (-1, (dn, i), (dn, i))].
(** c^dag_dn c_up + c^dag_up c_dn *)
Definition spin_x (i : Z) : bilinear := [(1, (dn, i), (up, i)); (1, (up, i), (dn, i))].

(** an electron pair with spin up at site i and spin down at the sites of a list with weights *)
Definition pair_op (i : Z) (l : list (R * Z)) : pairing := map (fun '(x, j) => (x, (dn, j), (up, i))) l.
(** electron hopping between i and j, divided by the imaginary unit: c^dag_j c_i - c^dag_i c_j, both spins *)
Definition current (i j : Z) : bilinear :=
  [(1, (up, j), (up, i)); (-1, (up, i), (up, j)); (1, (dn, j), (dn, i)); (-1, (dn, i), (dn, j))].
(** sum of x c^dag_j c_i over a list of sites j with weights, both spins *)
Definition hop_op (i : Z) (l : list (R * Z)) : bilinear :=
  flat_map (fun '(x, j) => [(x, (up, j), (up, i)); (x, (dn, j), (dn, i))]) l.
