(** Model of /repo/src/stratonovich.c: tables of the Hubbard-Stratonovich transformation.

    Doubles are real numbers, expm1(x) = exp(x) - 1; a square root of a negative number and a
    division by zero are [None]. *)
From Coq Require Import ZArith List Reals.
From Verif Require Import Base RealOps.
Import ListNotations.
Local Open Scope Z_scope.

(** stratonovich.h:15-22 [stratonovich_params_t]; [expVu], [expVd], [delta] are arrays of two
    arrays of length Norb *)
Record strat := mk_strat { st_Norb : Z; expVu : list (list R); expVd : list (list R); st_delta : list (list R) }.

(** stratonovich.c:24-43: one pass of the loop: the entries (e^-l, e^l, delta0, delta1) *)
Definition strat_entry (dt U : R) : option (R * R * R * R) :=
  let x := (0.5 * dt * U)%R in
  let exp_x := exp x in
  let y := ((exp x - 1) * (exp_x + 1))%R in
  let* sqrt_y := rsqrt y in
  let exp_pos_lambda := (exp_x + sqrt_y)%R in
  let* exp_neg_lambda := rdiv 1 exp_pos_lambda in
  let delta0 := (2 * (y + exp_x * sqrt_y))%R in
  let* r := rdiv 1 (delta0 + 1) in
  Some (exp_neg_lambda, exp_pos_lambda, delta0, (r - 1)%R).

(** stratonovich.c:10-45 [FillStratonovichParameters]; the six arrays are allocated with
    malloc, the previous contents are [junk] *)
Definition fill_stratonovich (Norb : Z) (U : list R) (dt : R) (junk : list R) : option strat :=
  let* a := for_range 0 Norb (fun o a =>
      let '(vu0, vu1, vd0, vd1, d0, d1) := a in
      let* u := aget U o in
      let* e := strat_entry dt u in
      let '(neg, pos, delta0, delta1) := e in
      let* vu0 := aset vu0 o neg in
      let* vu1 := aset vu1 o pos in
      let* vd0 := aset vd0 o pos in
      let* vd1 := aset vd1 o neg in
      let* d0 := aset d0 o delta0 in
      let* d1 := aset d1 o delta1 in
      Some (vu0, vu1, vd0, vd1, d0, d1)) (junk, junk, junk, junk, junk, junk) in
  let '(vu0, vu1, vd0, vd1, d0, d1) := a in
  Some (mk_strat Norb [vu0; vu1] [vd0; vd1] [d0; d1]).
