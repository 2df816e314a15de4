(** Model of the floating-point functions of /repo/src/random.c.

    [Random_GetUniform] is modelled in IEEE binary64 arithmetic: [rnd64] is
    rounding to nearest, ties to even, in the binary64 format (Flocq; no
    overflow can occur since all values are below 2^65).  [Random_GetNormal]
    is modelled in exact real arithmetic on top of it. *)
From Coq Require Import ZArith NArith Reals.
From Flocq Require Import Core.
From Verif Require Import Base RealOps Random.
Local Open Scope R_scope.

Definition rnd64 (x : R) : R := round radix2 (FLT_exp (-1074) 53) ZnearestE x.

(** random.c:103: the decimal literal 5.4210108624275221700372640e-20 as written *)
Definition uniform_literal : R := 54210108624275221700372640 / 10 ^ 45.

(** random.c:103: [(u + 1.0) * 5.42...e-20] with [u] a uint64_t: conversion to
    double, addition, multiplication, each rounded; the literal is rounded by
    the compiler. *)
Definition uniform_of_word (u : N) : R :=
  rnd64 (rnd64 (rnd64 (IZR (Z.of_N u)) + 1) * rnd64 uniform_literal).

(** random.c:98-104 [Random_GetUniform] *)
Definition get_uniform (st : randseed) : option (R * randseed) :=
  let* (u, st') := get_uint st in Some (uniform_of_word u, st').

(** random.c:111-120 [Random_GetNormal]; M_2PI as written *)
Definition two_pi_literal : R := 62831853071795864769 / 10 ^ 19.
Definition get_normal (st : randseed) : option (R * randseed) :=
  let* (u1, st1) := get_uniform st in
  let* (u2, st2) := get_uniform st1 in
  let* lg := rlog u1 in
  let* r := rsqrt (-2 * lg) in
  Some (r * sin (two_pi_literal * u2), st2).
