(** Accumulator arrays of the measurement structures, and the evaluation of the arithmetic
    expressions added to them.

    A measurement structure consists of named arrays of doubles.  [fld] is the type of these
    names, [feq] the comparison of names. *)
From Coq Require Import ZArith List Reals.
From Verif Require Import Base RealOps Blas.
Import ListNotations.
Local Open Scope Z_scope.

Section Store.
Variables (fld : Type) (feq : fld -> fld -> bool).

(** contents of the arrays *)
Definition store := fld -> list R.

Definition put (f : fld) (a : list R) (s : store) : store := fun f' => if feq f' f then a else s f'.

(** data->f[k] += v *)
Definition add_to (f : fld) (k : Z) (v : R) (s : store) : option store :=
  let* x := aget (s f) k in
  let* a := aset (s f) k (x + v)%R in
  Some (put f a s).

(** cblas_dscal(n, alpha, data->f, 1) *)
Definition scale_field (n : Z) (alpha : R) (f : fld) (s : store) : option store :=
  let* a := dscal n alpha (s f) 0 1 in Some (put f a s).

(** cblas_daxpy(n, alpha, x, 1, data->f, 1) *)
Definition axpy_field (n : Z) (alpha : R) (x : list R) (f : fld) (s : store) : option store :=
  let* a := daxpy n alpha x (s f) in Some (put f a s).
End Store.

(** Arithmetic expressions reading from arrays of doubles; [Rd a k] is a[k].  Every read is
    checked. *)
Inductive rexpr :=
| Cst (c : R)
| Rd (a : list R) (k : Z)
| Add (e f : rexpr)
| Sub (e f : rexpr)
| Mul (e f : rexpr)
| Neg (e : rexpr).

Fixpoint eval (e : rexpr) : option R :=
  match e with
  | Cst c => Some c
  | Rd a k => aget a k
  | Add e f => let* x := eval e in let* y := eval f in Some (x + y)%R
  | Sub e f => let* x := eval e in let* y := eval f in Some (x - y)%R
  | Mul e f => let* x := eval e in let* y := eval f in Some (x * y)%R
  | Neg e => let* x := eval e in Some (- x)%R
  end.

Declare Scope rexpr_scope.
Delimit Scope rexpr_scope with rexpr.
Bind Scope rexpr_scope with rexpr.
Infix "+" := Add : rexpr_scope.
Infix "-" := Sub : rexpr_scope.
Infix "*" := Mul : rexpr_scope.
Notation "- e" := (Neg e) : rexpr_scope.
(** element [k] of the array starting at element [off] of [a] *)
Notation "p .[ k ]" := (Rd (fst p) (snd p + (k))%Z) (at level 2, k at level 200, format "p .[ k ]") : rexpr_scope.
