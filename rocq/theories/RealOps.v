(** Checked real operations: the C operation applied to an argument outside of
    its mathematical domain (result NaN or Inf in C) is [None]. *)
From Coq Require Import Reals.
Local Open Scope R_scope.

(** x / y *)
Definition rdiv (x y : R) : option R := if Req_EM_T y 0 then None else Some (x / y).
(** sqrt(x) *)
Definition rsqrt (x : R) : option R := if Rlt_dec x 0 then None else Some (sqrt x).
(** log(x) *)
Definition rlog (x : R) : option R := if Rlt_dec 0 x then Some (ln x) else None.
