(** The OpenMP constructs

      #pragma omp parallel sections
      { #pragma omp section  F(..up..);  #pragma omp section  F(..down..); }

    of monte_carlo.c and measurement.c.  The two sections run on two threads (main.c:48-49), every
    load and store of an array element is one step, and the steps of the threads are interleaved
    arbitrarily.  Calls of the profiler inside of the sections are serialised by a critical section
    (profiler.c:52, 89) and do not access the arrays; they are not part of this file (C14).

    An array is addressed by its name; different names stand for different memory blocks.  What
    malloc returns to a thread has a name that belongs to this thread. *)
From Coq Require Import ZArith List Reals.
From Verif Require Import Base RealOps Blas MatProd.
Import ListNotations.
Local Open Scope Z_scope.

Section Machine.
Variables (arr V : Type) (arr_eq : forall a b : arr, {a = b} + {a <> b}).

Definition mem := arr -> list V.
Definition upd (m : mem) (a : arr) (l : list V) : mem := fun b => if arr_eq a b then l else m b.

(** a thread: it returns, it has undefined behaviour, it loads or stores an element, or it obtains
    a new memory block with given (arbitrary) contents *)
Inductive prog (A : Type) : Type :=
  | Ret (x : A)
  | Fail
  | Load (a : arr) (i : Z) (k : V -> prog A)
  | Store (a : arr) (i : Z) (v : V) (k : prog A)
  | New (a : arr) (l : list V) (k : prog A).
Arguments Ret {A}. Arguments Fail {A}. Arguments Load {A}. Arguments Store {A}. Arguments New {A}.

(** one step; a finished thread does nothing *)
Definition tstep {A} (m : mem) (p : prog A) : option (mem * prog A) :=
  match p with
  | Ret x => Some (m, Ret x)
  | Fail => None
  | Load a i k => let* v := aget (m a) i in Some (m, k v)
  | Store a i v k => let* l := aset (m a) i v in Some (upd m a l, k)
  | New a l k => Some (upd m a l, k)
  end.

(** a thread that runs alone *)
Fixpoint exec {A} (p : prog A) (m : mem) : option (mem * A) :=
  match p with
  | Ret x => Some (m, x)
  | Fail => None
  | Load a i k => let* v := aget (m a) i in exec (k v) m
  | Store a i v k => let* l := aset (m a) i v in exec k (upd m a l)
  | New a l k => exec k (upd m a l)
  end.

(** two threads; the schedule tells which one makes the next step *)
Fixpoint interleave {A B} (sched : list bool) (m : mem) (p : prog A) (q : prog B)
  : option (mem * prog A * prog B) :=
  match sched with
  | [] => Some (m, p, q)
  | true :: s => let* (m', p') := tstep m p in interleave s m' p' q
  | false :: s => let* (m', q') := tstep m q in interleave s m' p q'
  end.

(** sequential composition and loops of programs *)
Fixpoint pbind {A B} (p : prog A) (f : A -> prog B) : prog B :=
  match p with
  | Ret x => f x
  | Fail => Fail
  | Load a i k => Load a i (fun v => pbind (k v) f)
  | Store a i v k => Store a i v (pbind k f)
  | New a l k => New a l (pbind k f)
  end.
Fixpoint pfor_from {S} (n : nat) (lo : Z) (body : Z -> S -> prog S) (st : S) : prog S :=
  match n with
  | O => Ret st
  | S n' => pbind (body lo st) (fun st' => pfor_from n' (lo + 1)%Z body st')
  end.
Definition pfor {S} (lo hi : Z) (body : Z -> S -> prog S) (st : S) : prog S :=
  pfor_from (Z.to_nat (hi - lo)) lo body st.
Definition plift {A} (o : option A) : prog A := match o with Some x => Ret x | None => Fail end.
Definition pload (a : arr) (i : Z) : prog V := Load a i Ret.
Definition pstore (a : arr) (i : Z) (v : V) : prog unit := Store a i v (Ret tt).
Definition pnew (a : arr) (l : list V) : prog unit := New a l (Ret tt).
End Machine.
Arguments Ret {arr V A}. Arguments Fail {arr V A}. Arguments Load {arr V A}. Arguments Store {arr V A}. Arguments New {arr V A}.
Arguments pbind {arr V A B}. Arguments pfor {arr V S}. Arguments pfor_from {arr V S}. Arguments plift {arr V A}.
Arguments pload {arr V}. Arguments pstore {arr V}. Arguments pnew {arr V}. Arguments upd {arr V}.
Arguments exec {arr V} _ {A}. Arguments tstep {arr V} _ {A}. Arguments interleave {arr V} _ {A B}.

Notation "'do' x <- p ; q" := (pbind p (fun x => q)) (at level 200, x pattern, p at level 100, q at level 200, right associativity).

(** * Sections as programs: every access to the arrays of the caller and to the temporary arrays *)
Section Programs.
Context {arr : Type}.
Local Notation prog := (prog arr R).

(** cblas_dgemm without transposition, with alpha = 1 and beta = 0, n x n matrices *)
Definition p_dgemm (n : Z) (A B C : arr) : prog unit :=
  pfor 0 n (fun j _ => pfor 0 n (fun i _ =>
    do s <- pfor 0 n (fun l s => do a <- pload A (i + l * n); do b <- pload B (l + j * n); Ret (s + a * b)%R) 0%R;
    pstore C (i + j * n) s) tt) tt.

(** greens_func.c:202-215 [GreenTimeSliceWrap]; T: the temporary matrix *)
Definition p_slice_wrap (junk : Z -> R) (N : Z) (T B invB G : arr) : prog unit :=
  do _ <- pnew T (fresh junk (N * N));
  do _ <- p_dgemm N B G T;
  p_dgemm N T invB G.

(** greens_func.c:169-195 [GreenShermanMorrisonUpdate]; c, d: the temporary arrays *)
Definition p_sherman_morrison (junk : Z -> R) (delta : R) (N i : Z) (c d G : arr) : prog unit :=
  do _ <- pnew c (fresh junk N);
  do _ <- pfor 0 N (fun j _ => do v <- pload G (i + j * N); pstore c j v) tt;
  do ci <- pload c i;
  do _ <- pstore c i (ci - 1)%R;
  do _ <- pnew d (fresh junk N);
  do _ <- pfor 0 N (fun j _ => do v <- pload G (N * i + j); pstore d j v) tt;
  do ci <- pload c i;
  do a <- plift (rdiv delta (1 - delta * ci));
  (* cblas_dger *)
  pfor 0 N (fun k _ => pfor 0 N (fun j _ =>
    do x <- pload d j; do y <- pload c k; do g <- pload G (j + k * N);
    pstore G (j + k * N) (g + a * x * y)%R) tt) tt.
End Programs.
