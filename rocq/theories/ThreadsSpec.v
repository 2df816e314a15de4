(** What the two sections of a parallel construct may access, independent of the machine. *)
From Coq Require Import ZArith List Bool.
From Verif Require Import Threads.
Local Open Scope Z_scope.

Section Footprints.
Variables (arr V : Type).

(** the arrays that a thread reads, and the arrays that it may read and write *)
Record footprint := mk_footprint { reads : arr -> bool; writes : arr -> bool }.

(** whatever values the thread sees, it accesses only the arrays of its footprint *)
Fixpoint confined (F : footprint) {A} (p : prog arr V A) : Prop :=
  match p with
  | Ret _ => True
  | Fail => True
  | Load a _ k => (reads F a || writes F a = true) /\ forall v, confined F (k v)
  | Store a _ _ k => writes F a = true /\ confined F k
  | New a _ k => writes F a = true /\ confined F k
  end.

(** neither thread writes what the other one accesses *)
Definition compatible (F H : footprint) : Prop :=
  forall a, (writes F a = true -> reads H a = false /\ writes H a = false) /\
            (writes H a = true -> reads F a = false /\ writes F a = false).

(** the next access of a thread *)
Inductive access := Reads (a : arr) | Writes (a : arr) | NoAccess.
Definition next_access {A} (p : prog arr V A) : access :=
  match p with
  | Load a _ _ => Reads a
  | Store a _ _ _ => Writes a
  | New a _ _ => Writes a
  | _ => NoAccess
  end.
(** two accesses to the same array, at least one of which writes *)
Definition conflict (x y : access) : Prop :=
  match x, y with
  | Reads a, Writes b | Writes a, Reads b | Writes a, Writes b => a = b
  | _, _ => False
  end.

(** number of steps of a thread in a schedule *)
Definition turns (b : bool) (sched : list bool) : nat := count_occ Bool.bool_dec sched b.
End Footprints.
Arguments mk_footprint {arr}. Arguments reads {arr}. Arguments writes {arr}.
Arguments confined {arr V} _ {A}. Arguments compatible {arr}. Arguments next_access {arr V A}. Arguments conflict {arr}.

(** * The arrays of the simulation *)
Inductive spin := Up | Down.

(** [trial]: the copies Gu_new, Gd_new, tsm_u_new, tsm_d_new of the block and flip updates *)
Inductive name :=
  | Gmat (s : spin) (trial : bool)          (* Gu->mat, Gd->mat *)
  | Gdet (s : spin) (trial : bool)          (* logdet and sgndet *)
  | Bmat (s : spin) (trial : bool) (l : Z)  (* tsm_u->B[l], ... *)
  | Binv (s : spin) (trial : bool) (l : Z)  (* tsm_u->invB[l], ... *)
  | Bprod (s : spin) (trial : bool) (k : Z) (* tsm_u->Bprod[k], ... *)
  | Kinetic (inv : bool)                    (* expK, inv_expK *)
  | ExpV (s : spin) (v : bool)              (* expVu[0], expVu[1], expVd[0], expVd[1] *)
  | Delta (v : bool)                        (* delta[0], delta[1] *)
  | Field                                   (* s *)
  | ExpX                                    (* expX *)
  | Hbuf (s : spin)                         (* Hu, Hd *)
  | Utau (s : spin) (k : Z)                 (* curGtau0_u, curG0tau_u, curGeqlt_u, ... *)
  | Tmp (s : spin) (k : Z).                 (* memory allocated in the section *)

Definition name_eq (a b : name) : {a = b} + {a <> b}.
Proof. decide equality; try apply Z.eq_dec; try apply Bool.bool_dec; decide equality. Defined.

Definition spin_eqb (a b : spin) : bool := match a, b with Up, Up | Down, Down => true | _, _ => false end.

(** ** The parallel constructs *)
Inductive construct :=
  | Wrap (l : Z)                    (* monte_carlo.c:67-73, 537-543: GreenTimeSliceWrap *)
  | FlipUpdate                      (* monte_carlo.c:94-100, 566-572: GreenShermanMorrisonUpdate *)
  | ShiftUpdate                     (* monte_carlo.c:623-629 *)
  | Rebuild (l : Z) (ph : bool)     (* monte_carlo.c:115-121, 645-651: Update(Phonon)TimeStepMatrices *)
  | Init (trial : bool) (ph : bool) (* monte_carlo.c:278-284, 420-426, 777-783, 787-793: Init(Phonon)TimeStepMatrices *)
  | Construct (trial : bool)        (* monte_carlo.c:134-140, 287-293, 429-435, 664-670, 802-808: GreenConstruct *)
  | Unequal.                        (* measurement.c:572-578: ComputeUnequalTimeGreensFunction *)

(** the arrays read by the section of spin [s], besides those that it writes *)
Definition section_reads (c : construct) (s : spin) (a : name) : bool :=
  match c, a with
  | Wrap l, Bmat s' false l' | Wrap l, Binv s' false l' => spin_eqb s s' && (l =? l')
  | FlipUpdate, Delta _ | FlipUpdate, Field => true
  | Rebuild _ _, Kinetic _ | Rebuild _ _, Field | Init _ _, Kinetic _ | Init _ _, Field => true
  | Rebuild _ ph, ExpX | Init _ ph, ExpX => ph
  | Rebuild _ _, ExpV s' _ | Init _ _, ExpV s' _ => spin_eqb s s'
  | Rebuild _ _, Bmat s' false _ => spin_eqb s s'
  | Construct t, Bprod s' t' _ => spin_eqb s s' && Bool.eqb t t'
  | Unequal, Bmat s' false _ | Unequal, Binv s' false _ | Unequal, Bprod s' false _ => spin_eqb s s'
  | _, _ => false
  end.

(** the arrays written by the section of spin [s] *)
Definition section_writes (c : construct) (s : spin) (a : name) : bool :=
  match c, a with
  | _, Tmp s' _ => spin_eqb s s'
  | Wrap _, Gmat s' false | FlipUpdate, Gmat s' false | ShiftUpdate, Gmat s' false => spin_eqb s s'
  | Rebuild l _, Bmat s' false l' | Rebuild l _, Binv s' false l' => spin_eqb s s' && (l =? l')
  | Rebuild _ _, Bprod s' false _ => spin_eqb s s'
  | Init t _, Bmat s' t' _ | Init t _, Binv s' t' _ | Init t _, Bprod s' t' _ => spin_eqb s s' && Bool.eqb t t'
  | Construct t, Gmat s' t' | Construct t, Gdet s' t' => spin_eqb s s' && Bool.eqb t t'
  | Unequal, Hbuf s' | Unequal, Utau s' _ => spin_eqb s s'
  | _, _ => false
  end.

Definition section_footprint (c : construct) (s : spin) : footprint name :=
  mk_footprint (section_reads c s) (section_writes c s).

(** a routine that obtains the arrays [rd] to read and the arrays [wr] to read and write *)
Definition arguments (rd wr : list name) : footprint name :=
  mk_footprint (fun a => if in_dec name_eq a rd then true else false) (fun a => if in_dec name_eq a wr then true else false).
