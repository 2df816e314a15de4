(** Specification of the hash table: a finite map from strings to values.
    Independent of HashTable.v apart from the names of the operations. *)
From stdpp Require Import gmap strings.
From Verif Require Import HashTable.

Section Spec.
Context {V : Type}.

(** Expected effect and expected result (NULL = [None]) of each call. *)
Definition map_step (m : gmap string V) (o : op V) : gmap string V * option V :=
  match o with
  | OpInsert k v => (<[k := v]> m, m !! k)
  | OpGet k => (m, m !! k)
  | OpRemove k => (delete k m, m !! k)
  end.

Fixpoint map_run (m : gmap string V) (ops : list (op V)) : gmap string V * list (option V) :=
  match ops with
  | [] => (m, [])
  | o :: ops' =>
      let (m1, r) := map_step m o in
      let (m2, rs) := map_run m1 ops' in (m2, r :: rs)
  end.
End Spec.
