(** Properties C01, C02: the hash table of hash_table.c. *)
From stdpp Require Import gmap strings list.
From Coq Require Import ZArith.
From Verif Require Import Base HashTable HashTableSpec HashTableFacts.

(** C01. Any client history on a freshly allocated table is defined, returns
    exactly the results of a finite map, and [n_entries] counts the live keys. *)
Theorem C01_hash_table_is_finite_map :
  forall (V : Type) (nb : Z) (ops : list (op V)),
    (0 < nb < 2^31)%Z ->
    exists t,
      ht_run (ht_alloc nb) ops = Some (t, snd (map_run ∅ ops)) /\
      n_entries t = Z.of_nat (size (fst (map_run ∅ ops))) /\
      (forall k, ht_get t k = Some (fst (map_run ∅ ops) !! k)).
Proof.
  intros V nb ops H. destruct (run_sim ops _ _ (alloc_rel nb H)) as (t & E & R).
  exists t. repeat split; [exact E | exact (rel_cnt _ _ R) | intros k; exact (get_sim _ _ k R)].
Qed.
Print Assumptions C01_hash_table_is_finite_map.

(** C02. Whatever was done to the table before, [DeleteHashTable] passes every
    value still stored to the free function exactly once, and nothing else. *)
Theorem C02_delete_frees_live_values_once :
  forall (V : Type) (nb : Z) (ops : list (op V)),
    (0 < nb < 2^31)%Z ->
    exists t outs freed,
      ht_run (ht_alloc nb) ops = Some (t, outs) /\
      ht_delete t = Some freed /\
      freed ≡ₚ (map_to_list (fst (map_run ∅ ops))).*2.
Proof.
  intros V nb ops H. destruct (run_sim ops _ _ (alloc_rel nb H)) as (t & E & R).
  destruct (delete_sim _ _ R) as (l & El & Hl). exists t, (snd (map_run ∅ ops)), l.
  exact (conj E (conj El Hl)).
Qed.
Print Assumptions C02_delete_frees_live_values_once.

(** Concrete case: one bucket, so that all keys collide; replace, remove and
    re-insert.  Values are pointers, here numbers. *)
Definition ex_ops : list (op nat) :=
  [OpInsert "U" 1; OpInsert "mu" 2; OpInsert "U" 3; OpGet "U"; OpRemove "mu"; OpGet "mu";
   OpInsert "Nx" 4; OpRemove "zz"].

Example C01_example :
  exists t, ht_run (ht_alloc 1) ex_ops =
    Some (t, [None; None; Some 1; Some 3; Some 2; None; None; None]) /\ n_entries t = 2%Z.
Proof. vm_compute. eexists; split; reflexivity. Qed.

Example C02_example :
  exists t outs, ht_run (ht_alloc 1) ex_ops = Some (t, outs) /\ ht_delete t = Some [3; 4].
Proof. vm_compute. do 2 eexists; split; reflexivity. Qed.
