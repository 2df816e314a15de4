(** Properties C08-C10: checkpoint files (checkpoint.c, util.c). *)
From stdpp Require Import gmap strings.
From Coq Require Import ZArith NArith Lia.
From Verif Require Import Base Random RandomSpec RandomFacts FileSys Checkpoint CheckpointSpec
  CheckpointFacts.

(** C08, full claim: for every checkpoint the loaded generator delivers the
    numbers the saved one would have delivered, i.e. [stream k] is preserved for
    every [k].  This is false (see [C08_random_stream_refuted]).  What holds: it
    is preserved when the position at the time of the save is 0 or 8.
    Missing: the other 14 positions, where the words are rotated the wrong way. *)
Theorem C08_random_stream_partial :
  forall fs base c old k, valid_ckpt c -> rs_p (ck_seed c) = 0%Z \/ rs_p (ck_seed c) = 8%Z ->
    exists fs' c', save_checkpoint fs base c = Some fs' /\
      load_checkpoint fs' base (length (ck_s c)) old = (0%Z, c') /\
      stream k (ck_seed c') = stream k (ck_seed c) /\ stream k (ck_seed c) <> None.
Proof. exact stream_partial_lemma. Qed.
Print Assumptions C08_random_stream_partial.

(** C08, exact characterisation: the stream survives if and only if the state
    words happen to be symmetric in the sense below. *)
Theorem C08_random_stream_iff_symmetric :
  forall fs base c old, valid_ckpt c ->
    exists fs' c', save_checkpoint fs base c = Some fs' /\
      load_checkpoint fs' base (length (ck_s c)) old = (0%Z, c') /\
      ((forall k, stream k (ck_seed c') = stream k (ck_seed c)) <->
       (forall i, aget (rs_s (ck_seed c)) ((i - rs_p (ck_seed c)) mod 16)%Z
                = aget (rs_s (ck_seed c)) ((i + rs_p (ck_seed c)) mod 16)%Z)).
Proof. exact stream_iff_lemma. Qed.
Print Assumptions C08_random_stream_iff_symmetric.

(** C08 is refuted: a generator seeded with 1 that has delivered one number
    continues differently after save and load (already in the first number). *)
Definition after_one : ckpt :=
  mk_ckpt 5 (match draws 1 (seed_init 1) with Some (_, st) => st | None => seed_init 1 end) [1; 0; 1; 1]%N.

Theorem C08_random_stream_refuted :
  exists c fs' c', valid_ckpt c /\
    (exists rs, draws 1 (seed_init 1) = Some (rs, ck_seed c)) /\
    save_checkpoint ∅ "out" c = Some fs' /\
    load_checkpoint fs' "out" (length (ck_s c)) c = (0%Z, c') /\
    stream 1 (ck_seed c') <> stream 1 (ck_seed c).
Proof.
  assert (valid_ckpt after_one) as V.
  { apply valid_seeded; lia. }
  destruct (valid_ckpt_save ∅ "out" after_one after_one V) as (fs' & E1 & _ & E2).
  exists after_one, fs'. eexists. split; [exact V|].
  split; [eexists; vm_compute; reflexivity|].
  split; [exact E1|]. split; [exact E2|]. vm_compute. discriminate.
Qed.
Print Assumptions C08_random_stream_refuted.

(** Non-vacuity: a saved state at position 8 that is not symmetric in itself. *)
Example C08_case : let st := steps 8 (seed_init 7) in
  rs_p st = 8%Z /\ getw st 0 <> getw st 1 /\
  valid_ckpt (mk_ckpt 3 st [0; 1]%N).
Proof.
  intros st. split; [vm_compute; reflexivity|]. split; [vm_compute; discriminate|].
  split; [simpl; lia|]. apply steps_valid.
  apply seed_init_valid. lia.
Qed.

(** C09 (round trip). Whatever was on disk before, loading what was saved
    succeeds and gives back the iteration number and the field; the checkpoint
    is found; no other file is touched. *)
Theorem C09_roundtrip :
  forall fs base c old, valid_ckpt c ->
    exists fs' c', save_checkpoint fs base c = Some fs' /\
      search_checkpoint fs' base = 0%Z /\
      load_checkpoint fs' base (length (ck_s c)) old = (0%Z, c') /\
      ck_iter c' = ck_iter c /\ ck_s c' = ck_s c /\ valid_seed (ck_seed c') /\
      (forall name, (forall suf, suf ∈ suffixes -> name <> base +:+ suf) -> fs' !! name = fs !! name).
Proof. exact roundtrip_lemma. Qed.
Print Assumptions C09_roundtrip.

(** C09 (search and rejection). *)
Theorem C09_search_and_rejection :
  (forall fs base, search_checkpoint fs base = 0%Z <->
     forall suf, suf ∈ suffixes -> exists bs, fs !! (base +:+ suf) = Some bs) /\
  (forall fs base LxN old,
     let st := fst (load_checkpoint fs base LxN old) in
     (st = 0%Z \/ (st < 0)%Z) /\
     (st = 0%Z <-> file_of_size fs (base +:+ "_iteration.dat") 4 /\
                  file_of_size fs (base +:+ "_randseed.dat") 128 /\
                  file_of_size fs (base +:+ "_hsfield.dat") LxN)) /\
  (forall fs f old n st new, read_data fs f old n = (st, new) ->
     (st = 0%Z /\ fs !! f = Some new /\ length new = n) \/ ((st < 0)%Z /\ new = old)).
Proof. exact (conj search_iff (conj load_status_iff read_neg)). Qed.
Print Assumptions C09_search_and_rejection.

Example C09_case :
  option_map (fun fs' => (fs' !! "out_hsfield.dat", fst (load_checkpoint fs' "out" 4 after_one),
                          fst (load_checkpoint fs' "out" 5 after_one)))
    (save_checkpoint (<["out_hsfield.dat" := [9]%N]> ∅) "out" after_one)
  = Some (Some [1; 0; 1; 1]%N, 0%Z, (-2)%Z).
Proof. vm_compute. reflexivity. Qed.

(** C10, full claim: after a crash during SaveCheckpoint, which overwrites a
    complete older checkpoint [c0], a load that succeeds gives the old or the new
    checkpoint as a whole.  False, see the refutation and [C10_found_but_not_loadable] below.  What holds:
    the result is one of four combinations, in each of which every component is
    entirely old or entirely new, and the components are replaced in the order
    iteration, generator, field.  Missing: excluding the two mixed combinations. *)
Theorem C10_crash_during_save_partial :
  forall fs0 fs1 base c0 c k fs2 old r ro rn,
    valid_ckpt c0 -> valid_ckpt c -> length (ck_s c0) = length (ck_s c) ->
    save_checkpoint fs0 base c0 = Some fs1 -> crash_save k fs1 base c = Some fs2 ->
    (* [ro] and [rn]: what loading the old, respectively the new checkpoint gives *)
    load_checkpoint fs1 base (length (ck_s c)) old = (0%Z, ro) ->
    (exists fs3, save_checkpoint fs1 base c = Some fs3 /\
       load_checkpoint fs3 base (length (ck_s c)) old = (0%Z, rn)) ->
    load_checkpoint fs2 base (length (ck_s c)) old = (0%Z, r) ->
    r = ro \/ r = rn \/
    r = mk_ckpt (ck_iter rn) (ck_seed ro) (ck_s ro) \/
    r = mk_ckpt (ck_iter rn) (ck_seed rn) (ck_s ro).
Proof. exact crash_partial_lemma. Qed.
Print Assumptions C10_crash_during_save_partial.

(** C10 for the first save: if no field file existed before, a crash leaves
    either nothing loadable or the new checkpoint as a whole. *)
Theorem C10_crash_during_first_save :
  forall fs base c k fs2 old r, valid_ckpt c ->
    fs !! (base +:+ "_hsfield.dat") = None ->
    crash_save k fs base c = Some fs2 ->
    load_checkpoint fs2 base (length (ck_s c)) old = (0%Z, r) ->
    exists fs3, save_checkpoint fs base c = Some fs3 /\
      load_checkpoint fs3 base (length (ck_s c)) old = (0%Z, r).
Proof. exact crash_first_lemma'. Qed.
Print Assumptions C10_crash_during_first_save.

(** C10 refuted: old checkpoint at iteration 5, new one at iteration 9; a crash
    after the first file leaves a checkpoint that loads successfully with the
    new iteration number, but the old generator state and the old field. *)
Definition at_nine : ckpt := mk_ckpt 9 (seed_init 3) [0; 0; 0; 1]%N.

Theorem C10_crash_during_save_refuted :
  exists c0 c k fs1 fs2 ro rn r,
    valid_ckpt c0 /\ valid_ckpt c /\ length (ck_s c0) = length (ck_s c) /\
    save_checkpoint ∅ "out" c0 = Some fs1 /\ crash_save k fs1 "out" c = Some fs2 /\
    load_checkpoint fs1 "out" 4 c0 = (0%Z, ro) /\
    (exists fs3, save_checkpoint fs1 "out" c = Some fs3 /\ load_checkpoint fs3 "out" 4 c0 = (0%Z, rn)) /\
    search_checkpoint fs2 "out" = 0%Z /\ load_checkpoint fs2 "out" 4 c0 = (0%Z, r) /\
    r <> ro /\ r <> rn /\ ck_iter r = 9%Z /\ ck_s r = ck_s c0.
Proof.
  exists after_one, at_nine, 5%nat.
  assert (valid_ckpt after_one) as V0 by (apply valid_seeded; lia).
  assert (valid_ckpt at_nine) as V by (apply (valid_seeded 9 3 0); lia).
  destruct (valid_ckpt_save ∅ "out" after_one after_one V0) as (fs1 & E1 & _ & L1).
  destruct (crash_mixed _ _ _ _ _ after_one V0 V E1) as (fs2 & E2 & S2 & L2).
  destruct (valid_ckpt_save fs1 "out" at_nine after_one V) as (fs3 & E3 & _ & L3).
  exists fs1, fs2. do 3 eexists.
  split; [exact V0|]. split; [exact V|]. split; [reflexivity|]. split; [exact E1|].
  split; [exact E2|]. split; [exact L1|]. split; [exists fs3; split; [exact E3|exact L3]|].
  split; [exact S2|]. split; [exact L2|].
  split; [intros H; apply (f_equal ck_iter) in H; discriminate H|].
  split; [intros H; apply (f_equal ck_s) in H; discriminate H|].
  split; reflexivity.
Qed.
Print Assumptions C10_crash_during_save_refuted.

(** C10, a second bad outcome: for every old checkpoint and every new one there
    is a crash point after which the checkpoint is found but cannot be loaded, so
    that the program refuses to start (main.c:156-160) until the files are
    removed by hand. *)
Theorem C10_found_but_not_loadable :
  forall fs0 fs1 base c0 c old, valid_ckpt c0 -> valid_ckpt c ->
    save_checkpoint fs0 base c0 = Some fs1 ->
    exists k fs2, crash_save k fs1 base c = Some fs2 /\
      search_checkpoint fs2 base = 0%Z /\
      (fst (load_checkpoint fs2 base (length (ck_s c)) old) < 0)%Z.
Proof. exact found_not_loadable. Qed.
Print Assumptions C10_found_but_not_loadable.
