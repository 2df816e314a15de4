(** Property C14: the profiler (profiler.c). *)
From stdpp Require Import gmap strings list.
From Coq Require Import ZArith NArith.
From Verif Require Import Base Profiler ProfilerSpec ProfilerFacts.

(** C14. For every sequence of calls (any names, any threads) and every clock:
    all calls are defined; the report, in whatever order it is sorted, lists
    every name that was ever begun exactly once and no other; and for every name
    whose own blocks are not nested it shows the number of its blocks and the
    sum of their durations, whatever was done under other names. *)
Theorem C14_totals_are_sums_of_durations :
  forall t0 es, clock_ok es ->
    exists pf ents, prun (profile_start t0) es = Some pf /\ profile_entries pf = Some ents /\
      forall sorted, sorted ≡ₚ ents ->
        exists lines, mapM (profile_line pf) sorted = Some lines /\
          NoDup (map line_name lines) /\
          (forall nm, nm ∈ map line_name lines <->
             exists n th t, PBegin n th t ∈ es /\ thread_name n th = nm) /\
          (forall nm ds r, blocks (events_of nm es) = Some (ds, r) -> (ds, r) <> ([], None) ->
             (nm, n_blocks ds r, sumN ds) ∈ lines).
Proof. exact profiler_lemma. Qed.
Print Assumptions C14_totals_are_sums_of_durations.

(** C14: the main thread reports under the plain name, and different threads never share an
    entry (threads 0 to 9; the program runs at most two). *)
Theorem C14_threads_are_separate : forall n th th', (th <= 9)%nat -> (th' <= 9)%nat ->
  thread_name n 0 = n /\ (thread_name n th = thread_name n th' -> th = th').
Proof. exact threads_separate. Qed.
Print Assumptions C14_threads_are_separate.

(** two interleaved blocks on two threads, one running block *)
Definition ex_events : list pevent :=
  [PBegin "A" 0 10; PBegin "A" 1 12; PBegin "B" 0 13; PEnd "A" 1 20; PEnd "A" 0 25;
   PBegin "A" 0 30; PEnd "A" 0 37]%N.

Example C14_case :
  clock_ok ex_events /\ blocks (events_of "A" ex_events) = Some ([15; 7]%N, None) /\
  blocks (events_of "A-1" ex_events) = Some ([8]%N, None) /\
  blocks (events_of "B" ex_events) = Some ([], Some 13%N).
Proof.
  split; [|repeat split; vm_compute; reflexivity]. split.
  - unfold ex_events. simpl. repeat constructor; discriminate.
  - unfold ex_events. repeat constructor.
Qed.

(** The comment in Profile_Begin announces that beginning a block again while it
    is running has no effect.  With the matching End calls the claim "the total
    is the time during which the block was running" is false: the second End
    adds the absolute clock value. *)
Theorem C14_nested_blocks_refuted :
  exists es pf, clock_ok es /\
    es = [PBegin "A" 0 10; PBegin "A" 0 20; PEnd "A" 0 30; PEnd "A" 0 1000]%N /\
    prun (profile_start 1) es = Some pf /\
    option_map (mapM (profile_line pf)) (profile_entries pf) = Some (Some [("A", 1%Z, 1020%N)]).
Proof.
  eexists. eexists. split; [|split; [reflexivity|split; [vm_compute; reflexivity|vm_compute; reflexivity]]].
  split.
  - simpl. repeat constructor; discriminate.
  - repeat constructor.
Qed.
Print Assumptions C14_nested_blocks_refuted.
