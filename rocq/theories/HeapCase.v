(** Cases for the heap model. *)
From Coq Require Import ZArith List String Bool Lia Reals.
From Verif Require Import Base SimParams ParamSpec Heap HeapSpec HeapRules HeapFacts HeapRun HeapMain.
Import ListNotations.
Local Open Scope string_scope.
Local Open Scope Z_scope.

(** two sites, two slices, [n] sweeps with measurements on every slice; with or without phonons and
    unequal time measurements *)
Definition pair_params (ph : bool) (n un : Z) : sim_params :=
  mk_sim_params 1 2 1 0 (mk_bonds [0] [1] [0] [0] [0])%R [4]%R [0]%R 0%R ph
    (mk_phonon_params [1] [1] 1 1 1 1)%R (1/8)%R 2 1 1 1 n 1 un 1 0.

Lemma pair_valid ph n un : valid_params (pair_params ph n un).
Proof.
  constructor; cbn; try lia.
  - intros i Hi. assert (i = 0) as -> by lia. reflexivity.
  - exists 2. reflexivity.
  - exists 1. reflexivity.
Qed.

(** the lines of a parameter file; a name may occur several times *)
Definition few_lines : list (string * list string) :=
  [("Norb", ["1"]); ("Nx", ["2"]); ("U", ["0"; "4"]); ("mu", []); ("U", ["4"])].

(** an oracle that answers no, except for accepting updates *)
Definition accepts (ch : choice) (k : nat) : bool := match ch with Accept => true | _ => false end.
(** one that stops the run after a while *)
Definition stops (ch : choice) (k : nat) : bool := match ch with Accept => true | Stop => Nat.ltb 30 k | _ => false end.

Lemma main_ok orc p lines i0 : valid_params p ->
  (sp_use_phonons p = true -> 0 < sp_neqlt p /\ 0 <= sp_nsampl p) -> no_late_signal orc ->
  exists o h, main orc p lines i0 empty_heap = Some (o, h) /\
    (0 <= o_status o -> sound orc ->
     Forall (fun b => snd b = 8 * sp_Norb p) (h_live h) /\
     Z.of_nat (List.length (h_live h)) = left_over p (o_from o) (o_to o) /\
     h_peak h <= most_bytes p lines + 8 * sp_Norb p * left_over p (o_from o) (o_to o)) /\
    (o_status o < 0 -> sound orc -> h_peak h <= most_bytes p lines) /\
    (o_status o < 0 \/ o_from o <> 0 \/ o_status o = 1 -> exists ch k, orc ch k = true) /\
    (o_status o = 0 -> o_to o = Z.max (o_from o) (sp_nequil p + sp_nsampl p)) /\
    o_status o <= 1.
Proof.
  intros V Hp Hs.
  assert (G0 : good orc (dbl (sp_Norb p)) (bound p lines) 0 [] empty_heap).
  { constructor; cbn.
    - exists []. split; [constructor | intros _; split; [constructor | reflexivity]].
    - constructor.
    - constructor.
    - intros _. unfold bound, most_bytes, table_bytes. pose proof (lines_nonneg p lines) as H. unfold lines_bytes in H.
      pose proof (v_Norb _ V). unfold params_bytes, matrix, vector. nia. }
  destruct (spec_main orc p V (fun E => proj1 (Hp E)) (fun E => proj2 (Hp E)) Hs lines i0 _ G0)
    as (o & h & n & l & E & G & Q).
  exists o, h. split; [exact E|].
  destruct Q as [((Q1 & Qw) & Q2)|(Q1 & -> & Q2 & Q3 & Q4 & Q5 & Q6)].
  - repeat split; try lia.
    + intros _ S. pose proof (g_peak _ _ _ _ _ _ G S) as P. rewrite (Q2 S) in P. unfold bound in P. lia.
    + intros _. exact Qw.
  - split; [|split; [lia|split; [|split; [exact Q4 | lia]]]].
    + intros _ S. destruct (g_live _ _ _ _ _ _ G) as (k & P & K). destruct (K S) as [F Ek]. rewrite app_nil_r in P.
      pose proof (g_peak _ _ _ _ _ _ G S) as X. unfold bound, dbl in X. unfold leaks in Q2. rewrite Q2 in X.
      split; [|split].
      * rewrite Forall_forall in *. intros b Hb. apply F. now apply (Permutation.Permutation_in _ P).
      * rewrite (Permutation.Permutation_length P), Ek. exact Q2.
      * lia.
    + intros [H|[H|H]]; [lia | | destruct (Q5 H) as [m Em]; now exists Stop, m].
      destruct Q3 as [Q3|[_ [m Em]]]; [contradiction | now exists Checkpoint, m].
Qed.

Lemma total_const c l : Forall (fun b : ptr * Z => snd b = c) l -> total l = c * Z.of_nat (List.length l).
Proof.
  induction 1 as [|b l H F IH]; [cbn; lia|]. cbn [total fold_right List.length]. fold (total l). rewrite H, IH. lia.
Qed.

Lemma accepts_sound : sound accepts.
Proof. intros ch [<-|[<-|[<-|[]]]] k; reflexivity. Qed.
Lemma accepts_silent : no_late_signal accepts.
Proof. intros k. reflexivity. Qed.
Lemma stops_sound : sound stops.
Proof. intros ch [<-|[<-|[<-|[]]]] k; reflexivity. Qed.

(** the oracle that answers no *)
Definition never (ch : choice) (k : nat) : bool := false.
