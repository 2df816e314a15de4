(** The acceptance counters of a run with phonons. *)
From Coq Require Import ZArith List Reals Lia Lra.
From mathcomp Require Import all_ssreflect ssralg matrix.
From Verif Require Import Base RField SimParams MatSpec MatFacts TimeStep TimeStepSpec TimeStepFacts Strat StratSpec GreenSpec GreenFacts
  Lapack LapackSpec GreenConstruct RandSource Sweep SweepSpec SweepFacts PhononSweep PhononSpec PhononFieldFacts PhononLoopFacts PhononFacts PhononCountSpec PhononCountFacts.
Set Implicit Arguments.
Unset Strict Implicit.
Unset Printing Implicit Defensive.
Local Open Scope ring_scope.
Import GRing.Theory.

Lemma hung_loop (A : Type) (f : Z -> A -> option (option A)) n lo : for_from n lo (fun i => may_hang (f i)) None = Some None.
Proof. by elim: n lo => [|n IH] lo //=. Qed.

Section Run.
Context {RS MT PT : Type}.
Variables (rng : rand_source RS) (valid : RS -> Prop) (la : lapack) (junk : Z -> R) (measure : greens_func -> greens_func -> MT -> option MT)
  (MI : MT -> Prop) (measure_ph : greens_func -> greens_func -> Z -> list R -> PT -> option PT) (PI : PT -> Prop)
  (n L b : nat) (k : kinetic) (noHS : bool) (st : strat) (ph : phonon_params) (dt mu : R) (nw : nat).
Hypotheses (RO : rand_ok rng valid) (LA : lapack_ok la) (HM : measure_ok n measure MI) (HP : measure_ph_ok n L measure_ph PI)
  (Hn : (0 < n)%N) (Hn64 : (Z.of_nat n < 2^64)%Z) (KO : kinetic_ok n k) (SO : strat_ok (k_Norb k) st) (PO : phonon_ok (k_Norb k) ph) (Hdt : dt <> R0)
  (Hnw : (0 < nw)%N) (Hb : (b %| nw)%N).
Notation all := (List.Forall (fun g => g <> R0) (ph_g ph)).
Notation nl := (Z.max 0 (ph_n_local_updates ph)).
Notation nb := (Z.max 0 (ph_n_block_updates ph)).
Notation LZ := (Z.of_nat L).

Lemma sweeps_counted neqlt : forall c lo (p p' : phstate RS MT PT), ph_consistent n L k st ph dt valid MI PI b p ->
  for_from c lo (fun it => may_hang (phonon_iteration rng measure measure_ph la junk k noHS st ph dt mu (Z.of_nat nw) (neqlt it))) (Some p) = Some (Some p') ->
  counted all (Z.of_nat c * (LZ * nl)) (Z.of_nat c * nb) (Z.of_nat c * nb) (p_cnt p) (p_cnt p').
Proof.
  elim=> [|c IH] lo p p' Hp; cbn [for_from].
  - move=> [<-]. apply: (counted_eq _ _ _ _ _ _ _ _ _ (counted_refl _ _)) => //; lia.
  - cbn [may_hang]. case E: (phonon_iteration _ _ _ _ _ _ _ _ _ _ _ _ _ _) => [[q|]|]; cbn [obind]; [|by rewrite hung_loop|by []].
    move=> H.
    have [[r [r' [E1 [_ HR]]]]|[E1 _]] := phonon_iteration_ok RO LA junk Hn Hn64 KO SO PO HM HP Hdt (fun _ _ _ _ _ _ => erefl) noHS mu (neqlt lo) Hnw Hb Hp;
      last by rewrite E in E1.
    rewrite E in E1. case: E1 => ?. subst r. case: r' HR => // cf [_ Hq].
    have C1 := iteration_counted all rng measure measure_ph la junk k st ph dt mu (fun h => h) _ _ _ _ _ E.
    have EL : ts_L (mc_tu (p_mc p)) = LZ by case: (phc_tu Hp) => [[]].
    rewrite EL in C1. have C2 := IH _ _ _ Hq H.
    apply: (counted_eq _ _ _ _ _ _ _ _ _ (counted_trans _ _ _ _ _ _ _ _ _ _ C1 C2)); lia.
Qed.
End Run.
