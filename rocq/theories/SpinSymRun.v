(** Systems without repulsion: complete simulations. *)
From Coq Require Import ZArith List Reals Lia Lra Bool.
From Verif Require Import Base BaseFacts RealOps SimParams ParamParser Blas MatProd TimeStep Strat GreenUpdate Lapack TimeFlow GreenConstruct KineticExp
  RandSource Sweep Lattice Accum Measure UMeasure UnequalTime Simulation PMeasure PhononSweep PSimulation SpinSymSpec SpinSymFacts SpinSymMeas.
Import ListNotations.
Local Open Scope Z_scope.

Section Run.
Context {RS : Type}.
Variable rng : rand_source RS.
Variable la : lapack.
Variable junk : Z -> R.
Variable ijunk : Z -> Z.
Variable p : sim_params.
Hypothesis HU : no_repulsion p.

Definition ssym (x : simstate) : Prop := sym (RS := RS) msym (sm_mc x) /\ sm_Hu x = sm_Hd x /\ usym (sm_un x).
Definition pssym (x : psimstate) : Prop := psym (RS := RS) msym pmsym (ps_ph x) /\ ps_Hu x = ps_Hd x /\ usym (ps_un x).

Lemma measure_unequal_sym it x x' : ssym x -> measure_unequal la junk p it x = Some x' -> ssym x' /\ sm_mc x' = sm_mc x.
Proof.
  destruct x as [m Hu Hd u]. unfold measure_unequal, ssym. cbn [sm_mc sm_Hu sm_Hd sm_un]. intros (Hm & -> & Hy) E.
  destruct (_ && _); [|injection E as <-; auto]. ob. destruct (_ =? _); [|injection E as <-; auto].
  pose proof Hm as (Ht & HG & Hs & _). rewrite <- Ht, <- HG, Hs in E. ob. destruct x0 as [[Hu' Hd'] u']. injection E as <-.
  cbn [sm_mc sm_Hu sm_Hd sm_un fst snd]. eapply unequal_sym in E1; [|exact Hy]. tauto.
Qed.

Lemma temp_same N Hu Hd : temp_matrix junk p N = Some Hu -> temp_matrix junk p N = Some Hd -> Hu = Hd.
Proof. intros E1 E2. congruence. Qed.

Lemma sim_iteration_sym k st it x r : expVu st = expVd st -> (exists r, st_delta st = [r; r]) -> ssym x ->
  sim_iteration rng la junk ijunk p k st it x = Some r -> holds ssym r.
Proof.
  intros V D (Hm & HH & Hy) E. unfold sim_iteration in E. ob. apply (iteration_sym rng _ la junk msym accumulate_sym k st V D) in E0.
  - destruct x0 as [m|]; [|injection E as <-; exact I]. ob. injection E as <-. eapply measure_unequal_sym in E1; [exact (proj1 E1)|]. split; [exact E0|]. split; assumption.
  - destruct x as [[] ? ? ?]. exact Hm.
Qed.

Lemma simulation_sym seed m u : simulation rng la junk ijunk p seed = Some (Some (m, u)) ->
  spin_symmetric m /\ match u with Some u => u_spin_symmetric u | None => True end.
Proof.
  unfold simulation. intros E. ob. unfold sim_run in E0.
  ob. ob. ob. ob. ob. destruct x4 as [s seed']. ob. ob. ob. same. 
  match goal with H : fill_stratonovich _ _ _ _ = Some _ |- _ => apply fill_zero in H; [|exact HU]; destruct H as (V & _ & D) end.
  match goal with H : dqmc_setup _ _ _ _ _ _ _ _ _ _ _ = Some _ |- _ => eapply (setup_sym _ _ msym) in H; [rename H into HS| |eauto using allocate_sym] end; [|assumption].
  apply (loop_inv _ (holds ssym)) in E0.
  - destruct x as [x|]; [|discriminate]. destruct E0 as ((_ & _ & _ & HM) & _ & Hy). ob. apply normalize_sym in E0; [|exact HM].
    destruct (0 <? _); [ob|]; injection E as <- <-; eauto using unormalize_sym.
  - intros it y y' Hs Eb. eapply hang_inv; [|exact Hs|exact Eb]. intros; eauto using sim_iteration_sym.
  - split; [exact HS|]. split; [reflexivity|]. eapply uallocate_sym; eassumption.
Qed.

Lemma pmeasure_unequal_sym it x x' : pssym x -> pmeasure_unequal la junk p it x = Some x' -> pssym x'.
Proof.
  unfold pmeasure_unequal. intros ([Hm Hp] & HH & Hy) E. ob. injection E as <-. eapply measure_unequal_sym in E0; [|split; [exact Hm|split; assumption]].
  destruct E0 as [(_ & H1 & H2) _]. split; [split; assumption|]. split; assumption.
Qed.

Lemma psim_iteration_sym k noHS st it x r : expVu st = expVd st -> (exists r, st_delta st = [r; r]) -> pssym x ->
  psim_iteration rng la junk ijunk p k noHS st it x = Some r -> holds pssym r.
Proof.
  intros V D ([Hm Hp] & HH & Hy) E. unfold psim_iteration in E. ob.
  apply (phonon_iteration_sym rng _ _ la junk msym pmsym accumulate_sym (fun G l X d d' => paccumulate_sym G l X _ _ d d') k st V D) in E0.
  - destruct x0 as [y|]; [|injection E as <-; exact I]. ob. injection E as <-. eapply pmeasure_unequal_sym in E1; [exact E1|]. split; [exact E0|]. split; assumption.
  - destruct x as [[[] ? ? ? ?] ? ? ?]. split; assumption.
Qed.

Lemma psimulation_sym seed m u e c : psimulation rng la junk ijunk p seed = Some (Some (m, u, e, c)) ->
  spin_symmetric m /\ match u with Some u => u_spin_symmetric u | None => True end /\ p_sign e = 1%R.
Proof.
  unfold psimulation. intros E. ob. unfold psim_run in E0.
  ob. ob. ob. ob. ob. ob. destruct x5 as [s seed']. ob. destruct x5 as [seed'' XX]. ob. ob. ob. ob. same.
  match goal with H : fill_stratonovich _ _ _ _ = Some _ |- _ => apply fill_zero in H; [|exact HU]; destruct H as (V & _ & D) end.
  match goal with H : phonon_setup _ _ _ _ _ _ _ _ _ _ _ _ _ _ _ = Some _ |- _ => eapply (phonon_setup_sym _ _ msym pmsym) in H; [rename H into HS| |eauto using allocate_sym|] end; [|assumption|].
  2:{ match goal with H : allocate_for_run _ _ _ _ _ _ = Some _ |- _ => unfold allocate_for_run, allocate_pmeas in H; clear - H; ob; destruct (_ <? _); [discriminate|]; injection H as <-; reflexivity end. }
  apply (loop_inv _ (holds pssym)) in E0.
  - destruct x as [x|]; [|discriminate]. destruct E0 as ((( _ & _ & _ & HM) & HP) & _ & Hy). ob. ob. ob. injection E as <- <- <- _.
    split; [eauto using normalize_sym|]. split; [|eauto using pnormalize_sym].
    match goal with H : (if _ then _ else _) = Some _ |- _ => rename H into EU end. destruct (0 <? _) in EU; [apply obind_Some in EU as (? & ? & EU)|]; injection EU as <-; eauto using unormalize_sym.
  - intros it y y' Hs Eb. eapply hang_inv; [|exact Hs|exact Eb]. intros; eauto using psim_iteration_sym.
  - split; [exact HS|]. split; [reflexivity|]. eapply uallocate_sym; eassumption.
Qed.
End Run.
