(** A small simulation for the examples: two sites, half filled; and a source of random numbers which
    always returns. *)
From Coq Require Import ZArith List Reals Permutation Lia Lra.
From mathcomp Require Import all_ssreflect ssralg matrix.
From Verif Require Import Base BaseFacts RField MatSpec MatFacts TimeStep TimeStepSpec TimeStepFacts Strat StratSpec StratFacts GreenSpec GreenFacts
  SimParams ParamSpec KineticSpec KineticExp KineticExpSpec KineticExpFacts RandSource SweepSpec SweepFacts PhononFieldFacts
  SimulationSpec HalfFillSpec HalfFillFacts.
Set Implicit Arguments.
Unset Strict Implicit.
Unset Printing Implicit Defensive.
Local Open Scope ring_scope.
Import GRing.Theory.

(** two sites with hopping 1, U = 4, dt = 1/8, four slices; one sweep for the equilibration and two with measurements *)
Definition pair_params : sim_params :=
  mk_sim_params 1 2 1 0 (mk_bonds [:: 0] [:: 1] [:: 0] [:: 0] [:: 0])%coqR [:: 4%coqR] [:: R0] R0 false
    (mk_phonon_params [:: R0] [:: R0] R0 0 R0 0) (1/8)%coqR 4 2 2 1 2 2 1 1 0.

Lemma pair_wf : well_formed pair_params.
Proof. unfold well_formed; cbn; repeat split; try lia; repeat constructor. Qed.
Lemma pair_valid : valid_params pair_params.
Proof.
  constructor; cbn; try lia.
  - move=> i Hi. have -> : i = 0%Z by lia. by [].
  - by exists 2%Z.
  - by exists 1%Z.
Qed.
Lemma pair_U o : (0 <= o < 1)%Z -> Rle 0 (Rmult (1/8) (List.nth (Z.to_nat o) [:: 4%coqR] R0)).
Proof. move=> Ho. have -> : o = 0%Z by lia. cbn. lra. Qed.

Lemma pair_counts : (0 <= sp_nequil pair_params)%Z /\ (0 < sp_nsampl pair_params)%Z /\ (0 < sp_neqlt pair_params <= sp_L pair_params)%Z /\
  ((0 < sp_nuneqlt pair_params)%Z -> (2 * sp_prodBlen pair_params <= sp_L pair_params)%Z /\
     exists t, (sp_nequil pair_params <= t < sp_nequil pair_params + sp_nsampl pair_params)%Z /\ (sp_nuneqlt pair_params | t)%Z).
Proof. rewrite /=. do 3 (split; first lia). move=> _. split; first lia. exists 1%Z. split; first lia. exact: Z.divide_refl. Qed.

Lemma pair_ham (i j : 'I_2) : hamiltonian pair_params i j = if i == j then R0 else (-2)%coqR.
Proof.
  rewrite mxE. case: i => [[|[|//]] Hi]; case: j => [[|[|//]] Hj]; cbv -[Rplus Ropp Rmult Rminus IZR]; lra.
Qed.

Lemma pair_half : bipartite (p := pair_params) (fun i : (ordinal 2) => i == ord0).
Proof.
  move=> i j. rewrite pair_ham.
  case: i => [[|[|//]] Hi]; case: j => [[|[|//]] Hj]; by rewrite /=.
Qed.

Section Weight.
Variables (k : kinetic) (st : strat) (junk : list R).
Hypotheses (KO : kinetic_ok 2 k) (KN : k_Norb k = 1%Z).
Hypothesis HE : is_exp (- sp_dt pair_params *: hamiltonian pair_params) (mat 2 (expK k)).
Hypothesis LJ : Z.of_nat (List.length junk) = 1%Z.
Hypothesis Est : fill_stratonovich 1 [:: 4%coqR] (1/8)%coqR junk = Some st.

(** no field has weight zero *)
Lemma pair_weight_nz s : field_ok 2 4 s -> weight 2 4 k st s <> 0.
Proof.
  move=> Hf.
  have HK : pos2 (mat 2 (expK k)).
  { split; last exact: (proj2 (expK_sym pair_wf HE)).
    apply: exp_nonneg HE => i j. rewrite mxE -RmultE pair_ham. case: eqP => _ /=; rewrite -RoppE; lra. }
  have G : forall expV, (forall l (i : 'I_2), (l < 4)%N -> Rlt R0 (field_factor 2 (k_Ncell k) expV s l i)) ->
    \det (1%:M + cyclic_flow (step_mx 2 k expV s) 4 0) <> 0.
  { move=> expV HV. apply: pos_det2. rewrite /cyclic_flow oprod0 mul1mx. apply: pos2_oprod => l Hl.
    apply: pos2_step => // i. exact: HV. }
  have HF := @factors pair_params k st junk KO KN erefl LJ Est 4 s Hf.
  have Nu := G (expVu st) (fun l i Hl => proj1 (HF l i Hl)).
  have Nd := G (expVd st) (fun l i Hl => proj1 (proj2 (HF l i Hl))).
  rewrite /weight => /eqP. by rewrite mulf_eq0 => /orP [/eqP|/eqP].
Qed.
End Weight.

(** all uniform numbers are 1/2, the shuffle gives the sites in order, and the bounded draw gives 0 *)
Definition calm_source : rand_source unit := mk_rand unit
  (fun _ n _ => Some (Some (tt, List.map Z.of_nat (List.seq 0 (Z.to_nat n)))))
  (fun _ _ => Some (Some (0%Z, tt)))
  (fun _ => Some ((1/2)%coqR, tt)).

Lemma calm_ok : rand_ok calm_source (fun _ => True).
Proof.
  constructor.
  - move=> [] n seq _ Hn. eexists. split; first reflexivity. move=> [] seq' [<-]. split => //. by rewrite Nat2Z.id.
  - move=> [] bound _ Hb. eexists. split; first reflexivity. move=> v [] [<-]. split => //. lia.
  - move=> [] _. do 2 eexists. split; first reflexivity. split; [lra|split => //; lra].
Qed.

(** with such a source the chain returns *)
Section Returns.
Context {RS : Type}.
Variables (rng : rand_source RS) (n : nat) (W : list Z -> R) (L : nat).
Hypothesis HS : forall st m seq, r_shuffle rng st m seq <> Some None.

Lemma slice_returns neqlt l x : chain_slice rng n W neqlt l x <> Some None.
Proof.
  case: x => [[[seed order] s] eq]. rewrite /chain_slice /metropolis_slice /=. case E : (r_shuffle _ _ _ _) => [[[seed1 order1]|]|] //=.
  - by case: (metropolis_sites _ _ _ _ _ _) => [[seed2 s2]|].
  - by move: (HS E).
Qed.

Lemma loop_returns A (f : Z -> A -> option (option A)) hi a : (0 <= hi)%Z -> (forall i x, f i x <> Some None) ->
  for_range 0 hi (fun i => may_hang (f i)) (Some a) <> Some None.
Proof.
  move=> Hh Hf E. suff: (fun _ (o : option A) => o <> None) hi None by [].
  apply: (@for_range_partial _ (fun _ (o : option A) => o <> None) 0 hi (fun i => may_hang (f i)) (Some a) None Hh) => //.
  move=> i [x|] // o Hi _ /= Ex En. apply: (Hf i x). by rewrite Ex En.
Qed.

Lemma chain_returns p order seed s : (0 <= sp_nequil p + sp_nsampl p)%Z -> chain rng n W L p order seed s <> Some None.
Proof.
  move=> Hle. apply: loop_returns => // it [[[seed1 s1] eq1] un1]. rewrite /chain_iteration.
  case E : (chain_sweep _ _ _ _ _ _) => [[[[[seed2 o2] s2] eq2]|]|] //=.
  exfalso. move: E. apply: loop_returns; first lia. move=> l x. exact: slice_returns.
Qed.
End Returns.

Lemma calm_returns st m seq : r_shuffle calm_source st m seq <> Some None.
Proof. by []. Qed.
Lemma pair_total : (0 <= sp_nequil pair_params + sp_nsampl pair_params)%Z.
Proof. by []. Qed.
