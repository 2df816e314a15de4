(** A small simulation with phonons for the examples: two sites with a phonon each. *)
From Coq Require Import ZArith List Reals Lia Lra.
From mathcomp Require Import all_ssreflect ssralg matrix.
From Verif Require Import Base BaseFacts RField MatSpec MatFacts TimeStep TimeStepSpec TimeStepFacts Strat StratSpec StratFacts GreenSpec GreenFacts
  SimParams ParamSpec KineticSpec KineticExp KineticExpSpec KineticExpFacts RandSource SweepSpec SweepFacts PhononSpec PhononFieldFacts
  SimulationSpec HalfFillSpec HalfFillFacts SimulationCase PSimulationSpec.
Set Implicit Arguments.
Unset Strict Implicit.
Unset Printing Implicit Defensive.
Local Open Scope ring_scope.
Import GRing.Theory.

(** two sites with hopping 1, dt = 1/8, four slices, one phonon with frequency 1 and coupling 1 per site; two local updates per slice and
    one block and flip update per sweep; one sweep for the equilibration and two with measurements *)
Definition phonon_pair (u : R) : sim_params :=
  mk_sim_params 1 2 1 0 (mk_bonds [:: 0] [:: 1] [:: 0] [:: 0] [:: 0])%coqR [:: u] [:: R0] (1/2)%coqR true
    (mk_phonon_params [:: R1] [:: R1] R1 2 R1 1) (1/8)%coqR 4 2 2 1 2 2 1 1 0.

Section Case.
Variable u : R.
Notation p := (phonon_pair u).

Lemma ppair_wf : well_formed p.
Proof. unfold well_formed; cbn; repeat split; try lia; repeat constructor. Qed.
Lemma ppair_valid : valid_params p.
Proof.
  constructor; cbn; try lia.
  - move=> i Hi. have -> : i = 0%Z by lia. by [].
  - by exists 2%Z.
  - by exists 1%Z.
Qed.
Lemma ppair_counts : (0 <= sp_nequil p)%Z /\ (0 < sp_nsampl p)%Z /\ (0 < sp_neqlt p <= sp_L p)%Z /\
  ((0 < sp_nuneqlt p)%Z -> (2 * sp_prodBlen p <= sp_L p)%Z /\
     exists t, (sp_nequil p <= t < sp_nequil p + sp_nsampl p)%Z /\ (sp_nuneqlt p | t)%Z).
Proof. rewrite /=. do 3 (split; first lia). move=> _. split; first lia. exists 1%Z. split; first lia. exact: Z.divide_refl. Qed.
Lemma ppair_U : Rle 0 u -> forall o, (0 <= o < sp_Norb p)%Z -> Rle 0 (Rmult (sp_dt p) (List.nth (Z.to_nat o) (sp_U p) R0)).
Proof. move=> Hu o Ho. have -> : o = 0%Z by cbn in Ho; lia. cbn. lra. Qed.
Lemma ppair_phonon : phonon_ok (sp_Norb p) (sp_phonon p).
Proof. by []. Qed.
Lemma ppair_dt : sp_dt p <> R0.
Proof. cbn. lra. Qed.
Lemma ppair_total : (0 <= sp_nequil p + sp_nsampl p)%Z.
Proof. by []. Qed.

Lemma ppair_ham (i j : 'I_2) : hamiltonian p i j = if i == j then (- / 2)%coqR else (-2)%coqR.
Proof.
  rewrite mxE. case: i => [[|[|//]] Hi]; case: j => [[|[|//]] Hj]; cbv -[Rplus Ropp Rmult Rminus Rdiv Rinv IZR]; lra.
Qed.

Section Weight.
Variables (k : kinetic) (st : strat) (junk : list R).
Hypotheses (KO : kinetic_ok 2 k) (KN : k_Norb k = 1%Z).
Hypothesis HE : is_exp (- sp_dt p *: hamiltonian p) (mat 2 (expK k)).
Hypothesis LJ : Z.of_nat (List.length junk) = 1%Z.
Hypothesis Est : fill_stratonovich 1 [:: u] (1/8)%coqR junk = Some st.

(** no configuration has weight zero *)
Lemma ppair_weight_nz s X : field_ok 2 4 s -> List.length X = 8%N -> phonon_weight 2 4 k st (sp_phonon p) (1/8)%coqR s X <> 0.
Proof.
  move=> Hf HX.
  have HK : pos2 (mat 2 (expK k)).
  { split; last exact: (proj2 (expK_sym ppair_wf HE)).
    apply: exp_nonneg HE => i j. rewrite mxE -RmultE ppair_ham. case: eqP => _ /=; rewrite -RoppE; lra. }
  have G : forall expV, (forall l (i : 'I_2), (l < 4)%N -> Rlt R0 (field_factor 2 (k_Ncell k) expV s l i)) ->
    \det (1%:M + cyclic_flow (phonon_step_mx 2 k expV s (exp_field 2 k (sp_phonon p) (1/8)%coqR X)) 4 0) <> 0.
  { move=> expV HV. apply: pos_det2. rewrite /cyclic_flow oprod0 mul1mx. apply: pos2_oprod => l Hl. apply: pos2_mul => //.
    have Hp : forall i : 'I_2, Rlt R0 (field_factor 2 (k_Ncell k) expV s l i * nth R0 (exp_field 2 k (sp_phonon p) (1/8)%coqR X) (l * 2 + i)).
    { move=> i. apply: Rmult_lt_0_compat; first exact: HV. rewrite (exp_field_at (L := 4)) //. exact: exp_pos. }
    split.
    + move=> i j. rewrite mxE mulrb. case: eqP => [->|_]; [rewrite mxE; exact: Rlt_le|exact: Rle_refl].
    + rewrite det_diag !big_ord_recl big_ord0 mulr1 -RmultE. rewrite !mxE. exact: Rmult_lt_0_compat. }
  have HF := @factors p k st junk KO KN erefl LJ Est 4 s Hf.
  have Nu := G (expVu st) (fun l i Hl => proj1 (HF l i Hl)).
  have Nd := G (expVd st) (fun l i Hl => proj1 (proj2 (HF l i Hl))).
  rewrite /phonon_weight /phonon_dets => /eqP. rewrite mulf_eq0 => /orP [/eqP|/eqP];
    last by move=> E; have := exp_pos (Ropp (Rmult (1/8) (phonon_energy 2 4 k (sp_phonon p) (1/8) X))); rewrite E; exact: Rlt_irrefl.
  move=> /eqP. by rewrite mulf_eq0 => /orP [/eqP|/eqP].
Qed.
End Weight.
End Case.

(** if the generator's loops return, so does the chain with phonons *)
Section Returns.
Context {RS : Type}.
Variables (rng : rand_source RS) (n L : nat) (k : kinetic) (st : strat).
Hypotheses (HS : forall st m seq, r_shuffle rng st m seq <> Some None) (HB : forall st m, r_bounded rng st m <> Some None).
Section Block.
Variables (ph : phonon_params) (dt : R).
Lemma pslice_returns noHS rl l x : PhononSpec.chain_slice n L k st ph dt rng noHS rl l x <> Some None.
Proof.
  case: x => [[[seed order] s] X]. rewrite /PhononSpec.chain_slice.
  have H : forall seed order s X, obind (r_shuffle rng seed (Z.of_nat n) order) (fun sh =>
    match sh with
    | None => Some None
    | Some (seed, order) =>
      obind (for_range 0 (ph_n_local_updates ph)
        (fun j => chain_local n k ph rng rl (Z.to_nat l) (Z.to_nat (nth 0%Z order (Z.to_nat j %% n)))) (seed, order, s, X)) (fun c =>
      Some (Some c))
    end) <> Some None.
  { move=> se o s0 X0. case E : (r_shuffle _ _ _ _) => [[[seed1 order1]|]|] //=; last by move: (HS E). by case: (for_range _ _ _ _). }
  case: noHS; first exact: H.
  rewrite /metropolis_slice /=. case E : (r_shuffle _ _ _ _) => [[[seed1 order1]|]|] //=; last by move: (HS E).
  by case: (metropolis_sites _ _ _ _ _ _) => [[seed2 s2]|] //=.
Qed.
Lemma pblock_returns c : chain_block n L k st ph dt rng c <> Some None.
Proof.
  case: c => [[[seed order] s] X]. rewrite /chain_block. case E : (r_bounded _ _ _) => [[[i seed1]|]|] //=; last by move: (HB E).
  case: Req_EM_T => //= _. case: (r_uniform _ _) => [[? ?]|] //=. by case: (r_uniform _ _) => [[? ?]|].
Qed.
Lemma pflip_returns mu c : chain_flip n L k st ph dt rng mu c <> Some None.
Proof.
  case: c => [[[seed order] s] X]. rewrite /chain_flip. case E : (r_bounded _ _ _) => [[[i seed1]|]|] //=; last by move: (HB E).
  case: Req_EM_T => //= _. by case: (r_uniform _ _) => [[? ?]|].
Qed.
End Block.

Lemma pchain_returns p noHS order seed c : (0 <= sp_nequil p + sp_nsampl p)%Z -> (0 <= ph_n_block_updates (sp_phonon p))%Z ->
  pchain rng n L k st p noHS order seed c <> Some None.
Proof.
  move=> Hle Hb. apply: loop_returns => // it [[[seed1 [s1 X1]] eq1] un1]. rewrite /pchain_iteration.
  case E : (pchain_sweep _ _ _ _ _ _ _ _ _) => [[[[[[seed2 o2] s2] X2] eq2]|]|] //=. exfalso. move: E. rewrite /pchain_sweep.
  case E : (for_range _ _ _ _) => [[[c2 eq2]|]|] //=; last first.
  { move=> _. move: E. apply: loop_returns; first lia. move=> l [x eq]. rewrite /pchain_slice.
    case E : (PhononSpec.chain_slice _ _ _ _ _ _ _ _ _ _ _) => [[[[[? ?] ?] ?]|]|] //=. by move: (pslice_returns E). }
  case E2 : (pchain_blocks _ _ _ _ _ _ _) => [[c3|]|] //= _. move: E2. rewrite /pchain_blocks.
  case E2 : (for_range _ _ _ _) => [[c3|]|] //=; last by move=> _; move: E2; apply: loop_returns => // i x; exact: pblock_returns.
  apply: loop_returns => // i x. exact: pflip_returns.
Qed.
End Returns.
