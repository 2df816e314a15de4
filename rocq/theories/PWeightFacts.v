(** The weight of a configuration is a continuous function of the phonon field. *)
From Coq Require Import ZArith List Reals.
From mathcomp Require Import all_ssreflect fingroup perm ssralg matrix.
From Verif Require Import Base RField SimParams MatSpec TimeStep TimeStepSpec Strat GreenSpec GreenFacts PhononSpec BoxSpec BoxFacts.
Import GRing.Theory.
Set Implicit Arguments.
Unset Strict Implicit.
Unset Printing Implicit Defensive.
Local Open Scope ring_scope.

Lemma nth_seq (X : list R) p : nth R0 X p = List.nth p X R0.
Proof. elim: X p => [|x X IH] [|p] //=. Qed.

Section Closure.
Variable m : nat.
Lemma reg_sum (I : Type) (r : seq I) (P : pred I) (f : I -> list R -> R) : (forall i, reg m (f i)) ->
  reg m (fun X => \sum_(i <- r | P i) f i X).
Proof.
  move=> H. elim: r => [|i r IH].
  - apply: (@reg_ext m (fun _ => R0)); last exact: reg_const. by move=> X _; rewrite big_nil.
  - case Pi : (P i).
    + apply: (@reg_ext m (fun X => Rplus (f i X) (\sum_(i <- r | P i) f i X))); last exact: reg_plus.
      by move=> X _; rewrite big_cons Pi.
    + apply: (@reg_ext m (fun X => \sum_(i <- r | P i) f i X)) => // X _. by rewrite big_cons Pi.
Qed.
Lemma reg_prod (I : Type) (r : seq I) (P : pred I) (f : I -> list R -> R) : (forall i, reg m (f i)) ->
  reg m (fun X => \prod_(i <- r | P i) f i X).
Proof.
  move=> H. elim: r => [|i r IH].
  - apply: (@reg_ext m (fun _ => R1)); last exact: reg_const. by move=> X _; rewrite big_nil.
  - case Pi : (P i).
    + apply: (@reg_ext m (fun X => Rmult (f i X) (\prod_(i <- r | P i) f i X))); last exact: reg_mult.
      by move=> X _; rewrite big_cons Pi.
    + apply: (@reg_ext m (fun X => \prod_(i <- r | P i) f i X)) => // X _. by rewrite big_cons Pi.
Qed.

Variable n : nat.
Definition regmx (A : list R -> 'M[R]_n) : Prop := forall i j, reg m (fun X => A X i j).
Lemma regmx_mul A B : regmx A -> regmx B -> regmx (fun X => A X *m B X).
Proof.
  move=> HA HB i j. apply: (@reg_ext m (fun X => \sum_k (Rmult (A X i k) (B X k j)))).
  - by move=> X _; rewrite mxE.
  - apply: reg_sum => k. exact: reg_mult.
Qed.
Lemma regmx_const A : regmx (fun _ => A).
Proof. move=> i j. exact: reg_const. Qed.
Lemma regmx_add A B : regmx A -> regmx B -> regmx (fun X => A X + B X).
Proof.
  move=> HA HB i j. apply: (@reg_ext m (fun X => Rplus (A X i j) (B X i j))); last exact: reg_plus. by move=> X _; rewrite mxE.
Qed.
Lemma reg_det A : regmx A -> reg m (fun X => \det (A X)).
Proof.
  move=> HA. rewrite /determinant. apply: reg_sum => s.
  apply: (@reg_ext m (fun X => Rmult ((-1) ^+ s) (\prod_i A X i (s i)))) => //.
  apply: reg_mult; first exact: reg_const. exact: reg_prod.
Qed.
Lemma regmx_oprod M a c : (forall l, (a <= l < a + c)%N -> regmx (fun X => M X l)) -> regmx (fun X => oprod (M X) a c).
Proof.
  elim: c => [|c IH] H; first exact: regmx_const.
  move=> i j. apply: (@reg_ext m (fun X => (M X (a + c)%N *m oprod (M X) a c) i j)).
  - by move=> X _; rewrite oprodS.
  - apply: regmx_mul; first by apply: H; rewrite leq_addr addnS ltnS leqnn.
    apply: IH => l /andP [H1 H2]. apply: H. rewrite H1 addnS. exact: ltnW.
Qed.
End Closure.

Section Weight.
Variables (n L : nat) (k : kinetic) (st : strat) (ph : phonon_params) (dt : R).
Let m := (L * n)%N.

Lemma reg_entry p : reg m (fun X => nth R0 X p).
Proof. apply: (@reg_ext m (fun X => List.nth p X R0)); last exact: reg_nth. by move=> X _; rewrite nth_seq. Qed.
Lemma reg_expX p : (p < m)%N -> reg m (fun X => nth R0 (exp_field n k ph dt X) p).
Proof.
  move=> Hp. apply: (@reg_ext m (fun X => exp (Rmult (Rmult (Ropp dt) (coupling k ph (p %% n))) (nth R0 X p)))).
  - move=> X HX. have E : size X = m by []. by rewrite /exp_field nth_mkseq // E.
  - apply: reg_exp. apply: reg_mult; [exact: reg_const|exact: reg_entry].
Qed.
Lemma regmx_step expV s l : (l < L)%N -> regmx m (fun X => phonon_step_mx n k expV s (exp_field n k ph dt X) l).
Proof.
  move=> Hl. apply: regmx_mul; last exact: regmx_const. move=> i j. case: (i =P j) => [<-|/eqP N].
  - apply: (@reg_ext m (fun X => Rmult (field_factor n (k_Ncell k) expV s l i) (nth R0 (exp_field n k ph dt X) (l * n + i)))).
    + move=> X _. by rewrite !mxE eqxx mulr1n.
    + apply: reg_mult; first exact: reg_const. apply: reg_expX. rewrite /m.
      apply: (@leq_trans (l.+1 * n)); last by rewrite leq_mul2r Hl orbT. by rewrite mulSn addnC ltn_add2r.
  - apply: (@reg_ext m (fun _ => R0)); last exact: reg_const. move=> X _. by rewrite !mxE (negbTE N) mulr0n.
Qed.
Lemma reg_one expV s : reg m (fun X => \det (1%:M + cyclic_flow (phonon_step_mx n k expV s (exp_field n k ph dt X)) L 0)).
Proof.
  apply: reg_det. apply: regmx_add; first exact: regmx_const. rewrite /cyclic_flow. apply: regmx_mul; first exact: regmx_const.
  apply: regmx_oprod => l /andP [_ Hl]. apply: regmx_step. by rewrite add0n subn0 in Hl.
Qed.
Lemma reg_energy : reg m (fun X => phonon_energy n L k ph dt X).
Proof.
  rewrite /phonon_energy. apply: reg_sum => i. apply: reg_sum => l. rewrite /field_at /Rsqr.
  apply: reg_plus; (apply: reg_mult; first exact: reg_const).
  - apply: reg_mult; first exact: reg_const. apply: reg_mult; exact: reg_entry.
  - have H : reg m (fun X => Rdiv (Rminus (nth R0 X ((l.+1 %% L) * n + i)) (nth R0 X (l * n + i))) dt).
    { rewrite /Rdiv. apply: reg_mult; last exact: reg_const. apply: reg_minus; exact: reg_entry. }
    exact: reg_mult.
Qed.
Lemma reg_weight s : reg m (fun X => phonon_weight n L k st ph dt s X).
Proof.
  rewrite /phonon_weight /phonon_dets.
  apply: (@reg_ext m (fun X => Rmult (Rmult (\det (1%:M + cyclic_flow (phonon_step_mx n k (expVu st) s (exp_field n k ph dt X)) L 0))
    (\det (1%:M + cyclic_flow (phonon_step_mx n k (expVd st) s (exp_field n k ph dt X)) L 0))) (exp (Ropp (Rmult dt (phonon_energy n L k ph dt X)))))) => //.
  apply: reg_mult; first by apply: reg_mult; exact: reg_one.
  apply: reg_exp. apply: reg_opp. apply: reg_mult; [exact: reg_const|exact: reg_energy].
Qed.
End Weight.
