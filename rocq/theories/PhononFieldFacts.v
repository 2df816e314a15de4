(** Proofs about phonon fields, their energies and exponentials. *)
From Coq Require Import ZArith List Reals Lia Lra.
From mathcomp Require Import all_ssreflect ssralg matrix.
From Verif Require Import Base BaseFacts Sums SumsFacts RealOps RField SimParams ParamParser Blas MatProd MatSpec MatFacts TimeStep TimeStepSpec
  TimeStepFacts Strat GreenSpec GreenFacts TimeFlowFacts RandSource Sweep SweepSpec SweepFacts PhononSweep PhononSpec.
Set Implicit Arguments.
Unset Strict Implicit.
Unset Printing Implicit Defensive.
Local Open Scope ring_scope.
Import GRing.Theory.

Lemma pos_lt n L l i : (l < L)%N -> (i < n)%N -> (l * n + i < L * n)%N.
Proof.
  move=> Hl Hi. apply: (@leq_trans (l.+1 * n)); last by rewrite leq_mul2r Hl orbT.
  by rewrite mulSn addnC ltn_add2r.
Qed.
Lemma pos_mod n l i : (i < n)%N -> ((l * n + i) %% n = i)%N.
Proof. move=> Hi. by rewrite modnMDl modn_small. Qed.

(** sums with one or two terms *)
Lemma sum_one (I : finType) (F : I -> R) a : (forall l, l != a -> F l = 0) -> \sum_l F l = F a.
Proof. move=> H. by rewrite (bigD1 a) //= big1 ?addr0. Qed.
Lemma sum_two (I : finType) (F : I -> R) a b : b != a -> (forall l, l != a -> l != b -> F l = 0) -> \sum_l F l = F a + F b.
Proof.
  move=> Hab H. rewrite (bigD1 a) //= (bigD1 b) //= big1 ?addr0 // => l /andP [H1 H2]. exact: H.
Qed.

Section Field.
Variables (n L : nat) (k : kinetic) (ph : phonon_params) (dt : R).
Notation energy := (phonon_energy n L k ph dt).
Notation exp_field := (exp_field n k ph dt).
Notation frequency := (frequency k ph).
Notation coupling := (coupling k ph).
Notation field_at := (field_at n).

Section One.
Variable X : list R.
Hypothesis HX : List.length X = (L * n)%N.

Lemma pos_in l i : (l < L)%N -> (i < n)%N -> (l * n + i < size X)%N.
Proof. move=> Hl Hi. have -> : size X = (L * n)%N by []. exact: pos_lt. Qed.

Lemma shift_one_at l i dx l' i' : (l < L)%N -> (i < n)%N -> (i' < n)%N ->
  field_at (shift_one n l i dx X) l' i' = if (l' == l) && (i' == i) then Rplus (field_at X l i) dx else field_at X l' i'.
Proof.
  move=> Hl Hi Hi'. rewrite /field_at /shift_one !nthE lset_nth_d; last by apply/ltP; exact: pos_in.
  case: Nat.eqb_spec => [E|E]; move/eqP: (E); rewrite eq_sym flip_pos // => H.
  - by rewrite H /PhononSpec.field_at nthE.
  - by rewrite (negbTE H).
Qed.
Lemma shift_all_at i dx l' i' : (l' < L)%N -> (i' < n)%N ->
  field_at (shift_all n i dx X) l' i' = if i' == i then Rplus (field_at X l' i') dx else field_at X l' i'.
Proof. move=> Hl Hi'. rewrite /field_at /shift_all nth_mkseq; last exact: pos_in. by rewrite pos_mod. Qed.
Lemma reflect_all_at i c l' i' : (l' < L)%N -> (i' < n)%N ->
  field_at (reflect_all n i c X) l' i' = if i' == i then Rminus c (field_at X l' i') else field_at X l' i'.
Proof. move=> Hl Hi'. rewrite /field_at /reflect_all nth_mkseq; last exact: pos_in. by rewrite pos_mod. Qed.

Lemma shift_one_len l i dx : List.length (shift_one n l i dx X) = (L * n)%N.
Proof. by rewrite /shift_one lset_length. Qed.
Lemma shift_all_len i dx : List.length (shift_all n i dx X) = (L * n)%N.
Proof. exact: (etrans (size_mkseq _ _) HX). Qed.
Lemma reflect_all_len i c : List.length (reflect_all n i c X) = (L * n)%N.
Proof. exact: (etrans (size_mkseq _ _) HX). Qed.

(** change of the energy if only the field at one site changes *)
Definition site_energy (i : nat) (x x1 : R) : R :=
  Rplus (Rmult (/2) (Rmult (Rsqr (frequency i)) (Rsqr x))) (Rmult (/2) (Rsqr (Rdiv (Rminus x1 x) dt))).
Lemma energy_diff X' (i : 'I_n) : (forall l i' : nat, (l < L)%N -> (i' < n)%N -> i' != i -> field_at X' l i' = field_at X l i') ->
  Rminus (energy X') (energy X) = \sum_(l < L)
    (site_energy i (field_at X' l i) (field_at X' (l.+1 %% L) i) - site_energy i (field_at X l i) (field_at X (l.+1 %% L) i)).
Proof.
  move=> H. rewrite RminusE /phonon_energy -sumrB (sum_one (a := i)).
  - by rewrite -sumrB.
  - move=> j Hj. rewrite -sumrB big1 // => l _. rewrite !H //; first by rewrite subrr.
    apply: ltn_pmod. exact: leq_ltn_trans (ltn_ord l).
Qed.

Definition local_change (l i : nat) (dx : R) (X : list R) : R :=
  (Rmult dx (Rplus (Rmult (Rmult (/2) (Rsqr (frequency i))) (Rplus dx (Rmult 2 (field_at X l i))))
     (Rdiv (Rminus dx (Rplus (Rminus (field_at X (l.+1 %% L) i) (Rmult 2 (field_at X l i))) (field_at X ((l + L - 1) %% L) i))) (Rmult dt dt)))).

Lemma energy_local (l : 'I_L) (i : 'I_n) dx : (2 <= L)%N -> dt <> R0 ->
  Rminus (energy (shift_one n l i dx X)) (energy X) = local_change l i dx X.
Proof.
  move=> HL Hdt. have HL0 : (0 < L)%N by apply: leq_trans HL. have Hl := ltn_ord l. have Hi := ltn_ord i.
  rewrite (@energy_diff _ i); last first.
  { move=> l' i' Hl' Hi' Hne. by rewrite shift_one_at // (negbTE Hne) andbF. }
  have Hp : ((l + L - 1) %% L < L)%N by apply: ltn_pmod.
  have Es : (((l + L - 1) %% L).+1 %% L = l)%N.
  { rewrite -addn1 modnDml subnK; last by rewrite addn_gt0 HL0 orbT. by rewrite modnDr modn_small. }
  have Hne1 : ((l + L - 1) %% L)%N != l.
  { apply/eqP => E. move: Es. rewrite E. move: (Hl). rewrite leq_eqVlt => /orP [/eqP ->|Hlt].
    - rewrite modnn => E'. move: HL E E'. case: (nat_of_ord l) => [|q]; last by [].
      move=> HL E _. move: E. rewrite add0n modn_small; last by rewrite ltn_subrL HL0.
      move/eqP. rewrite subn_eq0. by rewrite leqNgt HL.
    - rewrite modn_small // => E'. move/eqP: E'. by rewrite -{2}(addn0 l) -addn1 eqn_add2l. }
  have Hne2 : (l.+1 %% L)%N != l.
  { apply/eqP => E. move/eqP: Hne1. apply. rewrite -{1}E. rewrite -addnBA //.
    rewrite modnDml addSn -addnS subn1 prednK // modnDr modn_small //. }
  have Hab : Ordinal Hp != l by rewrite -val_eqE.
  rewrite (sum_two Hab); last first.
  { move=> j Hj1 Hj2. rewrite !shift_one_at //; rewrite eqxx !andbT. rewrite val_eqE (negbTE Hj1).
    case: eqP => E; last by rewrite subrr. exfalso. move/eqP: Hj2. apply. apply: val_inj => /=.
    rewrite -E -addnBA // modnDml addSn -addnS subn1 prednK // modnDr modn_small //. }
  rewrite /= Es !shift_one_at // !eqxx /= andbT (negbTE Hne1) (negbTE Hne2) /= /local_change /site_energy /Rsqr.
  set w := frequency i. set x := field_at X l i. set a := field_at X _ i. set c := field_at X _ i.
  rewrite -?RoppE -?RplusE. by field.
Qed.

Lemma energy_block (i : 'I_n) dx :
  Rminus (energy (shift_all n i dx X)) (energy X) =
  Rmult (Rmult (Rmult (/2) (Rsqr (frequency i))) dx) (\sum_(l < L) Rplus dx (Rmult 2 (field_at X l i))).
Proof.
  rewrite (@energy_diff _ i); last by move=> l' i' Hl' Hi' Hne; rewrite shift_all_at // (negbTE Hne).
  rewrite RmultE mulr_sumr. apply: eq_bigr => l _.
  have HL : (l.+1 %% L < L)%N by apply: ltn_pmod; apply: leq_ltn_trans (ltn_ord l).
  rewrite !shift_all_at // eqxx /site_energy /Rsqr /Rdiv -?RoppE -?RplusE -?RmultE.
  set a := field_at _ _ _. set c := field_at _ _ _. set q := Rinv dt. field.
Qed.

Lemma energy_flip (i : 'I_n) c :
  Rminus (energy (reflect_all n i c X)) (energy X) =
  \sum_(l < L) Rmult (Rmult (Rmult (/2) (Rsqr (frequency i))) (Ropp c)) (Rplus (Ropp c) (Rmult 2 (field_at X l i))).
Proof.
  rewrite (@energy_diff _ i); last by move=> l' i' Hl' Hi' Hne; rewrite reflect_all_at // (negbTE Hne).
  apply: eq_bigr => l _.
  have HL : (l.+1 %% L < L)%N by apply: ltn_pmod; apply: leq_ltn_trans (ltn_ord l).
  rewrite !reflect_all_at // eqxx /site_energy /Rsqr /Rdiv -?RoppE -?RplusE -?RmultE.
  set a := field_at _ _ _. set d := field_at _ _ _. set q := Rinv dt. field.
Qed.

(** exponentials *)
Lemma exp_field_len : List.length (exp_field X) = (L * n)%N.
Proof. exact: (etrans (size_mkseq _ _) HX). Qed.
Lemma exp_field_at l i : (l < L)%N -> (i < n)%N ->
  nth R0 (exp_field X) (l * n + i) = exp (Rmult (Rmult (Ropp dt) (coupling i)) (field_at X l i)).
Proof. move=> Hl Hi. rewrite /exp_field nth_mkseq; last exact: pos_in. by rewrite pos_mod. Qed.
Lemma exp_field_nz : List.Forall (fun x => x <> R0) (exp_field X).
Proof.
  apply/List.Forall_forall => x /(List.In_nth _ _ R0) [p [Hp <-]]. rewrite -nthE /exp_field nth_mkseq.
  - apply: Rgt_not_eq. exact: exp_pos.
  - move/ltP: Hp. by rewrite -[List.length _]/(size _) size_mkseq.
Qed.
End One.

(** an array is determined by its entries *)
Lemma field_ext (Y Y' : list R) : List.length Y = (L * n)%N -> List.length Y' = (L * n)%N ->
  (forall l i, (l < L)%N -> (i < n)%N -> nth R0 Y (l * n + i) = nth R0 Y' (l * n + i)) -> Y = Y'.
Proof.
  move=> H1 H2 H. apply: (@eq_from_nth _ R0); first by transitivity (L * n)%N.
  move=> p Hp. have Hp' : (p < L * n)%N by rewrite -H1.
  have Hn : (0 < n)%N by move: Hp'; case: (n) => //; rewrite muln0.
  rewrite (divn_eq p n). apply: H; last exact: ltn_pmod. by rewrite ltn_divLR.
Qed.

Section Two.
Variable X : list R.
Hypothesis HX : List.length X = (L * n)%N.

(** exponentials of a shifted field *)
Lemma exp_shift_one l i dx : (l < L)%N -> (i < n)%N ->
  exp_field (shift_one n l i dx X) =
  lset (exp_field X) (l * n + i) (exp (Rmult (Rmult (Ropp dt) (coupling i)) (Rplus (field_at X l i) dx))).
Proof.
  move=> Hl Hi. have HS := shift_one_len HX l i dx. apply: field_ext.
  - exact: exp_field_len.
  - rewrite lset_length. exact: exp_field_len.
  move=> l' i' Hl' Hi'. rewrite exp_field_at // shift_one_at // [RHS]nthE lset_nth_d; last first.
  { apply/ltP. have -> : List.length (exp_field X) = (L * n)%N by exact: exp_field_len. exact: pos_lt. }
  case: Nat.eqb_spec => [E|E]; move/eqP: (E); rewrite eq_sym flip_pos // => H.
  - rewrite H. by case/andP: H => _ /eqP ->.
  - by rewrite (negbTE H) -nthE exp_field_at.
Qed.

(** time step matrices of a field shifted at one site and slice *)
Lemma step_shift expV s l (i : 'I_n) dx : (l < L)%N ->
  phonon_step_mx n k expV s (exp_field (shift_one n l i dx X)) l =
    scale_row i (exp (Rmult (Rmult (Ropp dt) (coupling i)) dx)) (phonon_step_mx n k expV s (exp_field X) l) /\
  forall l', l' <> l -> (l' < L)%N ->
    phonon_step_mx n k expV s (exp_field (shift_one n l i dx X)) l' = phonon_step_mx n k expV s (exp_field X) l'.
Proof.
  move=> Hl. have HS := shift_one_len HX l i dx. split.
  - rewrite /phonon_step_mx scale_row_mul. congr (_ *m _). apply/matrixP => a b. rewrite !mxE.
    rewrite !exp_field_at // shift_one_at // eqxx /= val_eqE. case: (eqVneq a i) => [->|Hne]; last by [].
    rewrite Rmult_plus_distr_l exp_plus mulrnAr -!RmultE. congr (_ *+ _).
    have E : forall x y z : R, Rmult x (Rmult y z) = Rmult z (Rmult x y) by move=> x y z; ring.
    exact: E.
  - move=> l' Hne Hl'. rewrite /phonon_step_mx. congr (diag_mx _ *m _). apply/matrixP => a b. rewrite !mxE.
    rewrite !exp_field_at // shift_one_at //. by case: (eqVneq l' l) Hne.
Qed.
End Two.
End Field.
