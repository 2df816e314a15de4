(** The operators of densities and of the correlations of two sites are symmetric. *)
From Coq Require Import ZArith List Reals Lra Lia.
From mathcomp Require Import all_ssreflect ssralg matrix.
From Verif Require Import Base RField MatSpec MatFacts SimParams KineticExpSpec LatticeSpec WickSpec Measure MeasureSpec UMeasure UMeasureSpec
  FockSpec FockFacts HubbardSpec ThermalSpec TrotterSpec TrotterNorm TrotterOps.
Set Implicit Arguments.
Unset Strict Implicit.
Unset Printing Implicit Defensive.
Local Open Scope ring_scope.
Import GRing.Theory.

Definition comm n (A B : 'M[R]_n) : Prop := A *m B = B *m A.
Lemma comm_sym n (A B : 'M[R]_n) : comm A B -> comm B A.
Proof. by rewrite /comm => ->. Qed.
Lemma comm_addl n (A B C : 'M[R]_n) : comm A C -> comm B C -> comm (A + B) C.
Proof. rewrite /comm mulmxDl mulmxDr. by move=> -> ->. Qed.
Lemma comm_addr n (A B C : 'M[R]_n) : comm A B -> comm A C -> comm A (B + C).
Proof. rewrite /comm mulmxDl mulmxDr. by move=> -> ->. Qed.
Lemma comm_scalel n c (A B : 'M[R]_n) : comm A B -> comm (c *: A) B.
Proof. rewrite /comm -scalemxAl -scalemxAr. by move=> ->. Qed.
Lemma comm_scaler n c (A B : 'M[R]_n) : comm A B -> comm A (c *: B).
Proof. rewrite /comm -scalemxAl -scalemxAr. by move=> ->. Qed.
Lemma comm_0l n (A : 'M[R]_n) : comm 0 A. Proof. by rewrite /comm mul0mx mulmx0. Qed.
Lemma comm_0r n (A : 'M[R]_n) : comm A 0. Proof. by rewrite /comm mul0mx mulmx0. Qed.
Lemma sym_mul n (A B : 'M[R]_n) : A^T = A -> B^T = B -> comm A B -> (A *m B)^T = A *m B.
Proof. by move=> HA HB H; rewrite trmx_mul HA HB H. Qed.

Section Modes.
Variable m : nat.
Notation cr := (@create R_comRingType m).
Notation an := (@annihilate R_comRingType m).
Lemma an_an i j : an i *m an j = - (an j *m an i).
Proof. by rewrite /annihilate -!trmx_mul car_cc linearN. Qed.
Lemma an_cr i j : i != j -> an i *m cr j = - (cr j *m an i).
Proof. move=> H. have := car_ca R_comRingType j i. rewrite eq_sym (negbTE H) (_ : (0%:R)%:M = 0); last by rewrite raddf0. by move/eqP; rewrite addrC addr_eq0 => /eqP. Qed.
Lemma cr_an_cr_an a b c d : b != c -> a != d -> comm (cr a *m an b) (cr c *m an d).
Proof.
  move=> H1 H2. rewrite /comm -[LHS]mulmxA [an b *m _]mulmxA an_cr // mulNmx mulmxN -[cr c *m an b *m an d]mulmxA an_an mulmxN mulmxN opprK.
  rewrite [cr a *m (cr c *m _)]mulmxA car_cc mulNmx -[cr c *m cr a *m _]mulmxA [cr a *m (an d *m an b)]mulmxA.
  have -> : cr a *m an d = - (an d *m cr a) by rewrite an_cr ?opprK // eq_sym.
  by rewrite mulNmx mulmxN opprK !mulmxA.
Qed.
End Modes.

Section Sites.
Variable n : nat.
Notation op A := (bilinear_op n A).
Lemma place_neq s s' (i j : 'I_n) : (s <> s') \/ i != j -> place s i != place s' j.
Proof.
  move=> H. apply/eqP. case: s s' H => -[] H /=.
  - move/lshift_inj => E. case: H => // /eqP. by rewrite E.
  - move=> E. have := congr1 (@nat_of_ord _) E => /=. move=> E'. have := ltn_ord i. rewrite E'. by rewrite -[X in (_ < X)%N]addn0 ltn_add2l ltn0.
  - move=> E. have := congr1 (@nat_of_ord _) E => /=. move=> E'. have := ltn_ord j. rewrite -E'. by rewrite -[X in (_ < X)%N]addn0 ltn_add2l ltn0.
  - move/rshift_inj => E. case: H => // /eqP. by rewrite E.
Qed.
Lemma comm_sites s1 s2 s3 s4 (i j : 'I_n) : i != j -> comm (cdag s1 i *m cann s2 i) (cdag s3 j *m cann s4 j).
Proof. move=> H. apply: cr_an_cr_an; apply: place_neq; by right. Qed.
Lemma comm_spins s1 s2 (i j : 'I_n) : s1 <> s2 -> comm (cdag s1 i *m cann s1 i) (cdag s2 j *m cann s2 j).
Proof. move=> H. apply: cr_an_cr_an; apply: place_neq; by left. Qed.

Definition at_site (i : Z) : option 'I_n := insub (Z.to_nat i).
Lemma number_at s i : op (number s i) = if at_site i is Some k then cdag s k *m cann s k else 0.
Proof. rewrite /bilinear_op /number big_cons big_nil addr0 /cdag_at /cann_at /= -/(at_site i) scale1r. case: (at_site i) => //. exact: mul0mx. Qed.
Lemma z_at i : op (spin_z i) = op (number up i) - op (number dn i).
Proof. rewrite /bilinear_op /number !big_cons !big_nil !addr0 /=. by rewrite !scale1r scaleN1r. Qed.
Lemma x_at i : op (spin_x i) = if at_site i is Some k then cdag dn k *m cann up k + cdag up k *m cann dn k else 0.
Proof. rewrite /bilinear_op /spin_x !big_cons big_nil !addr0 /cdag_at /cann_at /= -/(at_site i) !scale1r. case: (at_site i) => //. by rewrite mul0mx addr0. Qed.

Lemma number_sym s i : (op (number s i))^T = op (number s i).
Proof. rewrite number_at. case: at_site => [k|]; last exact: trmx0. by rewrite trmx_mul /cdag /cann /annihilate trmxK. Qed.
Lemma z_sym i : (op (spin_z i))^T = op (spin_z i).
Proof. by rewrite z_at linearB /= !number_sym. Qed.
Lemma x_sym i : (op (spin_x i))^T = op (spin_x i).
Proof. rewrite x_at. case: at_site => [k|]; last exact: trmx0. by rewrite linearD /= !trmx_mul /cdag /cann /annihilate !trmxK addrC. Qed.

Lemma number_comm s s' i j : comm (op (number s i)) (op (number s' j)).
Proof.
  rewrite !number_at. case: (at_site i) => [k|]; last exact: comm_0l. case: (at_site j) => [l|]; last exact: comm_0r.
  case: (boolP (k == l)) => [/eqP <-|H]; last exact: comm_sites. case: s s' => -[] //; exact: comm_spins.
Qed.
Lemma z_comm i j : comm (op (spin_z i)) (op (spin_z j)).
Proof.
  rewrite !z_at. rewrite -[X in _ - X]scale1r -[X in comm _ (_ - X)]scale1r -!scaleNr.
  apply: comm_addl; [|apply: comm_scalel]; (apply: comm_addr; [|apply: comm_scaler]); exact: number_comm.
Qed.
Lemma x_comm i j : comm (op (spin_x i)) (op (spin_x j)).
Proof.
  rewrite !x_at. case: (at_site i) => [k|]; last exact: comm_0l. case: (at_site j) => [l|]; last exact: comm_0r.
  case: (boolP (k == l)) => [/eqP <-|H] //. apply: comm_addl; apply: comm_addr; exact: comm_sites.
Qed.
Lemma two_point_sym f i j : (two_point_op n f i j)^T = two_point_op n f i j.
Proof.
  case: f => /=; rewrite ?trmx0 //; rewrite ?linearD /=; try (apply: sym_mul; rewrite ?number_sym ?z_sym ?x_sym //;
    first [exact: number_comm|exact: z_comm|exact: x_comm]).
  congr (_ + _); apply: sym_mul; rewrite ?number_sym //; exact: number_comm.
Qed.
Lemma double_sym i : (op (number up i) *m op (number dn i))^T = op (number up i) *m op (number dn i).
Proof. apply: sym_mul; rewrite ?number_sym //; exact: number_comm. Qed.
End Sites.
