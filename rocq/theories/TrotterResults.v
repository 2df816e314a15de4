(** The results of a simulation and exact thermal expectation values. *)
From Coq Require Import ZArith List Reals Lra Lia.
From mathcomp Require Import all_ssreflect ssralg matrix.
From Verif Require Import Base Sums RField MatSpec MatFacts SimParams KineticSpec KineticExpSpec KineticExpFacts Spectral RClosed LatticeSpec WickSpec Measure MeasureSpec UMeasure UMeasureSpec
  FockSpec FockFacts HubbardSpec ThermalSpec TrotterPos TrotterSpec TrotterNorm TrotterFacts TrotterOps TrotterSym.
Set Implicit Arguments.
Unset Strict Implicit.
Unset Printing Implicit Defensive.
Local Open Scope ring_scope.
Import GRing.Theory.

Lemma sum_from_within k : forall lo f g eps, (forall i, Rle (Rabs (f i - g i)%coqR) eps) -> Rle (Rabs (sum_from k lo f - sum_from k lo g)%coqR) (INR k * eps)%coqR.
Proof.
  elim: k => [|k IH] lo f g eps H; first by rewrite /= Rminus_diag_eq // Rabs_R0 Rmult_0_l; exact: Rle_refl.
  rewrite S_INR /=. have := IH (lo + 1)%Z f g eps H. have := H lo.
  move: (sum_from k _ f) (sum_from k _ g) (f lo) (g lo) => a b c d H1 H2.
  have := Rabs_triang (a - b)%coqR (c - d)%coqR. replace (a - b + (c - d))%coqR with (c + a - (d + b))%coqR by ring. lra.
Qed.
Lemma average_within m f g eps : (0 < m)%Z -> (forall i, Rle (Rabs (f i - g i)%coqR) eps) -> within eps (average m f) (average m g).
Proof.
  move=> Hm H. rewrite /within /average /sum. have := sum_from_within (Z.to_nat (m - 0)) 0 H.
  have -> : INR (Z.to_nat (m - 0)) = IZR m by rewrite INR_IZR_INZ Z2Nat.id; [congr IZR; lia|lia].
  have Hp : Rlt 0 (IZR m) by apply: IZR_lt.
  move: (sum_from _ 0 f) (sum_from _ 0 g) (IZR m) Hp => a b c Hc H1. rewrite /Rdiv -Rmult_minus_distr_r Rabs_mult (Rabs_right (/ c)%coqR).
  - apply: (Rmult_le_reg_r c) => //. rewrite Rmult_assoc Rinv_l; lra.
  - apply: Rle_ge. left. exact: Rinv_0_lt_compat.
Qed.
Lemma within_of eps x y z : x = y -> within eps y z -> within eps x z. Proof. by move=> ->. Qed.

Section Close.
Variable p : sim_params.
Notation n := (sites p).
Notation op A := (bilinear_op n A).
Hypothesis Hc : (0 < sp_Nx p * sp_Ny p)%Z.
Variable eps : R.
Hypothesis He : Rle 0 eps.

Lemma rows4 A : Rle (coeff A) 4 -> rows_le (op A) 4.
Proof. exact: bnd_mono (@bilinear_rows n A). Qed.
Lemma rows44 A B : Rle (coeff A) 4 -> Rle (coeff B) 4 -> rows_le (op A *m op B) 16.
Proof. move=> HA HB. have -> : 16%coqR = Rmult 4 4 by lra. apply: bnd_mul; [lra|exact: rows4|exact: rows4]. Qed.
Lemma rows11 s i j : rows_le (cann_at n (s, i) *m cdag_at n (s, j)) 1.
Proof. have := bnd_mul Rle_0_1 (@cann_rows n (s, i)) (@cdag_rows n (s, j)). by rewrite Rmult_1_r. Qed.
Lemma two_point_rows f i j : rows_le (two_point_op n f i j) 32.
Proof.
  have H16 A B : Rle (coeff A) 4 -> Rle (coeff B) 4 -> rows_le (op A *m op B) 32.
  { move=> HA HB. apply: bnd_mono (rows44 HA HB) _. lra. }
  case: f => /=; try (apply: zero_rows; lra); try (apply: H16; first [exact: coeff_number|exact: coeff_z|exact: coeff_x]).
  have -> : 32%coqR = Rplus 16 16 by lra. apply: bnd_add; apply: rows44; exact: coeff_number.
Qed.

Section Equal.
Variables T T' : fock n -> R.
Hypothesis HT : forall O o, Rle 0 o -> rows_le O o -> Rle (Rabs (T O - T' O)%coqR) (o * eps)%coqR.
Lemma op_close O o : Rle 0 o -> Rle o 32 -> rows_le O o -> Rle (Rabs (T O - T' O)%coqR) (32 * eps)%coqR.
Proof. move=> H0 H32 HO. apply: Rle_trans (HT H0 HO) _. exact: Rmult_le_compat_r. Qed.
Lemma equal_close value : thermal_equal_time (@eq R) T value -> thermal_equal_time (within (32 * eps)%coqR) T' value.
Proof.
  move=> H. constructor.
  - move=> f o q d H1 H2 H3 H4. apply: within_of (te_two_point H H1 H2 H3 H4) _. apply: average_within => // i.
    apply: (@op_close _ 32%coqR); [lra|lra|exact: two_point_rows].
  - move=> o H1. apply: within_of (te_density_u H H1) _. apply: average_within => // i.
    apply: (@op_close _ 4%coqR); [lra|lra|apply: rows4; exact: coeff_number].
  - move=> o H1. apply: within_of (te_density_d H H1) _. apply: average_within => // i.
    apply: (@op_close _ 4%coqR); [lra|lra|apply: rows4; exact: coeff_number].
  - move=> o H1. apply: within_of (te_doubleocc H H1) _. apply: average_within => // i.
    apply: (@op_close _ 16%coqR); [lra|lra|apply: rows44; exact: coeff_number].
  - move=> i j H1 H2. apply: within_of (te_green_u H H1 H2) _. apply: (@op_close _ 1%coqR); [lra|lra|exact: rows11].
  - move=> i j H1 H2. apply: within_of (te_green_d H H1 H2) _. apply: (@op_close _ 1%coqR); [lra|lra|exact: rows11].
  - move=> f o d H0 H1 H2 H3. apply: within_of (te_pair H H0 H1 H2 H3) _. apply: average_within => // i.
    apply: (@op_close _ 16%coqR); [lra|lra|]. have -> : 16%coqR = Rmult 4 4 by lra. apply: bnd_mul; first lra.
    + apply: bnd_mono (@pairing_rows n _) _. exact: coeff_pair.
    + apply: bnd_mono (@pairing_tr_rows n _) _. exact: coeff_pair.
Qed.
End Equal.

Section Static.
Variables T T' : fock n -> R.
Hypothesis HT : forall O o, Rle 0 o -> rows_le O o -> O^T = O -> Rle (Rabs (T O - T' O)%coqR) (o * eps)%coqR.
Lemma sym_close O o : Rle 0 o -> Rle o 32 -> rows_le O o -> O^T = O -> Rle (Rabs (T O - T' O)%coqR) (32 * eps)%coqR.
Proof. move=> H0 H32 HO SO. apply: Rle_trans (HT H0 HO SO) _. exact: Rmult_le_compat_r. Qed.
Lemma static_close value : thermal_equal_time (@eq R) T value -> thermal_static (within (32 * eps)%coqR) T' value.
Proof.
  move=> H. constructor.
  - move=> f o q d H1 H2 H3 H4. apply: within_of (te_two_point H H1 H2 H3 H4) _. apply: average_within => // i.
    apply: (@sym_close _ 32%coqR); [lra|lra|exact: two_point_rows|exact: two_point_sym].
  - move=> f s o [[<- <-]|[[<- <-]|[]]] H1; [apply: within_of (te_density_u H H1) _|apply: within_of (te_density_d H H1) _];
      apply: average_within => // i; (apply: (@sym_close _ 4%coqR); [lra|lra|apply: rows4; exact: coeff_number|exact: number_sym]).
  - move=> o H1. apply: within_of (te_doubleocc H H1) _. apply: average_within => // i.
    apply: (@sym_close _ 16%coqR); [lra|lra|apply: rows44; exact: coeff_number|exact: double_sym].
Qed.
End Static.

Section Unequal.
Variables (L : nat) (T T' : nat -> fock n -> fock n -> R).
Hypothesis HL : L = Z.to_nat (sp_L p).
Hypothesis HT : forall l O O' o o', (l <= L)%N -> Rle 0 o -> Rle 0 o' -> rows_le O o -> rows_le O' o' ->
  Rle (Rabs (T l O O' - T' l O O')%coqR) ((o * o') * eps)%coqR.
Lemma op2_close l O O' o o' : (l <= L)%N -> Rle 0 o -> Rle 0 o' -> Rle (o * o')%coqR 32 -> rows_le O o -> rows_le O' o' ->
  Rle (Rabs (T l O O' - T' l O O')%coqR) (32 * eps)%coqR.
Proof. move=> Hl H0 H1 H32 HO HO'. apply: Rle_trans (HT Hl H0 H1 HO HO') _. exact: Rmult_le_compat_r. Qed.
Lemma opp_close a b e : Rle (Rabs (a - b)%coqR) e -> Rle (Rabs (- a - - b)%coqR) e.
Proof. move=> H. replace (- a - - b)%coqR with (- (a - b))%coqR by ring. by rewrite Rabs_Ropp. Qed.
Lemma op11 l O O' : (l <= L)%N -> rows_le O 1 -> rows_le O' 1 -> Rle (Rabs (T l O O' - T' l O O')%coqR) (32 * eps)%coqR.
Proof. move=> Hl H1 H2. apply: (@op2_close _ _ _ 1%coqR 1%coqR) => //; lra. Qed.
Lemma op44 l O O' : (l <= L)%N -> rows_le O 4 -> rows_le O' 4 -> Rle (Rabs (T l O O' - T' l O O')%coqR) (32 * eps)%coqR.
Proof. move=> Hl H1 H2. apply: (@op2_close _ _ _ 4%coqR 4%coqR) => //; lra. Qed.
Lemma two_time_close f l i j : (l <= L)%N -> List.In f u_two_point_fields ->
  Rle (Rabs (two_time f T l i j - two_time f T' l i j)%coqR) (32 * eps)%coqR.
Proof.
  move=> Hl Hf. have C1 a b c d : rows_le (cann_at n (a, b) *m cdag_at n (c, d)) 1.
  { have := bnd_mul Rle_0_1 (@cann_rows n (a, b)) (@cdag_rows n (c, d)). by rewrite Rmult_1_r. }
  move: Hf. rewrite /u_two_point_fields /=.
  repeat (case=> [<-|]); rewrite /=; try (case=> [<-|]); rewrite //=;
  first [ case: eqP => _; [apply: op11 => //; exact: bnd_1|apply: opp_close; apply: op11 => //; [exact: cdag_rows|exact: cann_rows]]
        | apply: op11 => //; first [exact: bnd_1|exact: cann_rows|exact: cdag_rows]
        | apply: op44 => //; apply: rows4; first [exact: coeff_charge|exact: coeff_z|exact: coeff_x] ].
Qed.
Lemma bond_time_close f l i j nbi nbj : (l <= L)%N -> List.In f u_bond_fields ->
  Rle (Rabs (bond_time f T l i j nbi nbj - bond_time f T' l i j nbi nbj)%coqR) (32 * eps)%coqR.
Proof.
  move=> Hl. have P c k nb : rows_le (pairing_op n (pair_op k (pair_shape c nb))) 4 by apply: bnd_mono (@pairing_rows n _) _; exact: coeff_pair.
  have Q c k nb : rows_le (pairing_op n (pair_op k (pair_shape c nb)))^T 4 by apply: bnd_mono (@pairing_tr_rows n _) _; exact: coeff_pair.
  rewrite /u_bond_fields. cbn [List.In]. repeat (case=> [<-|]).
  all: cbv beta iota zeta delta [bond_time].
  all: first [ apply: opp_close; apply: op44 => //; apply: rows4; exact: coeff_current
             | apply: op44; [exact: Hl|exact: P|exact: Q]
             | apply: op44 => //; apply: rows4; first [exact: coeff_b1g|exact: coeff_b2g] ].
Qed.
Lemma unequal_close value : thermal_unequal_time (@eq R) T value -> thermal_unequal_time (p := p) (within (32 * eps)%coqR) T' value.
Proof.
  move=> H. constructor.
  - move=> f l o q d H1 H2 H3 H4 H5. apply: within_of (tu_two_point H H1 H2 H3 H4 H5) _. apply: average_within => // i.
    apply: two_time_close => //. rewrite HL. apply/leP. lia.
  - move=> f l o d H0 H1 H2 H3 H4 H5. apply: within_of (tu_bond H H0 H1 H2 H3 H4 H5) _. apply: average_within => // i.
    apply: bond_time_close => //. rewrite HL. apply/leP. lia.
Qed.
End Unequal.
End Close.

(** one constant for all numbers of slices *)
Definition model_bound (p : sim_params) (beta C : R) : Prop :=
  forall expH : R -> fock (sites p), (forall t, is_exp (- t *: (kinetic_energy p + interaction p)) (expH t)) ->
  forall L EV EK, (0 < L)%N -> is_exp (- (beta / INR L)%coqR *: interaction p) EV -> is_exp (- (beta / INR L)%coqR *: kinetic_energy p) EK ->
  (forall l O O' o o', (l <= L)%N -> Rle 0 o -> Rle 0 o' -> rows_le O o -> rows_le O' o' ->
     Rle (Rabs (thermal EV EK L l O O' - exact expH beta (INR l * (beta / INR L))%coqR O O')%coqR) (C * (o * o') / INR L)%coqR) /\
  (forall O o, Rle 0 o -> rows_le O o -> O^T = O ->
     Rle (Rabs (thermal EV EK L 0 O 1%:M - exact expH beta 0 O 1%:M)%coqR) (C * o / (INR L * INR L))%coqR).

Lemma exp_family n (A : 'M[R]_n) : A^T = A -> exists expH : R -> 'M[R]_n, forall t, is_exp (- t *: A) (expH t).
Proof.
  move=> HA. have [U [d [HU E]]] := @spectral R_rcfType n A HA. exists (fun t => expd U (- t *: d) U^T) => t.
  have -> : - t *: A = U *m diag_mx (- t *: d) *m U^T.
  { rewrite E (_ : diag_mx (- t *: d) = - t *: diag_mx d); first by rewrite -scalemxAr -scalemxAl. apply/matrixP => i j. by rewrite !mxE mulrnAr. }
  exact: is_exp_expd.
Qed.
Lemma model_bound_ex p beta : well_formed p -> Rlt 0 beta -> exists C, Rle 0 C /\ model_bound p beta C.
Proof.
  move=> WF Hb. have SV := interaction_sym p. have SK := kinetic_sym WF.
  have SH : (kinetic_energy p + interaction p)^T = kinetic_energy p + interaction p by rewrite linearD /= SV SK.
  have [e0 H0] := exp_family SH. have [v [Hv BV]] := bnd_ex (interaction p). have [k [Hk BK]] := bnd_ex (kinetic_energy p).
  have [C1 [P1 F1]] := first_order (fdim_pos _) SV SK Hb Hv Hk BV BK H0.
  have [C2 [P2 F2]] := second_order (fdim_pos _) SV SK Hb Hv Hk BV BK H0.
  exists (C1 + C2)%coqR. split; first lra. move=> expH HX L EV EK HL HV HK.
  have EX t : expH t = e0 t by exact: is_exp_uniq (HX t) (H0 t).
  have E1 : expH 0%coqR = 1%:M.
  { have X := HX 0%coqR. have := @sym_exp_pow _ (kinetic_energy p + interaction p) (e0 1%coqR) (expH 0%coqR) (- 1)%coqR 0 SH (H0 1%coqR).
    rewrite mpow0 => -> //. rewrite /= Rmult_0_l. move: X. by rewrite -RoppE Ropp_0. }
  have HS : slices (interaction p) (kinetic_energy p) beta L EV EK by split.
  have HLp : Rlt 0 (INR L) by apply: lt_0_INR; exact/ltP.
  split.
  - move=> l O O' o o' Hl Ho Ho' BO BO'. have := F1 L EV EK l O O' o o' HS Hl Ho Ho' BO BO'. rewrite /thermal /exact !EX /=.
    move=> H. apply: Rle_trans H _. have Hx : Rle 0 ((o * o') / INR L)%coqR.
    { apply: Rmult_le_pos; first exact: Rmult_le_pos. left. exact: Rinv_0_lt_compat. }
    move: Hx. rewrite /Rdiv !Rmult_assoc. move: (Rmult o _) => y Hy. have : Rle 0 (C2 * y)%coqR by exact: Rmult_le_pos. lra.
  - move=> O o Ho BO SO. have := F2 L EV EK O o HS Ho BO SO. rewrite /thermal /exact E1 Rminus_0_r subn0 mpow0 !mulmx1 EX.
    move=> H. apply: Rle_trans H _. have Hx : Rle 0 (o / (INR L * INR L))%coqR.
    { apply: Rmult_le_pos => //. left. apply: Rinv_0_lt_compat. exact: Rmult_lt_0_compat. }
    move: Hx. rewrite /Rdiv !Rmult_assoc. move: (Rmult o _) => y Hy. have : Rle 0 (C1 * y)%coqR by exact: Rmult_le_pos. lra.
Qed.
Lemma model_bound_same p q beta C : same_model p q -> model_bound q beta C -> model_bound p beta C.
Proof. case: p => ? ? ? ? ? ? ? ? ? ? ? ? ? ? ? ? ? ? ? ?. case: q => ? ? ? ? ? ? ? ? ? ? ? ? ? ? ? ? ? ? ? ?. rewrite /same_model /=. by move=> [-> [-> [-> [-> [-> [-> [-> ->]]]]]]]. Qed.
