(** Proofs about half filling: particle-hole symmetry. *)
From Coq Require Import ZArith List Reals Lia Lra.
From mathcomp Require Import all_ssreflect ssralg ssrnum matrix.
From Verif Require Import Base BaseFacts RField RClosed Spectral MatSpec MatFacts TimeStep TimeStepSpec TimeStepFacts Strat StratSpec StratFacts GreenSpec GreenFacts
  SimParams KineticSpec KineticExpSpec KineticExpFacts SweepSpec SweepFacts PhononFieldFacts ParamSpec LatticeSpec WickSpec UnequalTimeSpec SimulationSpec HalfFillSpec.
Set Implicit Arguments.
Unset Strict Implicit.
Unset Printing Implicit Defensive.
Local Open Scope ring_scope.
Import GRing.Theory.

(** * Exponentials *)
Lemma prod_pos (I : finType) (f : I -> R) : (forall i, Rlt R0 (f i)) -> Rlt R0 (\prod_i f i).
Proof.
  move=> H. apply: (big_ind (fun x => Rlt R0 x)) => //; first by rewrite -R1E; lra.
  move=> x y Hx Hy. rewrite -RmultE. exact: Rmult_lt_0_compat.
Qed.

Lemma exp_sym_pos n (A E : 'M[R]_n) : A^T = A -> is_exp A E -> E^T = E /\ Rlt R0 (\det E).
Proof.
  move=> HA HE. have [U [d [HU HD]]] := @spectral R_rcfType n A HA. rewrite HD in HE.
  have -> : E = expd U d U^T by exact: (is_exp_uniq HE (is_exp_expd _ HU)).
  rewrite /expd. split; first by rewrite !trmx_mul trmxK tr_diag_mx mulmxA.
  rewrite !det_mulmx mulrAC -det_mulmx (mulmx1C HU) det1 mul1r det_diag. apply: prod_pos => i. rewrite mxE. exact: exp_pos.
Qed.

Lemma mpow_nonneg n (A : 'M[R]_n) k : (forall i j, Rle R0 (A i j)) -> forall i j, Rle R0 (mpow A k i j).
Proof.
  move=> HA. elim: k => [|k IH] i j.
  - rewrite /mpow /= mxE. case: eqP => _; rewrite ?mulr1n ?mulr0n -?R0E -?R1E; lra.
  - rewrite /mpow /= mxE. apply: (big_ind (fun x => Rle R0 x)); first by rewrite -R0E; lra.
    + move=> x y Hx Hy. rewrite -RplusE. lra.
    + move=> l _. rewrite -RmultE. by apply: Rmult_le_pos.
Qed.

Lemma exp_nonneg n (A E : 'M[R]_n) : (forall i j, Rle R0 (A i j)) -> is_exp A E -> forall i j, Rle R0 (E i j).
Proof.
  move=> HA HE i j. case: (Rle_dec R0 (E i j)) => // /Rnot_le_lt Hn. exfalso.
  have [N HN] := HE i j (Ropp (E i j)) ltac:(lra).
  have := HN N (Nat.le_refl _). rewrite /R_dist.
  have Hs : Rle R0 (sum_f_R0 (fun k => Rmult (Rinv (INR (Factorial.fact k))) (mpow A k i j)) N).
  { apply: cond_pos_sum => m. apply: Rmult_le_pos; last exact: mpow_nonneg.
    apply: Rlt_le. apply: Rinv_0_lt_compat. exact: INR_fact_lt_0. }
  rewrite Rabs_right; lra.
Qed.

(** * Particle-hole symmetry *)
Section Sign.
Variables (n : nat) (colour : 'I_n -> bool).
Definition sg (i : 'I_n) : R := if colour i then 1 else -1.
Definition P : 'M[R]_n := diag_mx (\row_i sg i).
Lemma sg2 i : sg i * sg i = 1.
Proof. rewrite /sg. case: (colour i); by rewrite ?mulrNN mulr1. Qed.
Lemma PP : P *m P = 1%:M.
Proof. rewrite mulmx_diag. apply/matrixP => i j. rewrite !mxE. case: eqP => // _. by rewrite sg2. Qed.
Lemma PAP (A : 'M[R]_n) i j : (P *m A *m P) i j = sg i * A i j * sg j.
Proof. by rewrite mul_mx_diag mul_diag_mx !mxE. Qed.

Lemma exp_conj (A E : 'M[R]_n) : is_exp A E -> is_exp (P *m A *m P) (P *m E *m P).
Proof.
  move=> HE i j. rewrite PAP.
  have H := infinite_sum_mult (Rmult (sg i) (sg j)) (HE i j).
  have -> : sg i * E i j * sg j = Rmult (Rmult (sg i) (sg j)) (E i j) by rewrite !RmultE mulrAC.
  apply: infinite_sum_ext H => k. rewrite (mpow_conj _ _ PP) PAP !RmultE.
  rewrite mulrCA. congr (_ * _). by rewrite mulrAC.
Qed.

Lemma conj_opp_of (H : 'M[R]_n) : (forall i j, H i j <> R0 -> colour i <> colour j) -> P *m H *m P = - H.
Proof.
  move=> HC. apply/matrixP => i j. rewrite PAP mxE.
  case: (Req_dec (H i j) R0) => [->|Hn]; first by rewrite R0E mulr0 mul0r oppr0.
  move: (HC i j Hn). rewrite /sg. case: (colour i) (colour j) => [] [] // _; by rewrite ?mul1r ?mulr1 ?mulN1r ?mulrN1.
Qed.

(** [B] is the particle-hole transform of [A] *)
Definition dual (A B : 'M[R]_n) : Prop := P *m B *m P *m A^T = 1%:M.

Lemma dual_1 : dual 1%:M 1%:M.
Proof. by rewrite /dual mulmx1 PP mul1mx trmx1. Qed.
Lemma dual_mul A B C D : dual A B -> dual C D -> dual (A *m C) (B *m D).
Proof.
  rewrite /dual => H1 H2. have -> : P *m (B *m D) *m P = (P *m B *m P) *m (P *m D *m P).
  { rewrite -!mulmxA [P *m (P *m _)]mulmxA PP mul1mx. by []. }
  rewrite trmx_mul -mulmxA [(P *m D *m P) *m (C^T *m _)]mulmxA H2 mul1mx. exact: H1.
Qed.
Lemma dual_oprod (M N : nat -> 'M[R]_n) lo len : (forall l, (lo <= l < lo + len)%N -> dual (M l) (N l)) -> dual (oprod M lo len) (oprod N lo len).
Proof.
  elim: len => [|len IH] H; first by rewrite !oprod0; exact: dual_1.
  rewrite !oprodS. apply: dual_mul; first by apply: H; rewrite leq_addr addnS ltnS leqnn.
  apply: IH => l /andP [H1 H2]. apply: H. by rewrite H1 addnS ltnS (ltnW H2).
Qed.
Lemma dual_cyclic (M N : nat -> 'M[R]_n) L l : (l <= L)%N -> (forall j, (j < L)%N -> dual (M j) (N j)) -> dual (cyclic_flow M L l) (cyclic_flow N L l).
Proof.
  move=> Hl H. apply: dual_mul; apply: dual_oprod => j /andP [_ Hj]; apply: H.
  - exact: leq_trans Hl.
  - by rewrite subnKC in Hj.
Qed.

Lemma dual_shift A B : dual A B -> P *m (1%:M + B) *m P *m A^T = (1%:M + A)^T.
Proof. move=> H. by rewrite mulmxDr mulmx1 mulmxDl PP mulmxDl mul1mx H linearD /= trmx1 addrC. Qed.
Lemma dual_det A B : dual A B -> \det (1%:M + B) * \det A = \det (1%:M + A).
Proof.
  move=> H. have := congr1 determinant (dual_shift H). rewrite !det_tr !det_mulmx => <-. rewrite det_tr.
  have E : \det P * \det P = 1 by rewrite -det_mulmx PP det1.
  by rewrite [_ * _ * \det P]mulrC mulrA E mul1r.
Qed.
Lemma dual_sign A B : dual A B -> Rlt R0 (\det A) -> Rle R0 (\det (1%:M + A) * \det (1%:M + B)).
Proof.
  move=> H HA. rewrite -(dual_det H). set b := \det (1%:M + B). rewrite -!RmultE.
  have -> : Rmult (Rmult b (\det A)) b = Rmult (\det A) (Rmult b b) by ring. apply: Rmult_le_pos; [lra|exact: Rle_0_sqr].
Qed.

Lemma dual_green A B : dual A B -> \det (1%:M + A) <> 0 -> \det (1%:M + B) <> 0 ->
  P *m invmx (1%:M + B) *m P = 1%:M - (invmx (1%:M + A))^T.
Proof.
  move=> H HA HB.
  have UA : 1%:M + A \in unitmx by rewrite unitmxE unitfE; exact/eqP.
  have UB : 1%:M + B \in unitmx by rewrite unitmxE unitfE; exact/eqP.
  set C := P *m B *m P. have HC : C *m A^T = 1%:M by exact: H. have HC' : A^T *m C = 1%:M by exact: mulmx1C.
  set G := invmx (1%:M + A).
  have HG : G^T *m (1%:M + A^T) = 1%:M.
  { rewrite -[X in X + _]trmx1 -linearD /= -trmx_mul mulmxV // trmx1. by []. }
  have EGC : G^T *m (1%:M + C) = C.
  { have -> : 1%:M + C = (1%:M + A^T) *m C by rewrite mulmxDl mul1mx HC' addrC. by rewrite mulmxA HG mul1mx. }
  have E1 : (1%:M - G^T) *m (1%:M + C) = 1%:M by rewrite mulmxBl mul1mx EGC addrK.
  have E2 : (1%:M + C) *m (P *m invmx (1%:M + B) *m P) = 1%:M.
  { have -> : 1%:M + C = P *m (1%:M + B) *m P by rewrite mulmxDr mulmx1 mulmxDl PP.
    rewrite -!mulmxA [P *m (P *m _)]mulmxA PP mul1mx [(_ + _) *m (invmx _ *m _)]mulmxA mulmxV // mul1mx PP. by []. }
  move: E2. set X := P *m _ *m P. move=> E2. have E3 : (1%:M - G^T) *m ((1%:M + C) *m X) = X by rewrite mulmxA E1 mul1mx. by rewrite -E3 E2 mulmx1.
Qed.
Lemma dual_green_diag A B i : dual A B -> \det (1%:M + A) <> 0 -> \det (1%:M + B) <> 0 ->
  invmx (1%:M + B) i i = 1 - invmx (1%:M + A) i i.
Proof.
  move=> H HA HB. have /matrixP /(_ i i) := dual_green H HA HB. rewrite PAP !mxE eqxx mulr1n mulrAC sg2 mul1r. by [].
Qed.
End Sign.

(** * The matrices of the program *)
Section Program.
Variables (p : sim_params) (k : kinetic) (st : strat) (junk : list R).
Hypotheses (WF : well_formed p) (KO : kinetic_ok (sites p) k) (KN : k_Norb k = sp_Norb p).
Hypothesis HE : is_exp (- sp_dt p *: hamiltonian p) (mat (sites p) (expK k)).
Hypotheses (HU : Z.of_nat (List.length (sp_U p)) = sp_Norb p) (LJ : Z.of_nat (List.length junk) = sp_Norb p).
Hypothesis Est : fill_stratonovich (sp_Norb p) (sp_U p) (sp_dt p) junk = Some st.
Variable colour : 'I_(sites p) -> bool.
Hypothesis HC : forall i j, hamiltonian p i j <> R0 -> colour i <> colour j.
Let n := sites p.
Variables (L : nat) (s : list Z).
Hypothesis Hf : field_ok n L s.

Lemma ham_sym : (hamiltonian p)^T = hamiltonian p.
Proof. by have [M [_ [_ [_ H]]]] := kinetic_matrix_mat WF. Qed.

Lemma expK_sym : (mat n (expK k))^T = mat n (expK k) /\ Rlt R0 (\det (mat n (expK k))).
Proof. apply: exp_sym_pos HE. by rewrite linearZ /= ham_sym. Qed.

Lemma expK_dual : (P colour *m mat n (expK k) *m P colour) *m mat n (expK k) = 1%:M.
Proof.
  have H2 := exp_conj colour HE.
  have HA : P colour *m (- sp_dt p *: hamiltonian p) *m P colour = - (- sp_dt p *: hamiltonian p).
  { by rewrite -scalemxAr -scalemxAl (conj_opp_of HC) scalerN. }
  rewrite HA in H2.
  have HS : (- sp_dt p *: hamiltonian p)^T = - sp_dt p *: hamiltonian p by rewrite linearZ /= ham_sym.
  have [U [d [HU' HD]]] := @spectral R_rcfType _ _ HS.
  exact: (proj1 (is_exp_inverse HU' HD HE H2)).
Qed.

Lemma factors l (i : 'I_n) : (l < L)%N ->
  Rlt R0 (field_factor n (k_Ncell k) (expVu st) s l i) /\ Rlt R0 (field_factor n (k_Ncell k) (expVd st) s l i) /\
  field_factor n (k_Ncell k) (expVd st) s l i * field_factor n (k_Ncell k) (expVu st) s l i = 1.
Proof.
  move=> Hl. case: Hf => Hlen Hall.
  have Ho : (0 <= Zn i / k_Ncell k < sp_Norb p)%Z.
  { have H1 := ko_Ncell KO. have H2 := ko_dim KO. have /ltP H3 := ltn_ord i. rewrite -KN. split; first by apply: Z.div_pos; lia.
    apply: Z.div_lt_upper_bound => //. rewrite H2 -/n. lia. }
  have [|la [Hla [_ [E1 [E2 [E3 [E4 _]]]]]]] := fill_tables (sp_Norb p) (sp_U p) (sp_dt p) junk _ HU LJ st Est _ Ho; first lia.
  have Hi := Rinv_0_lt_compat _ Hla.
  have Hlt : (l * n + i < List.length s)%N by rewrite Hlen; exact: pos_lt.
  rewrite /field_factor -!tabE.
  have := @Forall_nth_ok _ _ _ _ 0%Z Hall (ltP Hlt). rewrite nthE.
  case => ->; rewrite [Z.to_nat _]/= ?E1 ?E2 ?E3 ?E4; do 2 split => //; rewrite -RmultE -R1E; apply: Rinv_r || apply: Rinv_l; lra.
Qed.

Lemma step_dual l : (l < L)%N -> dual colour (step_mx n k (expVu st) s l) (step_mx n k (expVd st) s l).
Proof.
  move=> Hl. rewrite /dual /step_mx. set Dd := diag_mx _. set Du := diag_mx _. set E := mat n (expK k).
  have C : P colour *m Dd = Dd *m P colour.
  { rewrite /Dd /P !mulmx_diag. congr diag_mx. apply/rowP => i. by rewrite !mxE mulrC. }
  have D1 : Dd *m Du = 1%:M.
  { rewrite /Dd /Du mulmx_diag. apply/matrixP => i j. rewrite !mxE. case: eqP => // _. by have [_ [_ ->]] := factors i Hl. }
  rewrite trmx_mul tr_diag_mx -/Du (proj1 expK_sym) -/E.
  have -> : P colour *m (Dd *m E) *m P colour *m (E *m Du) = Dd *m ((P colour *m E *m P colour) *m E) *m Du.
  { by rewrite !mulmxA C. }
  by rewrite expK_dual mulmx1.
Qed.

Lemma step_det l : (l < L)%N -> Rlt R0 (\det (step_mx n k (expVu st) s l)).
Proof.
  move=> Hl. rewrite /step_mx det_mulmx det_diag -RmultE. apply: Rmult_lt_0_compat; last exact: (proj2 expK_sym).
  apply: prod_pos => i. rewrite mxE. by have [] := factors i Hl.
Qed.

Lemma oprod_det (M : nat -> 'M[R]_n) lo len : (forall l, (lo <= l < lo + len)%N -> Rlt R0 (\det (M l))) -> Rlt R0 (\det (oprod M lo len)).
Proof.
  elim: len => [|len IH] H; first by rewrite oprod0 det1 -R1E; lra.
  rewrite oprodS det_mulmx -RmultE. apply: Rmult_lt_0_compat; first by apply: H; rewrite leq_addr addnS ltnS leqnn.
  apply: IH => l /andP [H1 H2]. apply: H. by rewrite H1 addnS ltnS (ltnW H2).
Qed.

Notation Mu := (step_mx n k (expVu st) s).
Notation Md := (step_mx n k (expVd st) s).

Lemma flow_dual l : (l <= L)%N -> dual colour (cyclic_flow Mu L l) (cyclic_flow Md L l).
Proof. move=> Hl. apply: dual_cyclic => // j Hj. exact: step_dual. Qed.

Lemma weight_nonneg : Rle R0 (weight n L k st s).
Proof.
  apply: dual_sign; first exact: flow_dual. rewrite /cyclic_flow oprod0 mul1mx subn0. apply: oprod_det => l /andP [_ Hl]. exact: step_det.
Qed.

(** the down spin Green's function is the particle-hole transform of the up spin one *)
Lemma green_half l i j : (l <= L)%N -> weight n L k st s <> 0 ->
  green_eqlt Md L l i j = Rminus (if i == j then R1 else R0) (Rmult (stagger colour i j) (green_eqlt Mu L l j i)).
Proof.
  move=> Hl HW.
  have VO := fill_strat_ok _ HU LJ Est. have {VO} SO : strat_ok (k_Norb k) st by rewrite KN; apply: VO; case: WF; lia.
  have Hu : forall j, (j < L)%N -> Mu j \in unitmx by move=> j'; apply: (step_unit KO (so_u SO) Hf).
  have Hd : forall j, (j < L)%N -> Md j \in unitmx by move=> j'; apply: (step_unit KO (so_d SO) Hf).
  have [N1 N2] : \det (1%:M + cyclic_flow Mu L l) <> 0 /\ \det (1%:M + cyclic_flow Md L l) <> 0.
  { rewrite !det_cyclic //. split=> E; apply: HW; rewrite /weight E; [exact: mul0r|exact: mulr0]. }
  have /matrixP /(_ i j) := dual_green (flow_dual Hl) N1 N2. rewrite PAP /green_eqlt.
  set A := invmx (1%:M + cyclic_flow Md L l). set B := invmx (1%:M + cyclic_flow Mu L l).
  rewrite [(_ - _ : 'M_n) i j]mxE [(1%:M) i j]mxE [(- _ : 'M_n) i j]mxE [B^T i j]mxE /sg /stagger -/n => E.
  have Ei : (i == j)%:R = (if i == j then R1 else R0) :> R by case: (i == j).
  move: E. rewrite Ei {Ei}. rewrite -!RoppE -!RmultE -!RplusE -?R1E. case: eqP => [->|Hij].
  - rewrite eqxx. case: (colour j) => /= E; lra.
  - case: (colour i); case: (colour j) => /= E; lra.
Qed.
End Program.

(** * Square lattices *)
Lemma wrap_parity Nx Ny shift x y : (0 < Nx)%Z -> (0 < Ny)%Z -> Z.even Nx = true -> Z.even (Ny + shift) = true ->
  let c := wrap Nx Ny shift (x, y) in Z.even (c mod Nx + c / Nx)%Z = Z.even (x + y)%Z.
Proof.
  move=> Hx Hy Ex Ey c. rewrite /c /wrap /=.
  set q := (y / Ny)%Z. set z := (x + shift * q)%Z.
  have Hm := Z.mod_pos_bound z Nx Hx.
  have -> : ((z mod Nx + Nx * (y mod Ny)) mod Nx = z mod Nx)%Z by rewrite Z.mul_comm Z.mod_add ?Z.mod_mod; lia.
  have -> : ((z mod Nx + Nx * (y mod Ny)) / Nx = y mod Ny)%Z.
  { rewrite Z.mul_comm Z.div_add; last lia. rewrite Z.div_small //. }
  rewrite !Z.mod_eq; try lia. rewrite -/q.
  have -> : (z - Nx * (z / Nx) + (y - Ny * q) = x + y - Nx * (z / Nx) + (shift - Ny) * q)%Z by rewrite /z; lia.
  move: Ex Ey. rewrite !(Z.even_add, Z.even_sub, Z.even_mul) => -> /=. by case: (Z.even Ny) (Z.even shift) => [] [] //= _; case: (Z.even x); case: (Z.even y).
Qed.

(** one orbital, even Nx, Ny + pbc_shift even, hopping to nearest neighbours only, site energy equal to the
    chemical potential: the chess board colours are possible *)
Lemma square_bipartite (p : sim_params) : well_formed p -> sp_Norb p = 1%Z ->
  Z.even (sp_Nx p) = true -> Z.even (sp_Ny p + sp_pbc_shift p) = true ->
  t_ad (sp_t p) = [:: R0] -> t_bc (sp_t p) = [:: R0] -> sp_eps p = [:: sp_mu p] ->
  bipartite (fun i : 'I_(sites p) => Z.even (Z.of_nat i mod sp_Nx p + Z.of_nat i / sp_Nx p)).
Proof.
  move=> WF N1 Ex Ey Tad Tbc He i j. rewrite mxE.
  case: (WF) => _ [Hx [Hy _]]. set Nc := (sp_Nx p * sp_Ny p)%Z.
  have Hs : Z.of_nat (sites p) = Nc by rewrite /sites N1 Z2Nat.id /Nc; nia.
  have R : forall i : 'I_(sites p), (0 <= Z.of_nat i < Nc)%Z by move=> i'; have /ltP := ltn_ord i'; lia.
  have Rm : forall i : 'I_(sites p), (Z.of_nat i mod Nc = Z.of_nat i)%Z by move=> i'; apply: Z.mod_small; exact: R.
  have Rd : forall i : 'I_(sites p), (Z.of_nat i / Nc = 0)%Z by move=> i'; apply: Z.div_small; exact: R.
  case: eqP => [_|Hij]; first by rewrite Rd He /= => H; exfalso; apply: H; lra.
  rewrite !Rm !Rd => HA HC.
  have Hne : Z.of_nat i <> Z.of_nat j by move=> E; apply: Hij; apply: ord_inj; lia.
  have M0 : forall a : 'I_(sites p), moved p (Z.of_nat a) (0, 0)%Z = Z.of_nat a.
  { move=> a. rewrite /moved /wrap /vplus /coords /= !Z.add_0_r. have Ra := R a.
    have H1 := Z.mod_pos_bound (Z.of_nat a) (sp_Nx p) Hx.
    have H2 : (0 <= Z.of_nat a / sp_Nx p < sp_Ny p)%Z.
    { split; first by apply: Z.div_pos; lia. apply: Z.div_lt_upper_bound => //. by have [] := Ra. }
    rewrite (Z.div_small (Z.of_nat a / sp_Nx p) (sp_Ny p)) // Z.mul_0_r Z.add_0_r Z.mod_mod; last lia.
    rewrite (Z.mod_small (Z.of_nat a / sp_Nx p) (sp_Ny p)) //. rewrite [X in _ = X](Z.div_mod (Z.of_nat a) (sp_Nx p)); lia. }
  have MP : forall (a b : 'I_(sites p)) v, moved p (Z.of_nat a) v = Z.of_nat b -> Z.even (fst v + snd v) = false ->
    Z.even (Z.of_nat a mod sp_Nx p + Z.of_nat a / sp_Nx p) <> Z.even (Z.of_nat b mod sp_Nx p + Z.of_nat b / sp_Nx p).
  { move=> a b [vx vy] <- Hv. rewrite /moved /vplus /coords /=.
    rewrite (wrap_parity (Z.of_nat a mod sp_Nx p + vx) (Z.of_nat a / sp_Nx p + vy) Hx Hy Ex Ey).
    set x := (Z.of_nat a mod sp_Nx p)%Z. set y := (Z.of_nat a / sp_Nx p)%Z.
    have -> : (x + vx + (y + vy) = (x + y) + (vx + vy))%Z by lia.
    rewrite [Z.even (x + y + _)]Z.even_add Hv. by case: (Z.even (x + y)). }
  apply: HA. rewrite /total_amplitude /bond_kinds /=. rewrite /amplitude /= !M0 N1 Tad Tbc.
  have Hn : forall a b : 'I_(sites p), Z.of_nat a <> Z.of_nat b -> (Z.of_nat a =? Z.of_nat b)%Z = false by move=> a b; move/Z.eqb_neq.
  rewrite (Hn _ _ Hne) (Hn _ _ (nesym Hne)).
  have K : forall (a b : 'I_(sites p)) v t, Z.even (Z.of_nat a mod sp_Nx p + Z.of_nat a / sp_Nx p) = Z.even (Z.of_nat b mod sp_Nx p + Z.of_nat b / sp_Nx p) ->
    Z.even (fst v + snd v) = false -> (if (moved p (Z.of_nat a) v =? Z.of_nat b)%Z then t else R0) = R0.
  { move=> a b v t E Hv. case: Z.eqb_spec => // Em. by case: (MP a b v Em Hv). }
  rewrite !(K i j (1, 0)%Z) // !(K i j (0, 1)%Z) // !(K j i (1, 0)%Z) // !(K j i (0, 1)%Z) //. rewrite /hop /=.
  do 4 (case: (_ =? _)%Z); rewrite /=; lra.
Qed.

(** * Means *)
Lemma lsum_plus A (f g : A -> R) xs : lsum (fun x => Rplus (f x) (g x)) xs = Rplus (lsum f xs) (lsum g xs).
Proof. elim: xs => [|x xs IH]; first by rewrite /lsum /=; lra. rewrite /lsum /= -/(lsum f xs) -/(lsum g xs) -/(lsum (fun x => Rplus (f x) (g x)) xs) IH. lra. Qed.
Lemma lsum_one A (f : A -> R) xs : List.Forall (fun x => f x = R1) xs -> lsum f xs = INR (List.length xs).
Proof.
  elim=> [|x ys Hx _ IH]; first by []. rewrite /lsum [fold_right _ _ _]/= -/(lsum f ys) IH Hx [List.length (x :: ys)]/= S_INR. exact: Rplus_comm.
Qed.
Lemma mean_one A (f : A -> R) xs : xs <> [::] -> List.Forall (fun x => f x = R1) xs -> list_mean f xs = R1.
Proof.
  move=> Hn H. rewrite /list_mean lsum_one //. apply: Rinv_r. apply: not_0_INR. by case: xs Hn {H}.
Qed.
Lemma mean_plus A (f g : A -> R) xs : list_mean (fun x => Rplus (f x) (g x)) xs = Rplus (list_mean f xs) (list_mean g xs).
Proof. rewrite /list_mean lsum_plus. lra. Qed.
Lemma mean_ext A (f g : A -> R) xs : List.Forall (fun x => f x = g x) xs -> list_mean f xs = list_mean g xs.
Proof.
  move=> H. rewrite /list_mean. congr (Rdiv _ _). elim: H => [//|x ys Hx _ IH]. by rewrite /lsum /= Hx -/(lsum f ys) -/(lsum g ys) IH.
Qed.
Lemma lsum_scal A c (f : A -> R) xs : lsum (fun x => Rmult c (f x)) xs = Rmult c (lsum f xs).
Proof. elim: xs => [|x xs IH]; first by rewrite /lsum /=; lra. rewrite /lsum /= -/(lsum f xs) -/(lsum (fun x => Rmult c (f x)) xs) IH. lra. Qed.
Lemma mean_scal A c (f : A -> R) xs : list_mean (fun x => Rmult c (f x)) xs = Rmult c (list_mean f xs).
Proof. rewrite /list_mean lsum_scal. lra. Qed.
Lemma mean_const A c (xs : list A) : xs <> [::] -> list_mean (fun _ => c) xs = c.
Proof.
  move=> Hn. have -> : list_mean (fun _ => c) xs = list_mean (fun x : A => Rmult c ((fun _ => R1) x)) xs by apply: mean_ext; elim: (xs) => *; constructor => //; lra.
  rewrite mean_scal mean_one //; first lra. by elim: (xs) => *; constructor.
Qed.
