(** The partition function of the Hubbard model as a sum over auxiliary fields. *)
From Coq Require Import ZArith List Reals Lia Lra.
From mathcomp Require Import all_ssreflect fingroup perm ssralg matrix.
From Verif Require Import Base RField MatSpec MatFacts TimeStep TimeStepSpec Strat StratSpec StratFacts GreenSpec GreenFacts SimParams KineticSpec KineticExpSpec
  KineticExpFacts TimeFlowFacts SweepSpec SweepFacts WickSpec SumsFacts IdealSpec IdealFacts FockSpec FockFacts FockExp HubbardSpec.
Set Implicit Arguments.
Unset Strict Implicit.
Unset Printing Implicit Defensive.
Local Open Scope ring_scope.
Import GRing.Theory.

(** ** sums over fields *)
Lemma totalE A (f : A -> R) xs : total f xs = \sum_(x <- xs) f x.
Proof. elim: xs => [|x xs IH]; first by rewrite big_nil. by rewrite big_cons -IH. Qed.

Lemma sum_fieldsS (V : zmodType) k (F : list Z -> V) :
  \sum_(s <- fields k.+1) F s = \sum_(s <- fields k) F (0%Z :: s) + \sum_(s <- fields k) F (1%Z :: s).
Proof. by rewrite /= big_cat /= !big_map. Qed.

Lemma sum_fields_cat (V : zmodType) a b (F : list Z -> V) :
  \sum_(s <- fields (a + b)) F s = \sum_(x <- fields a) \sum_(y <- fields b) F (x ++ y).
Proof.
  elim: a F => [|a IH] F; first by rewrite /= big_seq1.
  by rewrite addSn !sum_fieldsS !IH.
Qed.

Lemma sum_fields_prod k (g : nat -> Z -> R) :
  \sum_(y <- fields k) \prod_(i < k) g i (nth 0%Z y i) = \prod_(i < k) (g i 0%Z + g i 1%Z).
Proof.
  elim: k g => [|k IH] g; first by rewrite /= big_seq1 !big_ord0.
  rewrite sum_fieldsS big_ord_recl mulrDl. under eq_bigr do rewrite big_ord_recl /=. under [X in _ + X]eq_bigr do rewrite big_ord_recl /=.
  rewrite -!big_distrr /=. by rewrite (IH (fun i => g i.+1)).
Qed.

Lemma fields_size k s : In s (fields k) -> size s = k.
Proof. by move/fields_in => [<- _]. Qed.

Lemma sum_In (V : zmodType) A (F G : A -> V) xs : (forall x, In x xs -> F x = G x) -> \sum_(x <- xs) F x = \sum_(x <- xs) G x.
Proof.
  elim: xs => [|x xs IH] H; first by rewrite !big_nil. rewrite !big_cons H; last by left. by rewrite IH // => y Hy; apply: H; right.
Qed.

(** ** step matrices of parts of a field *)
Lemma step_cat_lo n k V x z l0 l : size x = (l0 * n)%N -> (l < l0)%N -> step_mx n k V (x ++ z) l = step_mx n k V x l.
Proof.
  move=> Hx Hl. rewrite /step_mx. congr (diag_mx _ *m _). apply/rowP => i. rewrite !mxE /field_factor nth_cat Hx.
  have H : (l * n + i < l0 * n)%N.
  { apply: (@leq_trans (l.+1 * n)); last by rewrite leq_mul2r Hl orbT. by rewrite mulSn addnC ltn_add2r. }
  by rewrite H.
Qed.
Lemma step_cat_hi n k V x z l0 l : size x = (l0 * n)%N -> step_mx n k V (x ++ z) (l0 + l) = step_mx n k V z l.
Proof.
  move=> Hx. rewrite /step_mx. congr (diag_mx _ *m _). apply/rowP => i. rewrite !mxE /field_factor nth_cat Hx.
  by rewrite mulnDl -addnA ltnNge leq_addr /= addKn.
Qed.

(** ** both spins *)
Definition both (n : nat) (A B : 'M[R]_n) : 'M[R]_(n + n) := block_mx A 0 0 B.
Lemma both_mul n (A B C D : 'M[R]_n) : both A B *m both C D = both (A *m C) (B *m D).
Proof. by rewrite /both mulmx_block !mulmx0 !mul0mx !addr0 !add0r. Qed.
Lemma both1 n : both 1%:M 1%:M = 1%:M :> 'M[R]_(n + n).
Proof. by rewrite /both -scalar_mx_block. Qed.
Lemma both_add n (A B C D : 'M[R]_n) : both A B + both C D = both (A + C) (B + D).
Proof. by rewrite /both add_block_mx !addr0. Qed.
Lemma both_det n (A B : 'M[R]_n) : \det (both A B) = \det A * \det B.
Proof. exact: det_ublock. Qed.
Lemma both_scale n c (A B : 'M[R]_n) : c *: both A B = both (c *: A) (c *: B).
Proof. by rewrite /both scale_block_mx !scaler0. Qed.
Lemma both_tr n (A B : 'M[R]_n) : (both A B)^T = both A^T B^T.
Proof. by rewrite /both tr_block_mx !trmx0. Qed.
Lemma both_oprod n (A B : nat -> 'M[R]_n) lo len : oprod (fun l => both (A l) (B l)) lo len = both (oprod A lo len) (oprod B lo len).
Proof. elim: len => [|len IH]; first by rewrite !oprod0 both1. by rewrite !oprodS IH both_mul. Qed.

Lemma both_mpow n (A B : 'M[R]_n) k : mpow (both A B) k = both (mpow A k) (mpow B k).
Proof. elim: k => [|k IH]; first by rewrite /mpow /= both1. by rewrite /mpow !iterS -!/(mpow _ _) IH both_mul. Qed.

Lemma both_exp n (A B E F : 'M[R]_n) : is_exp A E -> is_exp B F -> is_exp (both A B) (both E F).
Proof.
  move=> HE HF i j. case: (split_ordP i) => i' ->; case: (split_ordP j) => j' ->.
  - rewrite [both E F _ _]block_mxEul. apply: (infinite_sum_ext _ (HE i' j')) => k. by rewrite both_mpow [both _ _ _ _]block_mxEul.
  - rewrite [both E F _ _]block_mxEur mxE. apply: (infinite_sum_ext _ infinite_sum_0) => k.
    by rewrite both_mpow [both _ _ _ _]block_mxEur mxE Rmult_0_r.
  - rewrite [both E F _ _]block_mxEdl mxE. apply: (infinite_sum_ext _ infinite_sum_0) => k.
    by rewrite both_mpow [both _ _ _ _]block_mxEdl mxE Rmult_0_r.
  - rewrite [both E F _ _]block_mxEdr. apply: (infinite_sum_ext _ (HF i' j')) => k. by rewrite both_mpow [both _ _ _ _]block_mxEdr.
Qed.

Lemma second_oprod m (M : nat -> 'M[R]_m) lo len : second (oprod M lo len) = oprod (fun l => second (M l) : 'M[R]_(fdim m)) lo len.
Proof. elim: len => [|len IH]; first by rewrite !oprod0 second1. by rewrite !oprodS second_mul IH. Qed.

Lemma one_body_both n (h : 'M[R]_n) :
  one_body (both h h) = \sum_i \sum_j h i j *: (cdag up i *m cann up j + cdag dn i *m cann dn j).
Proof.
  rewrite /one_body big_split_ord /= -big_split /=. apply: eq_bigr => i _. rewrite !big_split_ord /=.
  under [X in _ + X + _]eq_bigr do rewrite [both _ _ _ _]block_mxEur mxE scale0r.
  under [X in _ + (X + _)]eq_bigr do rewrite [both _ _ _ _]block_mxEdl mxE scale0r.
  rewrite !big1_eq addr0 add0r -big_split /=. apply: eq_bigr => j _.
  by rewrite [both _ _ _ _]block_mxEul [both _ _ (rshift _ _) _]block_mxEdr scalerDr.
Qed.

Lemma one_body_scale m c (h : 'M[R]_m) : one_body (c *: h) = c *: one_body h.
Proof.
  rewrite /one_body scaler_sumr. apply: eq_bigr => i _. rewrite scaler_sumr. apply: eq_bigr => j _. by rewrite mxE scalerA.
Qed.

(** ** the interaction *)
Section Model.
Variables (p : sim_params) (k : kinetic) (st : strat) (junk : list R).
Hypotheses (WF : well_formed p) (KO : kinetic_ok (sites p) k) (KN : k_Norb k = sp_Norb p) (KC : k_Ncell k = (sp_Nx p * sp_Ny p)%Z).
Hypothesis HE : is_exp (- sp_dt p *: hamiltonian p) (mat (sites p) (expK k)).
Hypotheses (HU : Z.of_nat (List.length (sp_U p)) = sp_Norb p) (LJ : Z.of_nat (List.length junk) = sp_Norb p).
Hypothesis Est : fill_stratonovich (sp_Norb p) (sp_U p) (sp_dt p) junk = Some st.
Notation n := (sites p).
Notation dt := (sp_dt p).
Notation states := {set 'I_(n + n)}.

Definition oc (b : bool) : R := b%:R.
Definition venergy (S : states) : R :=
  \sum_i site_U i * ((oc (lshift n i \in S) - Rdiv 1 2) * (oc (rshift n i \in S) - Rdiv 1 2)).

Lemma interaction_states : interaction p = on_states venergy.
Proof.
  rewrite /interaction -on_states_sum. apply: eq_bigr => i _. rewrite -on_statesZ. congr (_ *: _).
  rewrite -on_statesM /cdag /cann /= !num_states !(on_states_c (n + n) (Rdiv 1 2)) /=.
  congr (_ *m _); rewrite -scaleN1r on_statesZ on_statesD; apply: on_states_ext => S; by rewrite mulN1r.
Qed.

Definition EV : fock n := on_states (fun S => exp (- dt * venergy S)).
Lemma EV_exp : is_exp (- dt *: interaction p) EV.
Proof. rewrite interaction_states on_statesZ. exact: is_exp_on_states. Qed.

Notation expk := (mat n (expK k)).
Definition EK : fock n := second (both expk expk).
Lemma ham_sym : (hamiltonian p)^T = hamiltonian p.
Proof. by have [M [_ [_ [_ H]]]] := kinetic_matrix_mat WF. Qed.
Lemma EK_exp : is_exp (- dt *: kinetic_energy p) EK.
Proof.
  rewrite /kinetic_energy -one_body_both -one_body_scale both_scale. apply: is_exp_second; last exact: both_exp.
  by rewrite both_tr linearZ /= ham_sym.
Qed.

Notation fu y i := (field_factor n (k_Ncell k) (expVu st) y 0 i).
Notation fd y i := (field_factor n (k_Ncell k) (expVd st) y 0 i).

Definition slice_op (y : list Z) : fock n := second (both (step_mx n k (expVu st) y 0) (step_mx n k (expVd st) y 0)).
Definition site_const (i : 'I_n) : R := 2 * exp (dt * site_U i / 4)%coqR.
Definition field_const : R := \prod_i site_const i.

Definition pick (v : R) (b : bool) : R := if b then v else 1.

Lemma slice_op_states y : slice_op y =
  on_states (fun S : states => \prod_(i < n) (pick (fu y i) (lshift n i \in S) * pick (fd y i) (rshift n i \in S))) *m EK.
Proof.
  rewrite /slice_op /step_mx -both_mul second_mul -/EK. congr (_ *m _).
  have -> : both (diag_mx (\row_(i < n) fu y i)) (diag_mx (\row_(i < n) fd y i)) = diag_mx (row_mx (\row_(i < n) fu y i) (\row_(i < n) fd y i)).
  { by rewrite diag_mx_row. }
  rewrite second_diag occ_states. apply: on_states_ext => S. rewrite big_mkcond /= big_split_ord /= -big_split /=.
  apply: eq_bigr => i _. by rewrite row_mxEl row_mxEr !mxE /pick.
Qed.

Lemma orb_range (i : 'I_n) : (0 <= Z.of_nat i / k_Ncell k < sp_Norb p)%Z.
Proof.
  have H1 := ko_Ncell KO. have H2 := ko_dim KO. have /ltP H3 := ltn_ord i. rewrite -KN. split; first by apply: Z.div_pos; lia.
  apply: Z.div_lt_upper_bound => //. rewrite H2. lia.
Qed.

Definition fac (V : list (list R)) (i : nat) (v : Z) : R := tab V (Z.to_nat v) (Z.of_nat i / k_Ncell k).

Lemma decouple (i : 'I_n) (a b : bool) :
  pick (fac (expVu st) i 0) a * pick (fac (expVd st) i 0) b + pick (fac (expVu st) i 1) a * pick (fac (expVd st) i 1) b =
  site_const i * exp (- dt * (site_U i * ((oc a - Rdiv 1 2) * (oc b - Rdiv 1 2)))).
Proof.
  have Ho := orb_range i.
  have [|l [Hl [El [E1 [E2 [E3 [E4 _]]]]]]] := fill_tables (sp_Norb p) (sp_U p) dt junk _ HU LJ st Est _ Ho; first lia.
  have Eu : rat (sp_U p) (Z.of_nat i / k_Ncell k) = site_U i by rewrite /rat /site_U KC.
  rewrite Eu in El. set u := site_U i in El *.
  rewrite /fac [Z.to_nat 0]/= [Z.to_nat 1]/= E1 E2 E3 E4 /site_const -/u /pick /oc.
  have Hinv : (l * / l = 1)%coqR by apply: Rinv_r; lra.
  have Ee : (exp (dt * u / 4) * exp (- dt * u / 4) = 1)%coqR by rewrite -exp_plus -exp_0; congr exp; lra.
  have Ef : (exp (dt * u / 4) * exp (dt * u / 4) = exp (dt * u / 2))%coqR by rewrite -exp_plus; congr exp; lra.
  rewrite -?RplusE -?RmultE -?RoppE. case: a; case: b => /=; rewrite -?R1E -?R0E -?RplusE.
  - have -> : (- dt * (u * ((1 + - (1 / 2)) * (1 + - (1 / 2)))) = - dt * u / 4)%coqR by field. rewrite Rmult_assoc Ee. lra.
  - have -> : (- dt * (u * ((1 + - (1 / 2)) * (0 + - (1 / 2)))) = dt * u / 4)%coqR by field. rewrite Rmult_assoc Ef. lra.
  - have -> : (- dt * (u * ((0 + - (1 / 2)) * (1 + - (1 / 2)))) = dt * u / 4)%coqR by field. rewrite Rmult_assoc Ef. lra.
  - have -> : (- dt * (u * ((0 + - (1 / 2)) * (0 + - (1 / 2)))) = - dt * u / 4)%coqR by field. rewrite Rmult_assoc Ee. lra.
Qed.

Lemma slice_sum : \sum_(y <- fields n) slice_op y = field_const *: (EV *m EK).
Proof.
  under eq_bigr do rewrite slice_op_states. rewrite -mulmx_suml scalemxAl. congr (_ *m _).
  apply: ket_inj => S. rewrite mulmx_suml. under eq_bigr do rewrite on_states_ket. rewrite -scaler_suml.
  rewrite -scalemxAl on_states_ket scalerA. congr (_ *: _).
  pose g (i : nat) (v : Z) : R := match insub i : option 'I_n with
    | Some i => pick (fac (expVu st) i v) (lshift n i \in S) * pick (fac (expVd st) i v) (rshift n i \in S) | None => 1 end.
  transitivity (\sum_(y <- fields n) \prod_(i < n) g i (nth 0%Z y i)).
  - apply: eq_bigr => y _. apply: eq_bigr => i _. rewrite /g valK /fac /field_factor !tabE mul0n add0n. by [].
  - rewrite sum_fields_prod. transitivity (\prod_(i < n) (site_const i * exp (- dt * (site_U i * ((oc (lshift n i \in S) - Rdiv 1 2) * (oc (rshift n i \in S) - Rdiv 1 2)))))).
    + apply: eq_bigr => i _. by rewrite /g valK -decouple.
    + rewrite big_split /= exp_bigsum. congr (_ * exp _). by rewrite /venergy RmultE mulr_sumr.
Qed.

Notation Mu s := (step_mx n k (expVu st) s).
Notation Md s := (step_mx n k (expVd st) s).
Definition flow_op (s : list Z) (l : nat) : fock n := second (both (Mu s l) (Md s l)).

Lemma flow_op_cat_lo x z l0 l : size x = (l0 * n)%N -> (l < l0)%N -> flow_op (x ++ z) l = flow_op x l.
Proof. move=> H1 H2. by rewrite /flow_op !(step_cat_lo _ _ _ H1 H2). Qed.
Lemma flow_op_cat_hi x z l0 l : size x = (l0 * n)%N -> flow_op (x ++ z) (l0 + l) = flow_op z l.
Proof. move=> H1. by rewrite /flow_op !(step_cat_hi _ _ _ _ H1). Qed.

Lemma oprod_cat_lo x z l0 : size x = (l0 * n)%N -> oprod (flow_op (x ++ z)) 0 l0 = oprod (flow_op x) 0 l0.
Proof. move=> H. apply: oprod_ext => i Hi. by rewrite !add0n (flow_op_cat_lo _ H). Qed.
Lemma oprod_cat_hi x z l0 len : size x = (l0 * n)%N -> oprod (flow_op (x ++ z)) l0 len = oprod (flow_op z) 0 len.
Proof. move=> H. apply: oprod_ext => i Hi. by rewrite add0n (flow_op_cat_hi _ _ H). Qed.

Lemma sum_flow L : \sum_(s <- fields (L * n)) oprod (flow_op s) 0 L = mpow (field_const *: (EV *m EK)) L.
Proof.
  elim: L => [|L IH]; first by rewrite mul0n /= big_seq1 oprod0.
  rewrite mulSn addnC sum_fields_cat /mpow iterS -/(mpow _ L) -IH -slice_sum mulmx_suml exchange_big /=.
  apply: eq_bigr => y _. rewrite mulmx_sumr. apply: sum_In => x /fields_size Hx.
  have := flow_op_cat_hi y 0 Hx. rewrite addn0 => E. by rewrite oprodS add0n (oprod_cat_lo _ Hx) E.
Qed.

Lemma mpow_scale m c (A : 'M[R]_m) j : mpow (c *: A) j = c ^+ j *: mpow A j.
Proof.
  elim: j => [|j IH]; first by rewrite /mpow /= expr0 scale1r.
  by rewrite /mpow !iterS -!/(mpow _ _) IH -scalemxAl -scalemxAr scalerA exprS.
Qed.

(** all fields, with an operator at slice [l] *)
Lemma sum_flow_at L l (O : fock n) : (l <= L)%N ->
  \sum_(s <- fields (L * n)) oprod (flow_op s) l (L - l) *m O *m oprod (flow_op s) 0 l =
  field_const ^+ L *: (mpow (EV *m EK) (L - l) *m O *m mpow (EV *m EK) l).
Proof.
  move=> Hl. rewrite -{1}(subnKC Hl) mulnDl sum_fields_cat.
  have E : forall j, mpow (field_const *: (EV *m EK)) j = field_const ^+ j *: mpow (EV *m EK) j by move=> j; exact: mpow_scale.
  have -> : field_const ^+ L *: (mpow (EV *m EK) (L - l) *m O *m mpow (EV *m EK) l) =
    mpow (field_const *: (EV *m EK)) (L - l) *m O *m mpow (field_const *: (EV *m EK)) l.
  { by rewrite !E -!scalemxAl -scalemxAr scalerA -exprD subnK. }
  rewrite -!sum_flow mulmx_sumr. apply: sum_In => x /fields_size Hx. rewrite !mulmx_suml. apply: eq_bigr => z _.
  by rewrite (oprod_cat_hi _ _ Hx) (oprod_cat_lo _ Hx).
Qed.

Lemma weight_trace L s : weight n L k st s = \tr (oprod (flow_op s) 0 L).
Proof.
  transitivity (\det (both (1%:M + oprod (Mu s) 0 L) (1%:M + oprod (Md s) 0 L))).
  { by rewrite both_det /weight /cyclic_flow !oprod0 !mul1mx subn0. }
  have -> : both (1%:M + oprod (Mu s) 0 L) (1%:M + oprod (Md s) 0 L) = 1%:M + oprod (fun l => both (Mu s l) (Md s l)) 0 L.
  { by rewrite both_oprod -both1 both_add. }
  by rewrite -trace_second second_oprod.
Qed.

Theorem partition_function L : \sum_(s <- fields (L * n)) weight n L k st s = field_const ^+ L * \tr (mpow (EV *m EK) L).
Proof.
  under eq_bigr do rewrite weight_trace. rewrite -mxtraceZ -mpow_scale -sum_flow raddf_sum. by [].
Qed.
End Model.
