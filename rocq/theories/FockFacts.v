(** Fock space: anticommutation relations, second quantised linear maps, traces. *)
From mathcomp Require Import all_ssreflect fingroup perm ssralg matrix.
From Verif Require Import FockSpec.
Set Implicit Arguments.
Unset Strict Implicit.
Unset Printing Implicit Defensive.
Local Open Scope ring_scope.
Import GRing.Theory.

Section Fock.
Variables (K : comRingType) (m : nat).
Notation D := (fdim m).
Notation op := 'M[K]_D.
Notation cr := (@create K m).
Notation an := (@annihilate K m).

Definition ket (S : {set 'I_m}) : 'cV[K]_D := delta_mx (enum_rank S) ord0.
Definition vac : 'cV[K]_D := ket set0.

Lemma ketE S a b : ket S a b = (enum_val a == S)%:R.
Proof.
  rewrite mxE ord1 eqxx andbT. congr (nat_of_bool _)%:R. apply/eqP/eqP => [->|<-]; first exact: enum_rankK.
  by rewrite enum_valK.
Qed.

Lemma op_ket p (A : 'M[K]_(p, D)) S a b : (A *m ket S) a b = A a (enum_rank S).
Proof. by rewrite -colE mxE. Qed.

Lemma ket_inj p (A B : 'M[K]_(p, D)) : (forall S, A *m ket S = B *m ket S) -> A = B.
Proof.
  move=> H. apply/matrixP => a b. have /matrixP/(_ a ord0) := H (enum_val b). by rewrite !op_ket enum_valK.
Qed.

Lemma opf_ket f S a b : (opf f *m ket S : 'cV[K]_D) a b = f (enum_val a) S.
Proof. by rewrite op_ket mxE enum_rankK. Qed.

Lemma bra_ket T S : (ket T)^T *m ket S = (T == S)%:R%:M.
Proof.
  apply/matrixP => a b. rewrite op_ket mxE ketE enum_rankK !ord1 mxE eqxx mulr1n. by rewrite eq_sym.
Qed.

(** ** creation and annihilation of an electron *)
Lemma cr_ket j S : cr j *m ket S = if j \in S then 0 else (-1) ^+ below S j *: ket (j |: S).
Proof.
  apply/matrixP => a b. rewrite opf_ket. case: (boolP (j \in S)) => //= _; first by rewrite mxE.
  rewrite mxE ketE. by case: eqP; rewrite ?mulr1 ?mulr0.
Qed.

Lemma an_ket j S : an j *m ket S = if j \in S then (-1) ^+ below S j *: ket (S :\ j) else 0.
Proof.
  apply/matrixP => a b. rewrite op_ket /annihilate mxE mxE enum_rankK.
  case: (boolP (j \in S)) => H; last first.
  { rewrite mxE. case: andP => // -[_ /eqP E]. by move: H; rewrite E setU11. }
  rewrite mxE ketE. case: (boolP (enum_val a == S :\ j)) => [/eqP ->|Ha].
  - rewrite setD11 setD1K // eqxx /= mulr1. congr (_ ^+ _). rewrite /below. apply: eq_card => i.
    rewrite !inE. case: (i =P j) => //= ->. by rewrite ltnn andbF.
  - rewrite mulr0. case: andP => // -[Hj /eqP E]. case/negP: Ha. by rewrite E setU1K.
Qed.

Lemma belowU (S : {set 'I_m}) i j : j \notin S -> below (j |: S) i = ((j < i) + below S i)%N.
Proof.
  move=> H. rewrite /below. case: (ltnP j i) => Hij.
  - rewrite (_ : [set x in _ | _] = j |: [set x in S | (x < i)%N]).
    + by rewrite cardsU1 inE (negbTE H).
    + apply/setP => x. rewrite !inE. case: (x =P j) => //= ->. by rewrite Hij.
  - apply: eq_card => x. rewrite !inE. case: (x =P j) => //= ->. by rewrite ltnNge Hij andbF.
Qed.

Lemma sign_exch (a b : nat) (i j : 'I_m) : i != j ->
  (-1) ^+ a * (-1) ^+ ((j < i) + b)%N = - ((-1) ^+ b * (-1) ^+ ((i < j) + a)%N) :> K.
Proof.
  move=> H. rewrite -!exprD -[RHS]mulN1r -exprS. rewrite -signr_odd -[RHS]signr_odd. congr ((-1) ^+ nat_of_bool _).
  rewrite /= !oddD. move: H. rewrite neq_ltn => /orP[] Hij; rewrite Hij ltnNge (ltnW Hij) /=;
    by case: (odd a); case: (odd b).
Qed.

Lemma car_cc i j : cr i *m cr j = - (cr j *m cr i).
Proof.
  apply: ket_inj => S. rewrite mulNmx -!mulmxA !cr_ket.
  case: (boolP (i \in S)) => Hi; case: (boolP (j \in S)) => Hj; rewrite ?mulmx0 ?oppr0 //.
  - by rewrite -scalemxAr cr_ket setU1r // scaler0.
  - by rewrite -scalemxAr cr_ket setU1r // scaler0 oppr0.
  - rewrite -!scalemxAr !cr_ket !inE. case: (eqVneq i j) => [->|Hij].
    + by rewrite ?eqxx /= !scaler0 oppr0.
    + rewrite (negbTE Hi) (negbTE Hj) /= !scalerA !belowU // setUCA -scaleNr.
      by rewrite sign_exch.
Qed.

Lemma cr_sq i : cr i *m cr i = 0.
Proof.
  apply: ket_inj => S. rewrite mul0mx -mulmxA cr_ket. case: ifP => _; first by rewrite mulmx0.
  by rewrite -scalemxAr cr_ket setU11 scaler0.
Qed.

Lemma belowD (S : {set 'I_m}) i j : j \in S -> below S i = ((j < i) + below (S :\ j) i)%N.
Proof. move=> H. by rewrite -{1}(setD1K H) belowU // setD11. Qed.

Lemma sqr_sign (a : nat) : (-1) ^+ a * (-1) ^+ a = 1 :> K.
Proof. by rewrite -exprD -signr_odd oddD addbb. Qed.

Lemma sign_sum (a b : nat) (i j : 'I_m) : i != j ->
  (-1) ^+ b * (-1) ^+ a + (-1) ^+ ((j < i) + a)%N * (-1) ^+ ((i < j) + b)%N = 0 :> K.
Proof.
  move=> H. rewrite -!exprD -signr_odd -[X in _ + X]signr_odd !oddD.
  move: H. rewrite neq_ltn => /orP[] Hij; rewrite Hij ltnNge (ltnW Hij) /=;
    by case: (odd a); case: (odd b); rewrite /= ?expr1 ?expr0 ?subrr ?addNr.
Qed.

Lemma car_ca i j : cr i *m an j + an j *m cr i = (i == j)%:R%:M.
Proof.
  apply: ket_inj => S. rewrite mulmxDl -!mulmxA cr_ket an_ket mul_scalar_mx.
  case: (boolP (i \in S)) => Hi; case: (boolP (j \in S)) => Hj; rewrite ?mulmx0 ?addr0 ?add0r.
  - rewrite -scalemxAr cr_ket !inE Hi andbT. case: (eqVneq i j) => [->|Hij] /=.
    + by rewrite scalerA setD1K // (belowD j Hj) ltnn add0n sqr_sign.
    + by rewrite scaler0 scale0r.
  - case: (eqVneq i j) Hi => [->|_ _]; last by rewrite scale0r. by rewrite (negbTE Hj).
  - have Hij : i != j by apply: contraNneq Hi => ->.
    rewrite -!scalemxAr cr_ket an_ket !inE Hj orbT (negbTE Hi) andbF (negbTE Hij) scale0r !scalerA.
    rewrite belowU // (belowD i Hj).
    rewrite (_ : (i |: S) :\ j = i |: (S :\ j)); last first.
    { apply/setP => x. rewrite !inE. case: (x =P j) => //= ->. by rewrite eq_sym (negbTE Hij). }
    by rewrite -scalerDl sign_sum // scale0r.
  - rewrite -scalemxAr an_ket !inE (negbTE Hj) orbF. case: (eqVneq i j) => [->|Hij].
    + by rewrite scalerA setU1K // belowU // ltnn add0n sqr_sign.
    + by rewrite scaler0 scale0r.
Qed.

(** ** products of operators along the modes, applied to the vacuum *)
Definition fill (X : 'I_m -> op) (e : seq 'I_m) (S : {set 'I_m}) : 'cV[K]_D :=
  foldr (fun i v => if i \in S then X i *m v else v) vac e.
Definition wedge (X : 'I_m -> op) (S : {set 'I_m}) : 'cV[K]_D := fill X (enum 'I_m) S.

Definition ltm : rel 'I_m := fun i j => (i < j)%N.
Lemma ltm_trans : transitive ltm.
Proof. move=> a b c. exact: ltn_trans. Qed.
Lemma enum_sorted : sorted ltm (enum 'I_m).
Proof.
  have : sorted ltn (map val (enum 'I_m)) by rewrite val_enum_ord iota_ltn_sorted.
  by rewrite sorted_map.
Qed.

Lemma sorted_min i e : sorted ltm (i :: e) -> sorted ltm e /\ (forall x, x \in e -> (i < x)%N).
Proof.
  move=> H. split; first exact: path_sorted H.
  move=> x. exact: (allP (order_path_min ltm_trans H)).
Qed.
Lemma sorted_notin i e : sorted ltm (i :: e) -> i \notin e.
Proof. move=> /sorted_min[_ H]. apply/negP => /H. by rewrite ltnn. Qed.

Lemma fill_ket e S : sorted ltm e -> fill cr e S = ket [set i in S | i \in e].
Proof.
  elim: e => [|i e IH] Hs.
  - rewrite /fill /= /vac. congr ket. apply/setP => x. by rewrite !inE in_nil andbF.
  - have [He Hmin] := sorted_min Hs. rewrite /= -/(fill cr e S) IH //. case: (boolP (i \in S)) => Hi.
    + rewrite cr_ket !inE Hi (negbTE (sorted_notin Hs)) /=.
      rewrite (_ : below _ _ = 0%N) ?expr0 ?scale1r.
      * congr ket. apply/setP => x. rewrite !inE. by case: (x =P i) => //= ->; rewrite Hi.
      * rewrite /below. apply: eq_card0 => x. rewrite !inE. apply/negP => /andP[/andP[_ /Hmin H1] H2].
        by move: (ltn_trans H1 H2); rewrite ltnn.
    + congr ket. apply/setP => x. rewrite !inE. case: (x =P i) => //= ->. by rewrite (negbTE Hi).
Qed.

Lemma wedge_ket S : wedge cr S = ket S.
Proof.
  rewrite /wedge fill_ket ?enum_sorted //. congr ket. apply/setP => i. by rewrite !inE mem_enum andbT.
Qed.

Lemma below_count S j : below S j = count (fun i => (i \in S) && (i < j)%N) (enum 'I_m).
Proof.
  rewrite /below cardsE cardE /enum_mem !size_filter /= count_filter. apply: eq_count => i. rewrite /= !inE andbT. by [].
Qed.

Lemma fill_notin X e S j : j \notin e -> fill X e (j |: S) = fill X e S.
Proof.
  elim: e => [|i e IH] //=. rewrite inE negb_or => /andP[H1 H2].
  rewrite -/(fill X e S) -/(fill X e _) IH // !inE. by rewrite eq_sym (negbTE H1).
Qed.

Lemma fill_insert X e S j : (forall a b, X a *m X b = - (X b *m X a)) -> (forall a, X a *m X a = 0) ->
  sorted ltm e -> j \in e ->
  X j *m fill X e S = if j \in S then 0 else (-1) ^+ count (fun i => (i \in S) && (i < j)%N) e *: fill X e (j |: S).
Proof.
  move=> AC SQ. elim: e => [|i e IH] //= Hs. rewrite inE -/(fill X e S) -/(fill X e _).
  have [He Hmin] := sorted_min Hs. case: (eqVneq j i) => [Hij _|Hij /= Hj].
  - subst i. rewrite !inE eqxx /= ltnn andbF add0n. case: (boolP (j \in S)) => HS.
    + by rewrite mulmxA SQ mul0mx.
    + rewrite fill_notin ?(sorted_notin Hs) // (_ : count _ e = 0%N) ?expr0 ?scale1r //.
      apply/eqP. rewrite -leqn0 leqNgt -has_count. apply/negP => /hasP[x Hx /andP[_ H]].
      by move: (ltn_trans H (Hmin _ Hx)); rewrite ltnn.
  - rewrite !inE (negbTE (_ : i != j)) /=; last by rewrite eq_sym.
    have Hlt : (i < j)%N := Hmin _ Hj. rewrite Hlt andbT.
    case: (boolP (i \in S)) => Hi.
    + rewrite mulmxA AC mulNmx -mulmxA IH //. case: (boolP (j \in S)) => HS; first by rewrite mulmx0 oppr0.
      by rewrite -scalemxAr -scaleNr exprS mulN1r.
    + rewrite IH //.
Qed.

Lemma wedge_insert X S j : (forall a b, X a *m X b = - (X b *m X a)) -> (forall a, X a *m X a = 0) ->
  X j *m wedge X S = if j \in S then 0 else (-1) ^+ below S j *: wedge X (j |: S).
Proof. move=> AC SQ. rewrite /wedge fill_insert ?enum_sorted ?mem_enum // below_count. by []. Qed.

(** ** second quantisation of a linear map *)
Definition cra (A : 'M[K]_m) (j : 'I_m) : op := \sum_i A i j *: cr i.
Definition second (A : 'M[K]_m) : op := \matrix_(a, b) wedge (cra A) (enum_val b) a ord0.

Lemma cra_ac A a b : cra A a *m cra A b = - (cra A b *m cra A a).
Proof.
  rewrite /cra !mulmx_suml -sumrN. under eq_bigr do rewrite mulmx_sumr.
  rewrite exchange_big /=. apply: eq_bigr => i _. rewrite mulmx_sumr -sumrN. apply: eq_bigr => j _.
  by rewrite -!scalemxAl -!scalemxAr !scalerA car_cc scalerN mulrC.
Qed.

Lemma cra_sq A a : cra A a *m cra A a = 0.
Proof.
  have E : cra A a *m cra A a = \sum_i \sum_j (A i a * A j a) *: (cr i *m cr j).
  { rewrite /cra mulmx_suml. apply: eq_bigr => i _. rewrite mulmx_sumr. apply: eq_bigr => j _.
    by rewrite -scalemxAl -scalemxAr scalerA. }
  rewrite E pair_big /= (bigID (fun p : 'I_m * 'I_m => p.1 == p.2)) /= big1 ?add0r; last first.
  { move=> [i j] /= /eqP ->. by rewrite cr_sq scaler0. }
  rewrite (bigID (fun p : 'I_m * 'I_m => (p.1 < p.2)%N)) /=.
  rewrite [X in _ + X](reindex_inj (inv_inj (f := fun p : 'I_m * 'I_m => (p.2, p.1)) _)) /=; last by case.
  have E2 : (fun p : 'I_m * 'I_m => (p.2 != p.1) && ~~ (p.2 < p.1)%N) =1 (fun p => (p.1 != p.2) && (p.1 < p.2)%N).
  { move=> [i j] /=. rewrite eq_sym. by case: (ltngtP i j) => //= /val_inj ->; rewrite eqxx. }
  rewrite [X in _ + X](eq_bigl _ _ E2).
  rewrite -big_split /=. apply: big1 => -[i j] _ /=. by rewrite car_cc scalerN mulrC addNr.
Qed.

Lemma second_ket A S : second A *m ket S = wedge (cra A) S.
Proof. apply/matrixP => a b. by rewrite op_ket mxE enum_rankK ord1. Qed.

Lemma second_cr A j : second A *m cr j = cra A j *m second A.
Proof.
  apply: ket_inj => S. rewrite -!mulmxA cr_ket second_ket wedge_insert; [|exact: cra_ac|exact: cra_sq].
  case: ifP => _; first by rewrite mulmx0. by rewrite -scalemxAr second_ket.
Qed.

Lemma fill0 X e : fill X e set0 = vac.
Proof. elim: e => [|i e IH] //=. by rewrite inE. Qed.

Lemma second_vac A : second A *m vac = vac.
Proof. by rewrite second_ket /wedge fill0. Qed.

(** a map with these two properties is the second quantised one *)
Lemma second_unique A (G : op) : (forall j, G *m cr j = cra A j *m G) -> G *m vac = vac -> G = second A.
Proof.
  move=> H1 H2. apply: ket_inj => S. rewrite second_ket -(wedge_ket S) /wedge.
  elim: (enum _) => [|i e IH] //=. rewrite -/(fill _ e S) -/(fill _ e S). case: ifP => _ //.
  by rewrite mulmxA H1 -mulmxA IH.
Qed.

Lemma cra_mul A B j : cra (A *m B) j = \sum_k B k j *: cra A k.
Proof.
  rewrite /cra. under eq_bigr do rewrite mxE scaler_suml. rewrite exchange_big /=. apply: eq_bigr => k _.
  rewrite scaler_sumr. apply: eq_bigr => i _. by rewrite scalerA mulrC.
Qed.

Lemma second_mul A B : second (A *m B) = second A *m second B.
Proof.
  symmetry. apply: second_unique; last by rewrite -mulmxA !second_vac.
  move=> j. rewrite -mulmxA second_cr !mulmxA cra_mul. congr (_ *m _).
  rewrite /cra mulmx_sumr mulmx_suml. apply: eq_bigr => k _. by rewrite -scalemxAr second_cr scalemxAl.
Qed.

Lemma cra1 j : cra 1%:M j = cr j.
Proof.
  rewrite /cra (bigD1 j) //= mxE eqxx scale1r big1 ?addr0 // => i /negbTE H. by rewrite mxE H scale0r.
Qed.
Lemma second1 : second 1%:M = 1%:M.
Proof. symmetry. apply: second_unique => [j|]; by rewrite ?cra1 ?mul1mx ?mulmx1. Qed.

Lemma cra_diag d j : cra (diag_mx d) j = d ord0 j *: cr j.
Proof.
  rewrite /cra (bigD1 j) //= mxE eqxx mulr1n big1 ?addr0 // => i /negbTE H. by rewrite mxE H mulr0n scale0r.
Qed.

Lemma occ_ket (d : 'I_m -> K) S : occupied_prod d *m ket S = (\prod_(j in S) d j) *: ket S.
Proof. apply/matrixP => a b. rewrite opf_ket mxE ketE. by case: eqP => _; rewrite ?mulr1 ?mulr0. Qed.

Lemma second_diag d : second (diag_mx d) = occupied_prod (d ord0).
Proof.
  symmetry. apply: second_unique.
  - move=> j. apply: ket_inj => S. rewrite cra_diag -!mulmxA occ_ket -scalemxAl -scalemxAr cr_ket.
    case: (boolP (j \in S)) => H; first by rewrite mulmx0 !scaler0.
    rewrite -scalemxAr occ_ket !scalerA big_setU1 //=. congr (_ *: _). by rewrite mulrC -mulrA [X in _ * X]mulrC mulrA.
  - by rewrite occ_ket big_set0 scale1r.
Qed.

(** ** the adjoint *)
Definition ana (A : 'M[K]_m) (j : 'I_m) : op := \sum_k A j k *: an k.

Lemma an_vac j : an j *m vac = 0.
Proof. by rewrite an_ket inE. Qed.

Lemma an_cra A j k : an j *m cra A k = (A j k)%:M - cra A k *m an j.
Proof.
  rewrite /cra mulmx_sumr mulmx_suml. apply/eqP. rewrite eq_sym subr_eq -big_split /=.
  rewrite (bigD1 j) //= big1 ?addr0.
  - by rewrite -scalemxAr -scalemxAl -scalerDr addrC car_ca eqxx scalemx1.
  - move=> i /negbTE H. by rewrite -scalemxAr -scalemxAl -scalerDr addrC car_ca H /= mulr0n raddf0 scaler0.
Qed.
Lemma ana_cr A j k : ana A j *m cr k = (A j k)%:M - cr k *m ana A j.
Proof.
  rewrite /ana mulmx_sumr mulmx_suml. apply/eqP. rewrite eq_sym subr_eq -big_split /=.
  rewrite (bigD1 k) //= big1 ?addr0.
  - by rewrite -scalemxAr -scalemxAl -scalerDr addrC car_ca eqxx scalemx1.
  - move=> i /negbTE H. by rewrite -scalemxAr -scalemxAl -scalerDr addrC car_ca eq_sym H /= mulr0n raddf0 scaler0.
Qed.

Lemma an_second A j : an j *m second A = second A *m ana A j.
Proof.
  apply/eqP. rewrite -subr_eq0. set Y := _ - _. apply/eqP.
  have HY k : Y *m cr k = - (cra A k *m Y).
  { rewrite /Y mulmxBl mulmxBr -!mulmxA second_cr ana_cr mulmxA an_cra mulmxBl mulmxBr !mul_scalar_mx mul_mx_scalar.
    rewrite (mulmxA (second A)) second_cr !mulmxA. rewrite opprB opprB addrC addrA subrK. by rewrite addrC. }
  apply: ket_inj => S. rewrite mul0mx -(wedge_ket S) /wedge. elim: (enum _) => [|i e IH] /=.
  - rewrite /Y mulmxBl -!mulmxA second_vac an_vac /ana mulmx_suml big1 ?mulmx0 ?subr0 // => k _.
    by rewrite -scalemxAl an_vac scaler0.
  - rewrite -/(fill _ e S). case: ifP => _ //. by rewrite mulmxA HY mulNmx -mulmxA IH mulmx0 oppr0.
Qed.

Lemma vac_cr j : vac^T *m cr j = 0.
Proof. apply: trmx_inj. by rewrite trmx_mul trmxK trmx0 -/(an j) an_vac. Qed.

Lemma second_tr A : (second A)^T = second A^T.
Proof.
  apply: second_unique.
  - move=> j. rewrite -[cr j]trmxK -/(an j) -trmx_mul an_second trmx_mul. congr (_ *m _).
    rewrite /ana /cra linear_sum /=. apply: eq_bigr => k _. by rewrite linearZ /= trmxK mxE.
  - apply: trmx_inj. rewrite trmx_mul trmxK. apply: ket_inj => S. rewrite -mulmxA second_ket.
    rewrite -(wedge_ket S) /wedge. elim: (enum _) => [|i e IH] //=.
    rewrite -/(fill _ e S) -/(fill _ e S). case: ifP => _ //.
    rewrite !mulmxA vac_cr mul0mx /cra mulmx_sumr big1 ?mul0mx // => k _. by rewrite -scalemxAr vac_cr scaler0.
Qed.

(** ** matrix elements are minors *)
Lemma bra_cr T j : (ket T)^T *m cr j = if j \in T then (-1) ^+ below T j *: (ket (T :\ j))^T else 0.
Proof.
  apply: trmx_inj. rewrite trmx_mul trmxK -/(an j) an_ket. case: ifP => _; last by rewrite trmx0.
  by rewrite linearZ /= trmxK.
Qed.

Lemma bra_cra A T j : (ket T)^T *m cra A j = \sum_(i in T) (A i j * (-1) ^+ below T i) *: (ket (T :\ i))^T.
Proof.
  rewrite /cra mulmx_sumr [RHS]big_mkcond /=. apply: eq_bigr => i _.
  rewrite -scalemxAr bra_cr. case: ifP => _; by rewrite ?scalerA ?scaler0.
Qed.

Definition increasing k (t : 'I_k -> 'I_m) := forall a b : 'I_k, (a < b)%N -> (t a < t b)%N.

Lemma increasing_inj k (t : 'I_k -> 'I_m) : increasing t -> injective t.
Proof.
  move=> H a b E. case: (ltngtP a b) => [/H|/H|/val_inj //]; by rewrite E ltnn.
Qed.

Lemma increasing_iff k (t : 'I_k -> 'I_m) : increasing t -> forall a b, (t a < t b)%N = (a < b)%N.
Proof.
  move=> H a b. case: (ltngtP a b) => [/H //|/H H1|/val_inj ->]; last by rewrite ltnn.
  by apply/negbTE; rewrite -leqNgt ltnW.
Qed.

Lemma below_image k (t : 'I_k -> 'I_m) a : increasing t -> below [set t x | x : 'I_k] (t a) = a.
Proof.
  move=> H. rewrite /below.
  rewrite (_ : [set i in _ | _] = [set t x | x in [set x : 'I_k | (x < a)%N]]).
  - rewrite card_imset; last exact: increasing_inj. rewrite -sum1dep_card.
    by rewrite (big_ord_narrow (ltnW (ltn_ord a))) sum1_card card_ord.
  - apply/setP => i. rewrite !inE. apply/andP/imsetP.
    + move=> [/imsetP[x _ ->] Hx]. exists x => //. by rewrite inE -(increasing_iff H).
    + move=> [x Hx ->]. rewrite inE in Hx. split; first by apply/imsetP; exists x. by rewrite (increasing_iff H).
Qed.

Definition prodv (X : 'I_m -> op) k (s : 'I_k -> 'I_m) : 'cV[K]_D := foldr (fun b v => X (s b) *m v) vac (enum 'I_k).

Lemma prodvS X k (s : 'I_k.+1 -> 'I_m) : prodv X s = X (s ord0) *m prodv X (fun b => s (lift ord0 b)).
Proof. by rewrite /prodv enum_ordSl /= foldr_map. Qed.

Lemma increasing_lift k (t : 'I_k.+1 -> 'I_m) a : increasing t -> increasing (fun x => t (lift a x)).
Proof. move=> H x y Hxy. apply: H. by rewrite /= ltnNge leq_bump2 -ltnNge. Qed.

Lemma image_lift k (t : 'I_k.+1 -> 'I_m) a : injective t ->
  [set t x | x : 'I_k.+1] :\ t a = [set t (lift a x) | x : 'I_k].
Proof.
  move=> H. apply/setP => i. rewrite !inE. apply/andP/imsetP.
  - move=> [Hi /imsetP[x _ E]]. subst i. case: (unliftP a x) => [y ->|E]; first by exists y.
    by case/negP: Hi; rewrite E.
  - move=> [x _ ->]. split; last by apply/imsetP; exists (lift a x).
    apply/negP => /eqP/H E. by move: (neq_lift a x); rewrite E eqxx.
Qed.

Lemma minor A k (t s : 'I_k -> 'I_m) : increasing t ->
  (ket [set t x | x : 'I_k])^T *m prodv (cra A) s = (\det (\matrix_(a, b) A (t a) (s b)))%:M.
Proof.
  elim: k t s => [|k IH] t s Ht.
  - rewrite det_mx00 /prodv (_ : enum 'I_0 = [::]) /=; last by apply: size0nil; rewrite size_enum_ord.
    rewrite (_ : [set t x | x : 'I_0] = set0); last by apply/setP => x; rewrite inE; apply/imsetP => -[[]].
    by rewrite /vac bra_ket eqxx.
  - rewrite prodvS mulmxA bra_cra (expand_det_col _ ord0) big_imset /=; last first.
    { move=> a b _ _. exact: increasing_inj. }
    rewrite mulmx_suml raddf_sum /=. apply: eq_bigr => a _.
    rewrite below_image // (image_lift a (increasing_inj Ht)) -scalemxAl (IH _ _ (increasing_lift a Ht)).
    rewrite !mxE -scale_scalar_mx -scalerA. congr (_ *: _). rewrite /cofactor addn0 -scale_scalar_mx. congr (_ *: (\det _)%:M).
    by apply/matrixP => x y; rewrite !mxE.
Qed.

Lemma top_minor A : (ket setT)^T *m wedge (cra A) setT = (\det A)%:M.
Proof.
  have := @minor A m id id (fun a b H => H).
  rewrite (_ : [set id x | x : 'I_m] = setT); last by apply/setP => x; rewrite inE; apply/imsetP; exists x.
  rewrite (_ : \matrix_(a, b) _ = A); last by apply/matrixP => a b; rewrite mxE.
  move=> <-. congr (_ *m _). rewrite /wedge /prodv. elim: (enum _) => [|i e IH] //=. by rewrite inE -IH.
Qed.

(** ** the trace of a second quantised map *)
Lemma below_split (S : {set 'I_m}) (k : 'I_m) e : (forall x, x \in S -> (x < k)%N) -> sorted ltm (k :: e) ->
  below (S :|: [set i in e]) k = #|S|.
Proof.
  move=> HS /sorted_min[_ He]. rewrite /below. apply: eq_card => x. rewrite !inE.
  apply/andP/idP => [[/orP[//|/He H1] H2]|H]; last by rewrite H (HS _ H).
  by move: (ltn_trans H1 H2); rewrite ltnn.
Qed.

Lemma drop_spectators (A : 'M[K]_m) (S : {set 'I_m}) e : sorted ltm e -> forall (P : op) (S' : {set 'I_m}),
  (forall x y, x \in S' -> y \in e -> (x < y)%N) -> (forall k, P *m cr k = (-1) ^+ #|S'| *: (cr k *m P)) ->
  (ket (S' :|: [set i in e]))^T *m P *m fill (fun j => if j \in S then cra A j else cr j) e setT =
  (ket (S' :|: [set i in e | i \in S]))^T *m P *m fill (cra A) e S.
Proof.
  elim: e => [|k e IH] Hs P S' HS HP.
  - rewrite (_ : S' :|: [set i in [::]] = S' :|: [set i in [::] | i \in S]) //.
  - have [He Hmin] := sorted_min Hs. have Hk := sorted_notin Hs.
    have HkS : k \notin S' by apply/negP => /HS /(_ (mem_head k e)); rewrite ltnn.
    rewrite [fill _ (k :: e) setT]/= [fill _ (k :: e) S]/= inE -!/(fill _ e _).
    case: (boolP (k \in S)) => HkSS.
    + rewrite !mulmxA. rewrite -!(mulmxA _ P).
      have := IH He (P *m cra A k) (k |: S').
      rewrite (_ : (k |: S') :|: [set i in e] = S' :|: [set i in k :: e]); last first.
      { apply/setP => x. rewrite !inE. by case: (x == k); rewrite ?orbT. }
      rewrite (_ : (k |: S') :|: [set i in e | i \in S] = S' :|: [set i in k :: e | i \in S]); last first.
      { apply/setP => x. rewrite !inE. by case: (x =P k) => [->|_] /=; rewrite ?HkSS ?orbT. }
      apply.
      * move=> x y. rewrite !inE => /orP[/eqP ->|Hx] Hy; first exact: Hmin. apply: HS => //. by rewrite inE Hy orbT.
      * move=> j. rewrite cardsU1 HkS add1n exprS mulN1r scaleNr.
        rewrite -mulmxA. rewrite (_ : cra A k *m cr j = - (cr j *m cra A k)); last first.
        { rewrite /cra mulmx_suml mulmx_sumr -sumrN. apply: eq_bigr => i _.
          by rewrite -scalemxAl -scalemxAr car_cc scalerN. }
        by rewrite mulmxN mulmxA HP -scalemxAl mulmxA.
    + rewrite (_ : S' :|: [set i in k :: e | i \in S] = S' :|: [set i in e | i \in S]); last first.
      { apply/setP => x. rewrite !inE. by case: (x =P k) => [->|_] //=; rewrite (negbTE HkSS) !andbF. }
      rewrite -(IH He P S') //; last by move=> x y Hx Hy; apply: HS => //; rewrite inE Hy orbT.
      rewrite !mulmxA -(mulmxA _ P) HP -scalemxAr mulmxA bra_cr !inE eqxx orbT /=.
      rewrite (_ : S' :|: [set i in k :: e] = k |: (S' :|: [set i in e])); last first.
      { apply/setP => x. rewrite !inE. by case: (x == k); rewrite ?orbT. }
      have Hn : k \notin S' :|: [set i in e] by rewrite !inE negb_or HkS.
      rewrite belowU // ltnn add0n below_split //; last by move=> x Hx; apply: HS => //; rewrite mem_head.
      rewrite setU1K // -!scalemxAl scalerA sqr_sign. by rewrite scale1r.
Qed.

Lemma principal_minor A S :
  ((ket S)^T *m second A *m ket S) ord0 ord0 = \det (\matrix_(i, j) if j \in S then A i j else (i == j)%:R).
Proof.
  set M := \matrix_(i, j) _. rewrite -mulmxA second_ket.
  have E : (ket setT)^T *m wedge (cra M) setT = (ket S)^T *m wedge (cra A) S.
  { have := @drop_spectators A S (enum 'I_m) enum_sorted 1%:M set0.
    rewrite cards0 expr0 !mulmx1 !set0U.
    rewrite (_ : [set i in enum 'I_m] = setT); last by apply/setP => x; rewrite !inE mem_enum.
    rewrite (_ : [set i in enum 'I_m | i \in S] = S); last by apply/setP => x; rewrite !inE mem_enum.
    rewrite -/(wedge _ setT) -/(wedge _ S) => <-; first last.
    - move=> k. by rewrite mul1mx mulmx1 scale1r.
    - move=> x y. by rewrite inE.
    congr (_ *m _). rewrite /wedge. elim: (enum _) => [|i e IH] //=. rewrite inE -!/(fill _ e _) IH. congr (_ *m _).
    rewrite -(cra1 i) /cra. case: ifP => Hi; apply: eq_bigr => k _; rewrite !mxE Hi //. }
  by rewrite -E top_minor mxE eqxx mulr1n.
Qed.

Lemma det_cols (B : 'M[K]_m) : \det B = \sum_(s : 'S_m) (-1) ^+ s * \prod_j B (s j) j.
Proof. rewrite -det_tr. apply: eq_bigr => s _. congr (_ * _). apply: eq_bigr => j _. by rewrite mxE. Qed.

Theorem trace_second A : \tr (second A) = \det (1%:M + A).
Proof.
  transitivity (\sum_(S : {set 'I_m}) \det (\matrix_(i, j) if j \in S then A i j else (i == j)%:R)).
  - rewrite /mxtrace (reindex (fun S : {set 'I_m} => enum_rank S)) /=; last first.
    { exists enum_val => x _; [exact: enum_rankK|exact: enum_valK]. }
    apply: eq_bigr => S _. rewrite -principal_minor op_ket. by rewrite /ket trmx_delta -rowE [RHS]mxE.
  - rewrite det_cols. under eq_bigr do rewrite det_cols. rewrite exchange_big /=.
    apply: eq_bigr => s _. rewrite -mulr_sumr. congr (_ * _).
    transitivity (\prod_i \sum_(b : bool) (if b then A (s i) i else (s i == i)%:R)).
    + rewrite bigA_distr_bigA /=. rewrite (reindex (fun S : {set 'I_m} => [ffun i => i \in S])) /=; last first.
      { exists (fun f : {ffun 'I_m -> bool} => [set i | f i]).
        - move=> S _. apply/setP => i. by rewrite inE ffunE.
        - move=> f _. apply/ffunP => i. by rewrite ffunE inE. }
      apply: eq_bigr => S _. apply: eq_bigr => i _. by rewrite !mxE ffunE.
    + apply: eq_bigr => i _. by rewrite big_bool /= !mxE addrC.
Qed.
End Fock.
