(** Means of sums over the configurations visited by the Metropolis chain with ideal random numbers. *)
From Coq Require Import ZArith List Reals Lra Lia Permutation Bool.
From Coquelicot Require Import Coquelicot.
From Verif Require Import Base BaseFacts Random RandomSpec ShuffleFacts SimParams RandSource Sweep SweepSpec WickSpec SimulationSpec IdealSpec IdealFacts IdealLink.
Import ListNotations.
Local Open Scope R_scope.

Lemma choice_mean_affine m : forall i a f, choice_mean i m (fun js => a + f js) = a + choice_mean i m f.
Proof.
  induction m as [|m IH]; intros i a f; cbn [choice_mean]; [reflexivity|].
  rewrite (total_ext _ (fun j => a + choice_mean (S i) m (fun js => f (Z.of_nat j :: js)))) by (intros; apply IH).
  rewrite total_plus, total_const, seq_length. field. apply not_0_INR. lia.
Qed.
Lemma moves_affine {A} (w : A -> R) flip (F : A -> R) a : forall sites s,
  uniform_mean (length sites) (fun us => a + F (moves w flip sites us s)) = a + uniform_mean (length sites) (fun us => F (moves w flip sites us s)).
Proof.
  induction sites as [|i sites IH]; intros s; [reflexivity|]. cbn [length uniform_mean moves].
  set (r := w (flip i s) / w s).
  assert (E : forall X : A -> R, RInt (fun u => X (move w (flip i) u s)) 0 1 = Rmax 0 (Rmin 1 r) * X (flip i s) + (1 - Rmax 0 (Rmin 1 r)) * X s).
  { intros X. rewrite <- step_RInt. apply RInt_ext. intros u _. unfold move. fold r. destruct (Rlt_dec u r); auto. }
  rewrite (E (fun s => uniform_mean (length sites) (fun us => a + F (moves w flip sites us s)))).
  rewrite (E (fun s => uniform_mean (length sites) (fun us => F (moves w flip sites us s)))). rewrite !IH. ring.
Qed.

Section Chain.
Variables (n : nat) (W : list Z -> R) (L : nat).
Let w (s : list Z) : R := Rabs (W s).
Let confs := fields (L * n).
Notation step := (slice_step n W).
Notation run := (run_slices n W).

Lemma slice_affine (F : list Z -> R) l a s :
  choice_mean 0 n (fun js => uniform_mean n (fun us => a + F (step l (js, us) s))) =
  a + choice_mean 0 n (fun js => uniform_mean n (fun us => F (step l (js, us) s))).
Proof.
  rewrite <- choice_mean_affine. apply choice_mean_ext. intros js Hj Hv.
  assert (E : length (order_of js) = n) by (unfold order_of; now rewrite fy_run_length, map_length).
  unfold slice_step. cbn [fst snd]. pose proof (moves_affine (fun s => Rabs (W s)) (fun i => flipped n l (Z.to_nat i)) F a (order_of js) s) as H.
  rewrite E in H. exact H.
Qed.

(** sum of values of the fields after the slices *)
Fixpoint slice_sum (G : nat -> list Z -> R) (c l : nat) (t : tape) (s : list Z) : R :=
  match c with
  | O => 0
  | S c => match t with [] => 0 | p :: t => G l (step l p s) + slice_sum G c (S l) t (step l p s) end
  end.
Fixpoint slice_q (G : nat -> list Z -> R) (K : list Z -> R) (c l : nat) (s : list Z) : R :=
  match c with
  | O => K s
  | S c => choice_mean 0 n (fun js => uniform_mean n (fun us => G l (step l (js, us) s) + slice_q G K c (S l) (step l (js, us) s)))
  end.

Lemma slice_qE G K (h : tape -> list Z -> R) r : (forall a s, tape_mean n r (fun t => a + h t s) = a + K s) ->
  forall c l a s, tape_mean n (c + r) (fun t => a + (slice_sum G c l t s + h (fst (run c l t s)) (snd (run c l t s)))) = a + slice_q G K c l s.
Proof.
  intros HK. induction c as [|c IH]; intros l a s.
  - cbn [Nat.add slice_sum run_slices fst snd slice_q]. rewrite <- HK. apply tape_mean_ext. intros; lra.
  - cbn [Nat.add slice_sum run_slices slice_q tape_mean]. rewrite <- (slice_affine (fun s1 => G l s1 + slice_q G K c (S l) s1)).
    apply choice_mean_ext. intros js _ _. apply uniform_mean_ext. intros us _ _. rewrite <- Rplus_assoc, <- IH.
    apply tape_mean_ext. intros; lra.
Qed.
Lemma slice_q_total G K : forall c l, (l + c <= L)%nat ->
  total (fun s => w s * slice_q G K c l s) confs = total (fun l => total (fun s => w s * G l s) confs) (seq l c) + total (fun s => w s * K s) confs.
Proof.
  induction c as [|c IH]; intros l Hl; [cbn; lra|]. cbn [slice_q seq].
  pose proof (slice_invariant n W L (fun s => G l s + slice_q G K c (S l) s) l ltac:(lia)) as H. unfold w, confs. rewrite H.
  rewrite (total_ext _ (fun s => Rabs (W s) * G l s + Rabs (W s) * slice_q G K c (S l) s)) by (intros; ring).
  rewrite total_plus. fold confs. change (fun s => Rabs (W s) * slice_q G K c (S l) s) with (fun s => w s * slice_q G K c (S l) s).
  rewrite IH by lia. assert (TC : forall (f : nat -> R) x xs, total f (x :: xs) = f x + total f xs) by reflexivity. rewrite TC.
  rewrite <- Rplus_assoc. reflexivity.
Qed.

(** many sweeps, numbered from [it] *)
Fixpoint sweep_sum (G : Z -> nat -> list Z -> R) (c : nat) (it : Z) (t : tape) (s : list Z) : R :=
  match c with
  | O => 0
  | S c => slice_sum (G it) L 0 t s + sweep_sum G c (it + 1)%Z (fst (run L 0 t s)) (snd (run L 0 t s))
  end.
Fixpoint sweep_q (G : Z -> nat -> list Z -> R) (c : nat) (it : Z) (s : list Z) : R :=
  match c with O => 0 | S c => slice_q (G it) (sweep_q G c (it + 1)%Z) L 0 s end.
(** sum of [f it l] over all sweeps and slices *)
Fixpoint grid (f : Z -> nat -> R) (c : nat) (it : Z) : R :=
  match c with O => 0 | S c => total (f it) (seq 0 L) + grid f c (it + 1)%Z end.

Lemma sweep_qE G : forall c it a s, tape_mean n (c * L) (fun t => a + sweep_sum G c it t s) = a + sweep_q G c it s.
Proof.
  induction c as [|c IH]; intros it a s; [reflexivity|]. cbn [Nat.mul sweep_sum sweep_q].
  apply (slice_qE (G it) (sweep_q G c (it + 1)%Z) (fun t s => sweep_sum G c (it + 1)%Z t s) (c * L)). intros. apply IH.
Qed.
Lemma sweep_q_total G : forall c it,
  total (fun s => w s * sweep_q G c it s) confs = grid (fun it l => total (fun s => w s * G it l s) confs) c it.
Proof.
  induction c as [|c IH]; intros it; cbn [sweep_q grid].
  - rewrite (total_ext _ (fun _ => 0)) by (intros; ring). rewrite total_const. ring.
  - rewrite slice_q_total by lia. rewrite IH. reflexivity.
Qed.
Theorem sweep_mean G c it :
  total (fun s => w s * tape_mean n (c * L) (fun t => sweep_sum G c it t s)) confs = grid (fun it l => total (fun s => w s * G it l s) confs) c it.
Proof.
  rewrite <- sweep_q_total. apply total_ext. intros s _. f_equal. pose proof (sweep_qE G c it 0 s) as H. rewrite Rplus_0_l in H. rewrite <- H.
  apply tape_mean_ext. intros; lra.
Qed.

Lemma run_length : forall c l t s, length (fst (run c l t s)) = (length t - c)%nat.
Proof. induction c as [|c IH]; intros l [|p t] s; cbn [run_slices fst length]; try lia. rewrite IH. lia. Qed.
Lemma run_ok : forall c l t s, List.Forall (slice_tape_ok n) t -> List.Forall (slice_tape_ok n) (fst (run c l t s)).
Proof. induction c as [|c IH]; intros l [|p t] s H; cbn [run_slices fst]; auto. inversion H; auto. Qed.

Lemma slice_sum_const f : forall c l t s, (c <= length t)%nat -> slice_sum (fun l _ => f l) c l t s = total f (seq l c).
Proof.
  induction c as [|c IH]; intros l [|p t] s H; cbn [slice_sum length] in *; try lia; try reflexivity.
  rewrite IH by lia. reflexivity.
Qed.
Lemma sweep_sum_const f : forall c it t s, (c * L <= length t)%nat -> sweep_sum (fun it l _ => f it l) c it t s = grid f c it.
Proof.
  induction c as [|c IH]; intros it t s H; [reflexivity|]. cbn [sweep_sum grid Nat.mul] in *.
  rewrite slice_sum_const by lia. rewrite IH by (rewrite run_length; lia). reflexivity.
Qed.
Lemma grid_ext f g : forall c it, (forall it l, (l < L)%nat -> f it l = g it l) -> grid f c it = grid g c it.
Proof.
  induction c as [|c IH]; intros it H; cbn [grid]; [reflexivity|]. rewrite IH by auto. f_equal.
  apply total_ext. intros l Hl. apply in_seq in Hl. apply H. lia.
Qed.
Lemma grid_scal f C : forall c it, grid (fun it l => f it l * C) c it = grid f c it * C.
Proof.
  induction c as [|c IH]; intros it; cbn [grid]; [ring|]. rewrite IH.
  rewrite (total_ext _ (fun l => C * f it l)) by (intros; ring). rewrite total_scal. ring.
Qed.

(** * The record of the chain *)
Variable p : sim_params.
Hypothesis HL : (0 < L)%nat.
Definition eq_due (it : Z) (l : nat) : bool := due_at (if (sp_nequil p <=? it)%Z then sp_neqlt p else 0%Z) (Z.of_nat l + 1).
Definition un_due (it : Z) (l : nat) : bool := ((S l =? L)%nat && ((sp_nequil p <=? it)%Z && due_at (sp_nuneqlt p) it))%bool.
Definition ind (b : bool) : R := if b then 1 else 0.

Lemma lsum_app {A} (f : A -> R) xs ys : lsum f (xs ++ ys) = lsum f xs + lsum f ys.
Proof. unfold lsum. induction xs as [|x xs IH]; cbn [app fold_right]; [ring|]. rewrite IH. ring. Qed.

Lemma chain_slices q : forall c l t us order s eq, (c <= length t)%nat -> List.Forall (slice_tape_ok n) t -> length order = n ->
  exists us' order' eq', length order' = n /\
  for_from c (Z.of_nat l) (fun l => may_hang (chain_slice ideal_source n W q l)) (Some ((us, t, order, s), eq)) =
  Some (Some ((us', fst (run c l t s), order', snd (run c l t s)), eq')) /\
  (forall g, lsum g eq' = lsum g eq + slice_sum (fun l s => ind (due_at q (Z.of_nat l + 1)) * g (S l, s)) c l t s).
Proof.
  induction c as [|c IH]; intros l t us order s eq Hc Ht Ho.
  - exists us, order, eq. split; [exact Ho|]. split; [reflexivity|]. intros g. cbn [slice_sum]. lra.
  - destruct t as [|x t]; [cbn in Hc; lia|]. inversion Ht; subst. cbn [for_from may_hang run_slices slice_sum].
    unfold chain_slice at 1. cbn [fst snd]. rewrite slice_run by auto. cbn [obind snd]. replace (Z.of_nat l + 1)%Z with (Z.of_nat (S l)) by lia.
    edestruct (IH (S l) t [] (order_of (fst x)) (step l x s)) as (us' & o' & eq' & H & E & G); auto; [cbn in Hc; lia|now apply order_length|].
    exists us', o', eq'. split; [exact H|]. split; [exact E|]. intros g. rewrite G, Nat2Z.id.
    destruct (due_at q (Z.of_nat (S l))); unfold ind; [rewrite lsum_app|lra]. change (lsum g [(S l, step l x s)]) with (g (S l, step l x s) + 0). cbn [fst snd]. lra.
Qed.

Lemma slice_sum_last (f : list Z -> R) : forall c l t s, (c <= length t)%nat -> (l + c = L)%nat -> (0 < c)%nat ->
  slice_sum (fun l s => ind (S l =? L)%nat * f s) c l t s = f (snd (run c l t s)).
Proof.
  induction c as [|c IH]; intros l t s H1 H2 H3; [lia|]. destruct t as [|x t]; [cbn in H1; lia|]. cbn [slice_sum run_slices length] in *.
  destruct c as [|c].
  - cbn [slice_sum run_slices snd]. replace (S l =? L)%nat with true by (symmetry; apply Nat.eqb_eq; lia). unfold ind. lra.
  - rewrite IH by lia. replace (S l =? L)%nat with false by (symmetry; apply Nat.eqb_neq; lia). unfold ind. lra.
Qed.
Lemma slice_sum_0 G : (forall l s, G l s = 0) -> forall c l t s, slice_sum G c l t s = 0.
Proof. intros H. induction c as [|c IH]; intros l [|x t] s; cbn [slice_sum]; auto. rewrite H, IH. lra. Qed.
Lemma slice_sum_ext G G' : (forall l s, G l s = G' l s) -> forall c l t s, slice_sum G c l t s = slice_sum G' c l t s.
Proof. intros H. induction c as [|c IH]; intros l [|x t] s; cbn [slice_sum]; auto. now rewrite H, IH. Qed.

Lemma chain_sweeps order : length order = n -> forall c it t us s eq un, (c * L <= length t)%nat -> List.Forall (slice_tape_ok n) t ->
  exists us' t' s' eq' un',
  for_from c it (fun it => may_hang (chain_iteration ideal_source n W L p order it)) (Some ((us, t), s, eq, un)) =
  Some (Some ((us', t'), s', eq', un')) /\
  (forall g, lsum g eq' = lsum g eq + sweep_sum (fun it l s => ind (eq_due it l) * g (S l, s)) c it t s) /\
  (forall f, lsum f un' = lsum f un + sweep_sum (fun it l s => ind (un_due it l) * f s) c it t s).
Proof.
  intros Ho. induction c as [|c IH]; intros it t us s eq un Hc Ht.
  - exists us, t, s, eq, un. split; [reflexivity|]. split; intros; cbn [sweep_sum]; lra.
  - cbn [Nat.mul] in Hc. cbn [for_from may_hang sweep_sum]. unfold chain_iteration at 1.
    destruct (chain_slices (if (sp_nequil p <=? it)%Z then sp_neqlt p else 0%Z) L 0 t us order s eq) as (us1 & o1 & eq1 & H1 & E1 & G1); auto; [lia|].
    assert (E1' : chain_sweep ideal_source n W L (if (sp_nequil p <=? it)%Z then sp_neqlt p else 0%Z) ((us, t, order, s), eq) =
      Some (Some ((us1, fst (run L 0 t s), o1, snd (run L 0 t s)), eq1))).
    { unfold chain_sweep, for_range. replace (Z.to_nat (Z.of_nat L - 0)) with L by lia. exact E1. }
    unfold tape in E1' |- *. rewrite E1'. cbn [obind].
    edestruct (IH (it + 1)%Z (fst (run L 0 t s)) us1 (snd (run L 0 t s)) eq1) as (us2 & t2 & s2 & eq2 & un2 & E2 & G2 & G3);
      [rewrite run_length; lia|now apply run_ok|].
    exists us2, t2, s2, eq2, un2. split; [exact E2|]. split.
    + intros g. rewrite G2, G1. rewrite Rplus_assoc. reflexivity.
    + intros f. rewrite G3. rewrite <- Rplus_assoc. f_equal.
      pose proof (slice_sum_last f L 0 t s ltac:(lia) ltac:(lia) ltac:(lia)) as E.
      rewrite (slice_sum_ext _ (fun l s => ind ((sp_nequil p <=? it)%Z && due_at (sp_nuneqlt p) it) * (ind (S l =? L)%nat * f s))).
      2:{ intros l s0. unfold un_due, ind. destruct (S l =? L)%nat; destruct (_ && _)%bool; cbn; lra. }
      destruct ((sp_nequil p <=? it)%Z && due_at (sp_nuneqlt p) it)%bool; unfold ind at 1.
      * change seq.cat with (@app (list Z)). rewrite lsum_app. change (lsum f [snd (run L 0 t s)]) with (f (snd (run L 0 t s)) + 0).
        rewrite (slice_sum_ext _ (fun l s => ind (S l =? L)%nat * f s)) by (intros; cbv beta iota; ring). rewrite E. lra.
      * rewrite slice_sum_0; [lra|]. intros; cbv beta iota; ring.
Qed.
End Chain.
