(** The phases of a sweep with phonons, driven by ideal random numbers, leave the weight invariant. *)
From Coq Require Import ZArith List Reals Lra Lia Permutation.
From Coquelicot Require Import Coquelicot.
From Verif Require Import Base Random RandomSpec ShuffleFacts Sweep SweepSpec IdealSpec IdealFacts IdealLink BoxSpec BoxFacts PMoves PIdealSpec.
Import ListNotations.
Local Open Scope R_scope.

Section Kernels.
Variables (n L : nat) (w : list Z -> list R -> R).
Let m := (L * n)%nat.
Let confs := fields (L * n).
Hypothesis w_pos : forall s X, 0 <= w s X.
Hypothesis w_reg : forall s, In s confs -> reg m (w s).
Variable C : R.
Hypothesis C_pos : 0 <= C.
Notation func := (list Z -> list R -> R).
Notation cls := (cls m w confs).
Notation tot := (tot m w confs).

Lemma supp_le K K' f : K <= K' -> supp m K f -> supp m K' f.
Proof. intros H HS X HX. destruct (HS X HX); auto. right. now apply (box_le K). Qed.
Lemma cls_le B K K' F : K <= K' -> cls B K F -> cls B K' F.
Proof. intros H [A1 A2 A3]. constructor; auto. intros s Hs. apply (supp_le K); auto. Qed.
Lemma cls_ext B K F G : (forall s X, In s confs -> length X = m -> F s X = G s X) -> cls B K F -> cls B K G.
Proof.
  intros E [A1 A2 A3]. constructor.
  - intros s X Hs HX. rewrite <- E by auto. auto.
  - intros s Hs. apply (reg_ext m (fun X => w s X * F s X)); auto. intros X HX. now rewrite E.
  - intros s Hs X HX. rewrite <- E by auto. now apply A3.
Qed.
Lemma tot_ext M F G : 0 <= M -> (forall s X, In s confs -> length X = m -> F s X = G s X) -> tot M F = tot M G.
Proof.
  intros HM E. unfold PMoves.tot. apply total_ext. intros s Hs. apply box_int_ext; auto. intros X HX _. now rewrite E.
Qed.
Lemma cls_0 K : cls 0 K (fun _ _ => 0).
Proof.
  constructor.
  - intros. rewrite Rabs_R0. lra.
  - intros. apply (reg_ext m (fun _ => 0)); [intros; ring|apply reg_const].
  - intros s _ X _. left. ring.
Qed.
Lemma cls_plus B B' K F G : cls B K F -> cls B' K G -> cls (B + B') K (fun s X => F s X + G s X).
Proof.
  intros [A1 A2 A3] [D1 D2 D3]. constructor.
  - intros s X Hs HX N. pose proof (Rabs_triang (F s X) (G s X)). specialize (A1 s X Hs HX N). specialize (D1 s X Hs HX N). lra.
  - intros s Hs. apply (reg_ext m (fun X => w s X * F s X + w s X * G s X)); [intros; ring|]. apply reg_plus; auto.
  - intros s Hs X HX. destruct (A3 s Hs X HX) as [E|]; auto. destruct (D3 s Hs X HX) as [E'|]; auto. left. rewrite Rmult_plus_distr_l. lra.
Qed.
Lemma cls_scal B K c F : cls B K F -> cls (Rabs c * B) K (fun s X => c * F s X).
Proof.
  intros [A1 A2 A3]. constructor.
  - intros s X Hs HX N. rewrite Rabs_mult. apply Rmult_le_compat_l; [apply Rabs_pos|auto].
  - intros s Hs. apply (reg_ext m (fun X => c * (w s X * F s X))); [intros; ring|]. apply reg_mult; auto. apply reg_const.
  - intros s Hs X HX. destruct (A3 s Hs X HX) as [E|]; auto. left. replace (w s X * (c * F s X)) with (c * (w s X * F s X)) by ring. rewrite E. ring.
Qed.
Lemma tot_plus M F G B B' K K' : 0 <= M -> cls B K F -> cls B' K' G -> tot M (fun s X => F s X + G s X) = tot M F + tot M G.
Proof.
  intros HM HF HG. unfold PMoves.tot. rewrite <- total_plus. apply total_ext. intros s Hs.
  rewrite <- box_int_plus; auto; [|now apply (c_reg _ _ _ _ _ _ HF)|now apply (c_reg _ _ _ _ _ _ HG)].
  apply box_int_ext; auto. intros. ring.
Qed.
Lemma tot_scal M c F B K : 0 <= M -> cls B K F -> tot M (fun s X => c * F s X) = c * tot M F.
Proof.
  intros HM HF. unfold PMoves.tot. rewrite <- total_scal. apply total_ext. intros s Hs.
  rewrite <- box_int_scal; auto; [|now apply (c_reg _ _ _ _ _ _ HF)].
  apply box_int_ext; auto. intros. ring.
Qed.
Lemma tot_0 M : 0 <= M -> tot M (fun _ _ => 0) = 0.
Proof.
  intros HM. unfold PMoves.tot. rewrite (total_ext _ (fun _ => 0)); [rewrite total_const; ring|].
  intros s _. transitivity (box_int m M (fun _ => 0)); [|apply box_int_0]. apply box_int_ext; auto. intros. ring.
Qed.

(** averages *)
Lemma sum_cls {A} K (F : A -> func) xs : (forall x, In x xs -> cls C K (F x)) ->
  cls (INR (length xs) * C) K (fun s X => total (fun x => F x s X) xs) /\
  forall M, 0 <= M -> tot M (fun s X => total (fun x => F x s X) xs) = total (fun x => tot M (F x)) xs.
Proof.
  induction xs as [|x xs IH]; intros H.
  - split; [cbn; rewrite Rmult_0_l; apply cls_0|]. intros M HM. now apply tot_0.
  - destruct IH as (I1 & I2); [intros; apply H; now right|]. specialize (H x (or_introl eq_refl)). split.
    + cbn [length]. rewrite S_INR. replace ((INR (length xs) + 1) * C) with (C + INR (length xs) * C) by ring.
      exact (cls_plus _ _ _ _ _ H I1).
    + intros M HM. etransitivity; [exact (tot_plus M _ _ _ _ _ _ HM H I1)|]. rewrite I2 by auto. reflexivity.
Qed.
Lemma mean_cls {A} K (F : A -> func) xs : xs <> [] -> (forall x, In x xs -> cls C K (F x)) ->
  cls C K (fun s X => total (fun x => F x s X) xs / INR (length xs)) /\
  forall M, 0 <= M -> tot M (fun s X => total (fun x => F x s X) xs / INR (length xs)) = total (fun x => tot M (F x)) xs / INR (length xs).
Proof.
  intros Hne H. destruct (sum_cls K F xs H) as (S1 & S2).
  assert (P : 0 < INR (length xs)) by (apply lt_0_INR; destruct xs; [congruence|cbn; lia]).
  pose proof (cls_scal _ _ (/ INR (length xs)) _ S1) as S3.
  replace (Rabs (/ INR (length xs)) * (INR (length xs) * C)) with C in S3.
  2:{ rewrite Rabs_pos_eq by (left; now apply Rinv_0_lt_compat). field. lra. }
  split.
  - apply (cls_ext C K _ _) with (2 := S3). intros. unfold Rdiv. ring.
  - intros M HM. rewrite <- S2 by auto. unfold Rdiv. rewrite Rmult_comm, <- (tot_scal M _ _ _ _ HM S1).
    apply tot_ext; auto. intros. ring.
Qed.
Lemma choice_cls K mm : forall i (F : list Z -> func),
  (forall js, length js = mm -> (forall t, (t < mm)%nat -> (0 <= nth t js 0 <= Z.of_nat (i + t))%Z) -> cls C K (F js)) ->
  cls C K (fun s X => choice_mean i mm (fun js => F js s X)) /\
  forall M, 0 <= M -> tot M (fun s X => choice_mean i mm (fun js => F js s X)) = choice_mean i mm (fun js => tot M (F js)).
Proof.
  induction mm as [|mm IH]; intros i F H; cbn [choice_mean].
  - split; [|reflexivity]. apply (H []); auto. intros; lia.
  - assert (G : forall j, In j (seq 0 (S i)) ->
      cls C K (fun s X => choice_mean (S i) mm (fun js => F (Z.of_nat j :: js) s X)) /\
      forall M, 0 <= M -> tot M (fun s X => choice_mean (S i) mm (fun js => F (Z.of_nat j :: js) s X)) = choice_mean (S i) mm (fun js => tot M (F (Z.of_nat j :: js)))).
    { intros j Hj. apply in_seq in Hj. apply (IH (S i) (fun js => F (Z.of_nat j :: js))). intros js Hl Hjs. apply H; [cbn; lia|].
      intros [|t] Ht; cbn [nth]; [lia|]. specialize (Hjs t ltac:(lia)). lia. }
    pose proof (mean_cls K (fun j s X => choice_mean (S i) mm (fun js => F (Z.of_nat j :: js) s X)) (seq 0 (S i))) as [M1 M2].
    { cbn. congruence. }
    { intros j Hj. now apply G. }
    rewrite seq_length in M1, M2. split; [exact M1|]. intros M HM. rewrite M2 by auto. f_equal. apply total_ext. intros j Hj. now apply G.
Qed.

(** * Transformations of functions which keep the weighted total *)
Definition keeps (E : R) (T : func -> func) : Prop := forall K F, 0 <= K -> cls C K F ->
  cls C (K + E) (T F) /\ forall M, K + E <= M -> tot M (T F) = tot M F.

Lemma keeps_id E : 0 <= E -> keeps E (fun F => F).
Proof. intros HE K F HK HF. split; [|auto]. apply (cls_le C K); auto. lra. Qed.
Lemma keeps_comp E E' T T' : 0 <= E -> 0 <= E' -> keeps E T -> keeps E' T' -> keeps (E' + E) (fun F => T (T' F)).
Proof.
  intros HE HE' H H' K F HK HF. destruct (H' K F HK HF) as (A1 & A2). destruct (H (K + E') (T' F)) as (B1 & B2); [lra|auto|].
  rewrite <- Rplus_assoc. split; auto. intros M HM. rewrite B2 by lra. apply A2. lra.
Qed.
Lemma keeps_ext E T T' : 0 <= E -> (forall F s X, In s confs -> length X = m -> T F s X = T' F s X) -> keeps E T -> keeps E T'.
Proof.
  intros HE H HT K F HK HF. destruct (HT K F HK HF) as (A1 & A2). split.
  - apply (cls_ext C (K + E) (T F)); auto.
  - intros M HM. rewrite <- A2 by auto. apply tot_ext; [lra|]. intros. symmetry. auto.
Qed.
Lemma keeps_choice E mm i (T : list Z -> func -> func) : 0 <= E ->
  (forall js, length js = mm -> (forall t, (t < mm)%nat -> (0 <= nth t js 0 <= Z.of_nat (i + t))%Z) -> keeps E (T js)) ->
  keeps E (fun F s X => choice_mean i mm (fun js => T js F s X)).
Proof.
  intros HE H K F HK HF. destruct (choice_cls (K + E) mm i (fun js => T js F)) as (A1 & A2).
  { intros js Hl Hjs. now apply (H js Hl Hjs K F). }
  split; auto. intros M HM. rewrite A2 by lra. rewrite <- (choice_mean_const mm i (tot M F)). apply choice_mean_ext.
  intros js Hl Hjs. now apply (H js Hl Hjs K F).
Qed.
Lemma keeps_mean {A} E xs (T : A -> func -> func) : 0 <= E -> xs <> [] -> (forall x, In x xs -> keeps E (T x)) ->
  keeps E (fun F s X => total (fun x => T x F s X) xs / INR (length xs)).
Proof.
  intros HE Hne H K F HK HF. destruct (mean_cls (K + E) (fun x => T x F) xs Hne) as (A1 & A2).
  { intros x Hx. now apply (H x Hx K F). }
  split; auto. intros M HM. rewrite A2 by lra. rewrite (total_ext _ (fun _ => tot M F)).
  - rewrite total_const. field. apply not_0_INR. destruct xs; [congruence|cbn; lia].
  - intros x Hx. now apply (H x Hx K F).
Qed.

(** * The phases *)
Variable D : R.
Hypothesis D_pos : 0 <= D.
Definition act_ok (a : list act) : Prop := length a = m /\ List.Forall (act_le D) a.

Definition accepted (u : R) (a : list act) (u' : R) (s : list Z) (X : list R) : list R :=
  if Rlt_dec u' (w s (acts u a X) / w s X) then acts u a X else X.
Lemma accepted_len u a u' s X : act_ok a -> length X = m -> length (accepted u a u' s X) = m.
Proof. intros (H & _) HX. unfold accepted. destruct Rlt_dec; auto. rewrite acts_length; lia. Qed.
Lemma accepted_mean u a s X (g : list R -> R) :
  RInt (fun u' => g (accepted u a u' s X)) 0 1 =
  prob (w s X) (w s (acts u a X)) * g (acts u a X) + (1 - prob (w s X) (w s (acts u a X))) * g X.
Proof.
  unfold prob. rewrite <- step_RInt. apply RInt_ext. intros u' _. unfold accepted. destruct (Rlt_dec _ _); auto.
Qed.
Lemma keeps_kern sg a : (forall s, In s confs -> In (sg s) confs /\ sg (sg s) = s) -> act_ok a -> keeps D (kern w sg a).
Proof.
  intros Hs (H1 & H2) K F HK HF.
  assert (S1 : forall s, In s confs -> In (sg s) confs) by (intros; now apply Hs).
  assert (S2 : forall s, In s confs -> sg (sg s) = s) by (intros; now apply Hs). split.
  - now apply (kern_cls m w confs w_pos w_reg sg a D).
  - intros M HM. now apply (kern_invariant m w confs w_pos w_reg (fields_nodup _) sg a D) with (C := C) (K := K).
Qed.

(** local updates at the given sites; [la i] is the proposal, [None] without coupling *)
Fixpoint run_locals (la : Z -> option (list act)) (sites : list Z) (us : list R) (s : list Z) (X : list R) : list R :=
  match sites with
  | [] => X
  | i :: sites =>
    match la i with
    | None => run_locals la sites us s X
    | Some a => match us with u :: u' :: us => run_locals la sites us s (accepted u a u' s X) | _ => X end
    end
  end.
Fixpoint local_kern (la : Z -> option (list act)) (sites : list Z) (F : func) : func :=
  match sites with
  | [] => F
  | i :: sites =>
    match la i with
    | None => local_kern la sites F
    | Some a => kern w (fun s => s) a (local_kern la sites F)
    end
  end.
Lemma local_mean la F : forall sites c s X, (2 * length sites <= c)%nat ->
  uniform_mean c (fun us => F s (run_locals la sites us s X)) = local_kern la sites F s X.
Proof.
  induction sites as [|i sites IH]; intros c s X Hc; cbn [run_locals local_kern length] in *.
  - apply uniform_mean_const.
  - destruct (la i) as [a|]; [|apply IH; lia].
    destruct c as [|[|c]]; try lia. cbn [uniform_mean]. unfold kern. apply RInt_ext. intros u _. cbv zeta.
    rewrite <- (accepted_mean u a s X (local_kern la sites F s)). apply RInt_ext. intros u' _. apply IH. lia.
Qed.
Lemma keeps_local la sites : (forall i a, In i sites -> la i = Some a -> act_ok a) -> keeps (INR (length sites) * D) (local_kern la sites).
Proof.
  induction sites as [|i sites IH]; intros H.
  - cbn. rewrite Rmult_0_l. apply keeps_id. lra.
  - assert (K0 : keeps (INR (length sites) * D) (local_kern la sites)) by (apply IH; intros; apply (H i0); [now right|auto]).
    assert (P : 0 <= INR (length sites) * D) by (apply Rmult_le_pos; auto; apply pos_INR).
    cbn [length local_kern]. rewrite S_INR, Rmult_plus_distr_r, Rmult_1_l. destruct (la i) as [a|] eqn:E.
    + apply (keeps_comp D (INR (length sites) * D) (kern w (fun s => s) a)); auto. apply keeps_kern; auto. apply (H i); [now left|auto].
    + intros K F HK HF. destruct (K0 K F HK HF) as (A1 & A2). split.
      * apply (cls_le C (K + INR (length sites) * D)); auto. lra.
      * intros M HM. apply A2. lra.
Qed.

(** flips of the discrete field *)
Fixpoint flip_kern (sg : Z -> list Z -> list Z) (sites : list Z) (F : func) : func :=
  match sites with [] => F | i :: sites => kern w (sg i) (repeat (Shift 0) m) (flip_kern sg sites F) end.
Lemma acts_still u : forall k X, length X = k -> acts u (repeat (Shift 0) k) X = X.
Proof.
  induction k as [|k IH]; intros [|x X] H; try discriminate; [reflexivity|]. unfold acts in *. cbn. f_equal; [ring|]. apply IH. now injection H.
Qed.
Lemma flip_mean sg F X : length X = m -> forall sites s,
  uniform_mean (length sites) (fun us => F (moves (fun s => w s X) sg sites us s) X) = flip_kern sg sites F s X.
Proof.
  intros HX. induction sites as [|i sites IH]; intros s; [reflexivity|]. cbn [length uniform_mean moves flip_kern]. unfold kern.
  match goal with |- _ = RInt ?g 0 1 => rewrite (RInt_ext g (fun _ => prob (w s X) (w (sg i s) X) * flip_kern sg sites F (sg i s) X + (1 - prob (w s X) (w (sg i s) X)) * flip_kern sg sites F s X)) end.
  - rewrite RInt_const. rewrite <- (step_RInt (w (sg i s) X / w s X)).
    transitivity (RInt (fun u => if Rlt_dec u (w (sg i s) X / w s X) then flip_kern sg sites F (sg i s) X else flip_kern sg sites F s X) 0 1).
    + apply RInt_ext. intros u _. rewrite IH. unfold move. destruct (Rlt_dec _ _); auto.
    + unfold scal; cbn; unfold mult; cbn. ring.
  - intros u _. cbv zeta. now rewrite acts_still.
Qed.
Lemma keeps_flips sg sites : (forall i, In i sites -> forall s, In s confs -> In (sg i s) confs /\ sg i (sg i s) = s) ->
  keeps (INR (length sites) * D) (flip_kern sg sites).
Proof.
  induction sites as [|i sites IH]; intros H.
  - cbn. rewrite Rmult_0_l. apply keeps_id. lra.
  - assert (K0 : keeps (INR (length sites) * D) (flip_kern sg sites)) by (apply IH; intros; apply H; [now right|auto]).
    assert (P : 0 <= INR (length sites) * D) by (apply Rmult_le_pos; auto; apply pos_INR).
    cbn [length flip_kern]. rewrite S_INR, Rmult_plus_distr_r, Rmult_1_l.
    apply (keeps_comp D (INR (length sites) * D) (kern w (sg i) (repeat (Shift 0) m))); auto. apply keeps_kern; [intros s Hs; apply H; [now left|auto]|].
    split; [apply repeat_length|]. apply List.Forall_forall. intros a Ha. apply repeat_spec in Ha. subst. cbn. rewrite Rabs_R0. auto.
Qed.

Variables (la : nat -> Z -> option (list act)) (ba fa : Z -> option (list act)) (nl : nat).
Inductive phase := HSFlips (l : nat) | Locals (l : nat) | Block | Flip.
Definition kind (p : phase) : draw := match p with HSFlips _ => DOrder n | Locals _ => DOrder (2 * nl) | Block => DSite 2 | Flip => DSite 1 end.
Definition site_list (js : list Z) : list Z := map (fun j => nth (j mod n) (order_of js) 0%Z) (seq 0 nl).

Definition step (p : phase) (e : entry) (c : list Z * list R) : list Z * list R :=
  let '(s, X) := c in
  match p, e with
  | HSFlips l, Order js us => (moves (fun s => w s X) (fun i => flipped n l (Z.to_nat i)) (order_of js) us s, X)
  | Locals l, Order js us => (s, run_locals (la l) (site_list js) us s X)
  | Block, Site j (u :: u' :: _) => (s, match ba j with None => X | Some a => accepted u a u' s X end)
  | Flip, Site j (u' :: _) => (s, match fa j with None => X | Some a => accepted 0 a u' s X end)
  | _, _ => c
  end.
Fixpoint run (ps : list phase) (t : list entry) (c : list Z * list R) : list Z * list R :=
  match ps, t with p :: ps, e :: t => run ps t (step p e c) | _, _ => c end.

Definition phase_kern (p : phase) (F : func) : func :=
  match p with
  | HSFlips l => fun s X => choice_mean 0 n (fun js => flip_kern (fun i => flipped n l (Z.to_nat i)) (order_of js) F s X)
  | Locals l => fun s X => choice_mean 0 n (fun js => local_kern (la l) (site_list js) F s X)
  | Block => fun s X => total (fun j => match ba (Z.of_nat j) with None => F s X | Some a => kern w (fun s => s) a F s X end) (seq 0 n) / INR (length (seq 0 n))
  | Flip => fun s X => total (fun j => match fa (Z.of_nat j) with None => F s X | Some a => kern w (fun s => s) a F s X end) (seq 0 n) / INR (length (seq 0 n))
  end.
Definition runs_kern (ps : list phase) (F : func) : func := fold_right phase_kern F ps.

Hypothesis fa_still : forall j a, fa j = Some a -> forall u v X, acts u a X = acts v a X.
Hypothesis n_pos : (0 < n)%nat.
Hypothesis la_ok : forall l i a, (l < L)%nat -> (0 <= i < Z.of_nat n)%Z -> la l i = Some a -> act_ok a.
Hypothesis ba_ok : forall i a, (0 <= i < Z.of_nat n)%Z -> ba i = Some a -> act_ok a.
Hypothesis fa_ok : forall i a, (0 <= i < Z.of_nat n)%Z -> fa i = Some a -> act_ok a.

Lemma site_list_length js : length (site_list js) = nl.
Proof. unfold site_list. now rewrite map_length, seq_length. Qed.

Lemma phase_mean p ps F : (forall s X, length X = m -> draws_mean n (map kind ps) (fun t => let c := run ps t (s, X) in F (fst c) (snd c)) = runs_kern ps F s X) ->
  (forall l i a, p = Locals l -> (0 <= i < Z.of_nat n)%Z -> la l i = Some a -> length a = m) ->
  forall s X, length X = m ->
  draws_mean n (map kind (p :: ps)) (fun t => let c := run (p :: ps) t (s, X) in F (fst c) (snd c)) = runs_kern (p :: ps) F s X.
Proof.
  intros IH Hla s X HX. cbn [map draws_mean]. destruct p as [l|l| |]; cbn [kind runs_kern fold_right phase_kern].
  - apply choice_mean_ext. intros js Hl Hjs. fold (runs_kern ps F).
    assert (E : length (order_of js) = n) by (unfold order_of; now rewrite fy_run_length, map_length).
    rewrite <- flip_mean by auto. rewrite E. apply uniform_mean_ext. intros us _ _. cbn [run step]. now apply IH.
  - apply choice_mean_ext. intros js Hl Hjs. fold (runs_kern ps F).
    rewrite <- (local_mean (la l) (runs_kern ps F) (site_list js) (2 * nl)) by (rewrite site_list_length; lia).
    apply uniform_mean_ext. intros us _ _. cbn [run step]. apply IH.
    assert (HS : forall i, In i (site_list js) -> (0 <= i < Z.of_nat n)%Z).
    { intros i Hi. unfold site_list in Hi. apply in_map_iff in Hi as (q & <- & _).
      assert (V : valid_choices js) by (intros t Ht; apply Hjs; lia).
      pose proof (order_of_perm n js Hl V) as Pm.
      assert (In (nth (q mod n) (order_of js) 0%Z) (order_of js)) as Hin.
      { apply nth_In. unfold order_of. rewrite fy_run_length, map_length, Hl. apply Nat.mod_upper_bound. lia. }
      apply (Permutation_in _ Pm) in Hin. apply in_map_iff in Hin as (z & <- & Hz). apply in_seq in Hz. lia. }
    clear - HX HS Hla. revert us X HX. induction (site_list js) as [|i sites IH']; intros us X HX; cbn [run_locals]; auto.
    destruct (la l i) as [a|] eqn:E; [|apply IH'; auto; intros; apply HS; now right].
    destruct us as [|u [|u' us]]; auto. apply IH'; [intros; apply HS; now right|].
    unfold accepted. destruct Rlt_dec; auto. rewrite acts_length; auto. rewrite HX. apply (Hla l i); auto. apply HS. now left.
  - rewrite seq_length. f_equal. apply total_ext. intros j Hj. apply in_seq in Hj. fold (runs_kern ps F).
    destruct (ba (Z.of_nat j)) as [a|] eqn:E.
    + cbn [uniform_mean]. unfold kern. apply RInt_ext. intros u _. cbv zeta. rewrite <- (accepted_mean u a s X (runs_kern ps F s)).
      apply RInt_ext. intros u' _. cbn [run step]. rewrite E. apply IH. apply accepted_len; auto. apply (ba_ok (Z.of_nat j)); auto. lia.
    + rewrite <- (uniform_mean_const 2 (runs_kern ps F s X)). apply uniform_mean_ext. intros [|u [|u' us]] Hl _; try discriminate.
      cbn [run step]. rewrite E. now apply IH.
  - rewrite seq_length. f_equal. apply total_ext. intros j Hj. apply in_seq in Hj. fold (runs_kern ps F).
    destruct (fa (Z.of_nat j)) as [a|] eqn:E.
    + cbn [uniform_mean]. unfold kern.
      match goal with |- _ = RInt ?g 0 1 => rewrite (RInt_ext g (fun _ => prob (w s X) (w s (acts 0 a X)) * runs_kern ps F s (acts 0 a X) + (1 - prob (w s X) (w s (acts 0 a X))) * runs_kern ps F s X)) end.
      * rewrite RInt_const. rewrite <- (accepted_mean 0 a s X (runs_kern ps F s)).
        transitivity (RInt (fun u' => runs_kern ps F s (accepted 0 a u' s X)) 0 1).
        -- apply RInt_ext. intros u' _. cbn [run step]. rewrite E. apply IH. apply accepted_len; auto. apply (fa_ok (Z.of_nat j)); auto. lia.
        -- unfold scal; cbn; unfold mult; cbn. ring.
      * intros u _. cbv zeta. now rewrite (fa_still _ _ E u 0 X).
    + rewrite <- (uniform_mean_const 1 (runs_kern ps F s X)). apply uniform_mean_ext. intros [|u us] Hl _; try discriminate.
      cbn [run step]. rewrite E. now apply IH.
Qed.

Definition phase_ok (p : phase) : Prop := match p with HSFlips l | Locals l => (l < L)%nat | _ => True end.
Lemma runs_mean ps F : List.Forall phase_ok ps -> forall s X, length X = m ->
  draws_mean n (map kind ps) (fun t => let c := run ps t (s, X) in F (fst c) (snd c)) = runs_kern ps F s X.
Proof.
  induction 1 as [|p ps Hp Hps IH]; intros s X HX; [reflexivity|]. apply phase_mean; auto.
  intros l i a -> Hi E. now apply (la_ok l i a).
Qed.

Definition phase_width (p : phase) : R := match p with HSFlips _ => INR n * D | Locals _ => INR nl * D | _ => D end.
Lemma phase_width_pos p : 0 <= phase_width p.
Proof. destruct p; cbn; auto; apply Rmult_le_pos; auto; apply pos_INR. Qed.
Lemma keeps_phase p : phase_ok p -> keeps (phase_width p) (phase_kern p).
Proof.
  intros Hp. pose proof (phase_width_pos p) as P. destruct p as [l|l| |]; cbn [phase_ok phase_width phase_kern] in *.
  - apply keeps_choice; auto. intros js Hl Hjs.
    assert (E : length (order_of js) = n) by (unfold order_of; now rewrite fy_run_length, map_length).
    assert (V : valid_choices js) by (intros t Ht; apply Hjs; lia).
    rewrite <- E at 1. apply keeps_flips. intros i Hi s Hs.
    apply (Permutation_in _ (order_of_perm n js Hl V)) in Hi. apply in_map_iff in Hi as (x & <- & Hx). apply in_seq in Hx. rewrite Nat2Z.id.
    assert (l * n + x < L * n)%nat by nia. unfold flipped. split.
    + now apply lset_in.
    + apply lset_back. apply fields_in in Hs as [-> _]. auto.
  - apply keeps_choice; auto. intros js Hl Hjs. rewrite <- (site_list_length js). apply keeps_local. intros i a Hi Ha.
    apply (la_ok l i a); auto. unfold site_list in Hi. apply in_map_iff in Hi as (q & <- & _).
    assert (V : valid_choices js) by (intros t Ht; apply Hjs; lia).
    assert (In (nth (q mod n) (order_of js) 0%Z) (order_of js)) as Hin.
    { apply nth_In. unfold order_of. rewrite fy_run_length, map_length, Hl. apply Nat.mod_upper_bound. lia. }
    apply (Permutation_in _ (order_of_perm n js Hl V)) in Hin. apply in_map_iff in Hin as (z & <- & Hz). apply in_seq in Hz. lia.
  - apply (keeps_mean D (seq 0 n) (fun j F s X => match ba (Z.of_nat j) with None => F s X | Some a => kern w (fun s => s) a F s X end)); auto.
    { intro E. apply (f_equal (@length nat)) in E. rewrite seq_length in E. cbn in E. lia. }
    intros j Hj. apply in_seq in Hj. destruct (ba (Z.of_nat j)) as [a|] eqn:E; [|now apply keeps_id].
    apply keeps_kern; auto. apply (ba_ok (Z.of_nat j)); auto. lia.
  - apply (keeps_mean D (seq 0 n) (fun j F s X => match fa (Z.of_nat j) with None => F s X | Some a => kern w (fun s => s) a F s X end)); auto.
    { intro E. apply (f_equal (@length nat)) in E. rewrite seq_length in E. cbn in E. lia. }
    intros j Hj. apply in_seq in Hj. destruct (fa (Z.of_nat j)) as [a|] eqn:E; [|now apply keeps_id].
    apply keeps_kern; auto. apply (fa_ok (Z.of_nat j)); auto. lia.
Qed.
Lemma keeps_runs ps : List.Forall phase_ok ps -> exists E, 0 <= E /\ keeps E (runs_kern ps).
Proof.
  induction 1 as [|p ps Hp Hps (E & HE & IH)].
  - exists 0. split; [lra|]. apply keeps_id. lra.
  - exists (E + phase_width p). pose proof (phase_width_pos p). split; [lra|].
    apply (keeps_comp (phase_width p) E (phase_kern p) (runs_kern ps)); auto. now apply keeps_phase.
Qed.
Theorem runs_invariant ps K F : List.Forall phase_ok ps -> 0 <= K -> cls C K F ->
  exists M0, 0 <= M0 /\ forall M, M0 <= M ->
  tot M (fun s X => draws_mean n (map kind ps) (fun t => let c := run ps t (s, X) in F (fst c) (snd c))) = tot M F.
Proof.
  intros Hps HK HF. destruct (keeps_runs ps Hps) as (E & HE & H). exists (K + E). split; [lra|]. intros M HM.
  rewrite <- (proj2 (H K F HK HF) M HM). apply tot_ext; [lra|]. intros s X Hs HX. now apply runs_mean.
Qed.
End Kernels.
