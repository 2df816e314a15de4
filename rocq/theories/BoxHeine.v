(** Continuous functions are bounded and uniformly continuous on boxes. *)
From Coq Require Import List Reals Lra Lia ClassicalEpsilon.
From Coquelicot Require Import Coquelicot.
From Verif Require Import BoxSpec BoxFacts.
Import ListNotations.
Local Open Scope R_scope.

Fixpoint to_tn (m : nat) (X : list R) : Tn m R :=
  match m return Tn m R with O => tt | S m => (hd 0 X, to_tn m (tl X)) end.
Fixpoint of_tn (m : nat) : Tn m R -> list R :=
  match m return Tn m R -> list R with O => fun _ => [] | S m => fun t => fst t :: of_tn m (snd t) end.
Lemma of_tn_length m : forall t, length (of_tn m t) = m.
Proof. induction m as [|m IH]; intros t; cbn; auto. Qed.
Fixpoint const_tn (m : nat) (c : R) : Tn m R := match m return Tn m R with O => tt | S m => (c, const_tn m c) end.
Lemma bounded_tn M m : forall X, length X = m -> in_box M X -> bounded_n m (const_tn m (- M)) (const_tn m M) (to_tn m X).
Proof.
  induction m as [|m IH]; intros [|x X] Hl H; try discriminate; cbn; auto. inversion H; subst. split; [|apply IH; auto].
  apply Rabs_le_between. auto.
Qed.
Lemma close_tn d m : forall X t, length X = m -> close_n m d (to_tn m X) t -> near d (of_tn m t) X.
Proof.
  induction m as [|m IH]; intros [|x X] t Hl H; try discriminate; cbn in *; [constructor|]. destruct t as [y t], H as [H1 H2].
  constructor; [exact H1 || (rewrite Rabs_minus_sym; exact H1)|]. apply IH; auto.
Qed.
Lemma near_trans d e X Y Z : near d X Y -> near e Y Z -> near (d + e) X Z.
Proof.
  intros H. revert Z. induction H as [|x y X Y Hxy H IH]; intros Z HZ; inversion HZ; subst; constructor; [|now apply IH].
  match goal with K : Rabs (y - ?z) < e |- Rabs (x - ?z) < _ => replace (x - z) with ((x - y) + (y - z)) by ring; pose proof (Rabs_triang (x - y) (y - z)); lra end.
Qed.

Lemma continuous_uniform m f M eps : continuous_in m f -> 0 < eps ->
  exists d, 0 < d /\ forall X Y, length X = m -> in_box M X -> near d X Y -> Rabs (f X - f Y) < eps.
Proof.
  intros Hf He.
  assert (Hd : forall t : Tn m R, exists d : posreal, forall Y, near (2 * d) (of_tn m t) Y -> Rabs (f (of_tn m t) - f Y) < eps / 2).
  { intros t. destruct (Hf (of_tn m t) (of_tn_length m t) (eps / 2) ltac:(lra)) as (d & Hd & H).
    assert (P : 0 < d / 2) by lra. exists (mkposreal _ P). intros Y HY. apply H. cbn in HY. replace (2 * (d / 2)) with d in HY by field. auto. }
  pose (delta := fun t => proj1_sig (constructive_indefinite_description _ (Hd t))).
  assert (Hdelta : forall t Y, near (2 * delta t) (of_tn m t) Y -> Rabs (f (of_tn m t) - f Y) < eps / 2).
  { intros t. exact (proj2_sig (constructive_indefinite_description _ (Hd t))). }
  destruct (compactness_value m (const_tn m (- M)) (const_tn m M) delta) as (d & H).
  exists d. split; [apply cond_pos|]. intros X Y Hl HX HXY.
  destruct (Rlt_dec (Rabs (f X - f Y)) eps) as [|N]; auto. exfalso.
  apply (H (to_tn m X) (bounded_tn M m X Hl HX)). intros (t & _ & Hc & Hle). apply N.
  assert (N1 : near (delta t) (of_tn m t) X) by (now apply close_tn).
  assert (A : Rabs (f (of_tn m t) - f X) < eps / 2).
  { apply Hdelta. apply (near_le (delta t)); auto. pose proof (cond_pos (delta t)). lra. }
  assert (B : Rabs (f (of_tn m t) - f Y) < eps / 2).
  { apply Hdelta. replace (2 * delta t) with (delta t + delta t) by ring. apply near_trans with X; auto. apply (near_le d); auto. }
  replace (f X - f Y) with (- (f (of_tn m t) - f X) + (f (of_tn m t) - f Y)) by ring.
  pose proof (Rabs_triang (- (f (of_tn m t) - f X)) (f (of_tn m t) - f Y)). rewrite Rabs_Ropp in *. lra.
Qed.

Definition scaled (c : R) (X : list R) : list R := map (fun x => c * x) X.
Lemma scaled_box M c X : 0 <= c <= 1 -> in_box M X -> in_box M (scaled c X).
Proof.
  intros Hc H. unfold in_box, scaled in *. apply List.Forall_map. apply (List.Forall_impl) with (2 := H). intros x Hx. cbn.
  rewrite Rabs_mult, (Rabs_pos_eq c) by lra. pose proof (Rabs_pos x). nra.
Qed.
Lemma scaled_near M c c' d X : in_box M X -> Rabs (c - c') * M < d -> near d (scaled c X) (scaled c' X).
Proof.
  intros H Hd. induction H as [|x X Hx H IH]; cbn; [constructor|]. constructor; auto. replace (c * x - c' * x) with ((c - c') * x) by ring.
  rewrite Rabs_mult. pose proof (Rabs_pos (c - c')). nra.
Qed.

Lemma continuous_reg m f : continuous_in m f -> reg m f.
Proof.
  intros Hf M. destruct (continuous_uniform m f M 1 Hf ltac:(lra)) as (d & Hd & H1). split.
  - destruct (Rle_dec M 0) as [HM|HM].
    + (* at most the origin *)
      exists (Rabs (f (repeat 0 m)) ). split; [apply Rabs_pos|]. intros X Hl HX. right.
      replace X with (repeat 0 m); [reflexivity|]. subst m. clear - HX HM. induction HX as [|x X Hx HX IH]; cbn; auto. rewrite IH. f_equal.
      pose proof (Rabs_pos x). destruct (Req_dec x 0); auto. pose proof (Rabs_pos_lt x H0). lra.
    + destruct (archimed_cor1 (d / (M + 1))) as (N & HN & HN0); [apply Rdiv_lt_0_compat; lra|].
      assert (PN : 0 < INR N) by (apply lt_0_INR; lia).
      exists (Rabs (f (repeat 0 m)) + INR N). split; [pose proof (Rabs_pos (f (repeat 0 m))); lra|]. intros X Hl HX.
      assert (A : forall j, (j <= N)%nat -> Rabs (f (scaled (INR j / INR N) X)) <= Rabs (f (repeat 0 m)) + INR j).
      { induction j as [|j IH]; intros Hj.
        - replace (scaled (INR 0 / INR N) X) with (repeat 0 m); [cbn; lra|]. subst m. clear. induction X as [|x X IH]; cbn; auto. f_equal; auto.
          unfold Rdiv. ring.
        - specialize (IH ltac:(lia)). assert (Bx : 0 <= INR j / INR N <= 1).
          { split; [apply Rdiv_le_0_compat; auto; apply pos_INR|]. apply Rle_div_l; auto. rewrite Rmult_1_l. apply le_INR. lia. }
          assert (C : Rabs (f (scaled (INR j / INR N) X) - f (scaled (INR (S j) / INR N) X)) < 1).
          { apply H1; [unfold scaled; now rewrite map_length|now apply scaled_box|]. apply (scaled_near M); auto.
            replace (INR j / INR N - INR (S j) / INR N) with (- / INR N) by (rewrite S_INR; field; lra).
            rewrite Rabs_Ropp, Rabs_pos_eq by (left; now apply Rinv_0_lt_compat).
            apply (Rmult_lt_compat_r (M + 1)) in HN; [|lra]. unfold Rdiv in HN. rewrite Rmult_assoc, Rinv_l, Rmult_1_r in HN by lra.
            pose proof (Rinv_0_lt_compat _ PN). nra. }
          revert IH C. generalize (f (scaled (INR j / INR N) X)) (f (scaled (INR (S j) / INR N) X)). intros a b IH C. rewrite S_INR.
          pose proof (Rabs_triang a (- (a - b))) as T. rewrite Rabs_Ropp in T. replace (a + - (a - b)) with b in T by ring. lra. }
      specialize (A N (le_n N)). replace (scaled (INR N / INR N) X) with X in A; auto.
      replace (INR N / INR N) with 1 by (field; lra). unfold scaled. rewrite (map_ext _ (fun x => x)) by (intros; ring). now rewrite map_id.
  - intros eps He. destruct (continuous_uniform m f M eps Hf He) as (d' & Hd' & H'). exists d'. split; auto.
Qed.

Lemma box_const m M c : box_int m M (fun _ => c) = c * (2 * M) ^ m.
Proof.
  induction m as [|m IH]; [cbn; ring|]. cbn [box_int pow].
  rewrite (RInt_ext _ (fun _ => c * (2 * M) ^ m)) by (intros; apply IH). rewrite RInt_const. unfold scal; cbn; unfold mult; cbn. ring.
Qed.
Lemma box_one M (g : R -> R) : box_int 1 M (fun X => g (nth 0 X 0)) = RInt g (- M) M.
Proof. reflexivity. Qed.
