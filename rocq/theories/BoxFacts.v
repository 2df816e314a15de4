(** Functions of a list of real numbers which are bounded and uniformly continuous on boxes; iterated integrals. *)
From Coq Require Import List Reals Lra Lia.
From Coquelicot Require Import Coquelicot.
From Verif Require Import BoxSpec.
Import ListNotations.
Local Open Scope R_scope.

(** bounded and uniformly continuous on all boxes *)
Definition reg (m : nat) (f : list R -> R) : Prop := forall M,
  (exists C, 0 <= C /\ forall X, length X = m -> in_box M X -> Rabs (f X) <= C) /\
  (forall eps, 0 < eps -> exists d, 0 < d /\ forall X Y, length X = m -> in_box M X -> in_box M Y -> near d X Y -> Rabs (f X - f Y) < eps).
(** the same for maps *)
Definition regmap (m m' : nat) (T : list R -> list R) : Prop :=
  (forall X, length X = m -> length (T X) = m') /\
  forall M,
  (exists C, forall X, length X = m -> in_box M X -> in_box C (T X)) /\
  (forall eps, 0 < eps -> exists d, 0 < d /\ forall X Y, length X = m -> in_box M X -> in_box M Y -> near d X Y -> near eps (T X) (T Y)).

Lemma near_length d X Y : near d X Y -> length X = length Y.
Proof. unfold near. induction 1; cbn; auto. Qed.
Lemma near_le d d' X Y : d <= d' -> near d X Y -> near d' X Y.
Proof. intros H. unfold near. induction 1; constructor; auto. lra. Qed.
Lemma near_refl d X : 0 < d -> near d X X.
Proof. intros H. induction X; constructor; auto. rewrite Rminus_eq_0, Rabs_R0. auto. Qed.
Lemma near_sym d X Y : near d X Y -> near d Y X.
Proof. unfold near. induction 1; constructor; auto. now rewrite Rabs_minus_sym. Qed.
Lemma box_le M M' X : M <= M' -> in_box M X -> in_box M' X.
Proof. intros H. apply Forall_impl. intros; lra. Qed.

Lemma reg_ext m f g : (forall X, length X = m -> f X = g X) -> reg m f -> reg m g.
Proof.
  intros E H M. destruct (H M) as ((C & HC & B) & U). split.
  - exists C. split; auto. intros X HX HM. rewrite <- E by auto. auto.
  - intros eps He. destruct (U eps He) as (d & Hd & V). exists d. split; auto. intros X Y HX H1 H2 HN.
    rewrite <- !E; auto. now rewrite <- (near_length _ _ _ HN).
Qed.
Lemma reg_const m c : reg m (fun _ => c).
Proof.
  intros M. split.
  - exists (Rabs c). split; [apply Rabs_pos|]. intros. lra.
  - intros eps He. exists 1. split; [lra|]. intros. rewrite Rminus_eq_0, Rabs_R0. auto.
Qed.
Lemma near_nth d p : forall X Y, near d X Y -> (p < length X)%nat -> Rabs (nth p X 0 - nth p Y 0) < d.
Proof.
  induction p as [|p IH]; intros X Y H Hp; inversion H; subst; cbn in *; try lia; auto. apply IH; auto. lia.
Qed.
Lemma reg_nth m p : reg m (fun X => nth p X 0).
Proof.
  intros M. split.
  - exists (Rmax 0 M). split; [apply Rmax_l|]. intros X HX HM. destruct (Nat.lt_ge_cases p (length X)).
    + unfold in_box in HM. rewrite List.Forall_forall in HM. pose proof (Rmax_r 0 M). specialize (HM (nth p X 0) (nth_In _ _ H)). cbv beta in HM. lra.
    + rewrite nth_overflow by auto. rewrite Rabs_R0. apply Rmax_l.
  - intros eps He. exists eps. split; auto. intros X Y HX _ _ HN. destruct (Nat.lt_ge_cases p (length X)).
    + now apply near_nth.
    + rewrite !nth_overflow; auto; [|now rewrite <- (near_length _ _ _ HN)]. rewrite Rminus_eq_0, Rabs_R0. auto.
Qed.
Lemma reg_plus m f g : reg m f -> reg m g -> reg m (fun X => f X + g X).
Proof.
  intros Hf Hg M. destruct (Hf M) as ((C & HC & B) & U), (Hg M) as ((C' & HC' & B') & U'). split.
  - exists (C + C'). split; [lra|]. intros X HX HM. specialize (B X HX HM). specialize (B' X HX HM).
    pose proof (Rabs_triang (f X) (g X)). lra.
  - intros eps He. destruct (U (eps / 2) ltac:(lra)) as (d & Hd & V), (U' (eps / 2) ltac:(lra)) as (d' & Hd' & V').
    exists (Rmin d d'). split; [now apply Rmin_glb_lt|]. intros X Y HX H1 H2 HN.
    specialize (V X Y HX H1 H2 (near_le _ _ _ _ (Rmin_l _ _) HN)). specialize (V' X Y HX H1 H2 (near_le _ _ _ _ (Rmin_r _ _) HN)).
    replace (f X + g X - (f Y + g Y)) with ((f X - f Y) + (g X - g Y)) by ring.
    pose proof (Rabs_triang (f X - f Y) (g X - g Y)). lra.
Qed.
Lemma reg_mult m f g : reg m f -> reg m g -> reg m (fun X => f X * g X).
Proof.
  intros Hf Hg M. destruct (Hf M) as ((C & HC & B) & U), (Hg M) as ((C' & HC' & B') & U'). split.
  - exists (C * C'). split; [nra|]. intros X HX HM. specialize (B X HX HM). specialize (B' X HX HM).
    rewrite Rabs_mult. apply Rmult_le_compat; auto using Rabs_pos.
  - intros eps He.
    assert (P1 : 0 < eps / (2 * (C + 1))) by (apply Rdiv_lt_0_compat; lra).
    assert (P2 : 0 < eps / (2 * (C' + 1))) by (apply Rdiv_lt_0_compat; lra).
    destruct (U _ P2) as (d & Hd & V), (U' _ P1) as (d' & Hd' & V').
    exists (Rmin d d'). split; [now apply Rmin_glb_lt|]. intros X Y HX H1 H2 HN.
    assert (HY : length Y = m) by (rewrite <- (near_length _ _ _ HN); auto).
    specialize (V X Y HX H1 H2 (near_le _ _ _ _ (Rmin_l _ _) HN)). specialize (V' X Y HX H1 H2 (near_le _ _ _ _ (Rmin_r _ _) HN)).
    replace (f X * g X - f Y * g Y) with (f X * (g X - g Y) + (f X - f Y) * g Y) by ring.
    pose proof (Rabs_triang (f X * (g X - g Y)) ((f X - f Y) * g Y)) as T. rewrite !Rabs_mult in T.
    specialize (B X HX H1). specialize (B' Y HY H2).
    assert (Rabs (f X) * Rabs (g X - g Y) <= C * (eps / (2 * (C + 1)))) by (apply Rmult_le_compat; auto using Rabs_pos; lra).
    assert (Rabs (f X - f Y) * Rabs (g Y) <= eps / (2 * (C' + 1)) * C') by (apply Rmult_le_compat; auto using Rabs_pos; lra).
    assert (C * (eps / (2 * (C + 1))) < eps / 2).
    { replace (eps / 2) with ((C + 1) * (eps / (2 * (C + 1)))) by (field; lra). nra. }
    assert (eps / (2 * (C' + 1)) * C' < eps / 2).
    { replace (eps / 2) with ((C' + 1) * (eps / (2 * (C' + 1)))) by (field; lra). nra. }
    lra.
Qed.
Lemma reg_opp m f : reg m f -> reg m (fun X => - f X).
Proof.
  intros H. apply (reg_ext m (fun X => -1 * f X)); [intros; ring|]. apply reg_mult; auto. apply reg_const.
Qed.
Lemma reg_minus m f g : reg m f -> reg m g -> reg m (fun X => f X - g X).
Proof. intros Hf Hg. apply reg_plus; auto. now apply reg_opp. Qed.

(** Lipschitz functions *)
Lemma reg_lip m f g K : 0 <= K -> reg m f -> (forall X Y, length X = m -> length Y = m -> Rabs (g X - g Y) <= K * Rabs (f X - f Y)) ->
  (forall M, exists C, 0 <= C /\ forall X, length X = m -> in_box M X -> Rabs (g X) <= C) -> reg m g.
Proof.
  intros HK Hf HL HB M. split; [apply HB|]. destruct (Hf M) as (_ & U). intros eps He.
  destruct (U (eps / (K + 1))) as (d & Hd & V); [apply Rdiv_lt_0_compat; lra|]. exists d. split; auto. intros X Y HX H1 H2 HN.
  assert (HY : length Y = m) by (rewrite <- (near_length _ _ _ HN); auto).
  specialize (V X Y HX H1 H2 HN). specialize (HL X Y HX HY).
  assert (K * Rabs (f X - f Y) <= K * (eps / (K + 1))) by (apply Rmult_le_compat_l; lra).
  assert (0 < eps / (K + 1)) by (apply Rdiv_lt_0_compat; lra).
  assert (K * (eps / (K + 1)) < eps); [|lra]. apply Rlt_le_trans with ((K + 1) * (eps / (K + 1))); [nra|]. right. field. lra.
Qed.
Lemma reg_abs m f : reg m f -> reg m (fun X => Rabs (f X)).
Proof.
  intros H. apply (reg_lip m f _ 1); auto; [lra| |].
  - intros. rewrite Rmult_1_l. apply Rabs_triang_inv2.
  - intros M. destruct (H M) as ((C & HC & B) & _). exists C. split; auto. intros. rewrite Rabs_Rabsolu. auto.
Qed.
Lemma reg_min m f g : reg m f -> reg m g -> reg m (fun X => Rmin (f X) (g X)).
Proof.
  intros Hf Hg. apply (reg_ext m (fun X => (f X + g X - Rabs (f X - g X)) * / 2)).
  - intros X _. unfold Rmin, Rabs. destruct (Rle_dec _ _), (Rcase_abs _); lra.
  - apply reg_mult; [|apply reg_const]. apply reg_minus; [now apply reg_plus|]. apply reg_abs. now apply reg_minus.
Qed.
Lemma exp_lip C x y : Rabs x <= C -> Rabs y <= C -> Rabs (exp x - exp y) <= exp C * Rabs (x - y).
Proof.
  assert (H : forall x y, y <= x -> x <= C -> Rabs (exp x - exp y) <= exp C * Rabs (x - y)).
  { clear. intros x y H1 H2. rewrite (Rabs_pos_eq (x - y)) by lra.
    assert (exp y <= exp x) by (destruct H1 as [H1| ->]; [left; now apply exp_increasing|lra]).
    rewrite Rabs_pos_eq by lra.
    assert (exp x <= exp C) by (destruct H2 as [H2| ->]; [left; now apply exp_increasing|lra]).
    assert (exp y = exp x * exp (- (x - y))) as -> by (rewrite <- exp_plus; f_equal; ring).
    assert (1 + - (x - y) <= exp (- (x - y))).
    { destruct H1 as [H1| ->]; [|rewrite Rminus_eq_0, Ropp_0, exp_0; lra]. left. apply exp_ineq1. lra. }
    pose proof (exp_pos x). nra. }
  intros Hx Hy. destruct (Rle_dec y x).
  - apply H; auto. apply Rle_trans with (Rabs x); auto. apply Rle_abs.
  - rewrite Rabs_minus_sym, (Rabs_minus_sym x). apply H; [lra|]. apply Rle_trans with (Rabs y); auto. apply Rle_abs.
Qed.
Lemma reg_exp m f : reg m f -> reg m (fun X => exp (f X)).
Proof.
  intros H M. destruct (H M) as ((C & HC & B) & U). split.
  - exists (exp C). split; [left; apply exp_pos|]. intros X HX HM. rewrite Rabs_pos_eq by (left; apply exp_pos).
    specialize (B X HX HM). assert (f X <= C) as [Hl| ->] by (pose proof (Rle_abs (f X)); lra); [left; now apply exp_increasing|lra].
  - intros eps He. pose proof (exp_pos C) as P. destruct (U (eps / exp C)) as (d & Hd & V); [now apply Rdiv_lt_0_compat|].
    exists d. split; auto. intros X Y HX H1 H2 HN.
    assert (HY : length Y = m) by (rewrite <- (near_length _ _ _ HN); auto).
    apply Rle_lt_trans with (exp C * Rabs (f X - f Y)); [apply exp_lip; auto|].
    replace eps with (exp C * (eps / exp C)) by (field; lra). apply Rmult_lt_compat_l; auto.
Qed.
Lemma reg_map m m' f T : reg m' f -> regmap m m' T -> reg m (fun X => f (T X)).
Proof.
  intros Hf (HT & H) M. destruct (H M) as ((M' & B') & U'). destruct (Hf M') as ((C & HC & B) & U). split.
  - exists C. split; auto.
  - intros eps He. destruct (U eps He) as (d & Hd & V). destruct (U' d Hd) as (d' & Hd' & V'). exists d'. split; auto.
    intros X Y HX H1 H2 HN. assert (HY : length Y = m) by (rewrite <- (near_length _ _ _ HN); auto). apply V; auto.
Qed.

(** maps given by their entries *)
Lemma regmap_nil m : regmap m 0 (fun _ => []).
Proof.
  split; auto. intros M. split; [exists 0; intros; constructor|]. intros eps He. exists 1. split; [lra|]. intros; constructor.
Qed.
Lemma regmap_cons m m' f T : reg m f -> regmap m m' T -> regmap m (S m') (fun X => f X :: T X).
Proof.
  intros Hf (HT & H). split; [intros; cbn; now rewrite HT|]. intros M. destruct (H M) as ((M' & B') & U'). destruct (Hf M) as ((C & HC & B) & U). split.
  - exists (Rmax C M'). intros X HX HM. constructor.
    + apply Rle_trans with C; [auto|apply Rmax_l].
    + apply (box_le M'); [apply Rmax_r|auto].
  - intros eps He. destruct (U eps He) as (d & Hd & V). destruct (U' eps He) as (d' & Hd' & V').
    exists (Rmin d d'). split; [now apply Rmin_glb_lt|]. intros X Y HX H1 H2 HN. constructor.
    + apply V; auto. apply (near_le _ _ _ _ (Rmin_l _ _) HN).
    + apply V'; auto. apply (near_le _ _ _ _ (Rmin_r _ _) HN).
Qed.
Lemma regmap_ext m m' T T' : (forall X, length X = m -> T X = T' X) -> regmap m m' T -> regmap m m' T'.
Proof.
  intros E (HT & H). split; [intros; rewrite <- E; auto|]. intros M. destruct (H M) as ((C & B) & U). split.
  - exists C. intros. rewrite <- E; auto.
  - intros eps He. destruct (U eps He) as (d & Hd & V). exists d. split; auto. intros X Y HX H1 H2 HN.
    assert (HY : length Y = m) by (rewrite <- (near_length _ _ _ HN); auto). rewrite <- !E; auto.
Qed.
Lemma list_nth_seq (X : list R) m : length X = m -> X = map (fun p => nth p X 0) (seq 0 m).
Proof.
  intros <-. apply (nth_ext _ _ 0 0); [now rewrite map_length, seq_length|]. intros p Hp.
  rewrite (nth_indep (map _ _) 0 ((fun p => nth p X 0) 0%nat)) by (rewrite map_length, seq_length; auto).
  rewrite (map_nth (fun p => nth p X 0)), seq_nth by auto. reflexivity.
Qed.
Lemma regmap_entries m m' T : (forall X, length X = m -> length (T X) = m') ->
  (forall p, (p < m')%nat -> reg m (fun X => nth p (T X) 0)) -> regmap m m' T.
Proof.
  intros HT H. apply (regmap_ext m m' (fun X => map (fun p => nth p (T X) 0) (seq 0 m'))).
  { intros X HX. symmetry. apply list_nth_seq. auto. }
  assert (G : forall ps, (forall p, In p ps -> (p < m')%nat) -> regmap m (length ps) (fun X => map (fun p => nth p (T X) 0) ps)).
  { induction ps as [|p ps IH]; intros Hp; [apply regmap_nil|]. cbn [map length]. apply regmap_cons.
    - apply H, Hp. now left.
    - apply IH. intros; apply Hp. now right. }
  rewrite <- (seq_length m' 0) at 1. apply G. intros p Hp. apply in_seq in Hp. lia.
Qed.

(** * Integrals *)
Lemma near_cons x y d X : 0 < d -> Rabs (x - y) < d -> near d (x :: X) (y :: X).
Proof. intros. constructor; auto. now apply near_refl. Qed.
Lemma box_cover X : exists M, 0 <= M /\ in_box M X.
Proof.
  induction X as [|x X (M & HM & IH)]; [exists 0; split; [lra|constructor]|].
  exists (Rmax (Rabs x) M). split; [apply Rle_trans with M; auto; apply Rmax_r|]. constructor; [apply Rmax_l|].
  apply (box_le M); auto. apply Rmax_r.
Qed.
Lemma reg_continuous m G X : reg (S m) G -> length X = m -> forall u, continuous (fun u => G (u :: X)) u.
Proof.
  intros H HX u. destruct (box_cover X) as (M & HM & HB). destruct (H (Rmax M (Rabs u + 1))) as (_ & U).
  apply filterlim_locally. intros eps. destruct (U eps (cond_pos eps)) as (d & Hd & V).
  assert (P : 0 < Rmin d 1) by (apply Rmin_glb_lt; lra).
  exists (mkposreal _ P). intros v Hv. change (Rabs (v - u) < Rmin d 1) in Hv. change (Rabs (G (v :: X) - G (u :: X)) < eps).
  pose proof (Rmin_l d 1). pose proof (Rmin_r d 1).
  assert (B : in_box (Rmax M (Rabs u + 1)) X) by (apply (box_le M); auto; apply Rmax_l).
  pose proof (Rmax_r M (Rabs u + 1)). apply V; cbn; auto.
  - constructor; auto. pose proof (Rabs_triang_inv v u). lra.
  - constructor; auto. lra.
  - apply near_cons; lra.
Qed.
Lemma reg_ex_RInt m G X a b : reg (S m) G -> length X = m -> ex_RInt (fun u => G (u :: X)) a b.
Proof. intros H HX. apply (ex_RInt_continuous (V:=R_CompleteNormedModule)). intros. now apply (reg_continuous m). Qed.

Lemma reg_RInt m G a b : a <= b -> reg (S m) G -> reg m (fun X => RInt (fun u => G (u :: X)) a b).
Proof.
  intros Hab H M. set (M' := Rmax M (Rmax (Rabs a) (Rabs b))). destruct (H M') as ((C & HC & B) & U).
  assert (HB : forall u X, a <= u <= b -> in_box M X -> in_box M' (u :: X)).
  { intros u X Hu HX. constructor.
    - apply Rle_trans with (Rmax (Rabs a) (Rabs b)); [|apply Rmax_r]. apply RmaxAbs; lra.
    - apply (box_le M); auto. apply Rmax_l. }
  split.
  - exists ((b - a) * C). split; [nra|]. intros X HX HM. apply abs_RInt_le_const; auto.
    + now apply (reg_ex_RInt m).
    + intros. apply B; cbn; auto.
  - intros eps He. assert (P : 0 < eps / (b - a + 1)) by (apply Rdiv_lt_0_compat; lra). destruct (U _ P) as (d & Hd & V).
    exists d. split; auto. intros X Y HX H1 H2 HN.
    assert (HY : length Y = m) by (rewrite <- (near_length _ _ _ HN); auto).
    rewrite <- (RInt_minus (V:=R_CompleteNormedModule)) by now apply (reg_ex_RInt m).
    apply Rle_lt_trans with ((b - a) * (eps / (b - a + 1))).
    + apply abs_RInt_le_const; auto.
      * apply (ex_RInt_minus (V:=R_NormedModule)); now apply (reg_ex_RInt m).
      * intros t Ht. left. apply V; cbn; auto. constructor; auto. rewrite Rminus_eq_0, Rabs_R0. auto.
    + apply Rlt_le_trans with ((b - a + 1) * (eps / (b - a + 1))); [nra|]. right. field. lra.
Qed.

(** sections and reorderings *)
Lemma reg_section m G x : reg (S m) G -> reg m (fun X => G (x :: X)).
Proof.
  intros H. apply (reg_map m (S m) G (fun X => x :: X)); auto. apply regmap_cons; [apply reg_const|].
  apply regmap_entries; [auto|]. intros. apply reg_nth.
Qed.
Lemma nth_firstn {A} p k (X : list A) d : (p < k)%nat -> nth p (firstn k X) d = nth p X d.
Proof. revert p X. induction k as [|k IH]; intros p X H; [lia|]. destruct X, p; cbn; auto. apply IH. lia. Qed.
Lemma reg_insert p m G : reg (p + S m) G -> reg (S (p + m)) (fun Z => G (firstn p (tl Z) ++ hd 0 Z :: skipn p (tl Z))).
Proof.
  intros H. apply (reg_map (S (p + m)) (p + S m) G (fun Z => firstn p (tl Z) ++ hd 0 Z :: skipn p (tl Z))); auto.
  assert (HL : forall X : list R, length X = S (p + m) -> length (firstn p (tl X)) = p).
  { intros [|x X] HX; [discriminate|]. cbn in *. rewrite firstn_length. lia. }
  apply regmap_entries.
  - intros X HX. rewrite app_length, HL by auto. cbn. rewrite skipn_length. destruct X; cbn in *; lia.
  - intros q Hq.
    apply (reg_ext _ (fun Z => nth (if (q <? p)%nat then S q else if (q =? p)%nat then 0%nat else q) Z 0)); [|apply reg_nth].
    intros X HX. specialize (HL X HX). destruct (Nat.ltb_spec q p).
    + rewrite app_nth1 by lia. rewrite nth_firstn by auto. destruct X; [discriminate|]. reflexivity.
    + rewrite app_nth2 by lia. rewrite HL. destruct (Nat.eqb_spec q p).
      * subst. rewrite Nat.sub_diag. cbn. destruct X; reflexivity.
      * destruct (q - p)%nat as [|r] eqn:E; [lia|]. cbn [nth]. destruct X as [|x X]; [discriminate|]. cbn [tl].
        rewrite <- (firstn_skipn p X) at 1. destruct q as [|q]; [lia|]. cbn [nth].
        rewrite app_nth2; cbn [tl] in HL; rewrite HL; [|lia]. f_equal. lia.
Qed.
Lemma box_int_ext m M f g : 0 <= M -> (forall X, length X = m -> in_box M X -> f X = g X) -> box_int m M f = box_int m M g.
Proof.
  intros HM. revert f g. induction m as [|m IH]; intros f g H; cbn [box_int]; [apply H; [auto|constructor]|].
  apply RInt_ext. intros x Hx. rewrite Rmin_left, Rmax_right in Hx by lra. apply IH. intros X HX HB. apply H; [cbn; auto|].
  constructor; auto. apply Rabs_le. lra.
Qed.
Lemma reg_box M m : 0 <= M -> forall p G, reg (p + m) G -> reg p (fun P => box_int m M (fun X => G (P ++ X))).
Proof.
  intros HM. induction m as [|m IH]; intros p G H; cbn [box_int].
  - rewrite Nat.add_0_r in H. apply (reg_ext p G); auto. intros. now rewrite app_nil_r.
  - apply (reg_ext p (fun P => RInt (fun x => (fun Q => box_int m M (fun X => G (firstn p (tl Q) ++ hd 0 Q :: skipn p (tl Q) ++ X))) (x :: P)) (- M) M)).
    + intros P HP. apply RInt_ext. intros x _. cbn [hd tl]. rewrite firstn_all2, skipn_all2 by lia. reflexivity.
    + apply (reg_RInt p (fun Q => box_int m M (fun X => G (firstn p (tl Q) ++ hd 0 Q :: skipn p (tl Q) ++ X))) (- M) M); [lra|].
      apply (reg_ext (S p) (fun Q => box_int m M (fun X => (fun Z => G (firstn p (tl Z) ++ hd 0 Z :: skipn p (tl Z))) (Q ++ X)))).
      * intros [|x P] HP; [discriminate|]. cbn in HP. cbn [app hd tl]. apply box_int_ext; auto. intros X _ _. f_equal.
        rewrite !firstn_app, !skipn_app. replace (p - length P)%nat with 0%nat by lia. rewrite firstn_O, app_nil_r, skipn_O. reflexivity.
      * apply (IH (S p) (fun Z => G (firstn p (tl Z) ++ hd 0 Z :: skipn p (tl Z)))). cbn [Nat.add]. now apply reg_insert.
Qed.
Lemma reg_box0 M m G : 0 <= M -> reg (S m) G -> reg 1 (fun u => box_int m M (fun X => G (hd 0 u :: X))).
Proof.
  intros HM H. apply (reg_ext 1 (fun P => box_int m M (fun X => G (P ++ X)))); [|exact (reg_box M m HM 1 G H)].
  intros [|x [|? ?]] HP; try discriminate. reflexivity.
Qed.

Lemma reg_box_ex M m G a b : 0 <= M -> reg (S m) G -> ex_RInt (fun x => box_int m M (fun X => G (x :: X))) a b.
Proof. intros HM H. apply (reg_ex_RInt 0 (fun u => box_int m M (fun X => G (hd 0 u :: X))) []); auto. now apply reg_box0. Qed.
Lemma box_int_plus m M : 0 <= M -> forall f g, reg m f -> reg m g -> box_int m M (fun X => f X + g X) = box_int m M f + box_int m M g.
Proof.
  intros HM. induction m as [|m IH]; intros f g Hf Hg; cbn [box_int]; [reflexivity|].
  rewrite (RInt_ext _ (fun x => plus (box_int m M (fun X => f (x :: X))) (box_int m M (fun X => g (x :: X))))).
  - apply (RInt_plus (V:=R_CompleteNormedModule)); now apply reg_box_ex.
  - intros x _. apply IH; now apply reg_section.
Qed.
Lemma box_int_scal m M c : 0 <= M -> forall f, reg m f -> box_int m M (fun X => c * f X) = c * box_int m M f.
Proof.
  intros HM. induction m as [|m IH]; intros f Hf; cbn [box_int]; [reflexivity|].
  rewrite (RInt_ext _ (fun x => scal c (box_int m M (fun X => f (x :: X))))).
  - apply (RInt_scal (V:=R_CompleteNormedModule)). now apply reg_box_ex.
  - intros x _. apply IH. now apply reg_section.
Qed.
Lemma box_int_0 m M : box_int m M (fun _ => 0) = 0.
Proof.
  induction m as [|m IH]; cbn [box_int]; [reflexivity|]. rewrite (RInt_ext _ (fun _ => 0)) by (intros; apply IH).
  rewrite RInt_const. unfold scal; cbn; unfold mult; cbn. ring.
Qed.

(** * Order of integration *)
Lemma reg_swap2 G : reg 2 G -> reg 2 (fun Z => G [nth 1 Z 0; nth 0 Z 0]).
Proof.
  intros H. apply (reg_map 2 2 G (fun Z => [nth 1 Z 0; nth 0 Z 0])); auto.
  apply regmap_cons; [apply reg_nth|]. apply regmap_cons; [apply reg_nth|]. apply regmap_nil.
Qed.
Lemma reg_2d G x y : reg 2 G -> continuity_2d_pt (fun u v => G [u; v]) x y.
Proof.
  intros H eps. destruct (box_cover [x; y]) as (M & HM & HB). destruct (H (M + 1)) as (_ & U).
  destruct (U eps (cond_pos eps)) as (d & Hd & V). assert (P : 0 < Rmin d 1) by (apply Rmin_glb_lt; lra).
  exists (mkposreal _ P). cbn [pos]. intros u v Hu Hv. pose proof (Rmin_l d 1). pose proof (Rmin_r d 1).
  inversion HB as [|? ? B1 HB']; subst. inversion HB' as [|? ? B2 HB'']; subst. apply V; auto.
  - constructor; [|constructor; [|constructor]].
    + pose proof (Rabs_triang_inv u x). lra.
    + pose proof (Rabs_triang_inv v y). lra.
  - apply (box_le M); auto. lra.
  - constructor; [lra|]. constructor; [lra|constructor].
Qed.
Lemma fubini G a b c d : a <= b -> c <= d -> reg 2 G ->
  RInt (fun x => RInt (fun y => G [x; y]) c d) a b = RInt (fun y => RInt (fun x => G [x; y]) a b) c d.
Proof.
  intros [Hab| ->] Hcd H.
  2:{ rewrite (RInt_point (V:=R_CompleteNormedModule)). rewrite (RInt_ext _ (fun _ => 0)) by (intros; apply (RInt_point (V:=R_CompleteNormedModule))).
      rewrite RInt_const. unfold scal; cbn; unfold mult; cbn. ring. }
  pose proof (reg_swap2 G H) as H'.
  assert (Ry : reg 1 (fun Z => RInt (fun y => G [nth 0 Z 0; y]) c d)).
  { apply (reg_ext 1 (fun Z => RInt (fun y => (fun Z => G [nth 1 Z 0; nth 0 Z 0]) (y :: Z)) c d)); [|exact (reg_RInt 1 _ c d Hcd H')].
    intros [|z [|? ?]] Hz; try discriminate. reflexivity. }
  assert (Cx : forall y x, continuous (fun x => G [x; y]) x) by (intros; now apply (reg_continuous 1 G [y])).
  assert (Ex : forall y s t, ex_RInt (fun x => G [x; y]) s t) by (intros; now apply (reg_ex_RInt 1 G [y])).
  set (F1 := fun t => RInt (fun x => RInt (fun y => G [x; y]) c d) a t).
  set (F2 := fun t => RInt (fun y => RInt (fun x => G [x; y]) a t) c d).
  set (D := fun t => RInt (fun y => G [t; y]) c d).
  assert (D1 : forall t, is_derive F1 t (D t)).
  { intros t. apply (is_derive_RInt (V:=R_NormedModule) D F1 a t).
    - apply filter_forall. intros z. apply (RInt_correct (V:=R_CompleteNormedModule)).
      apply (reg_ex_RInt 0 (fun Z => RInt (fun y => G [nth 0 Z 0; y]) c d) []); auto.
    - apply (reg_continuous 0 (fun Z => RInt (fun y => G [nth 0 Z 0; y]) c d) []); auto. }
  assert (De : forall v u, is_derive (fun z => RInt (fun x => G [x; v]) a z) u (G [u; v])).
  { intros v u. apply (is_derive_RInt (V:=R_NormedModule) (fun x => G [x; v]) (fun z => RInt (fun x => G [x; v]) a z) a u); [|apply Cx].
    apply filter_forall. intros z. apply (RInt_correct (V:=R_CompleteNormedModule)). apply Ex. }
  assert (D2 : forall t, is_derive F2 t (D t)).
  { intros t. unfold D. rewrite (RInt_ext (fun y => G [t; y]) (fun y => Derive (fun u => RInt (fun x => G [x; y]) a u) t)).
    2:{ intros y _. symmetry. apply is_derive_unique, De. }
    apply (is_derive_RInt_param (fun t y => RInt (fun x => G [x; y]) a t)).
    - apply filter_forall. intros z y _. eexists. apply De.
    - intros y _. apply continuity_2d_pt_ext with (f := fun u v => G [u; v]).
      + intros u v. symmetry. apply is_derive_unique, De.
      + now apply reg_2d.
    - apply filter_forall. intros t'.
      destruct (Rle_dec a t') as [Ht|Ht].
      + apply (reg_ex_RInt 0 (fun Z => RInt (fun x => G [x; nth 0 Z 0]) a t') []); auto.
        apply (reg_ext 1 (fun Z => RInt (fun x => G (x :: Z)) a t')); [|exact (reg_RInt 1 G a t' Ht H)].
        intros [|z [|? ?]] Hz; try discriminate. reflexivity.
      + apply (ex_RInt_ext (fun y => opp (RInt (fun x => G [x; y]) t' a))).
        { intros y _. apply (opp_RInt_swap (V:=R_CompleteNormedModule)). apply Ex. }
        apply (ex_RInt_opp (V:=R_NormedModule)).
        apply (reg_ex_RInt 0 (fun Z => RInt (fun x => G [x; nth 0 Z 0]) t' a) []); auto.
        apply (reg_ext 1 (fun Z => RInt (fun x => G (x :: Z)) t' a)); [|exact (reg_RInt 1 G t' a ltac:(lra) H)].
        intros [|z [|? ?]] Hz; try discriminate. reflexivity. }
  assert (E : F1 a - F2 a = F1 b - F2 b).
  { apply (eq_is_derive (V:=R_NormedModule) (fun t => F1 t - F2 t)); auto. intros t _.
    replace (zero : R_NormedModule) with (minus (D t) (D t)) by apply minus_eq_zero.
    apply (is_derive_minus (V:=R_NormedModule)); auto. }
  assert (E1 : F1 a = 0) by apply (RInt_point (V:=R_CompleteNormedModule)).
  assert (E2 : F2 a = 0).
  { unfold F2. rewrite (RInt_ext _ (fun _ => 0)) by (intros; apply (RInt_point (V:=R_CompleteNormedModule))). rewrite RInt_const.
    unfold scal; cbn; unfold mult; cbn. ring. }
  rewrite E1, E2 in E. change (F1 b = F2 b). lra.
Qed.

Lemma reg_swap m G : reg (S (S m)) G -> reg (S (S m)) (fun Z => G (nth 1 Z 0 :: nth 0 Z 0 :: skipn 2 Z)).
Proof.
  intros H. apply (reg_map (S (S m)) (S (S m)) G (fun Z => nth 1 Z 0 :: nth 0 Z 0 :: skipn 2 Z)); auto.
  apply regmap_cons; [apply reg_nth|]. apply regmap_cons; [apply reg_nth|]. apply regmap_entries.
  - intros [|? [|? Z]] HZ; try discriminate. cbn in *. lia.
  - intros p Hp. apply (reg_ext _ (fun Z => nth (S (S p)) Z 0)); [|apply reg_nth].
    intros [|? [|? Z]] HZ; try discriminate. reflexivity.
Qed.
Lemma box_fubini M a b : 0 <= M -> a <= b -> forall m G, reg (S m) G ->
  box_int m M (fun X => RInt (fun u => G (u :: X)) a b) = RInt (fun u => box_int m M (fun X => G (u :: X))) a b.
Proof.
  intros HM Hab. induction m as [|m IH]; intros G H; [reflexivity|]. cbn [box_int].
  rewrite (RInt_ext _ (fun x => RInt (fun u => box_int m M (fun X => G (u :: x :: X))) a b)).
  - pose proof (fubini (fun Z => box_int m M (fun X => G (nth 1 Z 0 :: nth 0 Z 0 :: X))) (- M) M a b ltac:(lra) Hab) as F.
    cbn [nth] in F. apply F.
    apply (reg_ext 2 (fun P => box_int m M (fun X => (fun Z => G (nth 1 Z 0 :: nth 0 Z 0 :: skipn 2 Z)) (P ++ X)))).
    + intros [|x [|y [|? ?]]] HP; try discriminate. reflexivity.
    + exact (reg_box M m HM 2 _ (reg_swap m G H)).
  - intros x _. apply (IH (fun Z => G (hd 0 Z :: x :: tl Z))).
    apply (reg_ext _ (fun Z => (fun Z => G (nth 1 Z 0 :: nth 0 Z 0 :: skipn 2 Z)) (x :: Z))).
    + intros [|z Z] HZ; try discriminate. reflexivity.
    + exact (reg_section (S m) _ x (reg_swap m G H)).
Qed.
