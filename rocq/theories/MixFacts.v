(** Contraction of Metropolis updates in the mean square: updates of pairs of configurations with different weights, their products and averages. *)
From Coq Require Import ZArith List Reals Lra Lia Permutation.
From Coquelicot Require Import Coquelicot.
From Verif Require Import IdealSpec IdealFacts.
Import ListNotations.
Local Open Scope R_scope.

Lemma total_nonneg {A} (f : A -> R) xs : (forall x, In x xs -> 0 <= f x) -> 0 <= total f xs.
Proof. unfold total. induction xs as [|x xs IH]; cbn; intros H; [lra|]. pose proof (H x (or_introl eq_refl)). specialize (IH (fun y Hy => H y (or_intror Hy))). lra. Qed.
Lemma total_le {A} (f g : A -> R) xs : (forall x, In x xs -> f x <= g x) -> total f xs <= total g xs.
Proof. unfold total. induction xs as [|x xs IH]; cbn; intros H; [lra|]. pose proof (H x (or_introl eq_refl)). specialize (IH (fun y Hy => H y (or_intror Hy))). lra. Qed.
Lemma total_term {A} (f : A -> R) xs x : (forall x, In x xs -> 0 <= f x) -> In x xs -> f x <= total f xs.
Proof.
  unfold total. induction xs as [|y xs IH]; cbn; intros H Hx; [contradiction|]. destruct Hx as [->|Hx].
  - pose proof (total_nonneg f xs (fun z Hz => H z (or_intror Hz))) as T. unfold total in T. lra.
  - pose proof (H y (or_introl eq_refl)). specialize (IH (fun z Hz => H z (or_intror Hz)) Hx). lra.
Qed.
Lemma total_app {A} (f : A -> R) xs ys : total f (xs ++ ys) = total f xs + total f ys.
Proof. unfold total. induction xs as [|x xs IH]; cbn; [lra|]. rewrite IH. lra. Qed.
Lemma total_cons {A} (f : A -> R) x xs : total f (x :: xs) = f x + total f xs.
Proof. reflexivity. Qed.

Lemma sq_add (a x y : R) : 0 < a -> a * ((x + y) * (x + y)) <= 2 * (a * (x * x)) + 2 * (a * (y * y)).
Proof. intros H. pose proof (Rle_0_sqr (x - y)) as S. unfold Rsqr in S. assert (0 <= a * ((x - y) * (x - y))) by (apply Rmult_le_pos; lra). lra. Qed.
Lemma sq_sub (a x y : R) : 0 < a -> a * ((x - y) * (x - y)) <= 2 * (a * (x * x)) + 2 * (a * (y * y)).
Proof. intros H. pose proof (sq_add a x (- y) H). lra. Qed.

Section Mix.
Context {A : Type}.
Variables (w : A -> R) (confs : list A).
Hypothesis w_pos : forall s, In s confs -> 0 < w s.
Hypothesis confs_nodup : NoDup confs.

Definition norm2 (g : A -> R) : R := total (fun s => w s * (g s * g s)) confs.
Definition dist2 (g h : A -> R) : R := norm2 (fun s => g s - h s).
Definition flip_ok (f : A -> A) : Prop := forall s, In s confs -> In (f s) confs /\ f (f s) = s.
Definition energy (X : list (A -> A)) (g : A -> R) : R := total (fun f => total (fun s => w s * ((g s - g (f s)) * (g s - g (f s)))) confs) X.
Definition loss (P : (A -> R) -> A -> R) (g : A -> R) : R := norm2 g - norm2 (P g).

Definition good (a : R) (X : list (A -> A)) (P : (A -> R) -> A -> R) : Prop :=
  forall g, dist2 g (P g) <= a * loss P g /\ energy X g <= a * loss P g.

Lemma norm2_pos g : 0 <= norm2 g.
Proof. apply total_nonneg. intros s Hs. apply Rmult_le_pos; [left; auto|nra]. Qed.
Lemma norm2_ext g h : (forall s, In s confs -> g s = h s) -> norm2 g = norm2 h.
Proof. intros H. apply total_ext. intros s Hs. now rewrite H. Qed.
Lemma norm2_le g h : (forall s, In s confs -> g s * g s <= h s * h s) -> norm2 g <= norm2 h.
Proof. intros H. apply total_le. intros s Hs. apply Rmult_le_compat_l; [left|]; auto. Qed.
Lemma good_loss a X P g : 0 < a -> good a X P -> 0 <= loss P g.
Proof. intros Ha H. destruct (H g) as [H1 _]. pose proof (norm2_pos (fun s => g s - P g s)). unfold dist2 in H1. nra. Qed.

Lemma good_ext a X P Q : (forall g s, In s confs -> P g s = Q g s) -> good a X P -> good a X Q.
Proof.
  intros H G g. destruct (G g) as [G1 G2].
  assert (E : norm2 (P g) = norm2 (Q g)) by (apply norm2_ext; auto).
  assert (E2 : dist2 g (P g) = dist2 g (Q g)) by (apply norm2_ext; intros; rewrite H; auto).
  unfold loss in *. rewrite <- E, <- E2. auto.
Qed.
Lemma good_mono a b X P : 0 < a -> a <= b -> good a X P -> good b X P.
Proof.
  intros Ha Hb G g. pose proof (good_loss a X P g Ha G). destruct (G g) as [G1 G2].
  assert (a * loss P g <= b * loss P g) by (apply Rmult_le_compat_r; auto). lra.
Qed.
Lemma good_perm a X Y P : Permutation X Y -> good a X P -> good a Y P.
Proof. intros H G g. unfold energy. rewrite <- (total_perm _ _ _ H). exact (G g). Qed.

(** * One update *)
Section Site.
Variable f : A -> A.
Hypothesis f_ok : flip_ok f.
Definition accept (s : A) : R := Rmax 0 (Rmin 1 (w (f s) / w s)).
Definition update (g : A -> R) (s : A) : R := accept s * g (f s) + (1 - accept s) * g s.

Lemma flip_permutation : Permutation (map f confs) confs.
Proof. apply flip_perm; auto; intros s Hs; now apply f_ok. Qed.
Lemma total_flip (F : A -> R) : total (fun s => F (f s)) confs = total F confs.
Proof. rewrite <- (total_map f F). now apply total_perm, flip_permutation. Qed.

Lemma accept_cases s : In s confs -> w s <> w (f s) ->
  (w (f s) < w s /\ accept s = w (f s) / w s /\ accept (f s) = 1) \/ (w s < w (f s) /\ accept s = 1 /\ accept (f s) = w s / w (f s)).
Proof.
  intros Hs Hd. destruct (f_ok s Hs) as [Hf Hff]. unfold accept. rewrite Hff.
  pose proof (w_pos s Hs) as Pa. pose proof (w_pos (f s) Hf) as Pb. revert Hd Pa Pb. generalize (w s) (w (f s)). intros a b Hd Pa Pb.
  assert (H1 : 0 < a / b) by (apply Rdiv_lt_0_compat; auto). assert (H2 : 0 < b / a) by (apply Rdiv_lt_0_compat; auto).
  assert (E1 : a / b * b = a) by (field; lra). assert (E2 : b / a * a = b) by (field; lra).
  destruct (Rlt_le_dec b a) as [L|L].
  - left. split; [auto|]. rewrite (Rmin_right 1 (b / a)) by nra. rewrite (Rmin_left 1 (a / b)) by nra. rewrite !Rmax_right by lra. auto.
  - right. split; [lra|]. rewrite (Rmin_left 1 (b / a)) by nra. rewrite (Rmin_right 1 (a / b)) by nra. rewrite !Rmax_right by lra. auto.
Qed.

Variables (delta wmax : R).
Hypothesis d_pos : 0 < delta.
(** the weights of the two configurations differ *)
Hypothesis gap : forall s, In s confs -> w (f s) < w s -> delta <= w (f s) * (1 - w (f s) / w s).
Hypothesis differ : forall s, In s confs -> w s <> w (f s).
Hypothesis w_max : forall s, In s confs -> w s <= wmax.

Lemma pair_loss a b x y : 0 < b -> b < a ->
  a * (x * x) + b * (y * y) - a * ((b / a * y + (1 - b / a) * x) * (b / a * y + (1 - b / a) * x)) - b * (x * x) =
  b * (1 - b / a) * ((x - y) * (x - y)).
Proof. intros. field. lra. Qed.

Let sq (g : A -> R) s := (g s - g (f s)) * (g s - g (f s)).
Lemma update_loss g : delta * total (sq g) confs <= 2 * loss update g.
Proof.
  unfold loss, norm2.
  set (F := fun s => w s * (g s * g s) - w s * (update g s * update g s)).
  assert (E : total (fun s => w s * (g s * g s)) confs - total (fun s => w s * (update g s * update g s)) confs = total F confs).
  { rewrite (total_ext F (fun s => w s * (g s * g s) + (-1) * (w s * (update g s * update g s)))) by (intros; unfold F; ring).
    rewrite total_plus, total_scal. ring. }
  rewrite E. replace (2 * total F confs) with (total (fun s => F s + F (f s)) confs) by (rewrite total_plus, (total_flip F); ring).
  rewrite <- total_scal. apply total_le. intros s Hs. destruct (f_ok s Hs) as [Hf Hff]. unfold F, update, sq. rewrite Hff.
  destruct (accept_cases s Hs (differ s Hs)) as [(L & E1 & E2)|(L & E1 & E2)]; rewrite E1, E2.
  - pose proof (pair_loss (w s) (w (f s)) (g s) (g (f s)) (w_pos _ Hf) L) as PL. pose proof (gap s Hs L) as G.
    assert (Q : delta * ((g s - g (f s)) * (g s - g (f s))) <= w (f s) * (1 - w (f s) / w s) * ((g s - g (f s)) * (g s - g (f s)))).
    { apply Rmult_le_compat_r; auto. apply Rle_0_sqr. }
    rewrite <- PL in Q. lra.
  - pose proof (pair_loss (w (f s)) (w s) (g (f s)) (g s) (w_pos _ Hs) L) as PL.
    pose proof (gap (f s) Hf) as G. rewrite Hff in G. specialize (G L).
    assert (Q : delta * ((g (f s) - g s) * (g (f s) - g s)) <= w s * (1 - w s / w (f s)) * ((g (f s) - g s) * (g (f s) - g s))).
    { apply Rmult_le_compat_r; auto. apply Rle_0_sqr. }
    rewrite <- PL in Q. replace ((g s - g (f s)) * (g s - g (f s))) with ((g (f s) - g s) * (g (f s) - g s)) by ring. lra.
Qed.
Lemma accept_range s : 0 <= accept s <= 1.
Proof. unfold accept. split; [apply Rmax_l|]. apply Rmax_lub; [lra|apply Rmin_l]. Qed.

Lemma update_good : good (2 * wmax / delta) [f] update.
Proof.
  intros g. pose proof (update_loss g) as UL.
  assert (B : wmax * total (sq g) confs <= 2 * wmax / delta * loss update g \/ confs = []).
  { destruct confs as [|s0 l] eqn:Ec; [now right|left]. rewrite <- Ec in *.
    assert (Hw : 0 < wmax). { assert (In s0 confs) by (rewrite Ec; left; auto). pose proof (w_pos s0 H). pose proof (w_max s0 H). lra. }
    replace (2 * wmax / delta * loss update g) with (wmax / delta * (2 * loss update g)) by (field; lra).
    replace (wmax * total (sq g) confs) with (wmax / delta * (delta * total (sq g) confs)) by (field; lra).
    apply Rmult_le_compat_l; auto. apply Rlt_le, Rdiv_lt_0_compat; auto. }
  destruct B as [B|E].
  2:{ unfold dist2, energy, loss, norm2. rewrite E. unfold total; cbn. lra. }
  split.
  - apply Rle_trans with (wmax * total (sq g) confs); auto. unfold dist2, norm2. rewrite <- total_scal. apply total_le. intros s Hs.
    replace (g s - update g s) with (accept s * (g s - g (f s))) by (unfold update; ring).
    pose proof (accept_range s). pose proof (w_pos s Hs). pose proof (w_max s Hs). unfold sq. generalize (g s - g (f s)). intros x.
    assert (0 <= x * x) by nra. apply Rmult_le_compat; try nra.
    replace (accept s * x * (accept s * x)) with (accept s * accept s * (x * x)) by ring.
    assert (accept s * accept s <= 1) by nra. assert (accept s * accept s * (x * x) <= 1 * (x * x)) by (apply Rmult_le_compat_r; auto). lra.
  - apply Rle_trans with (wmax * total (sq g) confs); auto. unfold energy. rewrite total_cons. unfold total at 2; cbn [map fold_right]. rewrite Rplus_0_r.
    rewrite <- total_scal. apply total_le. intros s Hs. apply Rmult_le_compat_r; [apply Rle_0_sqr|auto].
Qed.
End Site.

(** * Products and averages *)
Lemma good_id a : 0 <= a -> good a [] (fun g => g).
Proof.
  intros Ha g. unfold dist2, energy, loss. rewrite Rminus_diag_eq, Rmult_0_r by reflexivity. split.
  - unfold norm2. rewrite (total_ext _ (fun _ => 0)) by (intros; ring). rewrite total_const. lra.
  - unfold total; cbn; lra.
Qed.

Variable ratio : R.
Hypothesis ratio_1 : 0 <= ratio.
Definition flip_in (f : A -> A) : Prop := flip_ok f /\ forall s, In s confs -> w (f s) <= ratio * w s.

Lemma energy_bound X g : (forall f, In f X -> flip_in f) -> energy X g <= INR (length X) * (2 * (1 + ratio)) * norm2 g.
Proof.
  unfold energy. induction X as [|f X IH]; intros H; [unfold total; cbn; lra|]. rewrite total_cons. cbn [length]. rewrite S_INR.
  specialize (IH (fun f' Hf => H f' (or_intror Hf))). destruct (H f (or_introl eq_refl)) as [Ho Hr].
  assert (B : total (fun s => w s * ((g s - g (f s)) * (g s - g (f s)))) confs <= 2 * (1 + ratio) * norm2 g).
  { apply Rle_trans with (total (fun s => 2 * (w s * (g s * g s)) + 2 * (w s * (g (f s) * g (f s)))) confs).
    - apply total_le. intros s Hs. apply sq_sub, w_pos, Hs.
    - rewrite total_plus, !total_scal.
      assert (C : total (fun s => w s * (g (f s) * g (f s))) confs <= ratio * norm2 g).
      { unfold norm2. rewrite <- total_scal. rewrite <- (total_flip f Ho (fun s => ratio * (w s * (g s * g s)))).
        apply total_le. intros s Hs. destruct (Ho s Hs) as [Hf Hff]. pose proof (Hr (f s) Hf) as B. rewrite Hff in B.
        replace (ratio * (w (f s) * (g (f s) * g (f s)))) with (ratio * w (f s) * (g (f s) * g (f s))) by ring. apply Rmult_le_compat_r; [apply Rle_0_sqr|auto]. }
      unfold norm2 in *. lra. }
  lra.
Qed.
Lemma norm2_add g h : norm2 (fun s => g s + h s) <= 2 * norm2 g + 2 * norm2 h.
Proof. unfold norm2. rewrite <- !total_scal, <- total_plus. apply total_le. intros s Hs. apply sq_add, w_pos, Hs. Qed.
Lemma energy_add X g h : energy X (fun s => g s + h s) <= 2 * energy X g + 2 * energy X h.
Proof.
  unfold energy. rewrite <- !total_scal, <- total_plus. apply total_le. intros f _. rewrite <- !total_scal, <- total_plus.
  apply total_le. intros s Hs. pose proof (w_pos s Hs).
  replace (g s + h s - (g (f s) + h (f s))) with ((g s - g (f s)) + (h s - h (f s))) by ring. now apply sq_add.
Qed.
Lemma energy_ext X g h : (forall s, g s = h s) -> energy X g = energy X h.
Proof. intros H. unfold energy. apply total_ext. intros. apply total_ext. intros. now rewrite !H. Qed.

Definition comp (k : nat) (a b : R) : R := 2 * a + (3 + 4 * INR k * (1 + ratio)) * b.
Lemma good_comp a b X Y P Q : 0 < a -> 0 < b -> (forall f, In f X -> flip_in f) ->
  good a X P -> good b Y Q -> good (comp (length X) a b) (X ++ Y) (fun g => P (Q g)).
Proof.
  intros Ha Hb HX GP GQ g. set (h := Q g).
  pose proof (good_loss a X P h Ha GP) as L1. pose proof (good_loss b Y Q g Hb GQ) as L2.
  destruct (GP h) as [P1 P2]. destruct (GQ g) as [Q1 Q2].
  assert (EL : loss (fun g => P (Q g)) g = loss Q g + loss P h) by (unfold loss, h; ring).
  pose proof (pos_INR (length X)) as PX. assert (0 <= INR (length X) * (1 + ratio)) by (apply Rmult_le_pos; lra).
  assert (PL : 0 <= 2 * a * loss P h) by (apply Rmult_le_pos; lra).
  assert (QL : 0 <= b * loss Q g) by (apply Rmult_le_pos; lra).
  assert (QX : 0 <= INR (length X) * (1 + ratio) * (b * loss Q g)) by (apply Rmult_le_pos; lra).
  assert (QX1 : 0 <= INR (length X) * (1 + ratio) * (b * loss P h)) by (apply Rmult_le_pos; [|apply Rmult_le_pos]; lra).
  assert (QL1 : 0 <= 2 * a * loss Q g) by (apply Rmult_le_pos; lra).
  assert (QL2 : 0 <= b * loss P h) by (apply Rmult_le_pos; lra).
  rewrite EL. unfold comp. split.
  - assert (D : dist2 g (P h) <= 2 * dist2 g h + 2 * dist2 h (P h)).
    { unfold dist2. rewrite (norm2_ext _ (fun s => (g s - h s) + (h s - P h s))) by (intros; ring). apply norm2_add. }
    unfold h in *. nra.
  - assert (D : energy X g <= 2 * energy X h + 2 * energy X (fun s => g s - h s)).
    { rewrite (energy_ext X g (fun s => h s + (g s - h s))) by (intros; ring). apply energy_add. }
    pose proof (energy_bound X (fun s => g s - h s) HX) as B. fold (dist2 g h) in B.
    unfold energy at 1. rewrite total_app. fold (energy X g) (energy Y g).
    assert (B2 : INR (length X) * (2 * (1 + ratio)) * dist2 g h <= INR (length X) * (2 * (1 + ratio)) * (b * loss Q g)) by (apply Rmult_le_compat_l; [lra|exact Q1]).
    nra.
Qed.

(** mean of finitely many operators *)
Definition list_avg {B} (Ps : B -> R) (xs : list B) : R := total Ps xs / INR (length xs).
Lemma jensen {B} (F : B -> R) xs : xs <> [] -> list_avg F xs * list_avg F xs <= list_avg (fun j => F j * F j) xs.
Proof.
  intros H. unfold list_avg. set (k := INR (length xs)). assert (Hk : 0 < k). { unfold k. apply lt_0_INR. destruct xs; [congruence|cbn; lia]. }
  set (m := total F xs / k). assert (T : total F xs = k * m) by (unfold m; field; lra).
  pose proof (total_nonneg (fun j => (F j - m) * (F j - m)) xs ltac:(intros; apply Rle_0_sqr)) as N.
  rewrite (total_ext _ (fun j => F j * F j + ((- 2 * m) * F j + m * m))) in N by (intros; ring).
  rewrite !total_plus, total_scal, total_const in N. fold k in N. rewrite T in N.
  apply Rmult_le_reg_r with k; auto. set (S2 := total (fun j => F j * F j) xs) in *. replace (S2 / k * k) with S2 by (field; lra). lra.
Qed.
Lemma list_avg_le {B} (F G : B -> R) xs : (forall x, In x xs -> F x <= G x) -> list_avg F xs <= list_avg G xs.
Proof.
  intros H. unfold list_avg. destruct xs as [|x xs]; [unfold total; cbn; lra|]. apply Rmult_le_compat_r.
  - left. apply Rinv_0_lt_compat, lt_0_INR. cbn; lia.
  - now apply total_le.
Qed.
Lemma list_avg_plus {B} (F G : B -> R) xs : list_avg (fun x => F x + G x) xs = list_avg F xs + list_avg G xs.
Proof. unfold list_avg. rewrite total_plus. unfold Rdiv. ring. Qed.
Lemma list_avg_scal {B} c (F : B -> R) xs : list_avg (fun x => c * F x) xs = c * list_avg F xs.
Proof. unfold list_avg. rewrite total_scal. unfold Rdiv. ring. Qed.
Lemma list_avg_const {B} c (xs : list B) : xs <> [] -> list_avg (fun _ => c) xs = c.
Proof. intros H. unfold list_avg. rewrite total_const. field. apply not_0_INR. destruct xs; [congruence|cbn; lia]. Qed.
Lemma avg_total {B} (F : B -> A -> R) xs : list_avg (fun j => total (F j) confs) xs = total (fun s => list_avg (fun j => F j s) xs) confs.
Proof.
  unfold list_avg. rewrite (total_ext (fun s => total (fun j => F j s) xs / INR (length xs)) (fun s => / INR (length xs) * total (fun j => F j s) xs)) by (intros; unfold Rdiv; ring).
  rewrite total_scal, total_swap. unfold Rdiv. ring.
Qed.
Lemma norm2_avg {B} (Ps : B -> A -> R) xs : xs <> [] -> norm2 (fun s => list_avg (fun j => Ps j s) xs) <= list_avg (fun j => norm2 (Ps j)) xs.
Proof.
  intros H. unfold norm2. rewrite avg_total. apply total_le. intros s Hs. rewrite list_avg_scal.
  apply Rmult_le_compat_l; [left; auto|]. exact (jensen (fun j => Ps j s) xs H).
Qed.
Lemma list_avg_sub {B} c (F : B -> R) xs : xs <> [] -> list_avg (fun x => c - F x) xs = c - list_avg F xs.
Proof.
  intros H. unfold list_avg. rewrite (total_ext _ (fun x => c + (-1) * F x)) by (intros; ring). rewrite total_plus, total_scal, total_const.
  field. apply not_0_INR. destruct xs; [congruence|cbn; lia].
Qed.
Lemma good_avg {B} (Ps : B -> (A -> R) -> A -> R) xs a X : xs <> [] -> 0 < a -> (forall j, In j xs -> good a X (Ps j)) ->
  good a X (fun g s => list_avg (fun j => Ps j g s) xs).
Proof.
  intros Hx Ha H g.
  assert (L : list_avg (fun j => loss (Ps j) g) xs <= loss (fun g s => list_avg (fun j => Ps j g s) xs) g).
  { unfold loss. rewrite list_avg_sub by auto. pose proof (norm2_avg (fun j => Ps j g) xs Hx). lra. }
  assert (La : a * list_avg (fun j => loss (Ps j) g) xs <= a * loss (fun g s => list_avg (fun j => Ps j g s) xs) g) by (apply Rmult_le_compat_l; lra).
  rewrite <- list_avg_scal in La. split.
  - eapply Rle_trans; [|exact La]. apply Rle_trans with (list_avg (fun j => dist2 g (Ps j g)) xs).
    + unfold dist2. rewrite (norm2_ext _ (fun s => list_avg (fun j => g s - Ps j g s) xs)) by (intros; now rewrite list_avg_sub).
      apply (norm2_avg (fun j s => g s - Ps j g s)); auto.
    + apply list_avg_le. intros j Hj. now apply H.
  - eapply Rle_trans; [|exact La]. rewrite <- (list_avg_const (energy X g) xs Hx). apply list_avg_le. intros j Hj. now apply H.
Qed.
End Mix.
