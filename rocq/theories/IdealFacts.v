(** Facts about means over ideal random numbers. *)
From Coq Require Import ZArith List Reals Lra Lia Permutation.
From Coquelicot Require Import Coquelicot.
From Verif Require Import Base Random RandomSpec ShuffleFacts RandSource IdealSpec.
Import ListNotations.
Local Open Scope R_scope.

(** * Totals *)
Lemma total_ext {A} (f g : A -> R) xs : (forall x, In x xs -> f x = g x) -> total f xs = total g xs.
Proof.
  unfold total. induction xs as [|x xs IH]; cbn; intros H; auto. rewrite (H x), IH; auto.
Qed.
Lemma total_plus {A} (f g : A -> R) xs : total (fun x => f x + g x) xs = total f xs + total g xs.
Proof. unfold total. induction xs as [|x xs IH]; cbn; [lra|]. rewrite IH. lra. Qed.
Lemma total_scal {A} c (f : A -> R) xs : total (fun x => c * f x) xs = c * total f xs.
Proof. unfold total. induction xs as [|x xs IH]; cbn; [lra|]. rewrite IH. lra. Qed.
Lemma total_const {A} c (xs : list A) : total (fun _ => c) xs = INR (length xs) * c.
Proof. unfold total. induction xs as [|x xs IH]; cbn [map fold_right length]; [cbn; lra|]. rewrite IH, S_INR. lra. Qed.
Lemma total_swap {A B} (f : A -> B -> R) xs ys : total (fun x => total (f x) ys) xs = total (fun y => total (fun x => f x y) xs) ys.
Proof.
  induction xs as [|x xs IH].
  - change (0 = total (fun _ : B => 0) ys). rewrite total_const. lra.
  - change (total (f x) ys + total (fun x => total (f x) ys) xs = total (fun y => f x y + total (fun x => f x y) xs) ys).
    rewrite IH, total_plus. reflexivity.
Qed.
Lemma total_perm {A} (f : A -> R) xs ys : Permutation xs ys -> total f xs = total f ys.
Proof. unfold total. induction 1; cbn; lra. Qed.
Lemma total_map {A B} (g : A -> B) (f : B -> R) xs : total f (map g xs) = total (fun x => f (g x)) xs.
Proof. unfold total. now rewrite map_map. Qed.

(** * Integrals of step functions *)
Lemma step_RInt r a b : RInt (fun u => if Rlt_dec u r then a else b) 0 1 = Rmax 0 (Rmin 1 r) * a + (1 - Rmax 0 (Rmin 1 r)) * b.
Proof.
  set (p := Rmax 0 (Rmin 1 r)).
  assert (Hp : 0 <= p <= 1) by (unfold p, Rmax, Rmin; repeat destruct Rle_dec; lra).
  apply is_RInt_unique.
  assert (H1 : is_RInt (fun u => if Rlt_dec u r then a else b) 0 p (scal (p - 0) a)).
  { apply (is_RInt_ext (fun _ => a)); [|apply @is_RInt_const]. intros u. rewrite Rmin_left, Rmax_right by lra. intros Hu.
    destruct (Rlt_dec u r) as [|n]; auto. exfalso. apply n. unfold p, Rmax, Rmin in *. repeat destruct Rle_dec; lra. }
  assert (H2 : is_RInt (fun u => if Rlt_dec u r then a else b) p 1 (scal (1 - p) b)).
  { apply (is_RInt_ext (fun _ => b)); [|apply @is_RInt_const]. intros u. rewrite Rmin_left, Rmax_right by lra. intros Hu.
    destruct (Rlt_dec u r) as [n|]; auto. exfalso. unfold p, Rmax, Rmin in *. repeat destruct Rle_dec; lra. }
  pose proof (is_RInt_Chasles _ _ _ _ _ _ H1 H2) as H.
  replace (p * a + (1 - p) * b) with (plus (scal (p - 0) a) (scal (1 - p) b)); [exact H|].
  unfold plus, scal; cbn; unfold mult; cbn. lra.
Qed.

(** * Extensionality of the means *)
Lemma uniform_mean_ext k : forall f g,
  (forall us, length us = k -> List.Forall (fun u => 0 < u <= 1) us -> f us = g us) -> uniform_mean k f = uniform_mean k g.
Proof.
  induction k as [|k IH]; cbn [uniform_mean]; intros f g H; [now apply H|].
  apply RInt_ext. rewrite Rmin_left, Rmax_right by lra. intros u Hu. apply IH. intros us Hl Hus.
  apply H; [cbn; lia|]. constructor; [lra|auto].
Qed.
Lemma choice_mean_ext m : forall i f g,
  (forall js, length js = m -> (forall t, (t < m)%nat -> (0 <= nth t js 0 <= Z.of_nat (i + t))%Z) -> f js = g js) ->
  choice_mean i m f = choice_mean i m g.
Proof.
  induction m as [|m IH]; cbn [choice_mean]; intros i f g H; [apply H; [auto|intros; lia]|]. f_equal.
  apply total_ext. intros j Hj. apply in_seq in Hj. apply IH. intros js Hl Hjs. apply H; [cbn; lia|].
  intros [|t] Ht; cbn [nth]; [lia|]. specialize (Hjs t ltac:(lia)). lia.
Qed.
Lemma tape_mean_ext n r : forall f g,
  (forall t, length t = r -> List.Forall (fun p => length (fst p) = n /\ valid_choices (fst p) /\ length (snd p) = n /\
     List.Forall (fun u => 0 < u <= 1) (snd p)) t -> f t = g t) -> tape_mean n r f = tape_mean n r g.
Proof.
  induction r as [|r IH]; cbn [tape_mean]; intros f g H; [now apply H|].
  apply choice_mean_ext. intros js Hl Hjs. apply uniform_mean_ext. intros us Hl' Hus. apply IH. intros t Ht Hf.
  apply H; [cbn; lia|]. constructor; auto. cbn. repeat split; auto; apply Hjs; lia.
Qed.

Lemma choice_mean_total {A} (w : A -> R) xs m : forall i (f : list Z -> A -> R),
  total (fun s => w s * choice_mean i m (fun js => f js s)) xs = choice_mean i m (fun js => total (fun s => w s * f js s) xs).
Proof.
  induction m as [|m IH]; cbn [choice_mean]; intros i f; [reflexivity|].
  rewrite (total_ext _ (fun s => / INR (S i) * total (fun j => w s * choice_mean (S i) m (fun js => f (Z.of_nat j :: js) s)) (seq 0 (S i)))).
  - rewrite total_scal, total_swap. unfold Rdiv. rewrite Rmult_comm. f_equal.
    apply total_ext. intros j _. exact (IH (S i) (fun js => f (Z.of_nat j :: js))).
  - intros s _. rewrite total_scal. unfold Rdiv. ring.
Qed.
Lemma choice_mean_const m : forall i c, choice_mean i m (fun _ => c) = c.
Proof.
  induction m as [|m IH]; cbn [choice_mean]; intros i c; [reflexivity|].
  rewrite (total_ext _ (fun _ => c)) by (intros; apply IH). rewrite total_const, seq_length. field. apply not_0_INR. lia.
Qed.
Lemma uniform_mean_const m : forall c, uniform_mean m (fun _ => c) = c.
Proof.
  induction m as [|m IH]; cbn [uniform_mean]; intros c; [reflexivity|].
  rewrite (RInt_ext _ (fun _ => c)) by (intros; apply IH). rewrite RInt_const. unfold scal; cbn; unfold mult; cbn. ring.
Qed.

(** * Metropolis moves *)
Section Moves.
Context {A : Type}.
Variables (w : A -> R) (confs : list A).
Hypothesis w_pos : forall s, 0 <= w s.
Hypothesis confs_nodup : NoDup confs.

Section Site.
Variable flip : A -> A.
Hypothesis flip_in : forall s, In s confs -> In (flip s) confs.
Hypothesis flip_twice : forall s, In s confs -> flip (flip s) = s.

(** accept the flip if the number is below the ratio of the weights *)
Definition move (u : R) (s : A) : A := if Rlt_dec u (w (flip s) / w s) then flip s else s.

Lemma flip_perm : Permutation (map flip confs) confs.
Proof.
  apply NoDup_Permutation_bis.
  - assert (I : forall xs, (forall s, In s xs -> In s confs) -> NoDup xs -> NoDup (map flip xs)).
    { induction xs as [|x xs IH]; cbn; intros Hin Hn; constructor; inversion Hn; subst.
      - intros Hx. apply in_map_iff in Hx as (y & E & Hy). apply H1.
        rewrite <- (flip_twice x), <- E, flip_twice; auto.
      - apply IH; auto. }
    apply I; auto.
  - rewrite map_length. lia.
  - intros x Hx. apply in_map_iff in Hx as (y & <- & Hy). auto.
Qed.

Lemma total_move (g : A -> R) :
  total (fun s => w s * RInt (fun u => g (move u s)) 0 1) confs = total (fun s => w s * g s) confs.
Proof.
  set (p := fun s => Rmax 0 (Rmin 1 (w (flip s) / w s))).
  assert (E : forall s, RInt (fun u => g (move u s)) 0 1 = p s * g (flip s) + (1 - p s) * g s).
  { intros s. unfold p. rewrite <- step_RInt. apply RInt_ext. intros u _. unfold move. destruct (Rlt_dec u _); auto. }
  assert (B : forall s, In s confs -> w (flip s) * p (flip s) = w s * p s).
  { intros s Hs. unfold p. rewrite flip_twice by auto. generalize (w_pos s), (w_pos (flip s)). generalize (w s) (w (flip s)). clear.
    intros a b Ha Hb. destruct (Req_dec a 0) as [->|Na]; destruct (Req_dec b 0) as [->|Nb]; try lra.
    - unfold Rdiv. rewrite Rmult_0_l. rewrite Rmin_right by lra. rewrite Rmax_left by lra. lra.
    - unfold Rdiv. rewrite (Rmult_0_l (/ a)). rewrite (Rmin_right 1 0) by lra. rewrite (Rmax_left 0 0) by lra. lra.
    - assert (0 < a) by lra. assert (0 < b) by lra.
      assert (0 < a / b) by (apply Rdiv_lt_0_compat; lra). assert (0 < b / a) by (apply Rdiv_lt_0_compat; lra).
      rewrite !Rmax_right by (apply Rmin_glb; lra).
      destruct (Rle_dec a b).
      + assert (a / b <= 1) by (apply Rmult_le_reg_r with b; [lra|]; unfold Rdiv; rewrite Rmult_assoc, Rinv_l; lra).
        assert (1 <= b / a) by (apply Rmult_le_reg_r with a; [lra|]; unfold Rdiv; rewrite Rmult_assoc, Rinv_l; lra).
        rewrite Rmin_right by lra. rewrite Rmin_left by lra. field. lra.
      + assert (1 <= a / b) by (apply Rmult_le_reg_r with b; [lra|]; unfold Rdiv; rewrite Rmult_assoc, Rinv_l; lra).
        assert (b / a <= 1) by (apply Rmult_le_reg_r with a; [lra|]; unfold Rdiv; rewrite Rmult_assoc, Rinv_l; lra).
        rewrite Rmin_left by lra. rewrite Rmin_right by lra. field. lra. }
  rewrite (total_ext _ (fun s => w s * p s * g (flip s) + w s * (1 - p s) * g s)) by (intros s _; rewrite E; ring).
  rewrite total_plus.
  rewrite (total_ext (fun s => w s * p s * g (flip s)) (fun s => w (flip s) * p (flip s) * g (flip s)))
    by (intros s Hs; rewrite B by auto; ring).
  rewrite <- (total_map flip (fun s => w s * p s * g s)), (total_perm _ _ _ flip_perm), <- total_plus.
  apply total_ext. intros. ring.
Qed.
End Site.

(** a list of sites, one number for each *)
Variable flip : Z -> A -> A.
Fixpoint moves (sites : list Z) (us : list R) (s : A) : A :=
  match sites with
  | [] => s
  | i :: sites => match us with [] => s | u :: us => moves sites us (move (flip i) u s) end
  end.

Lemma total_moves (h : A -> R) : forall sites,
  (forall i, In i sites -> forall s, In s confs -> In (flip i s) confs /\ flip i (flip i s) = s) ->
  total (fun s => w s * uniform_mean (length sites) (fun us => h (moves sites us s))) confs = total (fun s => w s * h s) confs.
Proof.
  induction sites as [|i sites IH]; intros H; [reflexivity|]. cbn [length uniform_mean moves].
  rewrite (total_move (flip i)) with (g := fun s => uniform_mean (length sites) (fun us => h (moves sites us s))).
  - apply IH. intros; apply H; cbn; auto.
  - intros s Hs. now apply H; [left|].
  - intros s Hs. now apply H; [left|].
Qed.
End Moves.

(** all fields *)
Lemma fields_in k : forall s, In s (fields k) <-> length s = k /\ List.Forall (fun v => v = 0%Z \/ v = 1%Z) s.
Proof.
  induction k as [|k IH]; intros s; cbn.
  - split; [intros [<-|[]]; auto|]. destruct s; cbn; [auto|intros []; lia].
  - rewrite in_app_iff, !in_map_iff. split.
    + intros [(t & <- & Ht)|(t & <- & Ht)]; apply IH in Ht as [Hl Hf]; cbn; auto.
    + intros [Hl Hf]. destruct s as [|v s]; [discriminate|]. cbn in Hl. inversion Hf; subst.
      assert (In s (fields k)) by (apply IH; auto). destruct H1 as [->| ->]; [left|right]; eauto.
Qed.
Lemma fields_nodup k : NoDup (fields k).
Proof.
  induction k as [|k IH]; cbn; [repeat constructor; auto|].
  assert (I : forall v, NoDup (map (cons v) (fields k))).
  { intros v. apply FinFun.Injective_map_NoDup; auto. intros x y E. now inversion E. }
  assert (forall l1 l2 : list (list Z), NoDup l1 -> NoDup l2 -> (forall x, In x l1 -> ~ In x l2) -> NoDup (l1 ++ l2)) as NA.
  { induction l1; cbn; auto. intros l2 H1 H2 H3. inversion H1; subst. constructor; [|apply IHl1; auto].
    rewrite in_app_iff. intros [|]; [auto|]. eapply H3; eauto. }
  apply NA; auto. intros x H1 H2. apply in_map_iff in H1 as (? & <- & _). apply in_map_iff in H2 as (? & E & _). discriminate.
Qed.

Lemma uniform_mean_step r a b : 0 <= r <= 1 ->
  uniform_mean 1 (fun us => if Rlt_dec (nth 0 us 0) r then a else b) = r * a + (1 - r) * b.
Proof.
  intros Hr. cbn [uniform_mean nth]. rewrite step_RInt, Rmin_right, Rmax_right by lra. reflexivity.
Qed.
