(** Facts about interleaved threads. *)
From Coq Require Import ZArith List Reals Bool Lia Lra FunctionalExtensionality.
From Verif Require Import Base BaseFacts Sums SumsFacts RealOps Blas BlasFacts MatProd GreenUpdate Threads ThreadsSpec.
Import ListNotations.
Local Open Scope Z_scope.

Section Machine.
Variables (arr V : Type) (arr_eq : forall a b : arr, {a = b} + {a <> b}).
Local Notation mem := (mem arr V).
Local Notation prog := (prog arr V).
Local Notation upd := (upd arr_eq).
Local Notation exec := (exec arr_eq).
Local Notation tstep := (tstep arr_eq).

Lemma upd_same (m : mem) a l : upd m a l a = l.
Proof. unfold Threads.upd. destruct (arr_eq a a); congruence. Qed.
Lemma upd_other (m : mem) a b l : a <> b -> upd m a l b = m b.
Proof. unfold Threads.upd. destruct (arr_eq a b); congruence. Qed.
Lemma upd_upd (m : mem) a l l' : upd (upd m a l) a l' = upd m a l'.
Proof. extensionality b. unfold Threads.upd. destruct (arr_eq a b); auto. Qed.
Lemma upd_id (m : mem) a : upd m a (m a) = m.
Proof. extensionality b. unfold Threads.upd. destruct (arr_eq a b); subst; auto. Qed.
Lemma upd_comm (m : mem) a b l l' : a <> b -> upd (upd m a l) b l' = upd (upd m b l') a l.
Proof. intros. extensionality x. unfold Threads.upd. destruct (arr_eq a x), (arr_eq b x); subst; congruence. Qed.

Definition acc (F : footprint arr) (a : arr) : Prop := reads F a || writes F a = true.

(** same result as far as F is concerned *)
Definition oeq {A} (F : footprint arr) (x y : option (mem * A)) : Prop :=
  match x, y with
  | Some (m, a), Some (m', a') => a = a' /\ forall b, acc F b -> m b = m' b
  | None, None => True
  | _, _ => False
  end.
Lemma oeq_refl A F (x : option (mem * A)) : oeq F x x.
Proof. destruct x as [[]|]; cbn; auto. Qed.
Lemma oeq_trans A F (x y z : option (mem * A)) : oeq F x y -> oeq F y z -> oeq F x z.
Proof.
  destruct x as [[]|], y as [[]|], z as [[]|]; cbn; try tauto. intros [] []. split; [congruence|].
  intros. rewrite H0; auto.
Qed.
Lemma oeq_sym A F (x y : option (mem * A)) : oeq F x y -> oeq F y x.
Proof. destruct x as [[]|], y as [[]|]; cbn; try tauto. intros []. split; [congruence|]. intros. symmetry. auto. Qed.

(** the result of a confined program depends only on its footprint *)
Lemma exec_agree A F (p : prog A) : confined F p -> forall m m', (forall b, acc F b -> m b = m' b) ->
  oeq F (exec p m) (exec p m').
Proof.
  induction p as [x| |a i k IH|a i v k IH|a l k IH]; cbn; intros HC m m' Hm; auto.
  - destruct HC as [Ha HC]. rewrite <- (Hm a Ha). destruct (aget (m a) i) as [v|]; cbn; auto.
  - destruct HC as [Ha HC]. assert (acc F a) as Ha' by (unfold acc; rewrite Ha; apply orb_true_r).
    rewrite <- (Hm a Ha'). destruct (aset (m a) i v) as [l|]; cbn; auto. apply IH; auto.
    intros b Hb. unfold Threads.upd. destruct (arr_eq a b); auto.
  - destruct HC as [Ha HC]. apply IH; auto. intros b Hb. unfold Threads.upd. destruct (arr_eq a b); auto.
Qed.

(** it changes only what it may write *)
Lemma exec_frame A F (p : prog A) : confined F p -> forall m m' x, exec p m = Some (m', x) ->
  forall b, writes F b = false -> m' b = m b.
Proof.
  induction p as [x| |a i k IH|a i v k IH|a l k IH]; cbn; intros HC m m' y E b Hb; try discriminate.
  - congruence.
  - destruct (aget (m a) i) as [v|]; cbn in E; [|discriminate]. eapply IH; eauto. apply HC.
  - destruct (aset (m a) i v) as [l|]; cbn in E; [|discriminate]. rewrite (IH (proj2 HC) _ _ _ E b Hb).
    apply upd_other. destruct HC; congruence.
  - rewrite (IH (proj2 HC) _ _ _ E b Hb). apply upd_other. destruct HC; congruence.
Qed.

(** one step *)
Lemma tstep_exec A (p : prog A) m m' p' : tstep m p = Some (m', p') -> exec p' m' = exec p m.
Proof.
  destruct p; cbn; intros E; try discriminate; try (inversion E; subst; reflexivity).
  - destruct (aget (m a) i); cbn in *; inversion E; subst; reflexivity.
  - destruct (aset (m a) i v); cbn in *; inversion E; subst; reflexivity.
Qed.
Lemma tstep_none A (p : prog A) m : tstep m p = None -> exec p m = None.
Proof.
  destruct p; cbn; intros E; try discriminate; auto.
  - destruct (aget (m a) i); cbn in *; [discriminate|auto].
  - destruct (aset (m a) i v); cbn in *; [discriminate|auto].
Qed.
Lemma tstep_confined A F (p : prog A) m m' p' : confined F p -> tstep m p = Some (m', p') ->
  confined F p' /\ forall b, writes F b = false -> m' b = m b.
Proof.
  destruct p; cbn; intros HC E; try discriminate.
  - inversion E; subst; cbn; auto.
  - destruct (aget (m a) i); cbn in *; inversion E; subst. split; auto. apply HC.
  - destruct (aset (m a) i v); cbn in *; inversion E; subst. split; [apply HC|]. intros. apply upd_other. destruct HC; congruence.
  - inversion E; subst. split; [apply HC|]. intros. apply upd_other. destruct HC; congruence.
Qed.

Lemma compat_acc F H b : compatible F H -> acc F b -> writes H b = false.
Proof.
  intros HC Ha. destruct (writes H b) eqn:E; auto. destruct (proj2 (HC b) E) as [E1 E2].
  unfold acc in Ha. rewrite E1, E2 in Ha. discriminate.
Qed.
Lemma compat_sym (F H : footprint arr) : compatible F H -> compatible H F.
Proof. intros HC a. split; apply HC. Qed.

Section Two.
Variables (A B : Type) (F H : footprint arr).
Hypothesis HFH : compatible F H.

(** what every interleaving preserves *)
Lemma interleave_inv sched : forall m (p : prog A) (q : prog B), confined F p -> confined H q ->
  match interleave arr_eq sched m p q with
  | None => exec p m = None \/ exec q m = None
  | Some (m', p', q') => confined F p' /\ confined H q' /\
      oeq F (exec p' m') (exec p m) /\ oeq H (exec q' m') (exec q m) /\
      forall b, writes F b = false -> writes H b = false -> m' b = m b
  end.
Proof.
  induction sched as [|[] sched IH]; intros m p q Hp Hq; cbn.
  - repeat split; auto using oeq_refl.
  - destruct (tstep m p) as [[m1 p1]|] eqn:E; cbn; [|left; apply tstep_none; auto].
    destruct (tstep_confined _ _ _ _ _ _ Hp E) as [Hp1 Hf].
    assert (oeq H (exec q m1) (exec q m)) as Hqm.
    { apply exec_agree; auto. intros b Hb. apply Hf. eapply compat_acc; eauto. apply compat_sym; auto. }
    specialize (IH m1 p1 q Hp1 Hq). rewrite (tstep_exec _ _ _ _ _ E) in IH.
    destruct (interleave arr_eq sched m1 p1 q) as [[[m' p'] q']|].
    + destruct IH as (I1 & I2 & I3 & I4 & I5). repeat split; auto.
      * eapply oeq_trans; eauto.
      * intros. rewrite I5; auto.
    + destruct IH as [IH|IH]; auto. rewrite IH in Hqm. destruct (exec q m); auto. destruct Hqm.
  - destruct (tstep m q) as [[m1 q1]|] eqn:E; cbn; [|right; apply tstep_none; auto].
    destruct (tstep_confined _ _ _ _ _ _ Hq E) as [Hq1 Hf].
    assert (oeq F (exec p m1) (exec p m)) as Hpm.
    { apply exec_agree; auto. intros b Hb. apply Hf. eapply compat_acc; eauto. }
    specialize (IH m1 p q1 Hp Hq1). rewrite (tstep_exec _ _ _ _ _ E) in IH.
    destruct (interleave arr_eq sched m1 p q1) as [[[m' p'] q']|].
    + destruct IH as (I1 & I2 & I3 & I4 & I5). repeat split; auto.
      * eapply oeq_trans; eauto.
      * intros. rewrite I5; auto.
    + destruct IH as [IH|IH]; auto. rewrite IH in Hpm. destruct (exec p m); auto. destruct Hpm.
Qed.

Lemma writes_acc G b : writes G b = true -> acc G b.
Proof. intros E. unfold acc. rewrite E. apply orb_true_r. Qed.

(** a complete interleaving *)
Lemma interleave_done sched m (p : prog A) (q : prog B) m' x y : confined F p -> confined H q ->
  interleave arr_eq sched m p q = Some (m', Ret x, Ret y) ->
  exists mp mq, exec p m = Some (mp, x) /\ exec q m = Some (mq, y) /\
    (forall b, writes F b = true -> m' b = mp b) /\ (forall b, writes H b = true -> m' b = mq b) /\
    (forall b, writes F b = false -> writes H b = false -> m' b = m b).
Proof.
  intros Hp Hq E. pose proof (interleave_inv sched m p q Hp Hq) as I. rewrite E in I.
  destruct I as (_ & _ & I1 & I2 & I3). cbn in I1, I2.
  destruct (exec p m) as [[mp x']|]; [|destruct I1]. destruct (exec q m) as [[mq y']|]; [|destruct I2].
  destruct I1 as [-> I1]. destruct I2 as [-> I2]. exists mp, mq. repeat split; auto using writes_acc.
Qed.

Lemma interleave_seq sched m (p : prog A) (q : prog B) m' x y : confined F p -> confined H q ->
  interleave arr_eq sched m p q = Some (m', Ret x, Ret y) ->
  exists m1 m2, exec p m = Some (m1, x) /\ exec q m1 = Some (m2, y) /\ forall b, m' b = m2 b.
Proof.
  intros Hp Hq E. destruct (interleave_done _ _ _ _ _ _ _ Hp Hq E) as (mp & mq & E1 & E2 & I1 & I2 & I3).
  assert (oeq H (exec q mp) (exec q m)) as Ho.
  { apply exec_agree; auto. intros b Hb. apply (exec_frame _ F p Hp _ _ _ E1). eapply compat_acc; eauto. apply compat_sym; auto. }
  rewrite E2 in Ho. destruct (exec q mp) as [[m2 y']|] eqn:E3; [|destruct Ho]. destruct Ho as [-> Ho].
  exists mp, m2. split; [auto|]. split; [auto|]. intros b.
  destruct (writes H b) eqn:WH.
  - rewrite I2; auto. symmetry. apply Ho. apply writes_acc; auto.
  - rewrite (exec_frame _ _ _ Hq _ _ _ E3 b WH). destruct (writes F b) eqn:WF; auto.
    rewrite I3; auto. symmetry. apply (exec_frame _ F p Hp _ _ _ E1); auto.
Qed.

(** termination *)
Fixpoint steps {C} (p : prog C) (m : mem) : nat :=
  match p with
  | Ret _ => 0
  | Fail => 1
  | Load a i k => S (match aget (m a) i with Some v => steps (k v) m | None => 0%nat end)
  | Store a i v k => S (match aset (m a) i v with Some l => steps k (upd m a l) | None => 0%nat end)
  | New a l k => S (steps k (upd m a l))
  end.
Lemma steps_agree C G (p : prog C) : confined G p -> forall m m', (forall b, acc G b -> m b = m' b) -> steps p m = steps p m'.
Proof.
  induction p as [x| |a i k IH|a i v k IH|a l k IH]; cbn; intros HC m m' Hm; auto.
  - destruct HC as [Ha HC]. rewrite <- (Hm a Ha). destruct (aget (m a) i) as [v|]; cbn; auto.
  - destruct HC as [Ha HC]. rewrite <- (Hm a (writes_acc _ _ Ha)). destruct (aset (m a) i v) as [l|]; cbn; auto.
    f_equal. apply IH; auto. intros b Hb. unfold Threads.upd. destruct (arr_eq a b); auto.
  - destruct HC as [Ha HC]. f_equal. apply IH; auto. intros b Hb. unfold Threads.upd. destruct (arr_eq a b); auto.
Qed.
Lemma tstep_steps C (p : prog C) m m' p' : tstep m p = Some (m', p') -> steps p' m' = Nat.pred (steps p m).
Proof.
  destruct p; cbn; intros E; try discriminate; try (inversion E; subst; reflexivity).
  - destruct (aget (m a) i); cbn in *; inversion E; subst; reflexivity.
  - destruct (aset (m a) i v); cbn in *; inversion E; subst; reflexivity.
Qed.
Lemma steps_0 C (p : prog C) m : steps p m = 0%nat -> exists x, p = Ret x.
Proof. destruct p; cbn; intros; try discriminate. eauto. Qed.

Lemma interleave_terminates sched : forall m (p : prog A) (q : prog B), confined F p -> confined H q ->
  (steps p m <= turns true sched)%nat -> (steps q m <= turns false sched)%nat ->
  match interleave arr_eq sched m p q with
  | None => True
  | Some (_, p', q') => (exists x, p' = Ret x) /\ exists y, q' = Ret y
  end.
Proof.
  induction sched as [|[] sched IH]; intros m p q Hp Hq Sp Sq; cbn in *.
  - split; eapply steps_0; apply Nat.le_0_r; eauto.
  - destruct (tstep m p) as [[m1 p1]|] eqn:E; cbn; auto.
    destruct (tstep_confined _ _ _ _ _ _ Hp E) as [Hp1 Hf]. apply IH; auto.
    + rewrite (tstep_steps _ _ _ _ _ E). unfold turns in *. cbn in Sp. lia.
    + rewrite (steps_agree _ H q Hq m1 m); auto. intros b Hb. apply Hf. eapply compat_acc; eauto. apply compat_sym; auto.
  - destruct (tstep m q) as [[m1 q1]|] eqn:E; cbn; auto.
    destruct (tstep_confined _ _ _ _ _ _ Hq E) as [Hq1 Hf]. apply IH; auto.
    + rewrite (steps_agree _ F p Hp m1 m); auto. intros b Hb. apply Hf. eapply compat_acc; eauto.
    + rewrite (tstep_steps _ _ _ _ _ E). unfold turns in *. cbn in Sq. lia.
Qed.

(** no race *)
Lemma no_conflict (p : prog A) (q : prog B) : confined F p -> confined H q -> ~ conflict (next_access p) (next_access q).
Proof.
  intros Hp Hq. destruct p as [| |a ? ?|a ? ? ?|a ? ?], q as [| |b ? ?|b ? ? ?|b ? ?]; cbn in *; auto; intros ->;
    destruct Hp as [Hp _], Hq as [Hq _]; destruct (HFH b) as [h1 h2];
    destruct (reads F b), (writes F b), (reads H b), (writes H b); cbn in *; try discriminate; intuition discriminate.
Qed.
End Two.

(** the threads exchanged *)
Lemma interleave_swap A B sched : forall m (p : prog A) (q : prog B) m' p' q',
  interleave arr_eq sched m p q = Some (m', p', q') -> interleave arr_eq (map negb sched) m q p = Some (m', q', p').
Proof.
  induction sched as [|[] sched IH]; intros m p q m' p' q'; cbn.
  - congruence.
  - destruct (tstep m p) as [[m1 p1]|]; cbn; [|discriminate]. apply IH.
  - destruct (tstep m q) as [[m1 q1]|]; cbn; [|discriminate]. apply IH.
Qed.

(** ** programs *)
Lemma exec_bind A B (p : prog A) (f : A -> prog B) m :
  exec (pbind p f) m = match exec p m with Some (m', x) => exec (f x) m' | None => None end.
Proof.
  revert m. induction p as [x| |a i k IH|a i v k IH|a l k IH]; cbn; intros m; auto.
  - destruct (aget (m a) i); cbn; auto.
  - destruct (aset (m a) i v); cbn; auto.
Qed.
Lemma confined_bind A B F (p : prog A) (f : A -> prog B) : confined F p -> (forall x, confined F (f x)) -> confined F (pbind p f).
Proof. induction p; cbn; intros Hp Hf; intuition. Qed.
Lemma confined_for S F (body : Z -> S -> prog S) lo hi st : (forall i s, confined F (body i s)) -> confined F (pfor lo hi body st).
Proof.
  intros HB. unfold pfor. generalize (Z.to_nat (hi - lo)) as n. intros n. revert lo st.
  induction n; intros; cbn; auto. apply confined_bind; auto.
Qed.
Lemma confined_lift A (F : footprint arr) (o : option A) : confined F (plift (V := V) o).
Proof. destruct o; cbn; auto. Qed.

(** a loop whose iterations act on a part of the memory *)
Lemma exec_for S T (embed : T -> mem) (res : T -> S) (body : Z -> S -> prog S) (f : Z -> T -> option T) lo hi :
  (forall i t, lo <= i < hi -> exec (body i (res t)) (embed t) = match f i t with Some t' => Some (embed t', res t') | None => None end) ->
  forall t, exec (pfor lo hi body (res t)) (embed t) = match for_range lo hi f t with Some t' => Some (embed t', res t') | None => None end.
Proof.
  unfold pfor, for_range. remember (Z.to_nat (hi - lo)) as n eqn:En. revert lo En.
  induction n; intros lo En HB t; cbn; auto.
  rewrite exec_bind, HB by lia. destruct (f lo t) as [t'|]; cbn; auto. apply IHn; [lia|]. intros. apply HB. lia.
Qed.
End Machine.

(** * The programs of the sections *)
Section Programs.
Variables (arr : Type) (arr_eq : forall a b : arr, {a = b} + {a <> b}).
Local Notation exec := (exec arr_eq).
Local Notation upd := (upd arr_eq).

Definition onto {T S} (embed : T -> mem arr R) (res : S) (o : option T) : option (mem arr R * S) :=
  match o with Some t => Some (embed t, res) | None => None end.

Lemma exec_dgemm n A B C m junk : A <> C -> B <> C ->
  exec (p_dgemm n A B C) (upd m C junk) =
  onto (upd m C) tt (dgemm false n n n 1 (m A) 0 n (m B) 0 n 0 junk 0 n).
Proof.
  intros HA HB. unfold p_dgemm, dgemm, write_block, onto.
  rewrite (exec_for _ _ arr_eq unit (list R) (upd m C) (fun _ => tt) _
    (fun j c => for_range 0 n (fun i C0 => let* v := (let* s := osum 0 n (fun l => let* a := mget (m A) 0 n i l in let* b := mget (m B) 0 n l j in Some (a * b)%R) in
       Some (1 * s)%R) in aset C0 (0 + i + j * n) v) c)).
  - destruct (Req_EM_T 0 0); [|congruence]. reflexivity.
  - intros j c _.
    rewrite (exec_for _ _ arr_eq unit (list R) (upd m C) (fun _ => tt) _
      (fun i C0 => let* v := (let* s := osum 0 n (fun l => let* a := mget (m A) 0 n i l in let* b := mget (m B) 0 n l j in Some (a * b)%R) in
       Some (1 * s)%R) in aset C0 (0 + i + j * n) v)); [reflexivity|].
    intros i C0 _. rewrite exec_bind.
    rewrite (exec_for _ _ arr_eq R R (fun _ => upd m C C0) (fun s => s) _
      (fun l s => let* x := (let* a := mget (m A) 0 n i l in let* b := mget (m B) 0 n l j in Some (a * b)%R) in Some (s + x)%R)).
    + unfold osum. destruct (for_range 0 n _ 0%R) as [s|]; cbn; auto.
      rewrite upd_same, Rmult_1_l. destruct (aset C0 (i + j * n) s); cbn; auto. now rewrite upd_upd.
    + intros l s _. cbn. unfold mget. rewrite !upd_other by congruence. cbn [Z.add].
      destruct (aget (m A) (i + l * n)); cbn; auto. destruct (aget (m B) (l + j * n)); cbn; auto.
Qed.

Lemma exec_slice_wrap junk N T B invB G m : T <> B -> T <> invB -> T <> G -> G <> B -> G <> invB ->
  exec (p_slice_wrap junk N T B invB G) m =
  match dgemm false N N N 1 (m B) 0 N (m G) 0 N 0 (fresh junk (N * N)) 0 N with
  | Some t => onto (fun g => upd (upd m T t) G g) tt (dgemm false N N N 1 t 0 N (m invB) 0 N 0 (m G) 0 N)
  | None => None
  end.
Proof.
  intros H1 H2 H3 H4 H5. unfold p_slice_wrap. rewrite exec_bind. cbn [Threads.exec pnew].
  rewrite exec_bind, exec_dgemm by congruence. unfold onto at 1.
  destruct (dgemm _ _ _ _ _ _ _ _ _ _ _ _ _ _ _) as [t|]; auto.
  pose proof (exec_dgemm N T invB G (upd m T t) (m G)) as E. rewrite <- (upd_id _ _ arr_eq (upd m T t) G) at 1.
  rewrite upd_other by congruence. rewrite E by congruence. rewrite upd_same, upd_other by congruence. reflexivity.
Qed.

Lemma slice_wrap_prog junk N T B invB G m G' : T <> B -> T <> invB -> T <> G -> G <> B -> G <> invB ->
  slice_wrap junk N (m B) (m invB) (m G) = Some G' ->
  exists m', exec (p_slice_wrap junk N T B invB G) m = Some (m', tt) /\ m' G = G'.
Proof.
  intros H1 H2 H3 H4 H5 E. rewrite exec_slice_wrap by auto. unfold slice_wrap in E.
  destruct (dgemm false N N N 1 (m B) 0 N (m G) 0 N 0 (fresh junk (N * N)) 0 N) as [t|]; cbn in E; [|discriminate].
  rewrite E. cbn. eexists. split; [reflexivity|]. apply upd_same.
Qed.

(** copying with a stride *)
Lemma exec_copy lo hi src dst (f : Z -> Z) m c : src <> dst ->
  exec (pfor lo hi (fun j _ => do v <- pload src (f j); pstore dst j v) tt) (upd m dst c) =
  onto (upd m dst) tt (for_range lo hi (fun j c => let* v := aget (m src) (f j) in aset c j v) c).
Proof.
  intros H. unfold onto.
  apply (exec_for _ _ arr_eq unit (list R) (upd m dst) (fun _ => tt) _ (fun j c => let* v := aget (m src) (f j) in aset c j v)).
  intros j t _. cbn. rewrite upd_other by congruence. destruct (aget (m src) (f j)); cbn; auto.
  rewrite upd_same. destruct (aset t j r); cbn; auto. now rewrite upd_upd.
Qed.

Lemma for_range_ext_inv S (Inv : Z -> S -> Prop) (f g : Z -> S -> option S) lo hi st :
  (forall i s, lo <= i < hi -> Inv i s -> f i s = g i s /\ forall s', g i s = Some s' -> Inv (i + 1) s') ->
  Inv lo st -> lo <= hi ->
  for_range lo hi f st = for_range lo hi g st /\ forall s', for_range lo hi g st = Some s' -> Inv hi s'.
Proof.
  unfold for_range. remember (Z.to_nat (hi - lo)) as n eqn:En. revert lo st En.
  induction n; intros lo st En HB HI Hl; cbn.
  - split; auto. intros s' E. inversion E; subst. replace hi with lo by lia. auto.
  - destruct (HB lo st ltac:(lia) HI) as [E1 E2]. rewrite E1. destruct (g lo st) as [s1|]; cbn.
    + apply IHn; auto; try lia. intros. apply HB; auto; lia.
    + split; auto. discriminate.
Qed.

Definition dger_inplace (N : Z) (a : R) (d c G : list R) : option (list R) :=
  for_range 0 N (fun k G => for_range 0 N (fun j G =>
    let* x := aget d j in let* y := aget c k in let* g := aget G (j + k * N) in
    aset G (j + k * N) (g + a * x * y)%R) G) G.

Lemma dger_inplace_eq N a d c G : 0 <= N -> dger_inplace N a d c G = dger N N a d c G N.
Proof.
  intros HN. unfold dger_inplace, dger, write_block.
  apply (for_range_ext_inv _ (fun k C => forall p, k * N <= p -> aget C p = aget G p)); [|auto|auto].
  intros k C Hk HC.
  destruct (for_range_ext_inv _ (fun j C => forall p, j + k * N <= p -> aget C p = aget G p)
    (fun j G => let* x := aget d j in let* y := aget c k in let* g := aget G (j + k * N) in aset G (j + k * N) (g + a * x * y)%R)
    (fun i C => let* v := (let* a0 := aget d i in let* b := aget c k in let* c0 := mget G 0 N i k in Some (c0 + a * a0 * b)%R) in
       aset C (0 + i + k * N) v) 0 N C) as [E1 E2]; auto.
  - intros j C' Hj HC'. unfold mget. cbn [Z.add]. rewrite HC' by lia.
    destruct (aget d j) as [x|]; cbn; [|split; [auto|discriminate]].
    destruct (aget c k) as [y|]; cbn; [|split; [auto|discriminate]].
    destruct (aget G (j + k * N)) as [g|]; cbn; [|split; [auto|discriminate]].
    split; auto. intros s' E p Hp. apply aset_inv in E as (HL & ->). rewrite aget_lset by lia.
    destruct (Z.eqb_spec (j + k * N) p); [lia|]. apply HC'. lia.
  - split; auto. intros s' E p Hp. apply E2; auto. lia.
Qed.

Lemma copy_eq N A oa B : 0 <= N -> copy N A oa B 0 = for_range 0 N (fun j c => let* v := aget A (oa + j) in aset c j v) B.
Proof.
  intros HN. unfold copy, write_block. change (for_range 0 1 ?b B) with (obind (b 0 B) Some). cbv beta.
  rewrite <- (proj1 (for_range_ext_inv _ (fun _ _ => True) (fun j c => let* v := aget A (oa + j) in aset c j v)
     (fun i C => let* v := aget A (oa + i) in aset C (0 + i + 0 * N) v) 0 N B ltac:(intros i s _ _; split; [now replace (0 + i + 0 * N) with i by lia|auto]) I HN)).
  destruct (for_range _ _ _ _); auto.
Qed.

Lemma exec_dger N a d c G m g : 0 <= N -> c <> G -> d <> G ->
  exec (pfor 0 N (fun k _ => pfor 0 N (fun j _ =>
    do x <- pload d j; do y <- pload c k; do g <- pload G (j + k * N);
    pstore G (j + k * N) (g + a * x * y)%R) tt) tt) (upd m G g) = onto (upd m G) tt (dger N N a (m d) (m c) g N).
Proof.
  intros HN Hc Hd. rewrite <- dger_inplace_eq by auto. unfold dger_inplace, onto.
  apply (exec_for _ _ arr_eq unit (list R) (upd m G) (fun _ => tt)). intros k t _.
  apply (exec_for _ _ arr_eq unit (list R) (upd m G) (fun _ => tt)
     _ (fun j G => let* x := aget (m d) j in let* y := aget (m c) k in let* g := aget G (j + k * N) in aset G (j + k * N) (g + a * x * y)%R)).
  intros j t' _. cbn. rewrite (upd_other _ _ arr_eq m G d) by congruence.
  destruct (aget (m d) j); cbn; auto. rewrite (upd_other _ _ arr_eq m G c) by congruence. destruct (aget (m c) k); cbn; auto.
  rewrite upd_same. destruct (aget t' (j + k * N)); cbn; auto.
  destruct (aset t' (j + k * N) _); cbn; auto. now rewrite upd_upd.
Qed.

Lemma sherman_morrison_prog junk delta N i c d G m G' : 0 <= N -> c <> d -> c <> G -> d <> G ->
  sherman_morrison junk delta N i (m G) = Some G' ->
  exists m', exec (p_sherman_morrison junk delta N i c d G) m = Some (m', tt) /\ m' G = G'.
Proof.
  intros HN Hcd HcG HdG. unfold sherman_morrison, p_sherman_morrison. rewrite copy_eq by auto. intros E.
  rewrite exec_bind. cbn [Threads.exec pnew]. rewrite exec_bind.
  rewrite (exec_copy 0 N G c (fun j => i + j * N) m (fresh junk N)) by congruence. unfold onto.
  destruct (for_range 0 N _ (fresh junk N)) as [c1|]; cbn [obind] in E; [|discriminate].
  rewrite exec_bind. cbn [Threads.exec pload]. rewrite upd_same.
  destruct (aget c1 i) as [ci|]; cbn [obind] in *; [|discriminate].
  rewrite exec_bind. cbn [Threads.exec pstore]. rewrite upd_same.
  destruct (aset c1 i (ci - 1)%R) as [c2|]; cbn [obind] in *; [|discriminate]. rewrite upd_upd.
  rewrite exec_bind. cbn [Threads.exec pnew]. rewrite exec_bind.
  rewrite (exec_copy 0 N G d (fun j => N * i + j) (upd m c c2) (fresh junk N)) by congruence. unfold onto.
  rewrite upd_other by congruence.
  destruct (for_range 0 N _ (fresh junk N)) as [d1|]; cbn [obind] in E; [|discriminate].
  rewrite exec_bind. cbn [Threads.exec pload]. rewrite upd_other, upd_same by congruence.
  destruct (aget c2 i) as [ci2|]; cbn [obind] in *; [|discriminate].
  rewrite exec_bind. destruct (rdiv delta (1 - delta * ci2)%R) as [a|]; cbn [obind plift Threads.exec] in *; [|discriminate].
  pose proof (exec_dger N a d c G (upd (upd m c c2) d d1) (upd (upd m c c2) d d1 G) HN HcG HdG) as HX.
  rewrite upd_id in HX. rewrite HX. clear HX. unfold onto.
  rewrite (upd_same _ _ arr_eq (upd m c c2) d), (upd_other _ _ arr_eq (upd m c c2) d c), (upd_other _ _ arr_eq (upd m c c2) d G),
    (upd_same _ _ arr_eq m c), (upd_other _ _ arr_eq m c G) by congruence.
  rewrite E. eexists. split; [reflexivity|]. apply upd_same.
Qed.

(** the arrays accessed *)
Lemma confined_dgemm n (A B C : arr) (F : footprint arr) : acc _ F A -> acc _ F B -> writes F C = true -> confined F (p_dgemm n A B C).
Proof.
  intros HA HB HC. unfold p_dgemm. apply confined_for; intros j _. apply confined_for; intros i _.
  apply confined_bind; [|intros; cbn; auto]. apply confined_for; intros l s. cbn. auto.
Qed.
Lemma confined_slice_wrap junk N (T B invB G : arr) (F : footprint arr) : acc _ F B -> acc _ F invB -> writes F T = true -> writes F G = true ->
  confined F (p_slice_wrap junk N T B invB G).
Proof.
  intros. unfold p_slice_wrap. apply confined_bind; [cbn; auto|]. intros _.
  apply confined_bind; [|intros _]; apply confined_dgemm; auto; apply writes_acc; auto.
Qed.
Lemma confined_sherman_morrison junk delta N i (c d G : arr) (F : footprint arr) : writes F c = true -> writes F d = true -> writes F G = true ->
  confined F (p_sherman_morrison junk delta N i c d G).
Proof.
  intros Hc Hd HG. pose proof (writes_acc _ _ _ Hc) as Ac. pose proof (writes_acc _ _ _ Hd) as Ad. pose proof (writes_acc _ _ _ HG) as AG.
  unfold acc in *. unfold p_sherman_morrison.
  apply confined_bind; [cbn; auto|]. intros _.
  apply confined_bind; [apply confined_for; intros; cbn; auto|]. intros _.
  apply confined_bind; [cbn; auto|]. intros ci. apply confined_bind; [cbn; auto|]. intros _.
  apply confined_bind; [cbn; auto|]. intros _.
  apply confined_bind; [apply confined_for; intros; cbn; auto|]. intros _.
  apply confined_bind; [cbn; auto|]. intros ci'. apply confined_bind; [apply confined_lift|]. intros a.
  apply confined_for; intros k _. apply confined_for; intros j _. cbn; auto 10.
Qed.
End Programs.

(** * The constructs of the program *)
Lemma sections_compatible c : compatible (section_footprint c Up) (section_footprint c Down).
Proof.
  intros a. destruct c; destruct a as [[] []|[] []|[] [] ?|[] [] ?|[] [] ?|[]|[] ?|?| | |[]|[] ?|[] ?]; cbn;
    try (destruct trial); cbn; split; intros Hx; try discriminate; auto; rewrite ?andb_false_r; auto.
Qed.
