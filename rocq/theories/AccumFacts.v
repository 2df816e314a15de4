(** Facts about accumulator arrays. *)
From Coq Require Import ZArith List Reals Lia Lra Bool.
From Verif Require Import Base BaseFacts Sums SumsFacts RealOps Blas BlasFacts Accum.
Import ListNotations.
Local Open Scope Z_scope.

Section Store.
Variables (fld : Type) (feq : fld -> fld -> bool) (size : fld -> Z).
Hypothesis feqP : forall f g, feq f g = true <-> f = g.

(** contents [g f k] of entry k of array f *)
Definition accs (s : store fld) (g : fld -> Z -> R) : Prop := forall f, arr (size f) (s f) (g f).

Lemma accs_ext s g h : (forall f k, 0 <= k < size f -> g f k = h f k) -> accs s g -> accs s h.
Proof. intros E H f. eapply arr_ext; [|apply H]. intros; auto. Qed.

Lemma accs_put s g f a h : accs s g -> arr (size f) a h ->
  accs (put fld feq f a s) (fun f' k => if feq f' f then h k else g f' k).
Proof.
  intros H Ha f'. unfold put. destruct (feq f' f) eqn:E; [|apply H].
  apply feqP in E. subst. exact Ha.
Qed.

Lemma add_to_ok s g f k v : accs s g -> 0 <= k < size f ->
  exists s', add_to fld feq f k v s = Some s' /\
    accs s' (fun f' k' => g f' k' + (if feq f' f && (k =? k') then v else 0))%R.
Proof.
  intros H Hk. unfold add_to. destruct (H f) as [Hl Hg].
  rewrite (Hg k Hk). cbn [obind].
  destruct (@arr_set _ _ _ k (g f k + v)%R (H f) Hk) as (a & E & Ha). rewrite E. cbn [obind].
  eexists; split; [reflexivity|].
  eapply accs_ext; [|apply (accs_put _ _ _ _ _ H Ha)]. cbn. intros f' k' _.
  destruct (feq f' f) eqn:Ef; cbn [andb]; [|lra].
  apply feqP in Ef. subst. destruct (Z.eqb_spec k k'); [subst|]; lra.
Qed.

Lemma scale_field_ok s g n alpha f : accs s g -> n = size f -> 0 <= n ->
  exists s', scale_field fld feq n alpha f s = Some s' /\
    accs s' (fun f' k => if feq f' f then alpha * g f' k else g f' k)%R.
Proof.
  intros H -> Hn. unfold scale_field. pose proof (H f) as Hf. destruct Hf as [Hl Hg].
  destruct (@dscal_ok (size f) alpha (s f) 0 1) as (a & E & HL & HA & _); try lia.
  { unfold lenZ. lia. }
  rewrite E. cbn [obind]. eexists; split; [reflexivity|].
  assert (arr (size f) a (fun k => alpha * g f k)%R) as Ha.
  { apply (@arr_ext _ _ (rat a)).
    - intros k Hk. specialize (HA k Hk). rewrite Z.add_0_l, Z.mul_1_r in HA. rewrite HA.
      now rewrite (@arr_get _ _ _ k (H f) Hk).
    - apply arr_rat. unfold lenZ in HL. lia. }
  eapply accs_ext; [|apply (accs_put _ _ _ _ _ H Ha)]. cbn. intros f' k _.
  destruct (feq f' f) eqn:Ef; auto. apply feqP in Ef. now subst.
Qed.

Lemma axpy_field_ok s g n alpha x f : accs s g -> n = size f -> 0 <= n -> n <= lenZ x ->
  exists s', axpy_field fld feq n alpha x f s = Some s' /\
    accs s' (fun f' k => g f' k + (if feq f' f then alpha * rat x k else 0))%R.
Proof.
  intros H -> Hn Hx. unfold axpy_field. pose proof (H f) as [Hl Hg].
  destruct (@daxpy_ok (size f) alpha x (s f)) as (a & E & HL & HA); try lia.
  { unfold lenZ. lia. }
  rewrite E. cbn [obind]. eexists; split; [reflexivity|].
  assert (arr (size f) a (fun k => g f k + alpha * rat x k)%R) as Ha.
  { apply (@arr_ext _ _ (rat a)).
    - intros k Hk. rewrite (HA k Hk), (@arr_get _ _ _ k (H f) Hk). lra.
    - apply arr_rat. unfold lenZ in HL. lia. }
  eapply accs_ext; [|apply (accs_put _ _ _ _ _ H Ha)]. cbn. intros f' k _.
  destruct (feq f' f) eqn:Ef; [|lra]. apply feqP in Ef. now subst.
Qed.

(** a step which adds [F] to the arrays *)
Definition adds (body : store fld -> option (store fld)) (F : fld -> Z -> R) : Prop :=
  forall s g, accs s g -> exists s', body s = Some s' /\ accs s' (fun f k => g f k + F f k)%R.

Lemma adds_ext body F F' : (forall f k, 0 <= k < size f -> F f k = F' f k) -> adds body F -> adds body F'.
Proof.
  intros E H s g Hs. destruct (H s g Hs) as (s' & E' & H'). exists s'; split; auto.
  eapply accs_ext; [|exact H']. cbn. intros. now rewrite E.
Qed.

Lemma adds_add_to f k v : 0 <= k < size f ->
  adds (add_to fld feq f k v) (fun f' k' => if feq f' f && (k =? k') then v else 0%R).
Proof. intros Hk s g H. now apply add_to_ok. Qed.

Lemma adds_seq b1 b2 F1 F2 : adds b1 F1 -> adds b2 F2 ->
  adds (fun s => let* s := b1 s in b2 s) (fun f k => F1 f k + F2 f k)%R.
Proof.
  intros H1 H2 s g H. destruct (H1 _ _ H) as (s1 & E1 & A1). rewrite E1. cbn [obind].
  destruct (H2 _ _ A1) as (s2 & E2 & A2). exists s2; split; auto.
  eapply accs_ext; [|exact A2]. cbn; intros; lra.
Qed.

Lemma adds_loop lo hi body F : lo <= hi -> (forall i, lo <= i < hi -> adds (body i) (F i)) ->
  adds (for_range lo hi body) (fun f k => sum lo hi (fun i => F i f k)).
Proof.
  intros Hle Hb s g H.
  apply (@for_range_inv (store fld) (fun h s => accs s (fun f k => g f k + sum lo h (fun i => F i f k))%R)); auto.
  - intros i s1 Hi HI. destruct (Hb i Hi _ _ HI) as (s' & E & A). exists s'; split; auto.
    eapply accs_ext; [|exact A]. cbn. intros. rewrite sum_last by lia. lra.
  - eapply accs_ext; [|exact H]. cbn; intros. rewrite sum_nil. lra.
Qed.
End Store.

(** Expressions. *)
Fixpoint reads_ok (e : rexpr) : Prop :=
  match e with
  | Cst _ => True
  | Rd a k => 0 <= k < lenZ a
  | Add e f | Sub e f | Mul e f => reads_ok e /\ reads_ok f
  | Neg e => reads_ok e
  end.
Fixpoint value (e : rexpr) : R :=
  match e with
  | Cst c => c
  | Rd a k => rat a k
  | Add e f => value e + value f
  | Sub e f => value e - value f
  | Mul e f => value e * value f
  | Neg e => - value e
  end%R.
Lemma eval_ok e : reads_ok e -> eval e = Some (value e).
Proof.
  induction e; cbn [reads_ok eval value]; intros; auto.
  - now apply aget_rat.
  - rewrite IHe1, IHe2 by tauto. reflexivity.
  - rewrite IHe1, IHe2 by tauto. reflexivity.
  - rewrite IHe1, IHe2 by tauto. reflexivity.
  - now rewrite IHe.
Qed.
