(** Lemmas about arrays and loops of Base.v. *)
From Coq Require Import ZArith List Lia.
From Verif Require Import Base.
Import ListNotations.

Set Implicit Arguments.

Lemma lset_length A (a : list A) i v : length (lset a i v) = length a.
Proof. revert i; induction a; intros [|i]; simpl; auto. Qed.

Lemma lset_nth_same A (a : list A) i v :
  (i < length a)%nat -> nth_error (lset a i v) i = Some v.
Proof.
  revert i; induction a; intros [|i]; simpl; intros; try lia; auto.
  apply IHa; lia.
Qed.

Lemma lset_nth_other A (a : list A) i j v :
  i <> j -> nth_error (lset a i v) j = nth_error a j.
Proof.
  revert i j; induction a; intros [|i] [|j]; simpl; intros; auto; try congruence.
Qed.

Lemma lset_nth_d A (a : list A) i j v d :
  (i < length a)%nat -> nth j (lset a i v) d = if Nat.eqb i j then v else nth j a d.
Proof.
  revert i j; induction a; intros [|i] [|j]; simpl; intros; auto; try lia.
  apply IHa; lia.
Qed.

Lemma aget_Some A (a : list A) i x :
  aget a i = Some x <-> (0 <= i)%Z /\ nth_error a (Z.to_nat i) = Some x.
Proof.
  unfold aget. destruct (Z.ltb_spec i 0); split; intros; try lia; try discriminate; intuition.
Qed.

Lemma aget_lt A (a : list A) i x : aget a i = Some x -> (0 <= i < Z.of_nat (length a))%Z.
Proof.
  rewrite aget_Some; intros [H1 H2].
  assert (nth_error a (Z.to_nat i) <> None) as H by congruence.
  apply nth_error_Some in H. lia.
Qed.

Lemma aget_ex A (a : list A) i : (0 <= i < Z.of_nat (length a))%Z ->
  exists x, aget a i = Some x.
Proof.
  intros H. unfold aget. destruct (Z.ltb_spec i 0); try lia.
  destruct (nth_error a (Z.to_nat i)) eqn:E; eauto.
  apply nth_error_None in E; lia.
Qed.

Lemma aget_nth A (a : list A) i d : (0 <= i < Z.of_nat (length a))%Z ->
  aget a i = Some (nth (Z.to_nat i) a d).
Proof.
  intros H. unfold aget. destruct (Z.ltb_spec i 0); try lia.
  apply nth_error_nth'. lia.
Qed.

Lemma aget_None A (a : list A) i : (i < 0 \/ Z.of_nat (length a) <= i)%Z -> aget a i = None.
Proof.
  intros H. unfold aget. destruct (Z.ltb_spec i 0); auto.
  apply nth_error_None; lia.
Qed.

Lemma aset_ok A (a : list A) i v : (0 <= i < Z.of_nat (length a))%Z ->
  aset a i v = Some (lset a (Z.to_nat i) v).
Proof.
  intros H. unfold aset. destruct (Z.ltb_spec i 0); try lia.
  destruct (Nat.ltb_spec (Z.to_nat i) (length a)); auto; lia.
Qed.

Lemma aset_inv A (a : list A) i v b : aset a i v = Some b ->
  (0 <= i < Z.of_nat (length a))%Z /\ b = lset a (Z.to_nat i) v.
Proof.
  unfold aset. destruct (Z.ltb_spec i 0); try discriminate.
  destruct (Nat.ltb_spec (Z.to_nat i) (length a)); intros E; inversion E; subst.
  split; auto; lia.
Qed.

Lemma aset_None A (a : list A) i v :
  (i < 0 \/ Z.of_nat (length a) <= i)%Z -> aset a i v = None.
Proof.
  intros H. unfold aset. destruct (Z.ltb_spec i 0); auto.
  destruct (Nat.ltb_spec (Z.to_nat i) (length a)); auto; lia.
Qed.

Lemma aget_lset A (a : list A) i j v : (0 <= i < Z.of_nat (length a))%Z ->
  aget (lset a (Z.to_nat i) v) j = if (i =? j)%Z then Some v else aget a j.
Proof.
  intros H. unfold aget.
  destruct (Z.ltb_spec j 0).
  - destruct (Z.eqb_spec i j); auto; lia.
  - destruct (Z.eqb_spec i j).
    + subst. apply lset_nth_same. lia.
    + apply lset_nth_other. lia.
Qed.

Lemma obind_Some A B (c : option A) (f : A -> option B) b :
  obind c f = Some b <-> exists a, c = Some a /\ f a = Some b.
Proof.
  destruct c; simpl; split.
  - eauto.
  - intros (a' & E & H); inversion E; auto.
  - discriminate.
  - intros (a' & E & H); discriminate.
Qed.

Lemma for_from_inv S (Inv : Z -> S -> Prop) n lo body (st : S) :
  (forall i s, (lo <= i < lo + Z.of_nat n)%Z -> Inv i s ->
     exists s', body i s = Some s' /\ Inv (i + 1)%Z s') ->
  Inv lo st ->
  exists st', for_from n lo body st = Some st' /\ Inv (lo + Z.of_nat n)%Z st'.
Proof.
  revert lo st. induction n; intros lo st Hb H0.
  - exists st; simpl. rewrite Z.add_0_r. auto.
  - destruct (Hb lo st) as (s' & E & H1); auto; try lia.
    destruct (IHn (lo + 1)%Z s') as (st' & E' & H'); auto.
    + intros; apply Hb; auto; lia.
    + exists st'. simpl. rewrite E. simpl. split; auto.
      replace (lo + Z.pos (Pos.of_succ_nat n))%Z with (lo + 1 + Z.of_nat n)%Z by lia. auto.
Qed.

Lemma for_range_inv S (Inv : Z -> S -> Prop) lo hi body (st : S) :
  (lo <= hi)%Z ->
  (forall i s, (lo <= i < hi)%Z -> Inv i s ->
     exists s', body i s = Some s' /\ Inv (i + 1)%Z s') ->
  Inv lo st ->
  exists st', for_range lo hi body st = Some st' /\ Inv hi st'.
Proof.
  intros Hle Hb H0. unfold for_range.
  destruct (@for_from_inv S Inv (Z.to_nat (hi - lo)) lo body st) as (st' & E & H); auto.
  - intros; apply Hb; auto; lia.
  - exists st'; split; auto. replace hi with (lo + Z.of_nat (Z.to_nat (hi - lo)))%Z at 1 by lia. auto.
Qed.

(** Partial-correctness version: if the loop is defined then the invariant holds. *)
Lemma for_from_partial S (Inv : Z -> S -> Prop) n lo body (st st' : S) :
  (forall i s s', (lo <= i < lo + Z.of_nat n)%Z -> Inv i s ->
     body i s = Some s' -> Inv (i + 1)%Z s') ->
  Inv lo st -> for_from n lo body st = Some st' -> Inv (lo + Z.of_nat n)%Z st'.
Proof.
  revert lo st. induction n; intros lo st Hb H0; simpl.
  - intros E; inversion E; subst. rewrite Z.add_0_r; auto.
  - intros E. apply obind_Some in E as (s1 & E1 & E2).
    replace (lo + Z.pos (Pos.of_succ_nat n))%Z with (lo + 1 + Z.of_nat n)%Z by lia.
    eapply IHn; [| |exact E2].
    + intros; eapply Hb; eauto; lia.
    + eapply Hb; eauto; lia.
Qed.

Lemma for_range_partial S (Inv : Z -> S -> Prop) lo hi body (st st' : S) :
  (lo <= hi)%Z ->
  (forall i s s', (lo <= i < hi)%Z -> Inv i s ->
     body i s = Some s' -> Inv (i + 1)%Z s') ->
  Inv lo st -> for_range lo hi body st = Some st' -> Inv hi st'.
Proof.
  intros Hle Hb H0 E. replace hi with (lo + Z.of_nat (Z.to_nat (hi - lo)))%Z by lia.
  eapply for_from_partial; [| |exact E]; auto. intros; eapply Hb; eauto; lia.
Qed.

Lemma for_down_inv S (Inv : Z -> S -> Prop) n hi body (st : S) :
  (forall i s, (hi - Z.of_nat n <= i < hi)%Z -> Inv (i + 1)%Z s ->
     exists s', body i s = Some s' /\ Inv i s') ->
  Inv hi st ->
  exists st', for_down n hi body st = Some st' /\ Inv (hi - Z.of_nat n)%Z st'.
Proof.
  revert hi st. induction n; intros hi st Hb H0.
  - exists st; simpl. rewrite Z.sub_0_r. auto.
  - destruct (Hb (hi - 1)%Z st) as (s' & E & H1); auto; try lia.
    { now replace (hi - 1 + 1)%Z with hi by lia. }
    destruct (IHn (hi - 1)%Z s') as (st' & E' & H'); auto.
    + intros; apply Hb; auto; lia.
    + exists st'. simpl. rewrite E. simpl. split; auto.
      replace (hi - Z.pos (Pos.of_succ_nat n))%Z with (hi - 1 - Z.of_nat n)%Z by lia. auto.
Qed.

Lemma guard_true A (f : unit -> option A) : obind (guard true) f = f tt.
Proof. reflexivity. Qed.
Lemma guard_false A (f : unit -> option A) : obind (guard false) f = None.
Proof. reflexivity. Qed.
