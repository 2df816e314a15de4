(** The section programs stay within the arrays listed in [section_footprint]. *)
From Coq Require Import ZArith List Bool Lia.
From Verif Require Import Base Threads ThreadsSpec ThreadsFacts ThreadSections.
Import ListNotations.
Local Open Scope Z_scope.

Lemma confined_mono arr V A (F H : footprint arr) (p : prog arr V A) :
  (forall a, reads F a = true -> acc arr H a) -> (forall a, writes F a = true -> writes H a = true) ->
  confined F p -> confined H p.
Proof.
  intros HR HW. induction p as [x| |a i k IH|a i v k IH|a l k IH]; cbn; auto.
  - intros [Ha Hk]. split; [|auto]. apply orb_true_iff in Ha as [Ha|Ha]; [now apply HR|apply HW in Ha; rewrite Ha; apply orb_true_r].
  - intros [Ha Hk]. auto.
  - intros [Ha Hk]. auto.
Qed.

Lemma confined_assoc V A B C (F : footprint name) (p : prog name V A) (f : A -> prog name V B) (g : B -> prog name V C) :
  confined F (pbind p (fun x => pbind (f x) g)) -> confined F (pbind (pbind p f) g).
Proof. induction p; cbn; auto; intros HH; intuition. Qed.

Section Sections.
Variable V : Type.
Variable routine : list Z -> list name -> list name -> prog name V Z.
Hypothesis Hroutine : forall args rd wr, confined (arguments rd wr) (routine args rd wr).
Variable junk : Z -> list V.

Lemma confined_routine (F : footprint name) args rd wr :
  Forall (acc name F) rd -> Forall (fun a => writes F a = true) wr -> confined F (routine args rd wr).
Proof.
  intros HR HW. rewrite Forall_forall in *. apply (confined_mono _ _ _ (arguments rd wr)); [| |auto]; cbn; intros a.
  - destruct (in_dec name_eq a rd); [auto|discriminate].
  - destruct (in_dec name_eq a wr); [auto|discriminate].
Qed.
Lemma confined_call (F : footprint name) args rd wr :
  Forall (acc name F) rd -> Forall (fun a => writes F a = true) wr -> confined F (call V routine args rd wr).
Proof. intros. unfold call. apply confined_bind; [now apply confined_routine|]. cbn; auto. Qed.
Lemma confined_loop (F : footprint name) lo hi body : (forall i, confined F (body i)) -> confined F (loop V lo hi body).
Proof. intros. unfold loop. apply confined_for; auto. Qed.

Lemma confined_if A (F : footprint name) (b : bool) (p q : prog name V A) : confined F p -> confined F q -> confined F (if b then p else q).
Proof. destruct b; auto. Qed.
End Sections.

Ltac cstep := first
  [ progress cbv zeta
  | progress intros
  | match goal with
    | |- confined _ (pbind _ _) => apply confined_bind
    | |- confined _ (loop _ _ _ _) => apply confined_loop
    | |- confined _ (pfor _ _ _ _) => apply confined_for
    | |- confined _ (call _ _ _ _ _) => apply confined_call; [assumption | |]
    | |- confined _ (if _ then _ else _) => apply confined_if
    | |- confined _ (Ret _) => exact I
    | |- confined _ (alloc _ _ _ _) => split; [|exact I]
    | H : forall args rd wr, confined _ (?r args rd wr) |- confined _ (?r _ _ _) => apply confined_routine; [assumption | |]
    | |- Forall _ (_ ++ _) => apply Forall_app; split
    | |- Forall _ (if ?b then _ else _) => destruct b
    | |- Forall _ [] => constructor
    | |- Forall _ (_ :: _) => constructor
    end ].

Section Sections2.
Variable V : Type.
Variable routine : list Z -> list name -> list name -> prog name V Z.
Hypothesis Hroutine : forall args rd wr, confined (arguments rd wr) (routine args rd wr).
Variable junk : Z -> list V.

Lemma confined_compute d s ph inv so B (F : footprint name) :
  acc _ F (Kinetic inv) -> (forall v, acc _ F (ExpV s v)) -> acc _ F Field -> (ph = true -> acc _ F ExpX) -> writes F B = true ->
  confined F (p_compute V routine d s ph inv so B).
Proof. intros. unfold p_compute. repeat cstep; auto. Qed.

Lemma confined_product d s A lstart ret (F : footprint name) :
  (forall i, lstart <= i -> acc _ F (A i)) -> writes F (Tmp s 0) = true -> writes F ret = true ->
  confined F (p_product V routine junk d s A lstart ret).
Proof.
  intros HA HW Hr. unfold p_product. cbv zeta. apply confined_bind; [split; auto; exact I|]. intros _.
  assert (forall T1 T2, writes F T1 = true -> writes F T2 = true -> confined F
    (do _ <- call V routine [3; dN d] [A lstart] [T1];
     do _ <- pfor 1 (dprodBlen d) (fun i st => let '(T1, T2) := st in
       do _ <- call V routine [4; dN d] [A (lstart + i); T1] [T2]; Ret (T2, T1)) (T1, T2);
     Ret tt)) as X; [|destruct (Z.even (dprodBlen d)); apply X; auto].
  intros T1 T2 H1 H2. apply confined_bind.
  - repeat cstep; auto. apply HA. lia.
  - intros _. apply confined_bind; [|intros; exact I].
    assert (forall n i T1 T2, 1 <= i -> writes F T1 = true -> writes F T2 = true -> confined F (pfor_from n i (fun i st => let '(T1, T2) := st in
       do _ <- call V routine [4; dN d] [A (lstart + i); T1] [T2]; Ret (T2, T1)) (T1, T2))) as Y; [|unfold pfor; apply Y; auto; lia].
    induction n; intros i T1' T2' Hi H1' H2'; cbn [pfor_from]; [exact I|].
    apply confined_assoc. apply confined_bind; [|intros _; cbn; apply IHn; auto; lia].
    repeat cstep; auto; [apply HA; lia|now apply writes_acc].
Qed.

(** closes a goal about the table of footprints *)
Ltac table := solve [ assumption | reflexivity | unfold acc; cbn; rewrite ?Z.eqb_refl, ?orb_true_r; try reflexivity;
  repeat match goal with |- context [spin_eqb ?s ?s] => destruct s; cbn | |- context [Bool.eqb ?b ?b] => destruct b; cbn end;
  rewrite ?Z.eqb_refl, ?orb_true_r; auto ].

Lemma eqb_spin s : spin_eqb s s = true.
Proof. destruct s; auto. Qed.

Theorem section_confined d c i l shift s :
  confined (section_footprint c s) (section_program V routine junk d c i l shift s).
Proof.
  destruct c as [k| | |k ph|trial ph|trial|]; cbn [section_program].
  - unfold p_wrap. repeat cstep; table.
  - unfold p_rank1. repeat cstep; table.
  - unfold p_rank1. repeat cstep; table.
  - unfold p_update. repeat cstep.
    + apply confined_compute; auto; intros; try table. unfold acc; cbn. now rewrite H.
    + apply confined_compute; auto; intros; try table. unfold acc; cbn. now rewrite H.
    + apply confined_product; auto; intros; try table.
  - unfold p_init. repeat cstep.
    + apply confined_compute; auto; intros; try table. unfold acc; cbn. now rewrite H.
    + apply confined_compute; auto; intros; try table. unfold acc; cbn. now rewrite H.
    + apply confined_product; auto; intros; try table.
  - unfold p_construct, p_time_flow_map. repeat cstep; table.
  - unfold p_unequal, p_cyclic_inverse, p_cyclic_qr, p_cyclic_tri, p_cyclic_rotation, p_wrap. repeat cstep; table.
Qed.
End Sections2.
