(** Expectation values depend on the Green's functions at the sites of the operators only. *)
From Coq Require Import ZArith List Reals Lia.
From Verif Require Import Sums SumsFacts LatticeSpec WickSpec Measure MeasureSpec MeasureFacts UMeasure UMeasureSpec.
Import ListNotations.
Local Open Scope Z_scope.

Lemma lsum_ext_in A (f g : A -> R) l : (forall x, In x l -> f x = g x) -> lsum f l = lsum g l.
Proof. unfold lsum. induction l; cbn; intros H; [reflexivity|]. rewrite IHl, H; auto. Qed.

Section Agree.
Variable N : Z.
Variables w w' : config.
Definition agree : Prop := tau_zero w = tau_zero w' /\
  forall s i j, 0 <= i < N -> 0 <= j < N ->
    gtt w s i j = gtt w' s i j /\ g00 w s i j = g00 w' s i j /\ gt0 w s i j = gt0 w' s i j /\ g0t w s i j = g0t w' s i j.
Hypothesis H : agree.
Definition modes_in (A : list (R * mode * mode)) : Prop :=
  Forall (fun t => 0 <= snd (snd (fst t)) < N /\ 0 <= snd (snd t) < N) A.

Lemma agree_tt a b : 0 <= snd a < N -> 0 <= snd b < N -> cdag_c_tt w a b = cdag_c_tt w' a b.
Proof. intros Ha Hb. unfold cdag_c_tt. now destruct (proj2 H (fst a) _ _ Hb Ha) as (-> & _). Qed.
Lemma agree_00 a b : 0 <= snd a < N -> 0 <= snd b < N -> cdag_c_00 w a b = cdag_c_00 w' a b.
Proof. intros Ha Hb. unfold cdag_c_00. now destruct (proj2 H (fst a) _ _ Hb Ha) as (_ & -> & _). Qed.
Lemma agree_t0 a b : 0 <= snd a < N -> 0 <= snd b < N -> cdag_c_t0 w a b = cdag_c_t0 w' a b.
Proof. intros Ha Hb. unfold cdag_c_t0. destruct (proj2 H (fst a) _ _ Hb Ha) as (_ & _ & _ & ->). now rewrite (proj1 H). Qed.
Lemma agree_c a b : 0 <= snd a < N -> 0 <= snd b < N -> c_cdag_t0 w a b = c_cdag_t0 w' a b.
Proof. intros Ha Hb. unfold c_cdag_t0. now destruct (proj2 H (fst a) _ _ Ha Hb) as (_ & _ & -> & _). Qed.

Lemma agree_expect_tt A : modes_in A -> expect_tt w A = expect_tt w' A.
Proof.
  intros HA. unfold expect_tt. apply lsum_ext_in. intros [[x a] b] Hi.
  destruct (proj1 (Forall_forall _ _) HA _ Hi). now rewrite agree_tt.
Qed.
Lemma agree_expect_00 A : modes_in A -> expect_00 w A = expect_00 w' A.
Proof.
  intros HA. unfold expect_00. apply lsum_ext_in. intros [[x a] b] Hi.
  destruct (proj1 (Forall_forall _ _) HA _ Hi). now rewrite agree_00.
Qed.
Lemma agree_correlation A B : modes_in A -> modes_in B -> correlation w A B = correlation w' A B.
Proof.
  intros HA HB. unfold correlation. apply lsum_ext_in. intros [[x a] b] Hi. apply lsum_ext_in. intros [[y c] d] Hj.
  destruct (proj1 (Forall_forall _ _) HA _ Hi), (proj1 (Forall_forall _ _) HB _ Hj). cbn [fst snd] in *.
  now rewrite agree_tt, agree_00, agree_t0, agree_c.
Qed.
Lemma agree_pair A B : modes_in A -> modes_in B -> pair_correlation w A B = pair_correlation w' A B.
Proof.
  intros HA HB. unfold pair_correlation. apply lsum_ext_in. intros [[x a] b] Hi. apply lsum_ext_in. intros [[y c] d] Hj.
  destruct (proj1 (Forall_forall _ _) HA _ Hi), (proj1 (Forall_forall _ _) HB _ Hj). cbn [fst snd] in *.
  now rewrite !agree_c.
Qed.

Ltac modes := solve [unfold modes_in; cbn; repeat (apply Forall_cons; [cbn; auto|]); apply Forall_nil].

Lemma agree_two_point f i j : 0 <= i < N -> 0 <= j < N -> two_point f w i j = two_point f w' i j.
Proof.
  intros Hi Hj. destruct f; cbn [two_point]; auto;
    repeat match goal with
    | |- context [correlation w ?A ?B] => rewrite (agree_correlation A B) by modes
    | |- context [expect_tt w ?A] => rewrite (agree_expect_tt A) by modes
    | |- context [expect_00 w ?A] => rewrite (agree_expect_00 A) by modes
    end; reflexivity.
Qed.
Lemma agree_number s i : 0 <= i < N -> expect_00 w (number s i) = expect_00 w' (number s i).
Proof. intros Hi. apply agree_expect_00. modes. Qed.
Lemma agree_doubleocc i : 0 <= i < N -> correlation w (number up i) (number dn i) = correlation w' (number up i) (number dn i).
Proof. intros Hi. apply agree_correlation; modes. Qed.
Lemma agree_pair_shape f i j n1 n2 : 0 <= i < N -> 0 <= j < N -> (forall d, 0 <= n1 d < N) -> (forall d, 0 <= n2 d < N) ->
  pair_correlation w (pair_op i (pair_shape f n1)) (pair_op j (pair_shape f n2)) =
  pair_correlation w' (pair_op i (pair_shape f n1)) (pair_op j (pair_shape f n2)).
Proof. intros Hi Hj H1 H2. apply agree_pair; destruct f; modes. Qed.
Lemma agree_u_two_point f i j : 0 <= i < N -> 0 <= j < N -> u_two_point f w i j = u_two_point f w' i j.
Proof.
  intros Hi Hj.
  destruct f; cbn [u_two_point]; auto; try (destruct (proj2 H up _ _ Hi Hj) as (E1 & E2 & E3 & E4); assumption);
    try (destruct (proj2 H dn _ _ Hi Hj) as (E1 & E2 & E3 & E4); assumption); apply agree_correlation; modes.
Qed.
Lemma agree_u_bond f i j n1 n2 : 0 <= i < N -> 0 <= j < N -> (forall d, 0 <= n1 d < N) -> (forall d, 0 <= n2 d < N) ->
  u_bond f w i j n1 n2 = u_bond f w' i j n1 n2.
Proof.
  intros Hi Hj H1 H2. destruct f; cbn [u_bond]; auto; try (apply agree_pair; modes).
  all: try apply f_equal; apply agree_correlation; modes.
Qed.
End Agree.
