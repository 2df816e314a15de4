(** Decimal numerals are read correctly. *)
From Coq Require Import ZArith NArith List Ascii String Lia Decimal DecimalString DecimalZ DecimalPos.
From Verif Require Import Base ParamParser.
Local Open Scope Z_scope.

Lemma digits_acc : forall u p, digits (Zpos p) (NilEmpty.string_of_uint u) = Zpos (Pos.of_uint_acc u p).
Proof.
  induction u; intros p; cbn [NilEmpty.string_of_uint Pos.of_uint_acc]; auto;
  cbn [digits]; match goal with |- context [digit ?c] => let d := eval vm_compute in (digit c) in change (digit c) with d end;
  cbv iota; rewrite <- IHu; f_equal; lia.
Qed.

Lemma digits_uint : forall u, digits 0 (NilEmpty.string_of_uint u) = Z.of_N (Pos.of_uint u).
Proof.
  induction u; cbn [NilEmpty.string_of_uint Pos.of_uint]; auto;
  cbn [digits]; match goal with |- context [digit ?c] => let d := eval vm_compute in (digit c) in change (digit c) with d end;
  cbv iota; auto; cbn [Z.of_N]; rewrite <- digits_acc; reflexivity.
Qed.

Lemma uint_start u : match NilEmpty.string_of_uint u with
  | String c s => is_space c = false /\ Ascii.eqb c "-" = false /\ Ascii.eqb c "+" = false
  | EmptyString => True end.
Proof. destruct u; cbn [NilEmpty.string_of_uint]; auto; repeat split. Qed.

Lemma parse_int_uint u : parse_int (NilEmpty.string_of_uint u) = Z.of_N (Pos.of_uint u).
Proof.
  rewrite <- digits_uint. unfold parse_int. pose proof (uint_start u) as H.
  destruct (NilEmpty.string_of_uint u) as [|c s]; auto. destruct H as (H1 & H2 & H3).
  cbn [skip_space]. rewrite H1, H2, H3. reflexivity.
Qed.

Lemma parse_int_print z : parse_int (NilEmpty.string_of_int (Z.to_int z)) = z.
Proof.
  transitivity (Z.of_int (Z.to_int z)); [|apply DecimalZ.of_to].
  destruct (Z.to_int z) as [u|u]; cbn [NilEmpty.string_of_int Z.of_int].
  - apply parse_int_uint.
  - change (parse_int (String "-" (NilEmpty.string_of_uint u))) with (- digits 0 (NilEmpty.string_of_uint u)).
    now rewrite digits_uint.
Qed.
