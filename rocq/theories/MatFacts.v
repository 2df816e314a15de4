(** From arrays to mathcomp matrices. *)
From Coq Require Import ZArith List Reals Lia.
From mathcomp Require Import all_ssreflect ssralg matrix.
From Verif Require Import Base BaseFacts Sums SumsFacts RField Blas BlasFacts MatProd MatSpec.
Set Implicit Arguments.
Unset Strict Implicit.
Unset Printing Implicit Defensive.
Local Open Scope ring_scope.
Import GRing.Theory.
Delimit Scope R_scope with coqR.

Notation "'Zn' n" := (Z.of_nat n) (at level 9, n at level 9, only parsing).

Lemma nthE (T : Type) (d : T) (l : list T) k : nth d l k = List.nth k l d.
Proof. by elim: l k => [|a l IH] [|k] //=. Qed.

Lemma ratE (l : list R) (k : nat) : rat l (Zn k) = nth R0 l k.
Proof. by rewrite nthE /rat Nat2Z.id. Qed.

Lemma sum_big (n : nat) f : sum 0 (Zn n) f = \sum_(i < n) f (Zn i).
Proof.
  elim: n => [|n IH]; first by rewrite big_ord0.
  have -> : (Zn n.+1 = Zn n + 1)%Z by lia.
  rewrite sum_last; last by lia.
  by rewrite big_ord_recr /= IH.
Qed.

Lemma ordZ (n : nat) (i : 'I_n) : (0 <= Zn i < Zn n)%Z.
Proof. have := ltn_ord i. move/ltP. lia. Qed.

Lemma mxf_ext m n f g : (forall i j, (0 <= i < Zn m)%Z -> (0 <= j < Zn n)%Z -> f i j = g i j) ->
  mxf m n f = mxf m n g.
Proof. by move=> H; apply/matrixP => i j; rewrite !mxE H //; apply: ordZ. Qed.

Lemma mxf_at m n f g : mxf m n f = mxf m n g ->
  forall i j, (0 <= i < Zn m)%Z -> (0 <= j < Zn n)%Z -> f i j = g i j.
Proof.
  move=> /matrixP H i j Hi Hj.
  have Hi' : (Z.to_nat i < m)%N by apply/ltP; lia.
  have Hj' : (Z.to_nat j < n)%N by apply/ltP; lia.
  have := H (Ordinal Hi') (Ordinal Hj'). rewrite !mxE /= !Z2Nat.id //; lia.
Qed.

Lemma mat_mxf n A : mat n A = mxf n n (ent A 0 (Zn n)).
Proof.
  apply/matrixP => i j; rewrite !mxE /ent -ratE; congr (rat _ _).
  rewrite -plusE -multE. lia.
Qed.

Lemma mxf_mul m n p f g : mxf m n f *m mxf n p g = mxf m p (fun i j => sum 0 (Zn n) (fun l => Rmult (f i l) (g l j))).
Proof. by apply/matrixP => i j; rewrite !mxE sum_big; apply: eq_bigr => l _; rewrite !mxE. Qed.

Lemma mxf_tr m n f : (mxf m n f)^T = mxf n m (fun i j => f j i).
Proof. by apply/matrixP => i j; rewrite !mxE. Qed.

Lemma mxf_add m n f g : mxf m n f + mxf m n g = mxf m n (fun i j => Rplus (f i j) (g i j)).
Proof. by apply/matrixP => i j; rewrite !mxE. Qed.
Lemma mxf_opp m n f : - mxf m n f = mxf m n (fun i j => Ropp (f i j)).
Proof. by apply/matrixP => i j; rewrite !mxE. Qed.
Lemma mxf_scale m n a f : a *: mxf m n f = mxf m n (fun i j => Rmult a (f i j)).
Proof. by apply/matrixP => i j; rewrite !mxE. Qed.

Lemma of_nat_eqb i j : (Zn i =? Zn j)%Z = (i == j :> nat).
Proof. by case: Z.eqb_spec => h; symmetry; apply/eqP; lia. Qed.

Lemma mxf_1 n : 1%:M = mxf n n (fun i j => if (i =? j)%Z then R1 else R0).
Proof. by apply/matrixP => i j; rewrite !mxE of_nat_eqb; rewrite -val_eqE /=; case: (_ == _). Qed.

Lemma mxf_diag n d : mxf n n (fun i j => if (i =? j)%Z then d i else R0) = diag_mx (mxf 1 n (fun _ j => d j)).
Proof.
  apply/matrixP => i j; rewrite !mxE of_nat_eqb -val_eqE /=.
  by case: eqP => [->|_]; rewrite ?mulr1n ?mulr0n.
Qed.

(** row and column scaling *)
Lemma mxf_diag_l m n d f : diag_mx (mxf 1 m (fun _ j => d j)) *m mxf m n f = mxf m n (fun i j => Rmult (d i) (f i j)).
Proof. by apply/matrixP => i j; rewrite mul_diag_mx !mxE. Qed.
Lemma mxf_diag_r m n d f : mxf m n f *m diag_mx (mxf 1 n (fun _ j => d j)) = mxf m n (fun i j => Rmult (d j) (f i j)).
Proof. by apply/matrixP => i j; rewrite mul_mx_diag !mxE mulrC. Qed.

(** square array of size n x n *)
Definition square (n : nat) (A : list R) : Prop := lenZ A = (Zn n * Zn n)%Z.

Lemma fits_square n A : square n A -> fits (lenZ A) (Zn n) (Zn n) 0 (Zn n).
Proof. rewrite /square /fits => ->. repeat split; try lia. Qed.

Lemma square_eq n A B : square n A -> square n B -> mat n A = mat n B -> A = B.
Proof.
  move=> HA HB E.
  apply: (List.nth_ext _ _ R0 R0).
  - by move: HA HB; rewrite /square /lenZ => ? ?; lia.
  - move=> k Hk. set q := (Zn k / Zn n)%Z. set r := (Zn k mod Zn n)%Z.
    have Hlen : (Zn k < Zn n * Zn n)%Z by rewrite /square /lenZ in HA; lia.
    have Hn : (0 < Zn n)%Z by nia.
    have Hd : (Zn k = Zn n * q + r)%Z by apply: Z.div_mod; lia.
    have Hr : (0 <= r < Zn n)%Z by apply: Z.mod_pos_bound.
    have Hq : (0 <= q < Zn n)%Z by split; [apply: Z.div_pos; lia| apply: Z.div_lt_upper_bound; nia].
    move: E; rewrite !mat_mxf => /mxf_at /(_ r q Hr Hq). rewrite /ent /rat.
    have -> : Z.to_nat (0 + r + q * Zn n) = k by lia.
    by [].
Qed.

Lemma square_scale n (c : R) A : square n A -> square n (List.map (fun x => Rmult c x) A).
Proof. by rewrite /square /lenZ List.map_length. Qed.

(** matrix product of square arrays *)
Lemma dgemm_square n A B C : square n A -> square n B -> square n C ->
  exists C', dgemm false (Zn n) (Zn n) (Zn n) 1%coqR A 0 (Zn n) B 0 (Zn n) 0%coqR C 0 (Zn n) = Some C' /\
    square n C' /\ mat n C' = mat n A *m mat n B.
Proof.
  move=> HA HB HC.
  have [C' [E [HL [HE _]]]] := @dgemm_ok false (Zn n) (Zn n) (Zn n) 1%coqR A 0%Z (Zn n) B 0%Z (Zn n) 0%coqR C 0%Z (Zn n)
    (fits_square HA) (fits_square HB) (fits_square HC).
  exists C'; split => //; split; first by rewrite /square HL.
  rewrite !mat_mxf mxf_mul. apply: mxf_ext => i j Hi Hj. rewrite HE //.
  by rewrite Rmult_0_l Rplus_0_r Rmult_1_l.
Qed.

Lemma fresh_len junk k : (0 <= k)%Z -> lenZ (fresh junk k) = k.
Proof. by move=> H; rewrite /lenZ /fresh List.map_length List.seq_length Z2Nat.id. Qed.

Lemma fresh_square junk n : square n (fresh junk (Zn n * Zn n)).
Proof. by rewrite /square fresh_len //; lia. Qed.

Lemma copy_square n A B : square n A -> square n B ->
  exists B', copy (Zn n * Zn n) A 0 B 0 = Some B' /\ square n B' /\ B' = A.
Proof.
  move=> HA HB.
  have [|||||B' [E [HL [HE _]]]] := @copy_ok (Zn n * Zn n) A 0 B 0; try (rewrite /square in HA, HB; lia).
  exists B'; split => //.
  have HB' : square n B' by rewrite /square HL.
  split => //. apply: (square_eq HB' HA). rewrite !mat_mxf. apply: mxf_ext => i j Hi Hj.
  rewrite /ent. have H := HE (i + j * Zn n)%Z.
  rewrite !Z.add_0_l in H *. apply: H. nia.
Qed.

Lemma mprod_rcons n As (A : 'M[R]_n) : mprod (As ++ [:: A]) = A *m mprod As.
Proof. by elim: As => [|B As IH] /=; rewrite ?mul1mx ?mulmx1 // IH mulmxA. Qed.

Lemma firstn_S (T : Type) k (l : list T) d : (k < List.length l)%coq_nat ->
  List.firstn k.+1 l = List.firstn k l ++ [:: List.nth k l d].
Proof.
  elim: l k => [|a l IH] [|k] H; try by (simpl in H; lia). by [].
  rewrite /= -IH //. by simpl in H; lia.
Qed.

Lemma Forall_nth_ok (T : Type) (P : T -> Prop) l k d : List.Forall P l -> (k < List.length l)%coq_nat -> P (List.nth k l d).
Proof. move=> /List.Forall_forall H Hk. by apply: H; apply: List.nth_In. Qed.

Lemma product_sequence_ok junk n num As ret : (0 < num <= lenZ As)%Z ->
  List.Forall (square n) As -> square n ret ->
  exists r, product_sequence junk (Zn n) num As ret = Some r /\ square n r /\
    mat n r = mprod (List.map (mat n) (List.firstn (Z.to_nat num) As)).
Proof.
  move=> Hnum HAs Hret. rewrite /product_sequence.
  have Hg : forall i, (0 <= i < num)%Z -> aget As i = Some (List.nth (Z.to_nat i) As nil).
  { move=> i Hi. apply: aget_nth. rewrite /lenZ in Hnum. lia. }
  have Hsq : forall i, (0 <= i < num)%Z -> square n (List.nth (Z.to_nat i) As nil).
  { move=> i Hi. apply: Forall_nth_ok => //. rewrite /lenZ in Hnum. lia. }
  rewrite Hg; last lia. cbn [obind].
  set A0 := List.nth _ As nil. have HA0 : square n A0 by apply: Hsq; lia.
  pose Inv i (st : list R * list R * bool) := let '(w, r, f) := st in
    square n w /\ square n r /\ f = Z.odd (num - i + 1) /\
    mat n (if f then r else w) = mprod (List.map (mat n) (List.firstn (Z.to_nat i) As)).
  have Hf1 : mat n A0 = mprod (List.map (mat n) (List.firstn (Z.to_nat 1) As)).
  { rewrite (@firstn_S _ _ _ nil) /=; first by rewrite mul1mx.
    rewrite /lenZ in Hnum. lia. }
  have [st [Est HI]] : exists st, (if Z.odd num
    then let* r := copy (Zn n * Zn n) A0 0 ret 0 in Some (fresh junk (Zn n * Zn n), r, Z.odd num)
    else let* w := copy (Zn n * Zn n) A0 0 (fresh junk (Zn n * Zn n)) 0 in Some (w, ret, Z.odd num)) = Some st /\ Inv 1%Z st.
  { case Eo: (Z.odd num).
    - have [r [-> [Hr Er]]] := copy_square HA0 Hret. eexists; split; first reflexivity.
      split; first exact: fresh_square. split => //. split; first by rewrite -Eo; congr Z.odd; lia.
      by rewrite Er.
    - have [r [-> [Hr Er]]] := copy_square HA0 (fresh_square junk n). eexists; split; first reflexivity.
      split => //. split => //. split; first by rewrite -Eo; congr Z.odd; lia.
      by rewrite Er. }
  rewrite Est. cbn [obind].
  have [||| st' [E HI']] := @for_range_inv _ Inv 1%Z num (fun i st =>
    let '(w, r, f) := st in
    let* Ai := aget As i in
    if (f : bool)
    then let* w := dgemm false (Zn n) (Zn n) (Zn n) 1%coqR Ai 0 (Zn n) r 0 (Zn n) 0%coqR w 0 (Zn n) in Some (w, r, false)
    else let* r := dgemm false (Zn n) (Zn n) (Zn n) 1%coqR Ai 0 (Zn n) w 0 (Zn n) 0%coqR r 0 (Zn n) in Some (w, r, true)) st.
  - lia.
  - move=> i [[w r] f] Hi [Hw [Hr [Ef HM]]]. rewrite Hg; last lia. cbn [obind].
    set Ai := List.nth _ As nil. have HAi : square n Ai by apply: Hsq; lia.
    have Hprod : forall M, M = mat n Ai *m mprod (List.map (mat n) (List.firstn (Z.to_nat i) As)) ->
       M = mprod (List.map (mat n) (List.firstn (Z.to_nat (i + 1)) As)).
    { move=> M ->. have -> : Z.to_nat (i + 1) = (Z.to_nat i).+1 by lia.
      rewrite (@firstn_S _ _ _ nil); last by (rewrite /lenZ in Hnum; lia).
      by rewrite List.map_app mprod_rcons. }
    have Hodd : Z.odd (num - (i + 1) + 1) = ~~ Z.odd (num - i + 1).
    { have -> : (num - i + 1 = Z.succ (num - (i + 1) + 1))%Z by lia. by rewrite Z.odd_succ -Z.negb_odd negbK. }
    case: f Ef HM => Ef HM.
    + have [w' [-> [Hw' Ew']]] := dgemm_square HAi Hr Hw. eexists; split; first reflexivity.
      split => //; split => //; split; first by rewrite Hodd -Ef. apply: Hprod. by rewrite Ew' HM.
    + have [w' [-> [Hw' Ew']]] := dgemm_square HAi Hw Hr. eexists; split; first reflexivity.
      split => //; split => //; split; first by rewrite Hodd -Ef. apply: Hprod. by rewrite Ew' HM.
  - exact: HI.
  - rewrite E. cbn [obind]. case: st' HI' {E} => [[w r] f] [Hw [Hr [Ef HM]]].
    exists r. split => //. split => //. rewrite -HM Ef.
    by have -> : (num - num + 1 = 1)%Z by lia.
Qed.
