(** Proofs about the loops over all slices of the block and flip updates. *)
From Coq Require Import ZArith List Reals Lia Lra.
From mathcomp Require Import all_ssreflect ssralg matrix.
From Verif Require Import Base BaseFacts Sums SumsFacts RealOps RField SimParams ParamParser Blas BlasFacts MatProd MatSpec MatFacts TimeStep TimeStepSpec
  TimeStepFacts Strat GreenSpec GreenFacts TimeFlowFacts RandSource Sweep SweepSpec SweepFacts PhononSweep PhononSpec PhononFieldFacts.
Set Implicit Arguments.
Unset Strict Implicit.
Unset Printing Implicit Defensive.
Local Open Scope ring_scope.
Import GRing.Theory.

Lemma posZ n l i : (Zn i + Zn l * Zn n = Zn (l * n + i)%N)%Z.
Proof. rewrite -plusE -multE. lia. Qed.

Section Col.
Variables (n L : nat).

(** entries of site [i] replaced at the slices below [m] *)
Definition colset (m i : nat) (f : nat -> R) (Y : list R) : list R :=
  mkseq (fun p => if (p %% n == i) && (p %/ n < m)%N then f (p %/ n)%N else nth R0 Y p) (size Y).

Lemma colset_len m i f Y : List.length (colset m i f Y) = List.length Y.
Proof. exact: size_mkseq. Qed.

Lemma colset_at m i f Y l i' : List.length Y = (L * n)%N -> (l < L)%N -> (i' < n)%N ->
  nth R0 (colset m i f Y) (l * n + i') = if (i' == i) && (l < m)%N then f l else nth R0 Y (l * n + i').
Proof.
  move=> HY Hl Hi. rewrite /colset nth_mkseq; last exact: (pos_in HY).
  rewrite pos_mod // divnMDl; last by apply: leq_ltn_trans Hi. by rewrite divn_small // addn0.
Qed.

Lemma colset0 i f Y : colset 0 i f Y = Y.
Proof.
  apply: (@eq_from_nth _ R0); first by rewrite size_mkseq. move=> p. rewrite size_mkseq => Hp. rewrite nth_mkseq //. by rewrite ltn0 andbF.
Qed.

Lemma aset_colset l i f Y : List.length Y = (L * n)%N -> (l < L)%N -> (i < n)%N ->
  aset (colset l i f Y) (Zn i + Zn l * Zn n) (f l) = Some (colset l.+1 i f Y).
Proof.
  move=> HY Hl Hi. rewrite posZ aset_list; last by rewrite colset_len HY; apply/ltP; exact: pos_lt.
  congr Some. apply: (@field_ext n L).
  - by rewrite lset_length colset_len.
  - by rewrite colset_len.
  move=> l' i' Hl' Hi'. rewrite [LHS]nthE lset_nth_d; last by rewrite colset_len HY; apply/ltP; exact: pos_lt.
  rewrite (colset_at _ _ _ HY Hl' Hi').
  case: Nat.eqb_spec => [E|E]; move/eqP: (E); rewrite eq_sym flip_pos // => H.
  - case/andP: H => /eqP -> /eqP ->. by rewrite eqxx ltnSn.
  - rewrite -nthE (colset_at _ _ _ HY Hl' Hi') ltnS [(l' <= l)%N]leq_eqVlt.
    move: H. case: (i' == i) => //=. rewrite andbT => /negbTE ->. by [].
Qed.

Lemma aget_colset l i f Y : List.length Y = (L * n)%N -> (l < L)%N -> (i < n)%N ->
  aget (colset l i f Y) (Zn i + Zn l * Zn n) = Some (nth R0 Y (l * n + i)).
Proof.
  move=> HY Hl Hi. rewrite posZ (@aget_list _ _ _ R0); last by rewrite colset_len HY; apply/ltP; exact: pos_lt.
  by rewrite -nthE (colset_at _ _ _ HY) // ltnn andbF.
Qed.
Lemma aget_colset_new l i f Y : List.length Y = (L * n)%N -> (l < L)%N -> (i < n)%N ->
  aget (colset l.+1 i f Y) (Zn i + Zn l * Zn n) = Some (f l).
Proof.
  move=> HY Hl Hi. rewrite posZ (@aget_list _ _ _ R0); last by rewrite colset_len HY; apply/ltP; exact: pos_lt.
  by rewrite -nthE (colset_at _ _ _ HY) // ltnSn eqxx.
Qed.

(** putting the old values back *)
Lemma colset_back i f g Y : List.length Y = (L * n)%N -> (i < n)%N ->
  (forall l, (l < L)%N -> g l = nth R0 Y (l * n + i)) -> colset L i g (colset L i f Y) = Y.
Proof.
  move=> HY Hi Hg. apply: (@field_ext n L) => //.
  - by rewrite !colset_len.
  - move=> l i' Hl Hi'. rewrite colset_at //; last by rewrite colset_len. rewrite Hl andbT (colset_at _ _ _ HY) //. rewrite Hl andbT.
    case: eqP => [->|//]. exact: Hg.
Qed.

Section Loops.
Variables (junk : Z -> R) (i : nat) (Y : list R).
Hypotheses (Hi : (i < n)%N) (HY : List.length Y = (L * n)%N).

Lemma toZ l : (0 <= l < Zn L)%Z -> exists l', l = Zn l' /\ (l' < L)%N.
Proof. move=> H. exists (Z.to_nat l). split; first lia. apply/ltP. lia. Qed.

Lemma save_col_ok : exists c, save_col junk (Zn L) (Zn n) (Zn i) Y = Some c /\ List.length c = L /\
  forall l, (l < L)%N -> nth R0 c l = nth R0 Y (l * n + i).
Proof.
  rewrite /save_col.
  have [|||c [-> [H1 H2]]] := @for_range_inv _ (fun m c => List.length c = L /\ forall l, (Zn l < m)%Z -> (l < L)%N -> nth R0 c l = nth R0 Y (l * n + i))
     0%Z (Zn L) (fun l c => let* v := aget Y (Zn i + l * Zn n) in aset c l v) (fresh junk (Zn L)).
  - lia.
  - move=> l c /toZ [l' [-> Hl']] [H1 H2]. rewrite posZ (@aget_list _ _ _ R0); last by rewrite HY; apply/ltP; exact: pos_lt.
    cbn [obind]. rewrite aset_list; last by rewrite H1; apply/ltP. eexists. split; first reflexivity. split; first by rewrite lset_length.
    move=> q Hq HqL. rewrite !nthE lset_nth_d; last by rewrite H1; apply/ltP. case: Nat.eqb_spec => [<-|Hne]; first by [].
    rewrite -nthE H2 //; first by rewrite nthE. lia.
  - split; first by rewrite /fresh List.map_length List.seq_length Nat2Z.id. lia.
  exists c. do 2 (split => //). move=> l Hl. apply: H2 => //. move/ltP: Hl. lia.
Qed.

Lemma restore_col_ok c f : List.length c = L -> (forall l, (l < L)%N -> nth R0 c l = nth R0 Y (l * n + i)) ->
  restore_col (Zn L) (Zn n) (Zn i) c (colset L i f Y) = Some Y.
Proof.
  move=> H1 H2. rewrite /restore_col.
  have HY' : List.length (colset L i f Y) = (L * n)%N by rewrite colset_len.
  have [|||Y' [-> HY'']] := @for_range_inv _ (fun m Y' => Y' = colset (Z.to_nat m) i (nth R0 c) (colset L i f Y))
     0%Z (Zn L) (fun l A => let* v := aget c l in aset A (Zn i + l * Zn n) v) (colset L i f Y).
  - lia.
  - move=> l Y' /toZ [l' [-> Hl']] ->. rewrite (@aget_list _ _ _ R0); last by rewrite H1; apply/ltP.
    cbn [obind]. rewrite Nat2Z.id -nthE aset_colset //. eexists. split; first reflexivity.
    by have -> : Z.to_nat (Zn l' + 1) = l'.+1 by lia.
  - by rewrite colset0.
  rewrite HY'' Nat2Z.id colset_back //.
Qed.

Lemma block_dE_ok w dx : block_dE w dx (Zn L) (Zn n) (Zn i) Y =
  Some (Rmult (\sum_(l < L) Rplus dx (Rmult 2 (nth R0 Y (l * n + i)))) (Rmult (Rmult (/2) (Rmult w w)) dx)).
Proof.
  rewrite /block_dE.
  have [|||e [-> He]] := @for_range_inv _ (fun m e => e = \sum_(l < Z.to_nat m) Rplus dx (Rmult 2 (nth R0 Y (l * n + i))))
     0%Z (Zn L) (fun l e => let* x := aget Y (Zn i + l * Zn n) in Some (e + (dx + 2 * x))%coqR) R0.
  - lia.
  - move=> l e /toZ [l' [-> Hl']] ->. rewrite posZ (@aget_list _ _ _ R0); last by rewrite HY; apply/ltP; exact: pos_lt.
    cbn [obind]. eexists. split; first reflexivity. have -> : Z.to_nat (Zn l' + 1) = l'.+1 by lia.
    rewrite Nat2Z.id big_ord_recr /=. by rewrite -nthE -RplusE.
  - by rewrite /= big_ord0.
  cbn [obind]. rewrite Nat2Z.id in He. rewrite He. congr Some. congr (Rmult _ _). have -> : 0.5%coqR = (/2)%coqR by lra. by [].
Qed.

Variables (dt g : R) (E : list R).
Hypothesis HE : List.length E = (L * n)%N.

Lemma block_shift_ok dx : block_shift dt g dx (Zn L) (Zn n) (Zn i) (Y, E) =
  Some (colset L i (fun l => Rplus (nth R0 Y (l * n + i)) dx) Y,
        colset L i (fun l => exp (Rmult (Rmult (Ropp dt) g) (Rplus (nth R0 Y (l * n + i)) dx))) E).
Proof.
  rewrite /block_shift. set f := fun l : nat => _. set h := fun l : nat => _.
  have [|||st [-> ->]] := @for_range_inv _ (fun m st => st = (colset (Z.to_nat m) i f Y, colset (Z.to_nat m) i h E))
    0%Z (Zn L) (fun l Xe => let '(X, eX) := Xe in
    let* x := aget X (Zn i + l * Zn n) in
    let* X := aset X (Zn i + l * Zn n) (x + dx)%coqR in
    let* x := aget X (Zn i + l * Zn n) in
    let* eX := aset eX (Zn i + l * Zn n) (exp (- dt * g * x)%coqR) in
    Some (X, eX)) (Y, E).
  - lia.
  - move=> l st /toZ [l' [-> Hl']] ->. rewrite Nat2Z.id aget_colset //. cbn [obind]. rewrite -/(f l') aset_colset //. cbn [obind].
    rewrite aget_colset_new //. cbn [obind]. rewrite -/(h l') aset_colset //. cbn [obind]. eexists. split; first reflexivity.
    by have -> : Z.to_nat (Zn l' + 1) = l'.+1 by lia.
  - by rewrite !colset0.
  by rewrite Nat2Z.id.
Qed.

Lemma flip_shift_ok w flip c : List.length c = L -> (forall l, (l < L)%N -> nth R0 c l = nth R0 Y (l * n + i)) ->
  flip_shift dt g w flip (Zn L) (Zn n) (Zn i) c (R0, (Y, E)) =
  Some (\sum_(l < L) Rmult (Rmult (Rmult (/2) (Rmult w w)) (Ropp flip)) (Rplus (Ropp flip) (Rmult 2 (nth R0 Y (l * n + i)))),
        (colset L i (fun l => Rminus flip (nth R0 Y (l * n + i))) Y,
         colset L i (fun l => exp (Rmult (Rmult (Ropp dt) g) (Rminus flip (nth R0 Y (l * n + i))))) E)).
Proof.
  move=> H1 H2. rewrite /flip_shift. set f := fun l : nat => _. set h := fun l : nat => _.
  have [|||st [-> ->]] := @for_range_inv _ (fun m st => st = (\sum_(l < Z.to_nat m) Rmult (Rmult (Rmult (/2) (Rmult w w)) (Ropp flip)) (Rplus (Ropp flip) (Rmult 2 (nth R0 Y (l * n + i)))),
      (colset (Z.to_nat m) i f Y, colset (Z.to_nat m) i h E)))
    0%Z (Zn L) (fun l st => let '(e, (X, eX)) := st in
    let* r := aget c l in
    let e := (e + 0.5 * (w * w) * (- flip) * (- flip + 2 * r))%coqR in
    let* X := aset X (Zn i + l * Zn n) (flip - r)%coqR in
    let* x := aget X (Zn i + l * Zn n) in
    let* eX := aset eX (Zn i + l * Zn n) (exp (- dt * g * x)%coqR) in
    Some (e, (X, eX))) (R0, (Y, E)).
  - lia.
  - move=> l st /toZ [l' [-> Hl']] ->. rewrite Nat2Z.id (@aget_list _ _ _ R0); last by rewrite H1; apply/ltP.
    rewrite -nthE H2 //. cbn [obind]. rewrite -/(f l') aset_colset //. cbn [obind].
    rewrite aget_colset_new //. cbn [obind]. rewrite -/(h l') aset_colset //. cbn [obind]. eexists. split; first reflexivity.
    have -> : Z.to_nat (Zn l' + 1) = l'.+1 by lia. rewrite big_ord_recr /=. congr pair. rewrite -RplusE. congr Rplus.
    have -> : 0.5%coqR = (/2)%coqR by lra. by [].
  - by rewrite !colset0 /= big_ord0.
  by rewrite Nat2Z.id.
Qed.
End Loops.
End Col.

(** the new fields in terms of the specification *)
Section New.
Variables (n L : nat) (k : kinetic) (ph : phonon_params) (dt : R) (i : nat) (X : list R).
Hypotheses (Hi : (i < n)%N) (HX : List.length X = (L * n)%N).

Lemma shift_all_col dx : colset n L i (fun l => Rplus (nth R0 X (l * n + i)) dx) X = shift_all n i dx X.
Proof.
  apply: (@field_ext n L); [by rewrite colset_len|exact: shift_all_len|].
  move=> l i' Hl Hi'. rewrite (colset_at _ _ _ HX) // Hl andbT. rewrite -[RHS]/(field_at n _ l i') (shift_all_at HX) //.
  by case: eqP => [->|].
Qed.
Lemma exp_shift_all_col dx :
  colset n L i (fun l => exp (Rmult (Rmult (Ropp dt) (coupling k ph i)) (Rplus (nth R0 X (l * n + i)) dx))) (exp_field n k ph dt X) =
  exp_field n k ph dt (shift_all n i dx X).
Proof.
  have HS := shift_all_len HX i dx. have HE := exp_field_len (n := n) (L := L) k ph dt HX.
  apply: (@field_ext n L); [by rewrite colset_len|exact: exp_field_len|].
  move=> l i' Hl Hi'. rewrite (colset_at _ _ _ HE) // Hl andbT !(exp_field_at (L := L)) // (shift_all_at HX) //.
  by case: eqP => [->|].
Qed.
Lemma reflect_all_col c : colset n L i (fun l => Rminus c (nth R0 X (l * n + i))) X = reflect_all n i c X.
Proof.
  apply: (@field_ext n L); [by rewrite colset_len|exact: reflect_all_len|].
  move=> l i' Hl Hi'. rewrite (colset_at _ _ _ HX) // Hl andbT. rewrite -[RHS]/(field_at n _ l i') (reflect_all_at HX) //.
  by case: eqP => [->|].
Qed.
Lemma exp_reflect_all_col c :
  colset n L i (fun l => exp (Rmult (Rmult (Ropp dt) (coupling k ph i)) (Rminus c (nth R0 X (l * n + i))))) (exp_field n k ph dt X) =
  exp_field n k ph dt (reflect_all n i c X).
Proof.
  have HS := reflect_all_len HX i c. have HE := exp_field_len (n := n) (L := L) k ph dt HX.
  apply: (@field_ext n L); [by rewrite colset_len|exact: exp_field_len|].
  move=> l i' Hl Hi'. rewrite (colset_at _ _ _ HE) // Hl andbT !(exp_field_at (L := L)) // (reflect_all_at HX) //.
  by case: eqP => [->|].
Qed.
End New.
