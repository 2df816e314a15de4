(** Windows of an N x N array, and products with a small matrix acting on a window. *)
From Coq Require Import ZArith List Reals Lia Lra.
From mathcomp Require Import all_ssreflect fingroup perm ssralg matrix.
From Verif Require Import Base BaseFacts Sums SumsFacts RealOps Blas BlasFacts RField MatSpec MatFacts Lapack LapackSpec LapackFacts.
Set Implicit Arguments.
Unset Strict Implicit.
Unset Printing Implicit Defensive.
Local Open Scope ring_scope.
Import GRing.Theory.

Definition inwin (o m r : Z) : bool := (Z.leb o r && Z.ltb r (o + m))%bool.
Lemma inwinP o m r : reflect (o <= r < o + m)%Z (inwin o m r).
Proof. apply: (iffP andP) => [[/Z.leb_le H1 /Z.ltb_lt H2] | [H1 H2]]; first lia. split; [apply/Z.leb_le|apply/Z.ltb_lt]; lia. Qed.

Section Win.
Variable N : nat.
Notation NZ := (Zn N).

(** entry (r, c) *)
Definition gl (H : list R) (r c : Z) : R := ent H 0 NZ r c.

Lemma win_ent H r0 c0 i j : ent H (r0 + NZ * c0) NZ i j = gl H (r0 + i) (c0 + j).
Proof. rewrite /gl /ent. congr rat. ring. Qed.

Lemma fits_win H m k r0 c0 : square N H -> (0 <= r0)%Z -> (0 <= c0)%Z -> (r0 + Zn m <= NZ)%Z -> (c0 + Zn k <= NZ)%Z ->
  fits (lenZ H) (Zn m) (Zn k) (r0 + NZ * c0) NZ.
Proof. rewrite /square /fits => -> *. repeat split; try lia. move=> *. nia. Qed.

Lemma writes_gl H H' m k r0 c0 f : writes H H' m k (r0 + NZ * c0) NZ f -> (0 <= r0)%Z -> (0 <= c0)%Z -> (r0 + Zn m <= NZ)%Z ->
  forall r c, (0 <= r < NZ)%Z -> (0 <= c)%Z ->
  gl H' r c = if (inwin r0 (Zn m) r && inwin c0 (Zn k) c)%bool then f (r - r0)%Z (c - c0)%Z else gl H r c.
Proof.
  move=> [_ [HE HF]] Hr0 Hc0 Hm r c Hr Hc. case: inwinP => Ir; case: inwinP => Ic /=.
  - have -> : gl H' r c = ent H' (r0 + NZ * c0) NZ (r - r0) (c - c0) by rewrite win_ent; congr gl; ring.
    apply: HE; lia.
  all: rewrite /gl /ent; apply: HF; first nia.
  all: move=> [i [j [Hi [Hj E]]]].
  all: have [||||E1 E2] := @blk_inj NZ NZ r c (r0 + i) (c0 + j); try lia.
Qed.

(** rows o, ..., o+m-1 *)
Definition sel (m : nat) (o : Z) : 'M[R]_(m, N) := mxf m N (fun i c => if (c =? o + i)%Z then R1 else R0).

Lemma sum_delta' (n : nat) j f : (0 <= j < Zn n)%Z -> sum 0 (Zn n) (fun l => Rmult (if (l =? j)%Z then R1 else R0) (f l)) = f j.
Proof.
  move=> Hj. rewrite -(@sum_delta n j f Hj). apply: sum_ext => i _. exact: Rmult_comm.
Qed.

Section Sel.
Variables (m : nat) (o : Z).
Hypotheses (Ho : (0 <= o)%Z) (Hm : (o + Zn m <= NZ)%Z).

Lemma sel_mul k w : sel m o *m mxf N k w = mxf m k (fun i c => w (o + i)%Z c).
Proof. rewrite /sel mxf_mul. apply: mxf_ext => i j Hi Hj. rewrite sum_delta' //. lia. Qed.
Lemma mul_selT k w : mxf k N w *m (sel m o)^T = mxf k m (fun r j => w r (o + j)%Z).
Proof. apply: trmx_inj. rewrite trmx_mul trmxK mxf_tr sel_mul mxf_tr. done. Qed.
Lemma sel_orth : sel m o *m (sel m o)^T = 1%:M.
Proof.
  rewrite {1}/sel mul_selT mxf_1. apply: mxf_ext => i j Hi Hj. case: Z.eqb_spec => E; case: Z.eqb_spec => E' //; lia.
Qed.
Lemma selT_mul k g : (sel m o)^T *m mxf m k g = mxf N k (fun r c => if inwin o (Zn m) r then g (r - o)%Z c else R0).
Proof.
  rewrite /sel mxf_tr mxf_mul. apply: mxf_ext => r c Hr Hc. case: inwinP => H.
  - rewrite -(@sum_delta' m (r - o) (fun l => g l c)); last lia.
    apply: sum_ext => l Hl. case: Z.eqb_spec => E; case: Z.eqb_spec => E' //; lia.
  - apply: sum_zero => l Hl. case: Z.eqb_spec => E; first lia. exact: Rmult_0_l.
Qed.

(** Q acting on the rows of the window *)
Definition emb (Q : 'M[R]_m) : 'M[R]_N := 1%:M - (sel m o)^T *m sel m o + (sel m o)^T *m Q *m sel m o.

Lemma emb_tr Q : (emb Q)^T = emb Q^T.
Proof. by rewrite /emb linearD linearB /= tr_scalar_mx !trmx_mul trmxK mulmxA. Qed.
Lemma emb_1 : emb 1%:M = 1%:M.
Proof. by rewrite /emb mulmx1 subrK. Qed.
Lemma sel_emb Q : sel m o *m emb Q = Q *m sel m o.
Proof. by rewrite /emb mulmxDr mulmxBr mulmx1 !mulmxA sel_orth !mul1mx subrr add0r. Qed.
Lemma emb_mul Q Q' : emb Q *m emb Q' = emb (Q *m Q').
Proof.
  rewrite {1}/emb mulmxDl mulmxBl mul1mx -!mulmxA sel_emb.
  have -> : emb Q' - (sel m o)^T *m (Q' *m sel m o) = 1%:M - (sel m o)^T *m sel m o by rewrite /emb -mulmxA addrK.
  by rewrite /emb !mulmxA.
Qed.

Lemma emb_left w w' Q :
  (forall r c, (0 <= r < NZ)%Z -> (0 <= c < NZ)%Z -> ~ (o <= r < o + Zn m)%Z -> w' r c = w r c) ->
  mxf m N (fun i c => w' (o + i)%Z c) = Q *m mxf m N (fun i c => w (o + i)%Z c) ->
  mxf N N w' = emb Q *m mxf N N w.
Proof.
  move=> H1 H2. rewrite /emb mulmxDl mulmxBl mul1mx -!mulmxA !sel_mul -H2 !selT_mul mxf_opp !mxf_add.
  apply: mxf_ext => r c Hr Hc. case: inwinP => H.
  - have -> : (o + (r - o) = r)%Z by lia. lra.
  - rewrite H1 //. lra.
Qed.
Lemma emb_right w w' Q :
  (forall r c, (0 <= r < NZ)%Z -> (0 <= c < NZ)%Z -> ~ (o <= c < o + Zn m)%Z -> w' r c = w r c) ->
  mxf N m (fun r j => w' r (o + j)%Z) = mxf N m (fun r j => w r (o + j)%Z) *m Q^T ->
  mxf N N w' = mxf N N w *m (emb Q)^T.
Proof.
  move=> H1 H2. apply: trmx_inj. rewrite trmx_mul trmxK !mxf_tr. apply: emb_left.
  - move=> r c Hr Hc Hn. exact: H1.
  - apply: trmx_inj. rewrite trmx_mul !mxf_tr. exact: H2.
Qed.
End Sel.
End Win.

(** a product can be computed for blocks of columns *)
Lemma col_blocks (m n p : nat) f g (Q : 'M[R]_m) : (0 < n)%N ->
  (forall b, (b < p)%N -> mxf m n (fun i j => f i (Zn b * Zn n + j)%Z) = Q *m mxf m n (fun i j => g i (Zn b * Zn n + j)%Z)) ->
  mxf m (n * p) f = Q *m mxf m (n * p) g.
Proof.
  move=> Hn H. apply/matrixP => i c.
  have Hb : (c %/ n < p)%N by rewrite ltn_divLR // [(p * n)%N]mulnC.
  have Hj : (c %% n < n)%N by rewrite ltn_mod.
  have := congr1 (fun A : 'M_(m, n) => A i (Ordinal Hj)) (H _ Hb).
  rewrite !mxE /=. have E : (Zn (c %/ n) * Zn n + Zn (c %% n) = Zn c)%Z by move: (nat_of_ord c) => k; rewrite {3}(divn_eq k n) -plusE -multE; lia.
  rewrite E => ->. apply: eq_bigr => l _. by rewrite !mxE /= E.
Qed.
