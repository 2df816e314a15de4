(** Lemmas about the BLAS routines: result and frame. *)
From Coq Require Import ZArith List Reals Lia Lra.
From Verif Require Import Base BaseFacts Sums SumsFacts RealOps Blas.
Import ListNotations.
Local Open Scope Z_scope.

Set Implicit Arguments.

(** entry (i, j) of the matrix at (array, offset, leading dimension) *)
Definition ent (A : list R) (off ld i j : Z) : R := rat A (off + i + j * ld).

(** the m x n block lies in an array of length [len] *)
Definition fits (len m n off ld : Z) : Prop :=
  0 <= off /\ 0 <= m /\ 0 <= n /\ m <= ld /\ (0 < m -> 0 < n -> off + (m - 1) + (n - 1) * ld < len).

Definition lenZ {A} (a : list A) : Z := Z.of_nat (length a).

Lemma fits_at len m n off ld i j : fits len m n off ld -> 0 <= i < m -> 0 <= j < n ->
  0 <= off + i + j * ld < len.
Proof. intros (H1 & H2 & H3 & H4 & H5) Hi Hj. specialize (H5 ltac:(lia) ltac:(lia)). nia. Qed.

Lemma mget_ok A m n off ld i j : fits (lenZ A) m n off ld -> 0 <= i < m -> 0 <= j < n ->
  mget A off ld i j = Some (ent A off ld i j).
Proof. intros H Hi Hj. apply aget_nth. apply (fits_at H Hi Hj). Qed.

Arguments mget_ok [A m n off ld i j] _ _ _.

Lemma aget_rat A k : 0 <= k < lenZ A -> aget A k = Some (rat A k).
Proof. intros. apply aget_nth. auto. Qed.

Lemma osum_ok lo hi f g : lo <= hi -> (forall i, lo <= i < hi -> f i = Some (g i)) ->
  osum lo hi f = Some (sum lo hi g).
Proof.
  intros Hle H. unfold osum.
  destruct (@for_range_inv R (fun h s => s = sum lo h g) lo hi
    (fun i s => let* x := f i in Some (s + x)%R) 0%R) as (s & E & ->); auto.
  - intros i s Hi ->. rewrite H by auto. cbn [obind]. eexists; split; [reflexivity|].
    now rewrite sum_last by lia.
  - now rewrite sum_nil.
Qed.

(** index k belongs to the block *)
Definition inblk (m n off ld k : Z) : Prop :=
  exists i j, 0 <= i < m /\ 0 <= j < n /\ k = off + i + j * ld.

Lemma blk_inj m ld i j i' j' : m <= ld -> 0 <= i < m -> 0 <= i' < m -> i + j * ld = i' + j' * ld ->
  i = i' /\ j = j'.
Proof. intros. assert (j = j') by nia. lia. Qed.

Lemma write_block_ok m n off ld f g C : fits (lenZ C) m n off ld ->
  (forall i j, 0 <= i < m -> 0 <= j < n -> f i j = Some (g i j)) ->
  exists C', write_block m n off ld f C = Some C' /\ lenZ C' = lenZ C /\
    (forall i j, 0 <= i < m -> 0 <= j < n -> ent C' off ld i j = g i j) /\
    (forall k, 0 <= k -> ~ inblk m n off ld k -> rat C' k = rat C k).
Proof.
  intros HF Hf. pose proof HF as (H1 & H2 & H3 & H4 & H5).
  pose (Inv := fun (P : Z -> Z -> Prop) C' => lenZ C' = lenZ C /\
    (forall i j, 0 <= i < m -> 0 <= j < n -> P i j -> ent C' off ld i j = g i j) /\
    (forall k, 0 <= k -> ~ inblk m n off ld k -> rat C' k = rat C k)).
  assert (Hext : forall (P Q : Z -> Z -> Prop) C', (forall i j, 0 <= i < m -> 0 <= j < n -> Q i j -> P i j) ->
     Inv P C' -> Inv Q C').
  { intros P Q C' HPQ (A & B & D). split; [|split]; auto. }
  unfold write_block.
  destruct (@for_range_inv (list R) (fun J => Inv (fun i j => j < J)) 0 n (fun j C =>
     for_range 0 m (fun i C => let* v := f i j in aset C (off + i + j * ld) v) C) C)
     as (C' & E & HI); auto.
  - intros j C1 Hj HI.
    destruct (@for_range_inv (list R) (fun I => Inv (fun i' j' => j' < j \/ (j' = j /\ i' < I))) 0 m
      (fun i C => let* v := f i j in aset C (off + i + j * ld) v) C1) as (C2 & E2 & HI2); auto.
    + intros i C2 Hi (A & B & D). rewrite Hf by auto. cbn [obind].
      assert (0 <= off + i + j * ld < lenZ C2) as HR by (rewrite A; apply (fits_at HF Hi Hj)).
      rewrite aset_ok by exact HR. eexists; split; [reflexivity|]. split; [|split].
      * unfold lenZ. now rewrite lset_length.
      * intros i' j' Hi' Hj' HP. pose proof (fits_at HF Hi' Hj').
        unfold ent. rewrite rat_lset by (auto; lia).
        destruct (Z.eqb_spec (off + i + j * ld) (off + i' + j' * ld)) as [E|E].
        -- destruct (@blk_inj m ld i j i' j') as [-> ->]; auto; lia.
        -- apply B; auto. destruct HP as [HP|[-> HP]]; auto. right; split; auto.
           assert (i' <> i) by congruence. lia.
      * intros k Hk Hn. rewrite rat_lset by (auto; lia).
        destruct (Z.eqb_spec (off + i + j * ld) k) as [E|E]; auto.
        exfalso. apply Hn. exists i, j. auto.
    + eapply Hext; [|exact HI]; cbn; intros; lia.
    + rewrite E2. eexists; split; [reflexivity|]. eapply Hext; [|exact HI2]; cbn; intros; lia.
  - split; [|split]; auto. intros; lia.
  - exists C'. split; [exact E|]. destruct HI as (A & B & D). split; [|split]; auto.
    intros; apply B; auto. lia.
Qed.

Lemma inblk_col m off k : inblk m 1 off m k <-> off <= k < off + m.
Proof.
  split.
  - intros (i & j & Hi & Hj & ->). assert (j = 0) by lia. subst. lia.
  - intros H. exists (k - off), 0. lia.
Qed.

Lemma copy_ok n A oa B ob : 0 <= n -> 0 <= oa -> oa + n <= lenZ A -> 0 <= ob -> ob + n <= lenZ B ->
  exists B', copy n A oa B ob = Some B' /\ lenZ B' = lenZ B /\
    (forall i, 0 <= i < n -> rat B' (ob + i) = rat A (oa + i)) /\
    (forall k, 0 <= k -> (k < ob \/ ob + n <= k) -> rat B' k = rat B k).
Proof.
  intros Hn Ha1 Ha2 Hb1 Hb2. unfold copy.
  destruct (@write_block_ok n 1 ob n (fun i _ => aget A (oa + i)) (fun i _ => rat A (oa + i)) B)
    as (B' & E & HL & HB & HF).
  - unfold fits; nia.
  - intros. apply aget_rat. lia.
  - exists B'. split; [auto|]. split; [auto|]. split.
    + intros i Hi. rewrite <- (HB i 0) by lia. unfold ent. f_equal; lia.
    + intros k Hk Ho. apply HF; auto. rewrite inblk_col. lia.
Qed.

Lemma zero_fill_ok n A off : 0 <= n -> 0 <= off -> off + n <= lenZ A ->
  exists A', zero_fill n A off = Some A' /\ lenZ A' = lenZ A /\
    (forall i, off <= i < off + n -> rat A' i = 0%R) /\
    (forall k, 0 <= k -> (k < off \/ off + n <= k) -> rat A' k = rat A k).
Proof.
  intros Hn H1 H2. unfold zero_fill.
  destruct (@write_block_ok n 1 off n (fun _ _ => Some 0%R) (fun _ _ => 0%R) A)
    as (B' & E & HL & HB & HF).
  - unfold fits; nia.
  - auto.
  - exists B'. split; [auto|]. split; [auto|]. split.
    + intros i Hi. rewrite <- (HB (i - off) 0) by lia. unfold ent. f_equal; lia.
    + intros k Hk Ho. apply HF; auto. rewrite inblk_col. lia.
Qed.

(** scaling of a strided vector *)
Lemma dscal_ok n alpha x off inc : 0 < inc -> 0 <= n -> 0 <= off ->
  (0 < n -> off + (n - 1) * inc < lenZ x) ->
  exists x', dscal n alpha x off inc = Some x' /\ lenZ x' = lenZ x /\
    (forall j, 0 <= j < n -> rat x' (off + j * inc) = (alpha * rat x (off + j * inc))%R) /\
    (forall k, 0 <= k -> (forall j, 0 <= j < n -> k <> off + j * inc) -> rat x' k = rat x k).
Proof.
  intros Hi Hn Ho Hl. unfold dscal.
  destruct (@write_block_ok 1 n off inc (fun _ j => let* v := aget x (off + j * inc) in Some (alpha * v)%R)
     (fun _ j => alpha * rat x (off + j * inc))%R x) as (x' & E & HL & HB & HF).
  - unfold fits. repeat split; try lia.
  - intros i j Hi' Hj. rewrite aget_rat by nia. reflexivity.
  - exists x'. split; [auto|]. split; [auto|]. split.
    + intros j Hj. rewrite <- (HB 0 j) by lia. unfold ent. f_equal; lia.
    + intros k Hk Ho'. apply HF; auto. intros (i & j & Hi' & Hj & ->). apply (Ho' j); lia.
Qed.

Lemma daxpy_ok n alpha x y : 0 <= n -> n <= lenZ x -> lenZ y = n ->
  exists y', daxpy n alpha x y = Some y' /\ lenZ y' = n /\
    (forall i, 0 <= i < n -> rat y' i = (alpha * rat x i + rat y i)%R).
Proof.
  intros Hn Hx Hy. unfold daxpy.
  destruct (@write_block_ok n 1 0 n (fun i _ => let* a := aget x i in let* b := aget y i in Some (alpha * a + b)%R)
     (fun i _ => alpha * rat x i + rat y i)%R y) as (x' & E & HL & HB & HF).
  - unfold fits; nia.
  - intros i j Hi' Hj. rewrite !aget_rat by lia. reflexivity.
  - exists x'. split; [auto|]. split; [lia|]. intros i Hi. rewrite <- (HB i 0) by lia. unfold ent. f_equal; lia.
Qed.

Lemma dnrm2_ok n x off : 0 <= n -> 0 <= off -> off + n <= lenZ x ->
  dnrm2 n x off = Some (sqrt (sum 0 n (fun i => rat x (off + i) * rat x (off + i))))%R.
Proof.
  intros. unfold dnrm2. rewrite (@osum_ok 0 n _ (fun i => rat x (off + i) * rat x (off + i))%R); auto.
  - cbn [obind]. unfold rsqrt. destruct (Rlt_dec _ 0) as [Hlt|]; auto. exfalso.
    revert Hlt. apply Rle_not_lt.
    assert (forall h, 0 <= h -> (0 <= sum 0 h (fun i => rat x (off + i) * rat x (off + i)))%R) as A.
    { apply range_ind. - rewrite sum_nil; lra.
      - intros i Hi IH. rewrite sum_last by lia. pose proof (Rle_0_sqr (rat x (off + i))). unfold Rsqr in *. lra. }
    auto.
  - intros. rewrite aget_rat by lia. reflexivity.
Qed.

Lemma dger_ok m n alpha x y A lda : fits (lenZ A) m n 0 lda -> m <= lenZ x -> n <= lenZ y ->
  exists A', dger m n alpha x y A lda = Some A' /\ lenZ A' = lenZ A /\
    (forall i j, 0 <= i < m -> 0 <= j < n ->
       ent A' 0 lda i j = (ent A 0 lda i j + alpha * rat x i * rat y j)%R) /\
    (forall k, 0 <= k -> ~ inblk m n 0 lda k -> rat A' k = rat A k).
Proof.
  intros HF Hx Hy. unfold dger. apply write_block_ok; auto.
  intros i j Hi Hj. rewrite !aget_rat by lia. cbn [obind].
  rewrite (mget_ok HF Hi Hj). reflexivity.
Qed.

Lemma dgemm_ok (tB : bool) m n k alpha A oa lda B ob ldb beta C oc ldc :
  fits (lenZ A) m k oa lda ->
  fits (lenZ B) (if tB then n else k) (if tB then k else n) ob ldb ->
  fits (lenZ C) m n oc ldc -> 
  exists C', dgemm tB m n k alpha A oa lda B ob ldb beta C oc ldc = Some C' /\ lenZ C' = lenZ C /\
    (forall i j, 0 <= i < m -> 0 <= j < n -> ent C' oc ldc i j =
       (alpha * sum 0 k (fun l => ent A oa lda i l * (if tB then ent B ob ldb j l else ent B ob ldb l j))
        + beta * ent C oc ldc i j)%R) /\
    (forall k, 0 <= k -> ~ inblk m n oc ldc k -> rat C' k = rat C k).
Proof.
  intros HA HB HC. unfold dgemm. apply write_block_ok; auto.
  intros i j Hi Hj.
  rewrite (@osum_ok 0 k _ (fun l => ent A oa lda i l * (if tB then ent B ob ldb j l else ent B ob ldb l j))%R).
  - cbn [obind]. destruct (Req_EM_T beta 0).
    + subst. f_equal. ring.
    + rewrite (mget_ok HC Hi Hj). reflexivity.
  - destruct HA; lia.
  - intros l Hl. rewrite (mget_ok HA Hi Hl). cbn [obind].
    destruct tB.
    + rewrite (mget_ok HB Hj Hl). reflexivity.
    + rewrite (mget_ok HB Hl Hj). reflexivity.
Qed.

Lemma dtrmm_left_ok m n alpha A oa lda B ob ldb :
  fits (lenZ A) m m oa lda -> fits (lenZ B) m n ob ldb ->
  exists B', dtrmm_left m n alpha A oa lda B ob ldb = Some B' /\ lenZ B' = lenZ B /\
    (forall i j, 0 <= i < m -> 0 <= j < n -> ent B' ob ldb i j =
       (alpha * sum i m (fun l => ent A oa lda i l * ent B ob ldb l j))%R) /\
    (forall k, 0 <= k -> ~ inblk m n ob ldb k -> rat B' k = rat B k).
Proof.
  intros HA HB. unfold dtrmm_left. apply write_block_ok; auto.
  intros i j Hi Hj. rewrite (@osum_ok i m _ (fun l => ent A oa lda i l * ent B ob ldb l j)%R); auto.
  - lia.
  - intros l Hl. assert (0 <= l < m) as Hl' by lia. rewrite (mget_ok HA Hi Hl'). cbn [obind].
    rewrite (mget_ok HB Hl' Hj). reflexivity.
Qed.

Lemma dtrmm_right_ok m n alpha A oa lda B ob ldb :
  fits (lenZ A) n n oa lda -> fits (lenZ B) m n ob ldb ->
  exists B', dtrmm_right m n alpha A oa lda B ob ldb = Some B' /\ lenZ B' = lenZ B /\
    (forall i j, 0 <= i < m -> 0 <= j < n -> ent B' ob ldb i j =
       (alpha * sum 0 (j + 1) (fun l => ent B ob ldb i l * ent A oa lda l j))%R) /\
    (forall k, 0 <= k -> ~ inblk m n ob ldb k -> rat B' k = rat B k).
Proof.
  intros HA HB. unfold dtrmm_right. apply write_block_ok; auto.
  intros i j Hi Hj. rewrite (@osum_ok 0 (j + 1) _ (fun l => ent B ob ldb i l * ent A oa lda l j)%R); auto.
  - lia.
  - intros l Hl. assert (0 <= l < n) as Hl' by lia. rewrite (mget_ok HB Hi Hl'). cbn [obind].
    rewrite (mget_ok HA Hl' Hj). reflexivity.
Qed.

Lemma domatcopy_ok rows cols alpha A oa lda B ob ldb :
  fits (lenZ A) rows cols oa lda -> fits (lenZ B) rows cols ob ldb ->
  exists B', domatcopy rows cols alpha A oa lda B ob ldb = Some B' /\ lenZ B' = lenZ B /\
    (forall i j, 0 <= i < rows -> 0 <= j < cols -> ent B' ob ldb i j = (alpha * ent A oa lda i j)%R) /\
    (forall k, 0 <= k -> ~ inblk rows cols ob ldb k -> rat B' k = rat B k).
Proof.
  intros HA HB. unfold domatcopy.
  pose proof HA as (A1 & A2 & A3 & A4 & A5). pose proof HB as (B1 & B2 & B3 & B4 & B5).
  pose (Inv := fun (c : R) (g : Z -> Z -> R) J B' => lenZ B' = lenZ B /\
    (forall i j, 0 <= i < rows -> 0 <= j < cols -> ent B' ob ldb i j = if j <? J then (c * ent A oa lda i j)%R else g i j) /\
    (forall k, 0 <= k -> ~ inblk rows cols ob ldb k -> rat B' k = rat B k)).
  destruct (Z.eq_dec rows 0) as [R0'|Rn0].
  { (* no rows: nothing happens *)
    subst rows.
    destruct (@for_range_inv (list R) (fun _ B' => B' = B) 0 cols
      (fun j B => copy 0 A (oa + j * lda) B (ob + j * ldb)) B) as (B' & E & ->); auto.
    { intros j s Hj ->. eexists; split; reflexivity. }
    rewrite E. cbn [obind].
    destruct (@for_range_inv (list R) (fun _ B' => lenZ B' = lenZ B /\ forall k, rat B' k = rat B k) 0 cols
      (fun j B => dscal 0 alpha B (ob + j * ldb) 1) B) as (B' & E2 & HL & HB'); auto.
    { intros j s Hj [Hs1 Hs2]. eexists; split; [reflexivity|]. auto. }
    destruct (Req_EM_T alpha 1).
    - exists B. repeat split; auto. intros; lia.
    - exists B'. repeat split; auto. intros; lia. }
  destruct (@for_range_inv (list R) (Inv 1%R (ent B ob ldb)) 0 cols
    (fun j B => copy rows A (oa + j * lda) B (ob + j * ldb)) B) as (B' & E & HI); auto.
  - intros j C Hj (HL & HE & HF).
    assert (oa + j * lda + rows <= lenZ A) by nia.
    assert (ob + j * ldb + rows <= lenZ C) by nia.
    destruct (@copy_ok rows A (oa + j * lda) C (ob + j * ldb)) as (C' & E & HL' & HC & HF'); try nia.
    exists C'. split; auto. split; [congruence|]. split.
    + intros i j' Hi Hj'. destruct (Z.eq_dec j j').
      * subst j'. unfold ent. replace (ob + i + j * ldb) with (ob + j * ldb + i) by lia. rewrite HC by auto.
        destruct (Z.ltb_spec j (j + 1)); [|lia]. rewrite Rmult_1_l. f_equal; lia.
      * unfold ent. rewrite HF'.
        -- fold (ent C ob ldb i j'). rewrite HE by auto.
           destruct (Z.ltb_spec j' j), (Z.ltb_spec j' (j + 1)); auto; lia.
        -- nia.
        -- assert (j' < j \/ j < j') as [|] by lia; nia.
    + intros k Hk Hn. rewrite HF'; auto.
      destruct (Z.lt_ge_cases k (ob + j * ldb)); auto. destruct (Z.lt_ge_cases k (ob + j * ldb + rows)); auto.
      exfalso; apply Hn. exists (k - ob - j * ldb), j. lia.
  - split; [|split]; auto. intros i j Hi Hj. destruct (Z.ltb_spec j 0); auto; lia.
  - rewrite E. cbn [obind]. destruct HI as (HL & HE & HF).
    destruct (Req_EM_T alpha 1) as [->|Hne].
    + exists B'. split; auto. split; auto. split; auto. intros i j Hi Hj. rewrite HE by auto.
      destruct (Z.ltb_spec j cols); auto; lia.
    + destruct (@for_range_inv (list R) (Inv alpha (ent A oa lda)) 0 cols
       (fun j B => dscal rows alpha B (ob + j * ldb) 1) B') as (B2' & E2 & HI2); auto.
      * intros j C Hj (HL2 & HE2 & HF2).
        destruct (@dscal_ok rows alpha C (ob + j * ldb) 1) as (C' & EC & HLC & HC & HFC); try nia.
        exists C'. split; auto. split; [congruence|]. split.
        -- intros i j' Hi Hj'. destruct (Z.eq_dec j j').
           ++ subst j'. unfold ent. replace (ob + i + j * ldb) with (ob + j * ldb + i * 1) by lia.
              rewrite HC by auto. replace (ob + j * ldb + i * 1) with (ob + i + j * ldb) by lia.
              fold (ent C ob ldb i j). rewrite HE2 by auto.
              destruct (Z.ltb_spec j j), (Z.ltb_spec j (j + 1)); try lia. reflexivity.
           ++ unfold ent. rewrite HFC.
              ** fold (ent C ob ldb i j'). rewrite HE2 by auto.
                 destruct (Z.ltb_spec j' j), (Z.ltb_spec j' (j + 1)); auto; lia.
              ** nia.
              ** intros i' Hi' Heq. assert (j' < j \/ j < j') as [|] by lia; nia.
        -- intros k Hk Hn. rewrite HFC; auto. intros i' Hi' ->. apply Hn. exists i', j. lia.
      * split; [|split]; auto. intros i j Hi Hj. rewrite HE by auto.
        destruct (Z.ltb_spec j cols), (Z.ltb_spec j 0); try lia. now rewrite Rmult_1_l.
      * exists B2'. split; auto. destruct HI2 as (HL2 & HE2 & HF2). split; auto. split; auto.
        intros i j Hi Hj. rewrite HE2 by auto. destruct (Z.ltb_spec j cols); auto; lia.
Qed.
