(** Proofs about FileSys.v and Checkpoint.v *)
From stdpp Require Import gmap strings list.
From Coq Require Import ZArith NArith Lia.
From Verif Require Import Base BaseFacts Random RandomSpec RandomFacts FileSys Checkpoint.

(** ** encodings *)
Lemma le_bytes_length k n : length (le_bytes k n) = k.
Proof. revert n; induction k; intros; simpl; auto. Qed.

Lemma le_word_bytes k : forall n, (n < 256 ^ N.of_nat k)%N -> le_word (le_bytes k n) = n.
Proof.
  induction k; intros n Hn.
  - simpl in *. lia.
  - cbn [le_bytes le_word]. rewrite IHk.
    + pose proof (N.div_mod' n 256). lia.
    + rewrite Nat2N.inj_succ, N.pow_succ_r' in Hn. apply N.div_lt_upper_bound; lia.
Qed.

Lemma bytes_int_bytes z : (-2^31 <= z < 2^31)%Z -> bytes_int (int_bytes z) = z.
Proof.
  intros H. unfold bytes_int, int_bytes.
  pose proof (Z.mod_pos_bound z (2^32) ltac:(lia)) as Hb.
  rewrite le_word_bytes; [|simpl N.of_nat; change (256^4)%N with (2^32)%N; lia].
  rewrite Z2N.id by lia.
  destruct (Z.ltb_spec (z mod 2^32) (2^31)) as [H1|H1].
  - destruct (Z.le_gt_cases 0 z).
    + rewrite Z.mod_small in *; lia.
    + exfalso. rewrite <- (Z.mod_add z 1) in H1 by lia. rewrite Z.mod_small in H1; lia.
  - destruct (Z.le_gt_cases 0 z).
    + exfalso. rewrite Z.mod_small in H1; lia.
    + rewrite <- (Z.mod_add z 1) by lia. rewrite Z.mod_small; lia.
Qed.

Lemma bytes_u64s_bytes ws : Forall (fun w => (w < 2^64)%N) ws ->
  bytes_u64s (length ws) (u64s_bytes ws) = ws.
Proof.
  induction 1 as [|w ws Hw _ IH]; auto.
  unfold u64s_bytes in *. cbn [length bytes_u64s map concat].
  rewrite take_app_alt, drop_app_alt by (now rewrite le_bytes_length).
  rewrite le_word_bytes by (exact Hw). congruence.
Qed.

Lemma u64s_bytes_length ws : length (u64s_bytes ws) = (8 * length ws)%nat.
Proof.
  unfold u64s_bytes. induction ws; auto. cbn [map concat length].
  rewrite app_length, le_bytes_length, IHws. lia.
Qed.

(** ** file operations *)
Lemma apply_ops_app fs a b : apply_ops fs (a ++ b) = apply_ops (apply_ops fs a) b.
Proof. apply foldl_app. Qed.

Lemma apply_puts f data : forall fs c, fs !! f = Some c ->
  apply_ops fs (map (Put f) data) = <[f := (c ++ data)%list]> fs.
Proof.
  induction data as [|b data IH]; intros fs c Hc; simpl.
  - rewrite app_nil_r. symmetry. by apply insert_id.
  - rewrite Hc. simpl. change (foldl apply_op ?a ?b) with (apply_ops a b).
    rewrite (IH _ (c ++ [b])%list) by apply lookup_insert.
    rewrite insert_insert. by rewrite <- app_assoc.
Qed.

Lemma apply_write fs f data : apply_ops fs (write_ops f data false) = <[f := data]> fs.
Proof.
  simpl. change (foldl apply_op ?a ?b) with (apply_ops a b).
  rewrite (apply_puts f data _ []) by apply lookup_insert.
  by rewrite insert_insert.
Qed.

Lemma map_put_take f data k : take k (map (Put f) data) = map (Put f) (take k data).
Proof. revert k; induction data; intros [|k]; simpl; congruence. Qed.

Lemma apply_write_take fs f data k :
  apply_ops fs (take (S k) (write_ops f data false)) = <[f := take k data]> fs.
Proof.
  simpl. rewrite map_put_take. change (foldl apply_op ?a ?b) with (apply_ops a b).
  rewrite (apply_puts f _ _ []) by apply lookup_insert.
  by rewrite insert_insert.
Qed.

Lemma write_ops_length f data : length (write_ops f data false) = S (length data).
Proof. simpl. by rewrite map_length. Qed.

Lemma app_string_inj (a b c : string) : a +:+ b = a +:+ c -> b = c.
Proof. induction a; simpl; auto. intros H; injection H; auto. Qed.

Lemma fn_ne1 base : fn_iteration base <> fn_randseed base.
Proof. intros H. apply app_string_inj in H. discriminate. Qed.
Lemma fn_ne2 base : fn_iteration base <> fn_hsfield base.
Proof. intros H. apply app_string_inj in H. discriminate. Qed.
Lemma fn_ne3 base : fn_randseed base <> fn_hsfield base.
Proof. intros H. apply app_string_inj in H. discriminate. Qed.

(** ** the stored permutation *)
Definition back_rot (st : randseed) : list N :=
  map (fun i => getw st ((Z.of_nat i - rs_p st) mod 16)) (seq 0 16).

Lemma saved_words_ok st : valid_seed st -> saved_words st = Some (back_rot st).
Proof.
  intros (Hl & Hw & Hp). unfold saved_words.
  destruct (@for_range_inv _
     (fun i a => a = map (fun i => getw st ((Z.of_nat i - rs_p st) mod 16)) (seq 0 (Z.to_nat i)))
     0 16 (fun i a => let* w := aget (rs_s st) (Z.rem (i - rs_p st + 16) 16) in Some (a ++ [w])%list) [])
    as (a & E & H).
  - lia.
  - intros i a Hi ->.
    assert (Z.rem (i - rs_p st + 16) 16 = (i - rs_p st) mod 16)%Z as ->.
    { rewrite Z.rem_mod_nonneg by lia. rewrite <- (Z.mod_add (i - rs_p st) 1 16) by lia.
      f_equal; lia. }
    pose proof (Z.mod_pos_bound (i - rs_p st) 16 ltac:(lia)).
    rewrite (aget_nth _ 0%N) by lia. cbn [obind]. eexists; split; [reflexivity|].
    replace (Z.to_nat (i + 1)) with (S (Z.to_nat i)) by lia.
    rewrite seq_S, map_app. cbn [map Nat.add]. rewrite Z2Nat.id by lia. reflexivity.
  - reflexivity.
  - rewrite E, H. reflexivity.
Qed.

Lemma back_rot_length st : length (back_rot st) = 16%nat.
Proof. unfold back_rot. by rewrite map_length, seq_length. Qed.

Lemma back_rot_lt st : valid_seed st -> Forall (fun w => (w < 2^64)%N) (back_rot st).
Proof.
  intros V. unfold back_rot. apply Forall_forall. intros w Hw.
  apply elem_of_list_In, in_map_iff in Hw as (i & <- & _). by apply getw_lt.
Qed.

Definition loaded_seed (st : randseed) : randseed := mk_seed (back_rot st) 0.

Lemma loaded_seed_valid st : valid_seed st -> valid_seed (loaded_seed st).
Proof.
  intros V. split; [apply back_rot_length|]. split; [by apply back_rot_lt|]. simpl. lia.
Qed.

Lemma getw_loaded st i : (0 <= i < 16)%Z ->
  getw (loaded_seed st) i = getw st ((i - rs_p st) mod 16).
Proof.
  intros Hi. unfold getw at 1. cbn [loaded_seed rs_s]. unfold back_rot.
  assert (forall (f : nat -> N) (k : nat), (k < 16)%nat -> nth k (map f (seq 0 16)) 0%N = f k) as Hn.
  { intros f k Hk. rewrite nth_indep with (d' := f 0%nat) by (by rewrite map_length, seq_length).
    rewrite map_nth, seq_nth by auto. reflexivity. }
  rewrite Hn by lia. by rewrite Z2Nat.id by lia.
Qed.

(** the state with the same stream and position 0 *)
Definition fwd_seed (st : randseed) : randseed :=
  mk_seed (map (fun i => getw st ((Z.of_nat i + rs_p st) mod 16)) (seq 0 16)) 0.

Lemma fwd_seed_valid st : valid_seed st -> valid_seed (fwd_seed st).
Proof.
  intros V. split; [|split].
  - cbn [fwd_seed rs_s]. by rewrite map_length, seq_length.
  - cbn [fwd_seed rs_s]. apply Forall_forall. intros w Hw.
    apply elem_of_list_In, in_map_iff in Hw as (i & <- & _). by apply getw_lt.
  - simpl; lia.
Qed.

Lemma getw_fwd st i : (0 <= i < 16)%Z ->
  getw (fwd_seed st) i = getw st ((i + rs_p st) mod 16).
Proof.
  intros Hi. unfold getw at 1. cbn [fwd_seed rs_s].
  assert (forall (f : nat -> N) (k : nat), (k < 16)%nat -> nth k (map f (seq 0 16)) 0%N = f k) as Hn.
  { intros f k Hk. rewrite nth_indep with (d' := f 0%nat) by (by rewrite map_length, seq_length).
    rewrite map_nth, seq_nth by auto. reflexivity. }
  rewrite Hn by lia. by rewrite Z2Nat.id by lia.
Qed.

(** two states related by a rotation produce the same outputs *)
Definition rot_eq (st st' : randseed) : Prop :=
  forall i, getw st ((i + rs_p st) mod 16) = getw st' ((i + rs_p st') mod 16).

Lemma rot_eq_step st st' : valid_seed st -> valid_seed st' -> rot_eq st st' ->
  step_word st = step_word st' /\ rot_eq (step_state st) (step_state st').
Proof.
  intros V V' H.
  assert (step_word st = step_word st') as Ew.
  { unfold step_word, nextp. pose proof (H 0%Z) as H0. pose proof (H 1%Z) as H1.
    destruct V as (_ & _ & Hp), V' as (_ & _ & Hp').
    rewrite !Z.add_0_l, !Z.mod_small in H0 by auto.
    rewrite (Z.add_comm 1), (Z.add_comm 1) in H1. by rewrite H0, H1. }
  split; auto. intros i. unfold getw. cbn [step_state rs_s rs_p].
  destruct V as (Hl & _ & Hp), V' as (Hl' & _ & Hp').
  pose proof (nextp_range (rs_p st)). pose proof (nextp_range (rs_p st')).
  rewrite !lset_nth_d by lia.
  assert (forall p, (0 <= p < 16)%Z -> ((i + nextp p) mod 16 = (i + 1 + p) mod 16)%Z) as Hi.
  { intros p Hpp. unfold nextp. rewrite Zplus_mod_idemp_r. f_equal; lia. }
  assert (forall p, (0 <= p < 16)%Z ->
    Nat.eqb (Z.to_nat (nextp p)) (Z.to_nat ((i + nextp p) mod 16)) = Z.eqb (i mod 16) 0) as Hq.
  { intros p Hpp. pose proof (nextp_range p). pose proof (Z.mod_pos_bound (i + nextp p) 16 ltac:(lia)).
    destruct (Z.eqb_spec (i mod 16) 0) as [E|E].
    - apply Nat.eqb_eq. f_equal. rewrite Z.add_mod, E, Z.add_0_l, Z.mod_mod, Z.mod_small; lia.
    - apply Nat.eqb_neq. intros E'. apply E. apply Z2Nat.inj in E'; try lia.
      pose proof (Z.div_mod (i + nextp p) 16 ltac:(lia)).
      replace i with (((i + nextp p) / 16) * 16)%Z by lia. apply Z.mod_mul. lia. }
  rewrite !Hq by auto. destruct (Z.eqb (i mod 16) 0); auto.
  rewrite !Hi by auto. apply H.
Qed.

Lemma rot_eq_outs k : forall st st', valid_seed st -> valid_seed st' -> rot_eq st st' ->
  outs k st = outs k st'.
Proof.
  induction k; intros st st' V V' H; cbn [outs]; auto.
  destruct (rot_eq_step st st' V V' H) as [E1 E2]. rewrite E1. f_equal.
  apply IHk; auto using step_state_valid.
Qed.

Lemma fwd_rot_eq st : valid_seed st -> rot_eq st (fwd_seed st).
Proof.
  intros V i. cbn [fwd_seed rs_p]. rewrite Z.add_0_r.
  rewrite (getw_fwd st) by (apply Z.mod_pos_bound; lia).
  f_equal. by rewrite Zplus_mod_idemp_l.
Qed.

Lemma getw_ext st st' : valid_seed st -> valid_seed st' -> rs_p st = rs_p st' ->
  (forall i, (0 <= i < 16)%Z -> getw st i = getw st' i) -> st = st'.
Proof.
  intros (Hl & _ & _) (Hl' & _ & _) Hp H. destruct st as [s p], st' as [s' p']; simpl in *. subst p'.
  f_equal. apply (nth_ext s s' 0%N 0%N); [congruence|]. intros i Hi.
  specialize (H (Z.of_nat i) ltac:(lia)). unfold getw in H. simpl in H. by rewrite Nat2Z.id in H.
Qed.

Lemma stream_iff st : valid_seed st ->
  (forall k, outs k st = outs k (loaded_seed st)) <->
  (forall i, getw st ((i - rs_p st) mod 16) = getw st ((i + rs_p st) mod 16)).
Proof.
  intros V. split.
  - intros H i.
    assert (fwd_seed st = loaded_seed st) as E.
    { apply (outs_16_inj 16); auto using fwd_seed_valid, loaded_seed_valid.
      rewrite <- H. symmetry. apply rot_eq_outs; auto using fwd_seed_valid, fwd_rot_eq. }
    apply (f_equal (fun x => getw x (i mod 16))) in E.
    rewrite (getw_fwd st), (getw_loaded st) in E by (apply Z.mod_pos_bound; lia).
    by rewrite Zplus_mod_idemp_l, Zminus_mod_idemp_l in E.
  - intros H k. apply rot_eq_outs; auto using loaded_seed_valid.
    intros i. cbn [loaded_seed rs_p]. rewrite Z.add_0_r.
    rewrite (getw_loaded st) by (apply Z.mod_pos_bound; lia).
    by rewrite Zminus_mod_idemp_l, H.
Qed.

Lemma stream_p08 st : valid_seed st -> rs_p st = 0%Z \/ rs_p st = 8%Z ->
  forall k, outs k st = outs k (loaded_seed st).
Proof.
  intros V Hp. apply stream_iff; auto. intros i. destruct Hp as [-> | ->].
  - reflexivity.
  - f_equal. rewrite <- (Z.mod_add (i - 8) 1 16) by lia. f_equal. lia.
Qed.

(** ** saving and loading *)
Lemma save_ops_ok base c : valid_seed (ck_seed c) ->
  save_ops base c = Some (
        write_ops (fn_iteration base) (int_bytes (ck_iter c)) false ++
        write_ops (fn_randseed base) (u64s_bytes (back_rot (ck_seed c))) false ++
        write_ops (fn_hsfield base) (ck_s c) false).
Proof. intros V. unfold save_ops. by rewrite saved_words_ok. Qed.

Lemma save_ok fs base c : valid_seed (ck_seed c) ->
  save_checkpoint fs base c = Some
    (<[fn_hsfield base := ck_s c]>
    (<[fn_randseed base := u64s_bytes (back_rot (ck_seed c))]>
    (<[fn_iteration base := int_bytes (ck_iter c)]> fs))).
Proof.
  intros V. unfold save_checkpoint. rewrite save_ops_ok by auto. cbn [obind].
  by rewrite !apply_ops_app, !apply_write.
Qed.

(** what a complete checkpoint looks like on disk *)
Definition on_disk (fs : filesys) (base : string) (b1 b2 b3 : file) : Prop :=
  fs !! fn_iteration base = Some b1 /\ fs !! fn_randseed base = Some b2 /\ fs !! fn_hsfield base = Some b3.

Lemma load_ok fs base LxN old b1 b2 b3 : on_disk fs base b1 b2 b3 ->
  length b1 = 4%nat -> length b2 = 128%nat -> length b3 = LxN ->
  load_checkpoint fs base LxN old = (0%Z, mk_ckpt (bytes_int b1) (mk_seed (bytes_u64s 16 b2) 0) b3).
Proof.
  intros (H1 & H2 & H3) L1 L2 L3. unfold load_checkpoint, read_data.
  rewrite H1, L1. cbn. rewrite H2, L2. cbn. rewrite H3, L3, Nat.eqb_refl. reflexivity.
Qed.

Lemma load_inv fs base LxN old c : load_checkpoint fs base LxN old = (0%Z, c) ->
  exists b1 b2 b3, on_disk fs base b1 b2 b3 /\
    length b1 = 4%nat /\ length b2 = 128%nat /\ length b3 = LxN /\
    c = mk_ckpt (bytes_int b1) (mk_seed (bytes_u64s 16 b2) 0) b3.
Proof.
  unfold load_checkpoint, read_data, on_disk.
  destruct (fs !! fn_iteration base) as [b1|]; [|discriminate].
  destruct (Nat.eqb_spec (length b1) 4); [|discriminate]. cbn [Z.ltb Z.compare ck_iter ck_seed ck_s].
  destruct (fs !! fn_randseed base) as [b2|]; [|discriminate].
  destruct (Nat.eqb_spec (length b2) (8 * 16)); [|discriminate]. cbn [Z.ltb Z.compare ck_iter ck_seed ck_s].
  destruct (fs !! fn_hsfield base) as [b3|]; [|discriminate].
  destruct (Nat.eqb_spec (length b3) LxN); [|discriminate]. cbn [Z.ltb Z.compare ck_iter ck_seed ck_s].
  intros [= <-]. exists b1, b2, b3. repeat split; auto.
Qed.

Lemma load_status fs base LxN old : (fst (load_checkpoint fs base LxN old) <= 0)%Z.
Proof.
  unfold load_checkpoint, read_data.
  destruct (fs !! fn_iteration base) as [b1|]; [|simpl; lia].
  destruct (Nat.eqb _ 4); [|simpl; lia]. cbn [Z.ltb Z.compare ck_iter ck_seed ck_s].
  destruct (fs !! fn_randseed base) as [b2|]; [|simpl; lia].
  destruct (Nat.eqb _ (8*16)); [|simpl; lia]. cbn [Z.ltb Z.compare ck_iter ck_seed ck_s].
  destruct (fs !! fn_hsfield base) as [b3|]; [|simpl; lia].
  destruct (Nat.eqb _ LxN); simpl; lia.
Qed.

Lemma int_bytes_length z : length (int_bytes z) = 4%nat.
Proof. apply le_bytes_length. Qed.

Lemma save_on_disk fs base c : valid_seed (ck_seed c) ->
  exists fs', save_checkpoint fs base c = Some fs' /\
    on_disk fs' base (int_bytes (ck_iter c)) (u64s_bytes (back_rot (ck_seed c))) (ck_s c) /\
    (forall f, f <> fn_iteration base -> f <> fn_randseed base -> f <> fn_hsfield base ->
       fs' !! f = fs !! f).
Proof.
  intros V. rewrite save_ok by auto. eexists; split; [reflexivity|]. split.
  - pose proof (fn_ne1 base). pose proof (fn_ne2 base). pose proof (fn_ne3 base).
    split; [|split].
    + rewrite lookup_insert_ne, lookup_insert_ne by auto. apply lookup_insert.
    + rewrite lookup_insert_ne by auto. apply lookup_insert.
    + apply lookup_insert.
  - intros f H1 H2 H3. by rewrite !lookup_insert_ne by auto.
Qed.

Lemma roundtrip fs base c old : valid_seed (ck_seed c) -> (-2^31 <= ck_iter c < 2^31)%Z ->
  exists fs', save_checkpoint fs base c = Some fs' /\ search_checkpoint fs' base = 0%Z /\
    load_checkpoint fs' base (length (ck_s c)) old =
      (0%Z, mk_ckpt (ck_iter c) (loaded_seed (ck_seed c)) (ck_s c)).
Proof.
  intros V Hi. destruct (save_on_disk fs base c V) as (fs' & E & Hd & _).
  exists fs'. split; auto. split.
  - destruct Hd as (H1 & H2 & H3). unfold search_checkpoint. by rewrite H1, H2, H3.
  - erewrite load_ok; [|exact Hd| | |]; auto.
    + rewrite bytes_int_bytes by auto. unfold loaded_seed.
      rewrite <- (back_rot_length (ck_seed c)), bytes_u64s_bytes by (by apply back_rot_lt). done.
Qed.

(** ** crashes *)
Lemma crash_cases (A B C : list fsop) k :
  (exists j, take k (A ++ B ++ C) = take j A /\ (j <= length A)%nat) \/
  (exists j, take k (A ++ B ++ C) = A ++ take j B /\ (j <= length B)%nat) \/
  (exists j, take k (A ++ B ++ C) = A ++ B ++ take j C /\ (j <= length C)%nat).
Proof.
  destruct (Nat.le_gt_cases k (length A)).
  - left. exists k. rewrite take_app_le by lia. auto.
  - destruct (Nat.le_gt_cases k (length A + length B)).
    + right; left. exists (k - length A)%nat.
      rewrite take_app_ge by lia. rewrite take_app_le by lia. split; auto; lia.
    + right; right. exists (Nat.min (k - length A - length B) (length C))%nat.
      rewrite take_app_ge by lia. rewrite take_app_ge by lia.
      split; [|lia]. do 2 f_equal.
      destruct (Nat.le_gt_cases (k - length A - length B) (length C)).
      * f_equal. lia.
      * rewrite !take_ge by lia. done.
Qed.

(** partial execution of one file write *)
Lemma crash_write fs f data j :
  apply_ops fs (take j (write_ops f data false)) = fs \/
  exists k, apply_ops fs (take j (write_ops f data false)) = <[f := take k data]> fs.
Proof.
  destruct j.
  - left. done.
  - right. exists j. apply apply_write_take.
Qed.

Lemma take_same_length {A} k (l : list A) : length (take k l) = length l -> take k l = l.
Proof. intros H. rewrite take_length in H. apply take_ge. lia. Qed.

Definition decode (b1 b2 b3 : list N) : ckpt :=
  mk_ckpt (bytes_int b1) (mk_seed (bytes_u64s 16 b2) 0) b3.

Lemma crash_load fs base c k old r ops : valid_seed (ck_seed c) ->
  save_ops base c = Some ops ->
  load_checkpoint (apply_ops fs (take k ops)) base (length (ck_s c)) old = (0%Z, r) ->
  let n1 := int_bytes (ck_iter c) in
  let n2 := u64s_bytes (back_rot (ck_seed c)) in
  let n3 := ck_s c in
  exists b1 b2 b3, r = decode b1 b2 b3 /\
    (on_disk fs base b1 b2 b3 \/
     (b1 = n1 /\ fs !! fn_randseed base = Some b2 /\ fs !! fn_hsfield base = Some b3) \/
     (b1 = n1 /\ b2 = n2 /\ fs !! fn_hsfield base = Some b3) \/
     (b1 = n1 /\ b2 = n2 /\ b3 = n3)).
Proof.
  intros V Eo. rewrite save_ops_ok in Eo by auto. apply (inj Some) in Eo. subst ops. intros El n1 n2 n3.
  apply load_inv in El as (b1 & b2 & b3 & (H1 & H2 & H3) & L1 & L2 & L3 & ->).
  exists b1, b2, b3. split; [done|].
  pose proof (fn_ne1 base) as N1. pose proof (fn_ne2 base) as N2. pose proof (fn_ne3 base) as N3.
  destruct (crash_cases (write_ops (fn_iteration base) (int_bytes (ck_iter c)) false)
       (write_ops (fn_randseed base) (u64s_bytes (back_rot (ck_seed c))) false)
       (write_ops (fn_hsfield base) (ck_s c) false) k) as [(j & Ej & _)|[(j & Ej & _)|(j & Ej & _)]];
    rewrite Ej, ?apply_ops_app, ?apply_write in H1, H2, H3; clear Ej.
  - destruct (crash_write fs (fn_iteration base) (int_bytes (ck_iter c)) j) as [E|[m E]];
      rewrite E in H1, H2, H3.
    + left. done.
    + rewrite lookup_insert in H1. rewrite lookup_insert_ne in H2, H3 by auto.
      right; left. apply (inj Some) in H1; subst b1. split; [|done]. subst n1. apply take_same_length.
      rewrite L1. symmetry. apply int_bytes_length.
  - match type of H1 with apply_ops ?fs1 _ !! _ = _ =>
      destruct (crash_write fs1 (fn_randseed base) (u64s_bytes (back_rot (ck_seed c))) j) as [E|[m E]] end;
      rewrite E in H1, H2, H3.
    + rewrite lookup_insert in H1. rewrite lookup_insert_ne in H2, H3 by auto.
      right; left. apply (inj Some) in H1; subst b1. done.
    + rewrite lookup_insert_ne, lookup_insert in H1 by auto. rewrite lookup_insert in H2.
      rewrite !lookup_insert_ne in H3 by auto.
      right; right; left. apply (inj Some) in H1; subst b1. apply (inj Some) in H2; subst b2. split; [done|]. split; [|done].
      subst n2. apply take_same_length. by rewrite L2, u64s_bytes_length, back_rot_length.
  - match type of H1 with apply_ops ?fs1 _ !! _ = _ =>
      destruct (crash_write fs1 (fn_hsfield base) (ck_s c) j) as [E|[m E]] end;
      rewrite E in H1, H2, H3.
    + rewrite lookup_insert_ne, lookup_insert in H1 by auto. rewrite lookup_insert in H2.
      rewrite !lookup_insert_ne in H3 by auto.
      right; right; left. apply (inj Some) in H1; subst b1. apply (inj Some) in H2; subst b2. done.
    + rewrite !lookup_insert_ne, lookup_insert in H1 by auto.
      rewrite lookup_insert_ne, lookup_insert in H2 by auto. rewrite lookup_insert in H3.
      right; right; right. apply (inj Some) in H1; subst b1. apply (inj Some) in H2; subst b2. apply (inj Some) in H3; subst b3.
      split; [done|]. split; [done|]. by apply take_same_length.
Qed.

Lemma decode_saved c i2 : valid_seed (ck_seed c) -> (-2^31 <= i2 < 2^31)%Z -> forall b3,
  decode (int_bytes i2) (u64s_bytes (back_rot (ck_seed c))) b3 = mk_ckpt i2 (loaded_seed (ck_seed c)) b3.
Proof.
  intros V Hi b3. unfold decode, loaded_seed. rewrite bytes_int_bytes by auto.
  rewrite <- (back_rot_length (ck_seed c)), bytes_u64s_bytes by (by apply back_rot_lt). done.
Qed.

(** ** statements used in P_Checkpoint.v *)
From Verif Require Import CheckpointSpec.

Lemma stream_ok k st : valid_seed st -> stream k st = Some (outs k st).
Proof. intros V. unfold stream. by rewrite draws_ok. Qed.

Lemma valid_ckpt_save fs base c old : valid_ckpt c ->
  exists fs', save_checkpoint fs base c = Some fs' /\ search_checkpoint fs' base = 0%Z /\
    load_checkpoint fs' base (length (ck_s c)) old =
      (0%Z, mk_ckpt (ck_iter c) (loaded_seed (ck_seed c)) (ck_s c)).
Proof. intros [Hi V]. by apply roundtrip. Qed.

Lemma stream_partial_lemma fs base c old k :
  valid_ckpt c -> rs_p (ck_seed c) = 0%Z \/ rs_p (ck_seed c) = 8%Z ->
    exists fs' c', save_checkpoint fs base c = Some fs' /\
      load_checkpoint fs' base (length (ck_s c)) old = (0%Z, c') /\
      stream k (ck_seed c') = stream k (ck_seed c) /\ stream k (ck_seed c) <> None.
Proof.
  intros V Hp. destruct (valid_ckpt_save fs base c old V) as (fs' & E1 & _ & E2).
  destruct V as [Hi V]. exists fs'. eexists. split; [exact E1|]. split; [exact E2|].
  cbn [ck_seed]. rewrite !stream_ok by auto using loaded_seed_valid.
  split; [|done]. f_equal. symmetry. by apply stream_p08.
Qed.

Lemma aget_getw st i : valid_seed st -> (0 <= i < 16)%Z -> aget (rs_s st) i = Some (getw st i).
Proof. intros (Hl & _ & _) Hi. apply aget_nth. lia. Qed.

Lemma stream_iff_lemma fs base c old : valid_ckpt c ->
    exists fs' c', save_checkpoint fs base c = Some fs' /\
      load_checkpoint fs' base (length (ck_s c)) old = (0%Z, c') /\
      ((forall k, stream k (ck_seed c') = stream k (ck_seed c)) <->
       (forall i, aget (rs_s (ck_seed c)) ((i - rs_p (ck_seed c)) mod 16)%Z
                = aget (rs_s (ck_seed c)) ((i + rs_p (ck_seed c)) mod 16)%Z)).
Proof.
  intros V. destruct (valid_ckpt_save fs base c old V) as (fs' & E1 & _ & E2).
  destruct V as [Hi V]. exists fs'. eexists. split; [exact E1|]. split; [exact E2|].
  cbn [ck_seed]. pose proof (stream_iff (ck_seed c) V) as H. split.
  - intros Hk. assert (forall k, outs k (ck_seed c) = outs k (loaded_seed (ck_seed c))) as Hk'.
    { intros k. specialize (Hk k). rewrite !stream_ok in Hk by auto using loaded_seed_valid.
      by apply (inj Some) in Hk. }
    intros i. rewrite !aget_getw by (auto; apply Z.mod_pos_bound; lia).
    f_equal. by apply H.
  - intros Hk k. rewrite !stream_ok by auto using loaded_seed_valid. f_equal. symmetry.
    apply H. intros i. specialize (Hk i).
    rewrite !aget_getw in Hk by (auto; apply Z.mod_pos_bound; lia). by apply (inj Some) in Hk.
Qed.

Lemma search_iff fs base : search_checkpoint fs base = 0%Z <->
  (forall suf, suf ∈ suffixes -> exists bs, fs !! (base +:+ suf) = Some bs).
Proof.
  unfold search_checkpoint, fn_iteration, fn_randseed, fn_hsfield, suffixes. split.
  - destruct (fs !! _) as [b1|] eqn:E1; [|discriminate].
    destruct (fs !! (base +:+ "_randseed.dat")) as [b2|] eqn:E2; [|discriminate].
    destruct (fs !! (base +:+ "_hsfield.dat")) as [b3|] eqn:E3; [|discriminate].
    intros _ suf Hs. rewrite !elem_of_cons in Hs.
    destruct Hs as [->|[->|[->|Hs]]]; eauto. by apply elem_of_nil in Hs.
  - intros H.
    destruct (H "_iteration.dat") as [b1 ->]; [set_solver|].
    destruct (H "_randseed.dat") as [b2 ->]; [set_solver|].
    destruct (H "_hsfield.dat") as [b3 ->]; [set_solver|]. done.
Qed.

Lemma search_m1 fs base : search_checkpoint fs base = 0%Z \/ search_checkpoint fs base = (-1)%Z.
Proof.
  unfold search_checkpoint. destruct (fs !! _); [|auto].
  destruct (fs !! _); [|auto]. destruct (fs !! _); auto.
Qed.

Lemma load_status_iff fs base LxN old :
  let st := fst (load_checkpoint fs base LxN old) in
  (st = 0%Z \/ (st < 0)%Z) /\
  (st = 0%Z <-> file_of_size fs (base +:+ "_iteration.dat") 4 /\
               file_of_size fs (base +:+ "_randseed.dat") 128 /\
               file_of_size fs (base +:+ "_hsfield.dat") LxN).
Proof.
  intros st. split; [pose proof (load_status fs base LxN old); subst st; lia|]. split.
  - intros H. destruct (load_checkpoint fs base LxN old) as [z c] eqn:E. unfold st in H. simpl in H. rewrite H in E.
    apply load_inv in E as (b1 & b2 & b3 & (H1 & H2 & H3) & L1 & L2 & L3 & _).
    repeat split; eexists; eauto.
  - intros ((b1 & H1 & L1) & (b2 & H2 & L2) & (b3 & H3 & L3)). subst st.
    by rewrite (load_ok fs base LxN old b1 b2 b3).
Qed.

Lemma read_neg fs f old n st new : read_data fs f old n = (st, new) ->
  (st = 0%Z /\ fs !! f = Some new /\ length new = n) \/ ((st < 0)%Z /\ new = old).
Proof.
  unfold read_data. destruct (fs !! f) as [b|] eqn:E; [|intros [= <- <-]; right; split; [lia|done]].
  destruct (Nat.eqb_spec (length b) n); intros [= <- <-]; [left|right]; auto. split; [lia|done].
Qed.

Lemma crash_ops c k fs base : valid_ckpt c ->
  exists ops, save_ops base c = Some ops /\ crash_save k fs base c = Some (apply_ops fs (take k ops)).
Proof.
  intros [Hi V]. unfold crash_save. rewrite save_ops_ok by auto. eauto.
Qed.

Lemma crash_lemma fs0 fs1 base c0 c k fs2 old r :
  valid_ckpt c0 -> valid_ckpt c -> length (ck_s c0) = length (ck_s c) ->
  save_checkpoint fs0 base c0 = Some fs1 -> crash_save k fs1 base c = Some fs2 ->
  load_checkpoint fs2 base (length (ck_s c)) old = (0%Z, r) ->
  r = mk_ckpt (ck_iter c0) (loaded_seed (ck_seed c0)) (ck_s c0) \/
  r = mk_ckpt (ck_iter c) (loaded_seed (ck_seed c0)) (ck_s c0) \/
  r = mk_ckpt (ck_iter c) (loaded_seed (ck_seed c)) (ck_s c0) \/
  r = mk_ckpt (ck_iter c) (loaded_seed (ck_seed c)) (ck_s c).
Proof.
  intros V0 V HL E1 E2 E3.
  destruct (crash_ops c k fs1 base V) as (ops & Eo & Ec). rewrite Ec in E2.
  apply (inj Some) in E2. subst fs2. destruct V0 as [Hi0 V0], V as [Hi V].
  destruct (save_on_disk fs0 base c0 V0) as (fs1' & E1' & (D1 & D2 & D3) & _).
  rewrite E1 in E1'. apply (inj Some) in E1'. subst fs1'.
  destruct (crash_load _ _ _ _ _ _ _ V Eo E3) as (b1 & b2 & b3 & -> & H).
  destruct H as [(H1 & H2 & H3)|[(-> & H2 & H3)|[(-> & -> & H3)|(-> & -> & ->)]]];
    rewrite ?D1 in *; rewrite ?D2 in *; rewrite ?D3 in *;
    try (apply (inj Some) in H1; subst b1); try (apply (inj Some) in H2; subst b2);
    try (apply (inj Some) in H3; subst b3); rewrite decode_saved by auto; auto.
Qed.

Lemma crash_partial_lemma fs0 fs1 base c0 c k fs2 old r ro rn :
    valid_ckpt c0 -> valid_ckpt c -> length (ck_s c0) = length (ck_s c) ->
    save_checkpoint fs0 base c0 = Some fs1 -> crash_save k fs1 base c = Some fs2 ->
    load_checkpoint fs1 base (length (ck_s c)) old = (0%Z, ro) ->
    (exists fs3, save_checkpoint fs1 base c = Some fs3 /\
       load_checkpoint fs3 base (length (ck_s c)) old = (0%Z, rn)) ->
    load_checkpoint fs2 base (length (ck_s c)) old = (0%Z, r) ->
    r = ro \/ r = rn \/
    r = mk_ckpt (ck_iter rn) (ck_seed ro) (ck_s ro) \/
    r = mk_ckpt (ck_iter rn) (ck_seed rn) (ck_s ro).
Proof.
  intros V0 V HL E1 E2 E3 (fs3 & E4 & E5) E6.
  pose proof (crash_lemma _ _ _ _ _ _ _ _ _ V0 V HL E1 E2 E6) as H.
  destruct (valid_ckpt_save fs0 base c0 old V0) as (fs1' & E1' & _ & L1).
  rewrite E1 in E1'. apply (inj Some) in E1'. subst fs1'. rewrite HL, E3 in L1.
  apply (inj (pair _)) in L1. subst ro.
  destruct (valid_ckpt_save fs1 base c old V) as (fs3' & E3' & _ & L3).
  rewrite E4 in E3'. apply (inj Some) in E3'. subst fs3'. rewrite E5 in L3.
  apply (inj (pair _)) in L3. subst rn. cbn [ck_iter ck_seed ck_s]. tauto.
Qed.

Lemma crash_first_lemma fs base c k fs2 old r :
  valid_ckpt c -> fs !! (base +:+ "_hsfield.dat") = None ->
  crash_save k fs base c = Some fs2 ->
  load_checkpoint fs2 base (length (ck_s c)) old = (0%Z, r) ->
  r = mk_ckpt (ck_iter c) (loaded_seed (ck_seed c)) (ck_s c).
Proof.
  intros V Hn E2 E3.
  destruct (crash_ops c k fs base V) as (ops & Eo & Ec). rewrite Ec in E2.
  apply (inj Some) in E2. subst fs2. destruct V as [Hi V].
  destruct (crash_load _ _ _ _ _ _ _ V Eo E3) as (b1 & b2 & b3 & -> & H).
  assert (fs !! fn_hsfield base = None) as Hn' by done.
  destruct H as [(H1 & H2 & H3)|[(-> & H2 & H3)|[(-> & -> & H3)|(-> & -> & ->)]]];
    rewrite ?Hn' in *; try discriminate. by rewrite decode_saved.
Qed.

Lemma crash_first_lemma' fs base c k fs2 old r :
  valid_ckpt c -> fs !! (base +:+ "_hsfield.dat") = None ->
  crash_save k fs base c = Some fs2 ->
  load_checkpoint fs2 base (length (ck_s c)) old = (0%Z, r) ->
  exists fs3, save_checkpoint fs base c = Some fs3 /\
      load_checkpoint fs3 base (length (ck_s c)) old = (0%Z, r).
Proof.
  intros V Hn E2 E3. pose proof (crash_first_lemma _ _ _ _ _ _ _ V Hn E2 E3) as ->.
  destruct (valid_ckpt_save fs base c old V) as (fs3 & E & _ & L). eauto.
Qed.

Lemma roundtrip_lemma fs base c old : valid_ckpt c ->
    exists fs' c', save_checkpoint fs base c = Some fs' /\
      search_checkpoint fs' base = 0%Z /\
      load_checkpoint fs' base (length (ck_s c)) old = (0%Z, c') /\
      ck_iter c' = ck_iter c /\ ck_s c' = ck_s c /\ valid_seed (ck_seed c') /\
      (forall name, (forall suf, suf ∈ suffixes -> name <> base +:+ suf) -> fs' !! name = fs !! name).
Proof.
  intros V. destruct (valid_ckpt_save fs base c old V) as (fs' & E1 & S & E2).
  destruct V as [Hi V]. exists fs'. eexists. split; [exact E1|]. split; [exact S|]. split; [exact E2|].
  split; [done|]. split; [done|]. split; [by apply loaded_seed_valid|].
  intros name Hn. destruct (save_on_disk fs base c V) as (fs1 & E1' & _ & H).
  rewrite E1 in E1'. apply (inj Some) in E1'. subst fs1.
  apply H; apply Hn; unfold suffixes; set_solver.
Qed.

Lemma found_not_loadable fs0 fs1 base c0 c old : valid_ckpt c0 -> valid_ckpt c ->
    save_checkpoint fs0 base c0 = Some fs1 ->
    exists k fs2, crash_save k fs1 base c = Some fs2 /\
      search_checkpoint fs2 base = 0%Z /\
      (fst (load_checkpoint fs2 base (length (ck_s c)) old) < 0)%Z.
Proof.
  intros [Hi0 V0] [Hi V] E1.
  destruct (save_on_disk fs0 base c0 V0) as (fs1' & E1' & (D1 & D2 & D3) & _).
  rewrite E1 in E1'. apply (inj Some) in E1'. subst fs1'.
  exists 1%nat. unfold crash_save. rewrite save_ops_ok by auto. eexists. split; [reflexivity|].
  assert (apply_ops fs1 (take 1
     (write_ops (fn_iteration base) (int_bytes (ck_iter c)) false ++
      write_ops (fn_randseed base) (u64s_bytes (back_rot (ck_seed c))) false ++
      write_ops (fn_hsfield base) (ck_s c) false)) = <[fn_iteration base := []]> fs1) as ->.
  { reflexivity. }
  pose proof (fn_ne1 base) as N1. pose proof (fn_ne2 base) as N2. pose proof (fn_ne3 base) as N3.
  split.
  - unfold search_checkpoint. rewrite lookup_insert, !lookup_insert_ne by auto. by rewrite D2, D3.
  - unfold load_checkpoint, read_data at 1. rewrite lookup_insert. simpl. lia.
Qed.

Lemma seed_init_valid n : (0 < n < 2^64)%N -> valid_seed (seed_init n).
Proof.
  intros [H0 H1]. destruct (seed_words_spec 16 n) as [Hl Hf]; [exact H1|lia|].
  split; [exact Hl|]. split; [|simpl; lia].
  eapply Forall_impl; [exact Hf|]. intros a [? _]; auto.
Qed.

Lemma valid_seeded i n k s : (-2^31 <= i < 2^31)%Z -> (0 < n < 2^64)%N ->
  valid_ckpt (mk_ckpt i (match draws k (seed_init n) with Some (_, st) => st | None => seed_init n end) s).
Proof.
  intros Hi Hn. pose proof (seed_init_valid n Hn) as V. split; [done|].
  cbn [ck_seed]. rewrite draws_ok by auto. by apply steps_valid.
Qed.

Lemma crash_mixed fs0 fs1 base c0 c old : valid_ckpt c0 -> valid_ckpt c ->
  save_checkpoint fs0 base c0 = Some fs1 ->
  exists fs2, crash_save 5 fs1 base c = Some fs2 /\ search_checkpoint fs2 base = 0%Z /\
    load_checkpoint fs2 base (length (ck_s c0)) old =
      (0%Z, mk_ckpt (ck_iter c) (loaded_seed (ck_seed c0)) (ck_s c0)).
Proof.
  intros [Hi0 V0] [Hi V] E1.
  destruct (save_on_disk fs0 base c0 V0) as (fs1' & E1' & (D1 & D2 & D3) & _).
  rewrite E1 in E1'. apply (inj Some) in E1'. subst fs1'.
  unfold crash_save. rewrite save_ops_ok by auto. eexists. split; [reflexivity|].
  rewrite take_app_le by (rewrite write_ops_length, int_bytes_length; lia).
  rewrite apply_write_take. rewrite take_ge by (rewrite int_bytes_length; lia).
  pose proof (fn_ne1 base) as N1. pose proof (fn_ne2 base) as N2. pose proof (fn_ne3 base) as N3.
  split.
  - unfold search_checkpoint. rewrite lookup_insert, !lookup_insert_ne by auto. by rewrite D2, D3.
  - erewrite load_ok.
    2:{ split; [apply lookup_insert|]. rewrite !lookup_insert_ne by auto. split; [exact D2|exact D3]. }
    + f_equal. by apply decode_saved.
    + apply int_bytes_length.
    + by rewrite u64s_bytes_length, back_rot_length.
    + done.
Qed.
