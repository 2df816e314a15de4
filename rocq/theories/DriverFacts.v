(** Proofs about Driver.v *)
From Coq Require Import ZArith List Reals Lia Lra Bool.
From Verif Require Import Base BaseFacts Driver DriverSpec.
Import ListNotations.
Local Open Scope Z_scope.

Lemma interval_snoc lo hi : lo <= hi -> interval lo (hi + 1) = interval lo hi ++ [hi].
Proof.
  intros H. unfold interval. replace (Z.to_nat (hi + 1 - lo)) with (S (Z.to_nat (hi - lo))) by lia.
  rewrite seq_S, map_app. simpl. f_equal. f_equal. lia.
Qed.

Lemma interval_nil lo hi : hi <= lo -> interval lo hi = [].
Proof. intros H. unfold interval. replace (Z.to_nat (hi - lo)) with 0%nat by lia. reflexivity. Qed.

Lemma interval_length lo hi : lo <= hi -> Z.of_nat (length (interval lo hi)) = hi - lo.
Proof. intros H. unfold interval. rewrite map_length, seq_length. lia. Qed.

Lemma iters_app a b : iters (a ++ b) = iters a ++ iters b.
Proof. apply flat_map_app. Qed.
Lemma eq_vals_app a b : eq_vals (a ++ b) = eq_vals a ++ eq_vals b.
Proof. apply flat_map_app. Qed.
Lemma ph_vals_app a b : ph_vals (a ++ b) = ph_vals a ++ ph_vals b.
Proof. apply flat_map_app. Qed.
Lemma un_vals_app a b : un_vals (a ++ b) = un_vals a ++ un_vals b.
Proof. apply flat_map_app. Qed.

(** accumulated data are the sum of the samples *)
Definition meas_of (d : nat) (vs : list (list R)) : meas :=
  mk_meas (Z.of_nat (length vs)) (Some (vsum d vs)).

Lemma meas_add_of d vs v : meas_add (meas_of d vs) v = meas_of d (vs ++ [v]).
Proof.
  unfold meas_add, meas_of, vsum. cbn [m_n m_val option_map]. f_equal.
  - rewrite app_length. simpl. lia.
  - now rewrite fold_left_app.
Qed.

Definition fold_meas (m : meas) (vs : list (list R)) : meas := fold_left meas_add vs m.

Lemma fold_meas_of d vs ws : fold_meas (meas_of d vs) ws = meas_of d (vs ++ ws).
Proof.
  revert vs; induction ws as [|w ws IH]; intros vs; simpl; [now rewrite app_nil_r|].
  rewrite meas_add_of, IH, <- app_assoc. reflexivity.
Qed.

Lemma fold_meas_app m a b : fold_meas m (a ++ b) = fold_meas (fold_meas m a) b.
Proof. apply fold_left_app. Qed.

Lemma div_succ l q : 0 < q -> 0 <= l ->
  (l + 1) / q = l / q + (if Z.rem (l + 1) q =? 0 then 1 else 0).
Proof.
  intros Hq Hl. rewrite Z.rem_mod_nonneg by lia.
  pose proof (Z.div_mod l q ltac:(lia)). pose proof (Z.mod_pos_bound l q Hq).
  destruct (Z.eqb_spec ((l + 1) mod q) 0) as [E|E].
  - pose proof (Z.div_mod (l + 1) q ltac:(lia)) as E'. rewrite E in E'.
    assert (l mod q = q - 1); [|].
    { assert (l mod q = q - 1 \/ l mod q < q - 1) as [?|?] by lia; [auto|].
      exfalso. assert ((l + 1) mod q = l mod q + 1); [|lia].
      symmetry. apply Z.mod_unique with (l / q); lia. }
    symmetry. apply Z.div_unique with 0; lia.
  - assert (l mod q < q - 1).
    { assert (l mod q = q - 1 \/ l mod q < q - 1) as [?|?] by lia; [|auto].
      exfalso. apply E. symmetry. apply Z.mod_unique with (l / q + 1); lia. }
    rewrite Z.add_0_r. symmetry. apply Z.div_unique with (l mod q + 1); lia.
Qed.

Section Facts.
Variables (C X : Type) (slice : Z -> C * X -> C * X) (post : C * X -> C * X)
  (eq_sample ph_sample uneq_sample : C * X -> list R) (fresh : C) (init_X : C -> C * X) (no_X : X)
  (reload : C -> C) (dim_eq dim_ph dim_un : nat).

Notation dstate := (dstate C X).
Notation iteration_loop := (iteration_loop C X slice post eq_sample ph_sample).
Notation sim_loop := (sim_loop C X slice post eq_sample ph_sample uneq_sample).
Notation main_run := (main_run C X slice post eq_sample ph_sample uneq_sample fresh init_X no_X reload dim_eq dim_ph dim_un).
Notation main_runs := (main_runs C X slice post eq_sample ph_sample uneq_sample fresh init_X no_X reload dim_eq dim_ph dim_un).

(** entries logged in iteration [i] *)
Definition log_in (p : dparams) (i : Z) (e : dlog) : Prop :=
  match e with
  | LIter j => j = i
  | LMeas j l v => j = i /\ d_nequil p <= i /\ 0 <= l < d_L p /\ (l + 1) mod d_neqlt p = 0 /\
      exists cx, v = eq_sample cx
  | LPhonon j l _ => j = i /\ d_nequil p <= i /\ 0 <= l < d_L p /\ (l + 1) mod d_neqlt p = 0 /\ d_phonons p = true
  | LUneq j _ => j = i /\ d_nequil p <= i /\ 0 < d_nuneqlt p /\ i mod d_nuneqlt p = 0
  end.

Lemma iteration_ok p i st : dvalid p -> 0 <= i ->
  exists st' lg, iteration_loop p (if d_nequil p <=? i then d_neqlt p else 0) i st = Some (st', lg) /\
    ds_eq _ _ st' = fold_meas (ds_eq _ _ st) (eq_vals lg) /\
    ds_ph _ _ st' = fold_meas (ds_ph _ _ st) (ph_vals lg) /\
    ds_un _ _ st' = ds_un _ _ st /\
    iters lg = [] /\ un_vals lg = [] /\
    Z.of_nat (length (eq_vals lg)) = (if d_nequil p <=? i then per_iter p else 0) /\
    length (ph_vals lg) = (if d_phonons p then length (eq_vals lg) else 0%nat) /\
    Forall (log_in p i) lg.
Proof.
  intros (V1 & V2 & V3 & V4) Hi. set (q := if d_nequil p <=? i then d_neqlt p else 0).
  assert (0 <= q) as Hq by (unfold q; destruct (d_nequil p <=? i); lia).
  unfold iteration_loop, Driver.iteration_loop.
  match goal with |- context [for_range _ _ ?b _] => set (body := b) end.
  destruct (@for_range_inv _ (fun l '(st', lg) =>
      ds_eq _ _ st' = fold_meas (ds_eq _ _ st) (eq_vals lg) /\
      ds_ph _ _ st' = fold_meas (ds_ph _ _ st) (ph_vals lg) /\
      ds_un _ _ st' = ds_un _ _ st /\ iters lg = [] /\ un_vals lg = [] /\
      Z.of_nat (length (eq_vals lg)) = (if 0 <? q then l / q else 0) /\
      length (ph_vals lg) = (if d_phonons p then length (eq_vals lg) else 0%nat) /\
      Forall (log_in p i) lg)
    0 (d_L p) body (st, [])) as ([st' lg] & E & H).
  - lia.
  - intros l [st' lg] Hl (A1 & A2 & A3 & A4 & A5 & A6 & A7 & A8). unfold body.
    destruct (Z.ltb_spec 0 q) as [Hq0|Hq0]; cbn [andb].
    + pose proof (div_succ l q Hq0 ltac:(lia)) as Hd.
      destruct (Z.eqb_spec (Z.rem (l + 1) q) 0) as [E|E].
      * assert (d_nequil p <= i /\ q = d_neqlt p) as [Hne Hqe].
        { unfold q in *. destruct (Z.leb_spec (d_nequil p) i); [auto|lia]. }
        assert (log_in p i (LMeas i l (eq_sample (slice l (ds_c _ _ st'))))) as L1.
        { cbn. rewrite <- Hqe. rewrite Z.rem_mod_nonneg in E by lia. repeat split; auto; try lia.
          eexists; reflexivity. }
        assert (d_phonons p = true -> log_in p i (LPhonon i l (ph_sample (slice l (ds_c _ _ st'))))) as L2.
        { intros Hp. cbn. rewrite <- Hqe. rewrite Z.rem_mod_nonneg in E by lia. repeat split; auto; lia. }
        destruct (d_phonons p) eqn:Ep.
        -- eexists; split; [reflexivity|]. cbn [ds_eq ds_ph ds_un].
           rewrite eq_vals_app, ph_vals_app, iters_app, un_vals_app, A4, A5, !fold_meas_app, <- A1, <- A2, A3.
           repeat split; auto.
           ++ rewrite app_length. cbn. lia.
           ++ rewrite !app_length. cbn. lia.
           ++ apply Forall_app. split; [auto|]. repeat constructor; auto; apply L1 || apply L2; auto.
        -- eexists; split; [reflexivity|]. cbn [ds_eq ds_ph ds_un].
           rewrite eq_vals_app, ph_vals_app, iters_app, un_vals_app, A4, A5, !fold_meas_app, <- A1, <- A2, A3.
           repeat split; auto.
           ++ rewrite app_length. cbn. lia.
           ++ rewrite app_length. cbn. lia.
           ++ apply Forall_app. split; [auto|]. repeat constructor; auto; apply L1.
      * eexists; split; [reflexivity|]. cbn [ds_eq ds_ph ds_un]. repeat split; auto. lia.
    + eexists; split; [reflexivity|]. cbn [ds_eq ds_ph ds_un]. repeat split; auto.
  - cbn. repeat split; auto; [|destruct (d_phonons p); auto].
    destruct (0 <? q) eqn:E0; auto. 
  - rewrite E. cbn [obind]. destruct H as (A1 & A2 & A3 & A4 & A5 & A6 & A7 & A8).
    exists (if d_phonons p then mk_dstate _ _ (post (ds_c _ _ st')) (ds_eq _ _ st') (ds_ph _ _ st') (ds_un _ _ st') else st'), lg.
    split; [reflexivity|].
    replace (if d_nequil p <=? i then per_iter p else 0) with (if 0 <? q then d_L p / q else 0).
    2:{ unfold per_iter, q. destruct (d_nequil p <=? i); auto. }
    destruct (d_phonons p); cbn [ds_eq ds_ph ds_un]; repeat split; auto.
Qed.

(** ** the main loop *)
Definition count_eq (p : dparams) (k : Z) : Z := Z.max 0 (k - d_nequil p) * per_iter p.

Record linv (p : dparams) (i0 i : Z) (st0 st : dstate) (lg : list dlog) : Prop := {
  li_eq : ds_eq _ _ st = fold_meas (ds_eq _ _ st0) (eq_vals lg);
  li_ph : ds_ph _ _ st = fold_meas (ds_ph _ _ st0) (ph_vals lg);
  li_un : ds_un _ _ st = fold_meas (ds_un _ _ st0) (un_vals lg);
  li_it : iters lg = interval i0 i;
  li_neq : Z.of_nat (length (eq_vals lg)) = count_eq p i - count_eq p i0;
  li_nph : length (ph_vals lg) = (if d_phonons p then length (eq_vals lg) else 0%nat);
  li_nun : (Z.of_nat (length (un_vals lg)) =
            Z.of_nat (length (uneq_due p i)) - Z.of_nat (length (uneq_due p i0)))%Z;
  li_log : Forall (fun e => exists j, i0 <= j < i /\ log_in p j e) lg }.

Lemma count_eq_succ p i : count_eq p (i + 1) = count_eq p i + (if d_nequil p <=? i then per_iter p else 0).
Proof. unfold count_eq. destruct (Z.leb_spec (d_nequil p) i).
  - replace (Z.max 0 (i + 1 - d_nequil p)) with (Z.max 0 (i - d_nequil p) + 1) by lia. ring.
  - replace (Z.max 0 (i + 1 - d_nequil p)) with 0 by lia. replace (Z.max 0 (i - d_nequil p)) with 0 by lia. ring.
 Qed.

Lemma uneq_due_succ p i : 0 <= i ->
  length (uneq_due p (i + 1)) =
  (length (uneq_due p i) +
   (if ((d_nequil p <=? i) && (0 <? d_nuneqlt p) && (Z.rem i (d_nuneqlt p) =? 0))%Z then 1 else 0))%nat.
Proof.
  intros Hi. unfold uneq_due. destruct (Z.leb_spec (d_nequil p) i).
  - rewrite interval_snoc by auto. rewrite filter_app, app_length. f_equal. cbn [filter].
    destruct (Z.ltb_spec 0 (d_nuneqlt p)); cbn [andb]; [|auto].
    rewrite Z.rem_mod_nonneg by lia. destruct (_ =? 0); auto.
  - rewrite !interval_nil by lia. cbn. lia.
Qed.

Lemma sim_loop_ok p o : dvalid p -> forall fuel i0 i st0 st stopped lg,
  0 <= i0 <= i -> i <= d_total p -> (Z.to_nat (d_total p - i) <= fuel)%nat ->
  linv p i0 i st0 st lg ->
  exists i' st' stopped' lg',
    sim_loop fuel p o i st stopped lg = Some (i', st', stopped', lg') /\
    i <= i' <= d_total p /\ linv p i0 i' st0 st' lg' /\
    (i' < d_total p -> stopped' = true) /\
    (stopped = true -> i < d_total p -> i' = i) /\
    (forall j, i <= j -> o_time o j = true -> i' <= j \/ d_total p <= j) /\
    (forall j, i <= j -> o_sig o j = true -> i' <= j + 1) /\
    (stopped' = true -> (i' = i /\ stopped = true) \/ (i' < d_total p /\ o_time o i' = true) \/
                        (i < i' /\ o_sig o (i' - 1) = true)) /\
    (i < i' -> stopped' = o_sig o (i' - 1) || (if i' <? d_total p then o_time o i' else false)).
Proof.
  intros V. induction fuel as [|fuel IH]; intros i0 i st0 st stopped lg Hi0 Hi Hf HI; cbn [Driver.sim_loop].
  - fold (d_total p). destruct (Z.ltb_spec i (d_total p)); [lia|].
    exists i, st, stopped, lg. split; [reflexivity|].
    split; [lia|]. split; [auto|]. split; [lia|]. split; [auto|]. split; [intros; lia|].
    split; [intros; lia|]. split; [auto|lia].
  - fold (d_total p). destruct (Z.ltb_spec i (d_total p)) as [Hlt|].
    2:{ exists i, st, stopped, lg. split; [reflexivity|].
        split; [lia|]. split; [auto|]. split; [lia|]. split; [auto|]. split; [intros; lia|].
        split; [intros; lia|]. split; [auto|lia]. }
    destruct (stopped || o_time o i) eqn:Es.
    { exists i, st, true, lg. split; [reflexivity|].
      split; [lia|]. split; [auto|]. split; [auto|]. split; [auto|]. split; [intros; lia|].
      split; [intros; lia|]. split; [|lia]. intros _. apply orb_true_iff in Es as [->|Es]; auto. }
    apply orb_false_iff in Es as [-> Et].
    destruct (iteration_ok p i st V ltac:(lia)) as (st1 & lg1 & E1 & B1 & B2 & B3 & B4 & B5 & B6 & B7 & B8).
    rewrite E1. cbn [obind].
    set (due := (d_nequil p <=? i) && (0 <? d_nuneqlt p) && (Z.rem i (d_nuneqlt p) =? 0)).
    set (st2 := if due then mk_dstate _ _ (ds_c _ _ st1) (ds_eq _ _ st1) (ds_ph _ _ st1)
                  (meas_add (ds_un _ _ st1) (uneq_sample (ds_c _ _ st1))) else st1).
    set (lg2 := if due then [LUneq i (uneq_sample (ds_c _ _ st1))] else []).
    destruct HI as [C1 C2 C3 C4 C5 C6 C7 C8].
    assert (linv p i0 (i + 1) st0 st2 (lg ++ [LIter i] ++ lg1 ++ lg2)) as HI'.
    { assert (eq_vals lg2 = [] /\ ph_vals lg2 = [] /\ iters lg2 = []) as (D1 & D2 & D3)
        by (unfold lg2; destruct due; auto).
      split.
      - rewrite !eq_vals_app, D1, app_nil_r, !fold_meas_app, <- C1. cbn [eq_vals flat_map app].
        cbn [fold_meas fold_left]. rewrite <- B1. unfold st2. destruct due; auto.
      - rewrite !ph_vals_app, D2, app_nil_r, !fold_meas_app, <- C2. cbn [ph_vals flat_map app].
        cbn [fold_meas fold_left]. rewrite <- B2. unfold st2. destruct due; auto.
      - rewrite !un_vals_app, B5. cbn [un_vals flat_map app]. rewrite fold_meas_app, <- C3, <- B3.
        unfold st2, lg2. destruct due; auto.
      - rewrite !iters_app, B4, D3, app_nil_r, C4. cbn. rewrite interval_snoc by lia. reflexivity.
      - rewrite !eq_vals_app, D1, app_nil_r. cbn [eq_vals flat_map app].
        rewrite app_length, Nat2Z.inj_add, C5. fold (eq_vals lg1). rewrite B6, count_eq_succ. lia.
      - rewrite !eq_vals_app, !ph_vals_app, D1, D2, !app_nil_r. cbn [eq_vals ph_vals flat_map app].
        rewrite !app_length, C6. fold (eq_vals lg1). fold (ph_vals lg1). rewrite B7.
        destruct (d_phonons p); lia.
      - rewrite !un_vals_app, B5. cbn [un_vals flat_map app]. rewrite app_length, Nat2Z.inj_add, C7.
        rewrite (uneq_due_succ p i) by lia. fold due. unfold lg2. destruct due; cbn; lia.
      - apply Forall_app. split.
        { eapply Forall_impl; [|exact C8]. intros e (j & Hj & He). exists j. split; [lia|auto]. }
        apply Forall_app. split; [repeat constructor; exists i; split; [lia|reflexivity]|].
        apply Forall_app. split.
        { eapply Forall_impl; [|exact B8]. intros e He. exists i. split; [lia|auto]. }
        unfold lg2. destruct due eqn:Ed; [|constructor]. repeat constructor. exists i. split; [lia|].
        unfold due in Ed. apply andb_true_iff in Ed as [Ed E3]. apply andb_true_iff in Ed as [E4 E5].
        apply Z.leb_le in E4. apply Z.ltb_lt in E5. apply Z.eqb_eq in E3.
        rewrite Z.rem_mod_nonneg in E3 by lia. cbn. repeat split; auto. }
    destruct (IH i0 (i + 1) st0 st2 (o_sig o i) (lg ++ [LIter i] ++ lg1 ++ lg2)) as
      (i' & st' & stopped' & lg' & E & F1 & F2 & F3 & F4 & F5 & F6 & F7 & F8); try lia; auto.
    exists i', st', stopped', lg'. split.
    { rewrite <- E. unfold st2, lg2. destruct due; reflexivity. }
    split; [lia|]. split; [auto|]. split; [auto|]. split; [discriminate|].
    split.
    { intros j Hj Hoj. destruct (Z.eq_dec j i) as [->|]; [congruence|]. apply F5; auto; lia. }
    split.
    { intros j Hj Hoj. destruct (Z.eq_dec j i) as [->|]; [|apply F6; auto; lia].
      destruct (Z.lt_ge_cases (i + 1) (d_total p)); [|lia]. rewrite (F4 Hoj); lia. }
    split.
    { intros Hs. right. destruct (F7 Hs) as [[H1 H2]|[H|[H1 H2]]].
      - right. split; [lia|]. rewrite H1. replace (i + 1 - 1) with i by lia. auto.
      - left; auto.
      - right. split; [lia|auto]. }
    intros _. destruct (Z.eq_dec i' (i + 1)) as [->|Hne].
    + replace (i + 1 - 1) with i by lia.
      destruct stopped' eqn:Es'.
      * destruct (F7 eq_refl) as [[_ H2]|[[H1 H2]|[H1 _]]]; [rewrite H2; auto| |lia].
        destruct (Z.ltb_spec (i + 1) (d_total p)); [|lia]. rewrite H2. now rewrite orb_true_r.
      * destruct (Z.ltb_spec (i + 1) (d_total p)) as [H|H]; [specialize (F3 H); congruence|].
        destruct (o_sig o i) eqn:Eo; auto. exfalso.
        (* loop ended at total: stopped' is what was passed in *)
        assert (Driver.sim_loop C X slice post eq_sample ph_sample uneq_sample fuel p o (i + 1) st2 true
                  (lg ++ [LIter i] ++ lg1 ++ lg2) = Some (i + 1, st2, true, lg ++ [LIter i] ++ lg1 ++ lg2)) as E'.
        { destruct fuel; cbn [Driver.sim_loop]; fold (d_total p);
            destruct (Z.ltb_spec (i + 1) (d_total p)); try lia; reflexivity. }
        rewrite E' in E. congruence.
    + apply F8. lia.
Qed.

(** ** main *)
Notation disk := (disk C).

Lemma linv_refl p i st : linv p i i st st [].
Proof.
  split; try reflexivity.
  - now rewrite interval_nil by lia.
  - cbn. lia.
  - cbn. destruct (d_phonons p); auto.
  - cbn. lia.
  - constructor.
Qed.

(** Where a run starts. *)
Definition start_of (p : dparams) (dk : option disk) : Z * C * meas * meas :=
  match dk with
  | None => (0, fresh, meas_zero dim_eq, meas_zero dim_un)
  | Some d => (dk_iter _ d, reload (dk_c _ d), dk_eq _ d,
               if 0 <? d_nuneqlt p then dk_un _ d else meas_zero dim_un)
  end.

Definition done_of (dk : option disk) : Z := match dk with None => 0 | Some d => dk_iter _ d end.

Lemma run_ok p o dk i0 c0 eq0 un0 : dvalid p -> start_of p dk = (i0, c0, eq0, un0) ->
  0 <= i0 <= d_total p -> (dk <> None -> i0 < d_total p) ->
  exists d' s lg,
    main_run p o dk = Some (Some d', s, lg) /\
    i0 <= dk_iter _ d' <= d_total p /\
    iters lg = interval i0 (dk_iter _ d') /\
    Z.of_nat (length (eq_vals lg)) = count_eq p (dk_iter _ d') - count_eq p i0 /\
    length (ph_vals lg) = (if d_phonons p then length (eq_vals lg) else 0%nat) /\
    Z.of_nat (length (un_vals lg)) =
      Z.of_nat (length (uneq_due p (dk_iter _ d'))) - Z.of_nat (length (uneq_due p i0)) /\
    dk_eq _ d' = (let m := fold_meas eq0 (eq_vals lg) in
                  if dk_iter _ d' =? d_total p then meas_normalize m else m) /\
    dk_un _ d' = (let m := fold_meas un0 (un_vals lg) in
                  if (dk_iter _ d' =? d_total p) && (0 <? d_nuneqlt p) then meas_normalize m else m) /\
    dk_ph _ d' = (let m := fold_meas (meas_zero dim_ph) (ph_vals lg) in
                  if (dk_iter _ d' =? d_total p) && d_phonons p then meas_normalize m else m) /\
    Forall (fun e => exists j, i0 <= j < dk_iter _ d' /\ log_in p j e) lg /\
    (s = 0 \/ s = 1) /\
    (dk_iter _ d' < d_total p -> s = 1) /\
    (o_sig0 o = true -> i0 < d_total p -> dk_iter _ d' = i0) /\
    (forall j, i0 <= j -> o_time o j = true -> dk_iter _ d' <= j \/ d_total p <= j) /\
    (forall j, i0 <= j -> o_sig o j = true -> dk_iter _ d' <= j + 1) /\
    (s = 1 -> (dk_iter _ d' = i0 /\ o_sig0 o = true) \/
              (dk_iter _ d' < d_total p /\ o_time o (dk_iter _ d') = true) \/
              (i0 < dk_iter _ d' /\ o_sig o (dk_iter _ d' - 1) = true)) /\
    (i0 < dk_iter _ d' -> s = 1 <-> (o_sig o (dk_iter _ d' - 1) = true \/
              (dk_iter _ d' < d_total p /\ o_time o (dk_iter _ d') = true))).
Proof.
  intros V Es Hi0 Hlt.
  set (st0 := mk_dstate C X (if d_phonons p then init_X c0 else (c0, no_X)) eq0 (meas_zero dim_ph) un0).
  destruct (sim_loop_ok p o V (Z.to_nat (d_total p - i0)) i0 i0 st0 st0 (o_sig0 o) [])
    as (i' & st' & stp & lg & E & F1 & F2 & F3 & F4 & F5 & F6 & F7 & F8); try lia.
  { apply linv_refl. }
  set (d' := mk_disk C i' (fst (ds_c _ _ st'))
               (if i' =? d_total p then meas_normalize (ds_eq _ _ st') else ds_eq _ _ st')
               (if (i' =? d_total p) && (0 <? d_nuneqlt p) then meas_normalize (ds_un _ _ st') else ds_un _ _ st')
               (if (i' =? d_total p) && d_phonons p then meas_normalize (ds_ph _ _ st') else ds_ph _ _ st')).
  assert (main_run p o dk = Some (Some d', if stp then 1 else 0, lg)) as Em.
  { unfold Driver.main_run. fold (d_total p).
    assert ((match dk with
            | Some d => if dk_iter _ d =? d_total p then None
               else Some (dk_iter _ d, reload (dk_c _ d), dk_eq _ d, if 0 <? d_nuneqlt p then dk_un _ d else meas_zero dim_un)
            | None => Some (0, fresh, meas_zero dim_eq, meas_zero dim_un) end) = Some (i0, c0, eq0, un0)) as ->.
    { destruct dk as [d|]; cbn in Es; [|congruence].
      assert (dk_iter _ d = i0) as Hd by congruence.
      destruct (Z.eqb_spec (dk_iter _ d) (d_total p)) as [Hx|_]; [|congruence].
      specialize (Hlt ltac:(discriminate)). lia. }
    cbn [obind]. fold st0. rewrite E. reflexivity. }
  exists d', (if stp then 1 else 0), lg. destruct F2 as [G1 G2 G3 G4 G5 G6 G7 G8].
  split; [exact Em|]. cbn [dk_iter dk_eq dk_un dk_ph d'].
  split; [lia|]. split; [exact G4|]. split; [exact G5|]. split; [exact G6|]. split; [exact G7|].
  split; [now rewrite G1|]. split; [now rewrite G3|]. split; [now rewrite G2|]. split; [exact G8|].
  split; [destruct stp; auto|]. split; [intros H; now rewrite (F3 H)|].
  split; [exact F4|]. split; [exact F5|]. split; [exact F6|].
  split.
  { intros Hs. destruct stp; [|discriminate]. apply F7; auto. }
  intros H. specialize (F8 H). rewrite F8. destruct (Z.ltb_spec i' (d_total p)).
  - destruct (o_sig o (i' - 1)), (o_time o i'); cbn; split; auto; try discriminate.
    intros [?|[? ?]]; discriminate.
  - rewrite orb_false_r. destruct (o_sig o (i' - 1)); split; auto; try discriminate.
    intros [?|[? ?]]; [discriminate|lia].
Qed.

Lemma run_again p o d : dk_iter _ d = d_total p -> main_run p o (Some d) = Some (Some d, -6, []).
Proof.
  intros H. unfold Driver.main_run. fold (d_total p). rewrite H, Z.eqb_refl. reflexivity.
Qed.

(** disk and log of a history *)
Definition dinv (p : dparams) (dk : option disk) (lg : list dlog) : Prop :=
  let k := done_of dk in
  0 <= k <= d_total p /\ iters lg = interval 0 k /\
  Z.of_nat (length (eq_vals lg)) = count_eq p k /\
  length (un_vals lg) = length (uneq_due p k) /\
  Forall (fun e => exists j, 0 <= j < k /\ log_in p j e) lg /\
  match dk with
  | None => lg = []
  | Some d =>
      dk_eq _ d = (let m := meas_of dim_eq (eq_vals lg) in
                   if k =? d_total p then meas_normalize m else m) /\
      dk_un _ d = (let m := meas_of dim_un (un_vals lg) in
                   if (k =? d_total p) && (0 <? d_nuneqlt p) then meas_normalize m else m)
  end.

Lemma uneq_due0 p k : dvalid p -> k <= 0 -> uneq_due p k = [].
Proof. intros (V & _) Hk. unfold uneq_due. rewrite interval_nil by lia. reflexivity. Qed.

Lemma uneq_due_none p k : d_nuneqlt p <= 0 -> uneq_due p k = [].
Proof.
  intros H. unfold uneq_due. induction (interval (d_nequil p) k); cbn [filter]; auto.
  destruct (Z.ltb_spec 0 (d_nuneqlt p)); [lia|]. auto.
Qed.

Lemma interval_app a b c : a <= b -> b <= c -> interval a b ++ interval b c = interval a c.
Proof.
  intros H H'. pattern c. revert c H'. apply Zlt_lower_bound_ind. intros c IH H'.
  destruct (Z.eq_dec b c) as [->|].
  - rewrite (interval_nil c c) by lia. apply app_nil_r.
  - replace c with (c - 1 + 1) by lia. rewrite !interval_snoc by lia.
    rewrite app_assoc, IH by lia. reflexivity.
Qed.

Lemma run_dinv p o dk lg : dvalid p -> dinv p dk lg ->
  exists d' s lg', main_run p o dk = Some (Some d', s, lg') /\ dinv p (Some d') (lg ++ lg') /\
    done_of dk <= dk_iter _ d' /\ (undisturbed o -> dk_iter _ d' = d_total p).
Proof.
  intros V (A1 & A2 & A3 & A4 & A5 & A6).
  assert (dk = None \/ exists d, dk = Some d /\ (dk_iter _ d = d_total p \/ dk_iter _ d < d_total p)) as Hc.
  { destruct dk as [d|]; [right|auto]. exists d. cbn in A1. split; [auto|lia]. }
  destruct Hc as [->|(d & -> & [Hd|Hd])].
  - cbn in A1. subst lg.
    destruct (run_ok p o None 0 fresh (meas_zero dim_eq) (meas_zero dim_un) V eq_refl A1) as
      (d' & s & lg & E & B1 & B2 & B3 & _ & B5 & B6 & B7 & _ & B8 & B9 & B10 & B11 & B12 & B13 & B14 & _); [congruence|].
    exists d', s, lg. split; [exact E|]. cbn [app done_of].
    change (meas_zero dim_eq) with (meas_of dim_eq []) in B6. change (meas_zero dim_un) with (meas_of dim_un []) in B7.
    rewrite fold_meas_of in B6, B7. cbn [app] in B6, B7.
    split; [|split; [lia|]].
    + repeat split; cbn [done_of]; auto; try lia.
      * rewrite B3. unfold count_eq at 2. destruct V as (V & _). rewrite Z.max_l by lia. lia.
      * rewrite (uneq_due0 p 0 V) in B5 by lia. cbn in B5. lia.
    + intros (U1 & U2 & U3). destruct (Z.lt_ge_cases (dk_iter _ d') (d_total p)) as [Hl|Hl]; [|lia].
      specialize (B10 Hl). destruct (B14 B10) as [[_ H]|[[_ H]|[_ H]]]; congruence.
  - exists d, (-6), []. split; [now apply run_again|]. rewrite app_nil_r. cbn [done_of].
    split; [|split; [lia|auto]]. repeat split; auto.
    all: cbn [done_of] in *; try lia; try tauto.
  - cbn [done_of] in *. destruct A6 as [A6 A7]. cbn zeta in A6, A7.
    destruct (Z.eqb_spec (dk_iter _ d) (d_total p)); [lia|]. cbn [andb] in A7.
    destruct (run_ok p o (Some d) (dk_iter _ d) (reload (dk_c _ d)) (dk_eq _ d)
        (if 0 <? d_nuneqlt p then dk_un _ d else meas_zero dim_un) V eq_refl A1) as
      (d' & s & lg' & E & B1 & B2 & B3 & _ & B5 & B6 & B7 & _ & B8 & B9 & B10 & B11 & B12 & B13 & B14 & _); [lia|].
    exists d', s, lg'. split; [exact E|].
    assert ((if 0 <? d_nuneqlt p then dk_un _ d else meas_zero dim_un) = meas_of dim_un (un_vals lg)) as Eu.
    { destruct (Z.ltb_spec 0 (d_nuneqlt p)); [auto|]. rewrite (uneq_due_none p) in A4 by lia.
      destruct (un_vals lg); [reflexivity|discriminate]. }
    rewrite Eu, fold_meas_of in B7. rewrite A6, fold_meas_of in B6.
    split; [|split; [lia|]].
    + repeat split; cbn [done_of]; try lia.
      * rewrite iters_app, A2, B2. apply interval_app; lia.
      * rewrite eq_vals_app, app_length. lia.
      * rewrite un_vals_app, app_length. lia.
      * apply Forall_app. split.
        -- eapply Forall_impl; [|exact A5]. intros e (j & Hj & He). exists j. split; [lia|auto].
        -- eapply Forall_impl; [|exact B8]. intros e (j & Hj & He). exists j. split; [lia|auto].
      * now rewrite eq_vals_app.
      * now rewrite un_vals_app.
    + intros (U1 & U2 & U3). destruct (Z.lt_ge_cases (dk_iter _ d') (d_total p)) as [Hl|Hl]; [|lia].
      specialize (B10 Hl). destruct (B14 B10) as [[_ H]|[[_ H]|[_ H]]]; congruence.
Qed.

Lemma runs_dinv p os : dvalid p -> forall dk lg, dinv p dk lg ->
  exists dk' ss lg', main_runs p os dk = Some (dk', ss, lg') /\ dinv p dk' (lg ++ lg') /\
    done_of dk <= done_of dk' /\ (os <> [] -> dk' <> None) /\ (dk <> None -> dk' <> None) /\
    (Exists undisturbed os -> dk' <> None /\ done_of dk' = d_total p).
Proof.
  intros V. induction os as [|o os IH]; intros dk lg H; cbn [Driver.main_runs].
  - exists dk, [], []. rewrite app_nil_r. split; [reflexivity|]. split; [exact H|]. split; [lia|].
    split; [congruence|]. split; [auto|]. intros Hx; inversion Hx.
  - destruct (run_dinv p o dk lg V H) as (d1 & s1 & lg1 & E1 & D1 & M1 & U1).
    rewrite E1. cbn [obind].
    destruct (IH (Some d1) (lg ++ lg1) D1) as (dk2 & ss & lg2 & E2 & D2 & M2 & N2 & N3 & U2).
    rewrite E2. cbn [obind]. exists dk2, (s1 :: ss), (lg1 ++ lg2).
    rewrite <- app_assoc in D2. split; [reflexivity|]. split; [exact D2|].
    cbn [done_of] in M2. split; [lia|].
    assert (dk2 <> None) as Hn by (apply N3; discriminate).
    split; [auto|]. split; [auto|]. intros Hx. inversion_clear Hx as [? ? Hu|? ? Hx']; [|auto].
    split; [auto|]. specialize (U1 Hu). destruct D2 as (Hb & _). lia.
Qed.

Lemma dinv_empty p : dvalid p -> dinv p None [].
Proof.
  intros V. destruct V as (V1 & V2 & V3). repeat split; cbn [done_of]; unfold d_total; try lia; auto.
  - unfold count_eq. cbn. rewrite Z.max_l by lia. lia.
  - unfold uneq_due. rewrite interval_nil by lia. reflexivity.
Qed.

Lemma normalize_of d vs : vs <> [] ->
  meas_normalize (meas_of d vs) = mk_meas (Z.of_nat (length vs)) (Some (vmean d vs)).
Proof.
  intros H. unfold meas_normalize, meas_of, vmean. cbn [m_n m_val option_map].
  destruct (Z.eqb_spec (Z.of_nat (length vs)) 0) as [E|E]; [|reflexivity].
  destruct vs; [congruence|cbn in E; lia].
Qed.
End Facts.

(** ** Sums of vectors, component by component *)

Lemma fold_meas_some vs : forall n a, fold_meas (mk_meas n (Some a)) vs =
  mk_meas (n + Z.of_nat (length vs)) (Some (fold_left vadd vs a)).
Proof.
  unfold fold_meas. induction vs as [|v vs IH]; intros n a; cbn [fold_left length].
  - f_equal. lia.
  - unfold meas_add at 2. cbn [m_n m_val option_map]. rewrite IH. f_equal. lia.
Qed.

Local Open Scope R_scope.

Lemma vadd_length v w : length v = length w -> length (vadd v w) = length v.
Proof. intros H. unfold vadd. rewrite map_length, combine_length, H. apply Nat.min_id. Qed.

Lemma vadd_nth v : forall w c, length v = length w -> nth c (vadd v w) 0 = nth c v 0 + nth c w 0.
Proof.
  induction v as [|a v IH]; intros [|b w] [|c] H; try discriminate H; cbn; try lra.
  - apply IH. now injection H.
Qed.

Lemma vscale_nth k v c : nth c (vscale k v) 0 = k * nth c v 0.
Proof.
  unfold vscale. revert c; induction v as [|a v IH]; intros [|c]; cbn; try lra. apply IH.
Qed.

Lemma fold_vadd_length vs : forall v, Forall (fun w => length w = length v) vs ->
  length (fold_left vadd vs v) = length v.
Proof.
  induction vs as [|w vs IH]; intros v H; cbn; [reflexivity|]. inversion_clear H.
  assert (length (vadd v w) = length v) as E by (apply vadd_length; congruence).
  rewrite IH; [exact E|]. rewrite E. assumption.
Qed.

Lemma fold_vadd_nth vs c : forall v, Forall (fun w => length w = length v) vs ->
  nth c (fold_left vadd vs v) 0 = nth c v 0 + fold_right Rplus 0 (map (fun w => nth c w 0) vs).
Proof.
  induction vs as [|w vs IH]; intros v H; cbn; [lra|]. inversion_clear H.
  assert (length (vadd v w) = length v) as E by (apply vadd_length; congruence).
  rewrite IH; [|now rewrite E]. rewrite vadd_nth by congruence. lra.
Qed.

Lemma nth_repeat0 d c : nth c (repeat 0 d) 0 = 0.
Proof. revert c; induction d; intros [|c]; cbn; auto. Qed.

Lemma vsum_nth d vs c : Forall (fun w => length w = d) vs ->
  nth c (vsum d vs) 0 = fold_right Rplus 0 (map (fun w => nth c w 0) vs).
Proof.
  intros H. unfold vsum. rewrite fold_vadd_nth by (rewrite repeat_length; exact H).
  rewrite nth_repeat0. lra.
Qed.

Lemma fold_right_plus_app a b : fold_right Rplus 0 (a ++ b) = fold_right Rplus 0 a + fold_right Rplus 0 b.
Proof. induction a as [|x a IH]; cbn; [lra|]. rewrite IH. lra. Qed.

Lemma vsum_app_nth d vs ws c : Forall (fun w => length w = d) vs -> Forall (fun w => length w = d) ws ->
  nth c (vsum d (vs ++ ws)) 0 = nth c (vsum d vs) 0 + nth c (vsum d ws) 0.
Proof.
  intros H1 H2. rewrite !vsum_nth; auto; [|now apply Forall_app].
  rewrite map_app. apply fold_right_plus_app.
Qed.

(** average after normalised data have been added to *)
Definition extended_mean (d : nat) (vs ws : list (list R)) : list R :=
  vscale (1 / IZR (Z.of_nat (length (vs ++ ws)))) (vadd (vmean d vs) (vsum d ws)).

Lemma nth_ext0 (a b : list R) : length a = length b -> (forall c, nth c a 0 = nth c b 0) -> a = b.
Proof. intros H1 H2. apply (nth_ext _ _ 0 0); auto. Qed.

Lemma fold_vadd_split d vs v : length v = d -> Forall (fun w => length w = d) vs ->
  fold_left vadd vs v = vadd v (vsum d vs).
Proof.
  intros Hv H. assert (length (vsum d vs) = d) as Hs.
  { unfold vsum. rewrite fold_vadd_length; rewrite repeat_length; auto. }
  apply nth_ext0.
  - rewrite fold_vadd_length, vadd_length; try congruence. now rewrite Hv.
  - intros c. rewrite fold_vadd_nth by (now rewrite Hv). rewrite vadd_nth by congruence.
    rewrite vsum_nth by auto. reflexivity.
Qed.

Lemma extended_mean_right d vs ws c : vs <> [] ->
  Forall (fun w => length w = d) vs -> Forall (fun w => length w = d) ws ->
  (nth c (extended_mean d vs ws) 0 = nth c (vmean d (vs ++ ws)) 0 <->
   length vs = 1%nat \/ nth c (vmean d vs) 0 = 0).
Proof.
  intros Hne H1 H2. unfold extended_mean, vmean.
  assert (0 < length vs)%nat as Hl by (destruct vs; [congruence|cbn; lia]).
  assert (forall us, Forall (fun w => length w = d) us -> length (vsum d us) = d) as Hd.
  { intros us Hus. unfold vsum. rewrite fold_vadd_length; rewrite repeat_length; auto. }
  rewrite !vscale_nth, vadd_nth, vsum_app_nth, !vscale_nth by
    (auto; unfold vscale; rewrite ?map_length, ?Hd; auto).
  rewrite <- !INR_IZR_INZ, app_length, plus_INR.
  assert (0 < INR (length vs)) as P1 by (apply lt_0_INR; lia).
  pose proof (pos_INR (length ws)) as P2.
  set (S := nth c (vsum d vs) 0). set (W := nth c (vsum d ws) 0).
  set (n := INR (length vs)) in *. set (m := INR (length ws)) in *.
  assert (1 / (n + m) <> 0) as Hq by (apply Rgt_not_eq, Rdiv_lt_0_compat; lra).
  split.
  - intros E. apply Rmult_eq_reg_l in E; [|exact Hq].
    assert (1 / n * S = S) as E' by lra. assert (S = n * S) as E2.
    { rewrite <- E' at 2. field. lra. }
    assert ((n - 1) * S = 0) as E3 by lra. apply Rmult_integral in E3 as [E3|E3].
    + left. apply INR_eq. cbn. fold n. lra.
    + right. rewrite E3. lra.
  - intros [E|E].
    + assert (n = 1) as -> by (unfold n; now rewrite E). field. lra.
    + apply Rmult_integral in E as [E|E]; [|rewrite E; lra].
      exfalso. revert E. apply Rgt_not_eq, Rdiv_lt_0_compat; lra.
Qed.

Lemma mean_invol d vs : vs <> [] -> Forall (fun w => length w = d) vs -> length (vmean d vs) = d.
Proof.
  intros _ H. unfold vmean, vscale. rewrite map_length. unfold vsum.
  rewrite fold_vadd_length; rewrite repeat_length; auto.
Qed.
