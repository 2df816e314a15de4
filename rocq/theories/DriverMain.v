(** Proofs about main (Driver.v) in the form used by P_Driver.v *)
From Coq Require Import ZArith List Reals Lia Lra Bool.
From Verif Require Import Base BaseFacts Driver DriverSpec DriverFacts.
Import ListNotations.
Local Open Scope Z_scope.

Section Main.
Context (C X : Type) (slice : Z -> C * X -> C * X) (post : C * X -> C * X)
  (eq_sample ph_sample uneq_sample : C * X -> list R) (fresh : C) (init_X : C -> C * X) (no_X : X)
  (reload : C -> C) (dim_eq dim_ph dim_un : nat).
Notation main_run := (main_run C X slice post eq_sample ph_sample uneq_sample fresh init_X no_X reload dim_eq dim_ph dim_un).
Notation main_runs := (main_runs C X slice post eq_sample ph_sample uneq_sample fresh init_X no_X reload dim_eq dim_ph dim_un).

Lemma completed_done (dk : option (disk C)) : completed dk = done_of C dk.
Proof. destruct dk; reflexivity. Qed.

Lemma count_eq_max p k : d_nequil p <= k \/ k < d_nequil p ->
  count_eq p k = Z.max 0 (k - d_nequil p) * per_iter p.
Proof. intros _. reflexivity. Qed.

Lemma runs_main p os : dvalid p ->
  exists dk sts lg,
    main_runs p os None = Some (dk, sts, lg) /\
    let k := completed dk in
    0 <= k <= d_total p /\
    iters lg = interval 0 k /\
    Z.of_nat (length (eq_vals lg)) = Z.max 0 (k - d_nequil p) * per_iter p /\
    length (un_vals lg) = length (uneq_due p k) /\
    Forall (due p) lg /\
    (forall d, dk = Some d ->
       m_n (dk_eq C d) = Z.of_nat (length (eq_vals lg)) /\
       m_n (dk_un C d) = Z.of_nat (length (un_vals lg)) /\
       (k < d_total p -> m_val (dk_eq C d) = Some (vsum dim_eq (eq_vals lg)) /\
                         m_val (dk_un C d) = Some (vsum dim_un (un_vals lg))) /\
       (k = d_total p ->
          (eq_vals lg <> [] -> m_val (dk_eq C d) = Some (vmean dim_eq (eq_vals lg))) /\
          (un_vals lg <> [] -> m_val (dk_un C d) = Some (vmean dim_un (un_vals lg))))) /\
    (os <> [] -> dk <> None) /\
    (Exists undisturbed os -> k = d_total p).
Proof.
  intros V.
  destruct (runs_dinv C X slice post eq_sample ph_sample uneq_sample fresh init_X no_X reload
      dim_eq dim_ph dim_un p os V None [] (dinv_empty _ _ _ _ _ p V))
    as (dk & sts & lg & E & (A1 & A2 & A3 & A4 & A5 & A6) & _ & N & _ & U).
  rewrite app_nil_l in *. exists dk, sts, lg. split; [exact E|]. cbn zeta. rewrite completed_done.
  split; [exact A1|]. split; [exact A2|]. split; [exact A3|]. split; [exact A4|]. split.
  { eapply Forall_impl; [|exact A5]. intros e (j & Hj & He). destruct e; cbn in *; auto.
    - destruct He as (-> & ? & ? & ? & _). auto.
    - destruct He as (-> & He). exact He.
    - destruct He as (-> & He). exact He. }
  split; [|split; [exact N|intros H; now apply U]].
  intros d ->. destruct A6 as [A6 A7]. cbn [done_of] in *. rewrite A6, A7. cbn zeta.
  split; [destruct (dk_iter C d =? d_total p); reflexivity|].
  split; [destruct (dk_iter C d =? d_total p), (0 <? d_nuneqlt p); reflexivity|].
  split.
  - intros Hl. destruct (Z.eqb_spec (dk_iter C d) (d_total p)); [lia|]. split; reflexivity.
  - intros ->. rewrite Z.eqb_refl. split.
    + intros Hne. rewrite normalize_of by exact Hne. reflexivity.
    + intros Hne. destruct (Z.ltb_spec 0 (d_nuneqlt p)).
      * cbn [andb]. rewrite normalize_of by exact Hne. reflexivity.
      * exfalso. rewrite uneq_due_none in A4 by lia. destruct (un_vals lg); [congruence|discriminate].
Qed.

(** every single run of a history, C48 *)
Lemma run_status p o dk : dvalid p -> 0 <= completed dk <= d_total p ->
  exists d' s lg, main_run p o dk = Some (d', s, lg) /\
    (dk <> None -> completed dk = d_total p -> s = -6 /\ d' = dk /\ lg = []) /\
    (dk = None \/ completed dk < d_total p ->
       let i0 := completed dk in let i1 := completed d' in
       i0 <= i1 <= d_total p /\ iters lg = interval i0 i1 /\ Forall (due p) lg /\
       (s = 0 \/ s = 1) /\
       (s = 0 -> i1 = d_total p) /\
       (forall j, i0 <= j -> o_sig o j = true -> i1 <= j + 1) /\
       (forall j, i0 <= j < d_total p -> o_time o j = true -> i1 <= j) /\
       (o_sig0 o = true -> i0 < d_total p -> i1 = i0) /\
       (s = 1 -> (i1 = i0 /\ o_sig0 o = true) \/ (i1 < d_total p /\ o_time o i1 = true) \/
                 (i0 < i1 /\ o_sig o (i1 - 1) = true)) /\
       (undisturbed o -> s = 0 /\ i1 = d_total p) /\
       (i0 < i1 -> i1 = d_total p -> (s = 1 <-> o_sig o (d_total p - 1) = true))).
Proof.
  intros V Hk. destruct (Z.eq_dec (completed dk) (d_total p)) as [He|He].
  { destruct dk as [d|].
    - exists (Some d), (-6), []. split; [apply run_again; exact He|]. split; [auto|].
      intros [H|H]; [discriminate|lia].
    - destruct (run_ok C X slice post eq_sample ph_sample uneq_sample fresh init_X no_X reload
        dim_eq dim_ph dim_un p o None 0 fresh (meas_zero dim_eq) (meas_zero dim_un) V eq_refl Hk) as
      (d' & s & lg & E & B1 & B2 & B3 & _ & B5 & B6 & B7 & _ & B8 & B9 & B10 & B11 & B12 & B13 & B14 & B15);
        [congruence|].
      exists (Some d'), s, lg. split; [exact E|]. split; [congruence|]. intros _. cbn [completed] in *. cbn zeta.
      split; [exact B1|]. split; [exact B2|]. split.
      { eapply Forall_impl; [|exact B8]. intros e (j & Hj & Hl). destruct e; cbn in *; intuition congruence || (subst; auto). }
      split; [exact B9|]. split; [intros ->; lia|]. split; [exact B13|].
      split. { intros j Hj Ht. destruct (B12 j ltac:(lia) Ht); lia. }
      split; [exact B11|]. split; [exact B14|]. split; [|intros; lia].
      intros (U1 & U2 & U3). split; [|lia]. destruct B9 as [?|B9]; [auto|].
      destruct (B14 B9) as [[_ H]|[[_ H]|[_ H]]]; congruence. }
  set (st := start_of C fresh reload dim_eq dim_un p dk).
  destruct st as [[[i0 c0] eq0] un0] eqn:Est. unfold st in Est.
  assert (i0 = completed dk) as Hi0.
  { destruct dk; cbn in Est; cbn; congruence. }
  destruct (run_ok C X slice post eq_sample ph_sample uneq_sample fresh init_X no_X reload
        dim_eq dim_ph dim_un p o dk i0 c0 eq0 un0 V Est) as
      (d' & s & lg & E & B1 & B2 & B3 & _ & B5 & B6 & B7 & _ & B8 & B9 & B10 & B11 & B12 & B13 & B14 & B15);
    [lia|lia|].
  exists (Some d'), s, lg. split; [exact E|]. split; [intros; lia|]. intros _. rewrite <- Hi0. cbn [completed]. cbn zeta.
  split; [exact B1|]. split; [exact B2|]. split.
  { eapply Forall_impl; [|exact B8]. intros e (j & Hj & Hl). destruct e; cbn in *; intuition congruence || (subst; auto). }
  split; [exact B9|]. split.
  { intros ->. destruct (Z.lt_ge_cases (dk_iter C d') (d_total p)) as [Hl|Hl]; [|lia]. specialize (B10 Hl). discriminate. }
  split; [exact B13|].
  split. { intros j Hj Ht. destruct (B12 j ltac:(lia) Ht); lia. }
  split; [exact B11|]. split; [exact B14|]. split.
  - intros (U1 & U2 & U3). assert (s = 0) as Hs.
    { destruct B9 as [?|B9]; [auto|]. destruct (B14 B9) as [[_ H]|[[_ H]|[_ H]]]; congruence. }
    split; [exact Hs|]. destruct (Z.lt_ge_cases (dk_iter C d') (d_total p)) as [Hl|Hl]; [|lia].
    specialize (B10 Hl). lia.
  - intros H1 H2. rewrite <- H2. rewrite (B15 H1). rewrite H2. split; [|auto].
    intros [?|[? ?]]; [auto|lia].
Qed.

(** C12 *)
Lemma log_dim p (P : Z -> Prop) lg : (forall cx, length (eq_sample cx) = dim_eq) ->
  Forall (fun e => exists j, P j /\ log_in C X eq_sample p j e) lg ->
  Forall (fun v => length v = dim_eq) (eq_vals lg).
Proof.
  intros Hd H. induction H as [|e lg (j & _ & He) _ IH]; [constructor|].
  unfold eq_vals. cbn [flat_map]. apply Forall_app. split; [|exact IH].
  destruct e; try constructor; [|constructor].
  destruct He as (_ & _ & _ & _ & cx & ->). apply Hd.
Qed.

Lemma extend_run p os d sts lg n' o' : dvalid p -> d_nsampl p < n' ->
  (forall cx, length (eq_sample cx) = dim_eq) ->
  eq_vals lg <> [] ->
  main_runs p os None = Some (Some d, sts, lg) -> dk_iter C d = d_total p -> undisturbed o' ->
  exists d' lg',
    main_run (with_nsampl p n') o' (Some d) = Some (Some d', 0, lg') /\
    iters lg' = interval (d_total p) (d_nequil p + n') /\
    m_n (dk_eq C d') = Z.of_nat (length (eq_vals lg ++ eq_vals lg')) /\
    m_val (dk_eq C d') = Some (extended_mean dim_eq (eq_vals lg) (eq_vals lg')) /\
    Forall (fun v => length v = dim_eq) (eq_vals lg) /\ Forall (fun v => length v = dim_eq) (eq_vals lg').
Proof.
  intros V Hn Hdims Hne Er Hd Hu.
  assert (Forall (fun v => length v = dim_eq) (eq_vals lg)) as Hdim.
  { destruct (runs_dinv C X slice post eq_sample ph_sample uneq_sample fresh init_X no_X reload
      dim_eq dim_ph dim_un p os V None [] (dinv_empty _ _ _ _ _ p V))
    as (dk1 & sts1 & lg1 & E1 & (_ & _ & _ & _ & A5 & _) & _). rewrite Er in E1.
    assert (lg = lg1) as <- by congruence. eapply log_dim; [exact Hdims|exact A5]. }
  destruct (runs_main p os V) as (dk1 & sts1 & lg1 & E1 & A). rewrite Er in E1.
  assert (Some d = dk1 /\ lg = lg1) as [<- <-] by (split; congruence). clear E1. cbn zeta in A.
  destruct A as (A1 & _ & _ & _ & _ & A6 & _). cbn [completed] in A1, A6.
  destruct (A6 d eq_refl) as (B1 & _ & _ & B4). destruct (B4 Hd) as [B5 _]. specialize (B5 Hne).
  assert (dk_eq C d = mk_meas (Z.of_nat (length (eq_vals lg))) (Some (vmean dim_eq (eq_vals lg)))) as Ed.
  { destruct (dk_eq C d) as [x y]. cbn in *. congruence. }
  set (p' := with_nsampl p n').
  assert (dvalid p') as V' by (destruct V as (?&?&?&?); repeat split; cbn; lia).
  assert (d_total p' = d_nequil p + n') as Ht by reflexivity.
  destruct (start_of C fresh reload dim_eq dim_un p' (Some d)) as [[[i0 c0] eq0] un0] eqn:Est.
  assert (i0 = d_total p /\ eq0 = dk_eq C d) as [Hi0 He0] by (cbn in Est; split; congruence).
  assert (d_total p < d_total p') as Hlt by (rewrite Ht; unfold d_total; lia).
  destruct (run_ok C X slice post eq_sample ph_sample uneq_sample fresh init_X no_X reload
        dim_eq dim_ph dim_un p' o' (Some d) i0 c0 eq0 un0 V' Est) as
      (d' & s & lg' & E & C1 & C2 & C3 & _ & C5 & C6 & C7 & _ & C8 & C9 & C10 & C11 & C12 & C13 & C14 & C15);
    [lia|lia|].
  destruct Hu as (U1 & U2 & U3).
  assert (s = 0) as ->.
  { destruct C9 as [?|C9]; [auto|]. destruct (C14 C9) as [[_ H]|[[_ H]|[_ H]]]; congruence. }
  assert (dk_iter C d' = d_total p') as Hc.
  { destruct (Z.lt_ge_cases (dk_iter C d') (d_total p')) as [Hl|Hl]; [|lia]. specialize (C10 Hl). discriminate. }
  exists d', lg'. split; [exact E|]. split; [rewrite C2, Hi0, Hc, Ht; reflexivity|].
  rewrite C6, He0, Ed. cbn zeta. rewrite Hc, Z.eqb_refl, fold_meas_some.
  unfold meas_normalize. cbn [m_n m_val option_map].
  rewrite app_length, Nat2Z.inj_add. split; [reflexivity|].
  assert (Forall (fun v => length v = dim_eq) (eq_vals lg')) as Hdim'.
  { eapply log_dim; [exact Hdims|exact C8]. }
  split; [|auto].
  destruct (Z.eqb_spec (Z.of_nat (length (eq_vals lg)) + Z.of_nat (length (eq_vals lg'))) 0) as [Hz|Hz].
  { destruct (eq_vals lg); [congruence|]. cbn [length] in Hz. lia. }
  unfold extended_mean. rewrite app_length, Nat2Z.inj_add.
  rewrite (fold_vadd_split dim_eq); auto. apply mean_invol; auto.
Qed.


(** C13 *)
Lemma run_phonons p o dk : dvalid p -> d_phonons p = true -> 0 <= completed dk <= d_total p ->
  (dk = None \/ completed dk < d_total p) ->
  exists d' s lg, main_run p o dk = Some (Some d', s, lg) /\
    Z.of_nat (length (ph_vals lg)) =
      (Z.max 0 (dk_iter C d' - d_nequil p) - Z.max 0 (completed dk - d_nequil p)) * per_iter p /\
    m_n (dk_ph C d') = Z.of_nat (length (ph_vals lg)) /\
    (dk_iter C d' < d_total p -> m_val (dk_ph C d') = Some (vsum dim_ph (ph_vals lg))) /\
    (dk_iter C d' = d_total p -> ph_vals lg <> [] -> m_val (dk_ph C d') = Some (vmean dim_ph (ph_vals lg))).
Proof.
  intros V Hp Hk Hc.
  destruct (start_of C fresh reload dim_eq dim_un p dk) as [[[i0 c0] eq0] un0] eqn:Est.
  assert (i0 = completed dk) as Hi0 by (destruct dk; cbn in Est; cbn; congruence).
  destruct (run_ok C X slice post eq_sample ph_sample uneq_sample fresh init_X no_X reload
        dim_eq dim_ph dim_un p o dk i0 c0 eq0 un0 V Est) as
      (d' & s & lg & E & B1 & B2 & B3 & B4 & B5 & B6 & B7 & B7' & _);
    [lia|intros Hn; destruct Hc; [congruence|lia]|].
  exists d', s, lg. split; [exact E|]. rewrite Hp in *. rewrite B4, B3. split.
  { unfold count_eq. rewrite Hi0. lia. }
  change (meas_zero dim_ph) with (meas_of dim_ph []) in B7'. rewrite fold_meas_of in B7'. cbn [app] in B7'.
  cbn zeta in B7'. rewrite andb_true_r in B7'. rewrite <- B3, <- B4, B7'. split.
  { destruct (dk_iter C d' =? d_total p); reflexivity. }
  split.
  - intros H. destruct (Z.eqb_spec (dk_iter C d') (d_total p)); [lia|]. reflexivity.
  - intros -> Hne. rewrite Z.eqb_refl, normalize_of by exact Hne. reflexivity.
Qed.
End Main.
