(** Proofs about the printed summary of the phonon data. *)
From Coq Require Import ZArith List Reals Lia Lra.
From Verif Require Import Base BaseFacts Sums SumsFacts RealOps GreenConstruct Accum AccumFacts WickSpec MeasureSpec MeasureSeqFacts PMeasure PMeasureSpec PMeasureFacts
  PhononSweep PhononCountSpec Summary.
Import ListNotations.
Local Open Scope Z_scope.

Section S.
Variables (Norb Nx Ny L mx : Z) (dt : R) (omega : list R) (samples : list psample).
Hypotheses (H1 : 0 < Norb) (H2 : 0 < Nx) (H3 : 0 < Ny) (H4 : 0 < L) (Hdt : dt <> 0%R) (Hom : Z.of_nat (length omega) = Norb).
Notation Ncell := (Nx * Ny).
Hypotheses (Hs : Forall (psample_ok Norb Ncell L) samples) (Hmx : Z.of_nat (length samples) <= mx) (Hne : samples <> []).
Notation S := (lsum psign samples).

Notation est := (phonon_average Norb Ncell L dt omega samples).

Lemma cnt_pos : (IZR (Z.of_nat (length samples)) <> 0)%R.
Proof. apply IZR_neq. destruct samples; [congruence|cbn [length]; lia]. Qed.

Lemma results : exists m0 m m', allocate_pmeas Norb Nx Ny L mx = Some m0 /\ paccumulate_all dt omega samples m0 = Some m /\ pnormalize m = Some m' /\
  p_Norb m' = Norb /\ p_sign m' = (S / IZR (Z.of_nat (length samples)))%R /\
  (forall f o, In f orbital_fields -> 0 <= o < Norb -> aget (p_arr m' f) o = Some (pincs Norb Ncell L dt omega 0 samples f o / IZR (Z.of_nat (length samples)))%R).
Proof.
  assert (0 < Ncell) as HN by nia.
  destruct (allocate_pmeas_ok Norb Ncell L mx H1 Nx Ny eq_refl) as (m0 & E0 & M0 & S0 & N0); [lia|].
  destruct (paccumulate_all_ok Norb Ncell L mx dt omega H1 HN H4 Hdt Hom samples m0 _ Hs M0) as (m & E & M & HS & C); [lia|lia|].
  rewrite N0 in C. rewrite Z.add_0_l in C.
  assert (p_nsampl m <> 0) as Hc. { rewrite C. intros K. apply cnt_pos. now rewrite K. }
  destruct (pnormalize_ok Norb Ncell L mx H1 m _ Hc M) as (m' & E' & M' & S' & C').
  exists m0, m, m'. do 3 (split; [assumption|]). destruct (po_arr _ _ _ _ _ _ M') as [c' A']. rewrite C, N0 in *.
  split; [exact (po_Norb _ _ _ _ _ _ M')|]. split; [rewrite S', HS, S0, Rplus_0_l; reflexivity|].
  intros f o Hf Ho. assert (pfield_len Norb mx f = Norb) as Hl.
  { repeat (destruct Hf as [<-|Hf]; [reflexivity|]). destruct Hf. }
  destruct (A' f) as [_ G]. rewrite G by (rewrite Hl; exact Ho).
  f_equal. repeat (destruct Hf as [<-|Hf]; [cbn; rewrite Rplus_0_l; reflexivity|]). destruct Hf.
Qed.

Lemma flat_loop (N : Z) (F : Z -> option (list line)) (f : Z -> list line) init : 0 <= N ->
  (forall o, 0 <= o < N -> F o = Some (f o)) ->
  for_range 0 N (fun o out => let* ls := F o in Some (out ++ ls)) init = Some (init ++ flat_map f (map Z.of_nat (seq 0 (Z.to_nat N)))).
Proof.
  intros HN HF. match goal with |- for_range _ _ ?b _ = _ =>
  destruct (@for_range_inv _ (fun i t => t = init ++ flat_map f (map Z.of_nat (seq 0 (Z.to_nat i)))) 0 N b init) as (t & -> & ->) end; auto.
  - intros i t Hi ->. rewrite HF by auto. cbn [obind]. eexists; split; [reflexivity|].
    replace (Z.to_nat (i + 1)) with (Datatypes.S (Z.to_nat i)) by lia. rewrite seq_S, map_app, flat_map_app. cbn. rewrite app_nil_r, app_assoc, Z2Nat.id by lia. reflexivity.
  - cbn. now rewrite app_nil_r.
Qed.

Lemma phonon_lines c : S <> 0%R -> n_local_total c <> 0 -> n_block_total c <> 0 -> n_flip_total c <> 0 ->
  exists m0 m m' e, allocate_pmeas Norb Nx Ny L mx = Some m0 /\ paccumulate_all dt omega samples m0 = Some m /\ pnormalize m = Some m' /\
    print_phonon_summary m' c = Some (phonon_summary_lines Norb (S / IZR (Z.of_nat (length samples)))
      (IZR (n_local_accept c) / IZR (n_local_total c)) (IZR (n_block_accept c) / IZR (n_block_total c)) (IZR (n_flip_accept c) / IZR (n_flip_total c)) e) /\
    (forall f o, In f [X_avg; X_sq_avg; V_sq_avg; PE; nX] -> e f o = est f o) /\ (Norb = 1 -> e KE 0 = est KE 0).
Proof.
  intros HS C1 C2 C3. destruct results as (m0 & m & m' & E0 & E & E' & EN & ES & G).
  set (M := IZR (Z.of_nat (length samples))) in *. assert (M <> 0%R) as HM by exact cnt_pos.
  exists m0, m, m', (fun f o => pincs Norb Ncell L dt omega 0 samples f o / S)%R. do 3 (split; [assumption|]). split; [|split].
  - unfold print_phonon_summary. rewrite EN, ES. unfold phonon_summary_lines.
    assert (forall x y, (y <> 0)%R -> rdiv x y = Some (x / y)%R) as RD.
    { intros x y Hy. unfold rdiv. destruct (Req_EM_T y 0); [contradiction|reflexivity]. }
    assert (S / M <> 0)%R as HSM. { intros K. apply HS. replace S with (S / M * M)%R by (field; exact HM). rewrite K. ring. }
    match goal with |- _ = Some (?h :: ?t) => change (h :: t) with ([h] ++ t) end.
    apply flat_loop; [lia|]. intros o Ho. unfold phonon_orbital_lines. rewrite ES.
    rewrite !(RD (IZR _)) by (apply IZR_neq; lia). cbn [obind].
    assert (forall f, In f orbital_fields -> (let* a := aget (p_arr m' f) o in rdiv a (S / M)) = Some (pincs Norb Ncell L dt omega 0 samples f o / S)%R) as Q.
    { intros f Hf. rewrite (G f o Hf Ho). cbn [obind]. rewrite RD by exact HSM. f_equal. field. auto. }
    assert (forall f (B : Type) (K : R -> option B), In f orbital_fields ->
      (let* a := aget (p_arr m' f) o in let* l := rdiv a (S / M) in K l) = K (pincs Norb Ncell L dt omega 0 samples f o / S)%R) as Q'.
    { intros f B K Hf. specialize (Q f Hf). destruct (aget (p_arr m' f) o) as [a|]; cbn [obind] in *; [|discriminate]. now rewrite Q. }
    rewrite !Q' by (cbn; tauto). reflexivity.
  - intros f o Hf. unfold phonon_average. f_equal. apply pincs_plain. intros n s.
    repeat (destruct Hf as [<-|Hf]; [reflexivity|]). destruct Hf.
  - intros EN1. unfold phonon_average. f_equal. apply pincs_plain. intros n s. rewrite EN1 in *.
    unfold pinc, observable. cbn -[lattice_average velocity]. unfold Rdiv. ring.
Qed.

Lemma phonon_lines_undefined c m m' : pnormalize m = Some m' -> 0 < p_Norb m' ->
  (p_sign m' = 0%R \/ n_local_total c = 0 \/ n_block_total c = 0 \/ n_flip_total c = 0) -> print_phonon_summary m' c = None.
Proof.
  intros _ HN H. unfold print_phonon_summary, for_range. destruct (Z.to_nat (p_Norb m' - 0)) as [|n] eqn:En; [lia|]. cbn [for_from].
  assert (phonon_orbital_lines m' c 0 = None) as ->; [|reflexivity].
  unfold phonon_orbital_lines. assert (forall x y, y = 0%R -> rdiv x y = None) as RZ.
  { intros x y ->. unfold rdiv. destruct (Req_EM_T 0 0); [reflexivity|contradiction]. }
  destruct H as [H|[H|[H|H]]].
  - destruct (rdiv _ _) as [l1|]; cbn [obind]; [|reflexivity]. destruct (rdiv _ _) as [l2|]; cbn [obind]; [|reflexivity].
    destruct (rdiv _ _) as [l3|]; cbn [obind]; [|reflexivity]. destruct (aget _ _) as [a|]; cbn [obind]; [|reflexivity]. now rewrite RZ.
  - now rewrite RZ by now rewrite H.
  - destruct (rdiv _ _) as [l1|]; cbn [obind]; [|reflexivity]. now rewrite RZ by now rewrite H.
  - destruct (rdiv _ _) as [l1|]; cbn [obind]; [|reflexivity]. destruct (rdiv _ _) as [l2|]; cbn [obind]; [|reflexivity]. now rewrite RZ by now rewrite H.
Qed.
End S.
