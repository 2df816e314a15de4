(** The Metropolis chain driven by ideal random numbers leaves the weight invariant. *)
From Coq Require Import ZArith List Reals Lra Lia Permutation.
From Coquelicot Require Import Coquelicot.
From Verif Require Import Base BaseFacts Random RandomSpec ShuffleFacts RandSource Sweep SweepSpec IdealSpec IdealFacts.
Import ListNotations.
Local Open Scope R_scope.

Definition tape_valid (n : nat) (st : list R * tape) : Prop :=
  List.Forall (fun u => 0 < u <= 1) (fst st) /\ List.Forall (slice_tape_ok n) (snd st).

Definition order_of (js : list Z) : list Z := fy_run (map Z.to_nat js).

Lemma okc_to_nat js : valid_choices js -> okc (map Z.to_nat js).
Proof.
  intros H i Hi. rewrite map_length in Hi. change O with (Z.to_nat 0). rewrite map_nth. specialize (H i Hi). lia.
Qed.
Lemma order_of_perm n js : length js = n -> valid_choices js -> Permutation (order_of js) (map Z.of_nat (seq 0 n)).
Proof.
  intros <- H. unfold order_of. rewrite <- (map_length Z.to_nat js). apply fy_run_perm, okc_to_nat, H.
Qed.
Lemma order_of_run js sq : valid_choices js -> length sq = length js -> shuffle_choices 0 js sq = Some (order_of js).
Proof.
  intros H Hl. destruct (choices_nat js H) as (ks & -> & Hk). rewrite map_length in Hl.
  rewrite shuffle_choices_run, skipn_all2, app_nil_r by (auto; lia). unfold order_of. rewrite map_map.
  rewrite (map_ext _ (fun x => x)) by (intros; apply Nat2Z.id). now rewrite map_id.
Qed.

Lemma ideal_rand_ok n : rand_ok ideal_source (tape_valid n).
Proof.
  constructor.
  - intros [us t] m sq [H1 H2] Hl. cbn [r_shuffle ideal_source fst snd] in *.
    destruct t as [|[js us'] t]; [eexists; split; [reflexivity|]; congruence|].
    destruct (Z.eqb_spec (Z.of_nat (length js)) (Z.of_nat m)); [|eexists; split; [reflexivity|]; congruence].
    inversion H2 as [|? ? (A & B & C & D) H2']; subst; cbn [fst snd] in *.
    rewrite order_of_run by (auto; lia). eexists. split; [reflexivity|]. intros st' sq' E. inversion E; subst.
    split; [split; auto|]. apply order_of_perm; auto. lia.
  - intros. cbn. eexists; split; [reflexivity|]. congruence.
  - intros [us t] [H1 H2]. cbn [r_uniform ideal_source fst snd] in *. destruct us as [|u us].
    + exists 1, ([], t). repeat split; auto; cbn; lra.
    + inversion H1; subst. exists u, (us, t). repeat split; auto; cbn; lra.
Qed.

Section Chain.
Variables (n : nat) (W : list Z -> R).
Let w (s : list Z) : R := Rabs (W s).

Definition slice_step (l : nat) (p : list Z * list R) (s : list Z) : list Z :=
  moves w (fun i => flipped n l (Z.to_nat i)) (order_of (fst p)) (snd p) s.

Fixpoint run_slices (c l : nat) (t : tape) (s : list Z) : tape * list Z :=
  match c with
  | O => (t, s)
  | S c => match t with [] => ([], s) | p :: t => run_slices c (S l) t (slice_step l p s) end
  end.
Fixpoint run_sweeps (L c : nat) (t : tape) (s : list Z) : tape * list Z :=
  match c with
  | O => (t, s)
  | S c => run_sweeps L c (fst (run_slices L 0 t s)) (snd (run_slices L 0 t s))
  end.

Lemma sites_run l t : forall sites us s, length us = length sites ->
  metropolis_sites ideal_source n W l sites (us, t) s =
  Some (([], t), moves w (fun i => flipped n l (Z.to_nat i)) sites us s).
Proof.
  induction sites as [|i sites IH]; intros us s Hl; destruct us as [|u us]; try discriminate; [reflexivity|].
  cbn [metropolis_sites r_uniform ideal_source fst snd obind moves]. injection Hl as Hl.
  rewrite IH by auto. unfold move, w. now destruct (Rlt_dec _ _).
Qed.
Lemma slice_run l p t us order s : slice_tape_ok n p -> length order = n ->
  metropolis_slice ideal_source n W (Z.of_nat l) ((us, p :: t), order, s) =
  Some (Some (([], t), order_of (fst p), slice_step l p s)).
Proof.
  destruct p as [js us']. intros (A & B & C & D) Ho. cbn [fst snd] in *.
  cbn [metropolis_slice r_shuffle ideal_source fst snd]. rewrite A, Z.eqb_refl, order_of_run by (auto; lia). cbn [obind].
  rewrite Nat2Z.id, sites_run; [reflexivity|]. unfold order_of. rewrite fy_run_length, map_length. lia.
Qed.
Lemma order_length p : slice_tape_ok n p -> length (order_of (fst p)) = n.
Proof. intros (A & _). unfold order_of. now rewrite fy_run_length, map_length. Qed.

Lemma slices_run : forall c l t us order s, (c <= length t)%nat -> List.Forall (slice_tape_ok n) t -> length order = n ->
  exists us' order', length order' = n /\
  for_from c (Z.of_nat l) (fun l => may_hang (metropolis_slice ideal_source n W l)) (Some ((us, t), order, s)) =
  Some (Some ((us', fst (run_slices c l t s)), order', snd (run_slices c l t s))) /\
  List.Forall (slice_tape_ok n) (fst (run_slices c l t s)) /\ length (fst (run_slices c l t s)) = (length t - c)%nat.
Proof.
  induction c as [|c IH]; intros l t us order s Hc Ht Ho.
  - exists us, order. cbn. repeat split; auto. lia.
  - destruct t as [|p t]; [cbn in Hc; lia|]. inversion Ht; subst. cbn [for_from may_hang run_slices].
    rewrite slice_run by auto. cbn [obind]. replace (Z.of_nat l + 1)%Z with (Z.of_nat (S l)) by lia.
    apply IH; auto; [cbn in Hc; lia|]. now apply order_length.
Qed.
Lemma sweeps_run L : forall c i t us order s, (c * L <= length t)%nat -> List.Forall (slice_tape_ok n) t -> length order = n ->
  exists us' order', length order' = n /\
  for_from c i (fun _ => may_hang (metropolis_sweep ideal_source n W L)) (Some ((us, t), order, s)) =
  Some (Some ((us', fst (run_sweeps L c t s)), order', snd (run_sweeps L c t s))).
Proof.
  induction c as [|c IH]; intros i t us order s Hc Ht Ho.
  - exists us, order. cbn. auto.
  - cbn [run_sweeps].
    destruct (slices_run L 0 t us order s) as (us1 & o1 & Ho1 & E & Hf & Hl); auto; [cbn in Hc; lia|].
    destruct (IH (i + 1)%Z (fst (run_slices L 0 t s)) us1 o1 (snd (run_slices L 0 t s))) as (us2 & o2 & Ho2 & E2); auto;
      [rewrite Hl; cbn in Hc; lia|].
    exists us2, o2. split; auto. rewrite <- E2. cbn [for_from may_hang].
    replace (metropolis_sweep ideal_source n W L (us, t, order, s))
      with (Some (Some ((us1, fst (run_slices L 0 t s)), o1, snd (run_slices L 0 t s)))); [reflexivity|].
    unfold metropolis_sweep, for_range. replace (Z.to_nat (Z.of_nat L - 0)) with L by lia. symmetry. exact E.
Qed.

(** * Invariance of the weight *)
Variable L : nat.
Let confs := fields (L * n).

Lemma lset_in k : forall s p, In s (fields k) -> (p < k)%nat -> In (lset s p (1 - nth p s 0)%Z) (fields k).
Proof.
  intros s p Hs Hp. apply fields_in in Hs as [Hl Hf]. apply fields_in. split; [now rewrite lset_length|].
  apply List.Forall_forall. intros x Hx. apply (In_nth _ _ 0%Z) in Hx as (i & Hi & <-). rewrite lset_length in Hi.
  rewrite lset_nth_d by lia. rewrite List.Forall_forall in Hf.
  assert (In (nth p s 0%Z) s) as H1 by (apply nth_In; lia). apply Hf in H1.
  destruct (Nat.eqb_spec p i); [lia|]. apply Hf, nth_In. lia.
Qed.
Lemma lset_back (s : list Z) p : (p < length s)%nat -> lset (lset s p (1 - nth p s 0)%Z) p (1 - nth p (lset s p (1 - nth p s 0)%Z) 0)%Z = s.
Proof.
  intros Hp. apply (nth_ext _ _ 0%Z 0%Z); [now rewrite !lset_length|]. intros i Hi. rewrite !lset_length in Hi.
  rewrite !lset_nth_d by (rewrite ?lset_length; lia). rewrite Nat.eqb_refl. destruct (Nat.eqb_spec p i); subst; lia.
Qed.

Lemma slice_invariant (g : list Z -> R) l : (l < L)%nat ->
  total (fun s => w s * choice_mean 0 n (fun js => uniform_mean n (fun us => g (slice_step l (js, us) s)))) confs =
  total (fun s => w s * g s) confs.
Proof.
  intros Hl. rewrite (choice_mean_total w confs n 0 (fun js s => uniform_mean n (fun us => g (slice_step l (js, us) s)))).
  rewrite <- (choice_mean_const n 0 (total (fun s => w s * g s) confs)). apply choice_mean_ext. intros js Hj Hv.
  unfold slice_step. cbn [fst snd].
  assert (V : valid_choices js) by (intros t Ht; apply Hv; lia).
  assert (E : length (order_of js) = n) by (unfold order_of; now rewrite fy_run_length, map_length).
  assert (T := total_moves w confs (fun s => Rabs_pos (W s)) (fields_nodup _) (fun i => flipped n l (Z.to_nat i)) g (order_of js)).
  rewrite E in T. apply T. clear T.
  - intros i Hi s Hs. apply (Permutation_in _ (order_of_perm n js Hj V)) in Hi. apply in_map_iff in Hi as (x & <- & Hx).
    apply in_seq in Hx. rewrite Nat2Z.id. assert (l * n + x < L * n)%nat by nia. unfold flipped. split.
    + now apply lset_in.
    + apply lset_back. apply fields_in in Hs as [-> _]. auto.
Qed.

Lemma slices_invariant (h : tape -> list Z -> R) r : forall c l, (l + c <= L)%nat ->
  total (fun s => w s * tape_mean n (c + r) (fun t => h (fst (run_slices c l t s)) (snd (run_slices c l t s)))) confs =
  total (fun s => w s * tape_mean n r (fun t => h t s)) confs.
Proof.
  induction c as [|c IH]; intros l Hl; [reflexivity|]. cbn [Nat.add tape_mean run_slices].
  rewrite (slice_invariant (fun s => tape_mean n (c + r) (fun t => h (fst (run_slices c (S l) t s)) (snd (run_slices c (S l) t s)))) l) by lia.
  apply IH. lia.
Qed.
Lemma sweeps_invariant (g : list Z -> R) : forall c,
  total (fun s => w s * tape_mean n (c * L) (fun t => g (snd (run_sweeps L c t s)))) confs = total (fun s => w s * g s) confs.
Proof.
  induction c as [|c IH]; [reflexivity|]. cbn [Nat.mul run_sweeps].
  rewrite (slices_invariant (fun t s => g (snd (run_sweeps L c t s))) (c * L) L 0) by lia. exact IH.
Qed.

End Chain.
Lemma tape_mean_const n : forall r c, tape_mean n r (fun _ => c) = c.
Proof.
  induction r as [|r IH]; intros c; [reflexivity|]. cbn [tape_mean].
  rewrite (choice_mean_ext n 0 _ (fun _ => c)); [apply choice_mean_const|]. intros.
  rewrite (uniform_mean_ext n _ (fun _ => c)); [apply uniform_mean_const|]. intros. apply IH.
Qed.
