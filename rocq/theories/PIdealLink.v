(** The Metropolis chain with phonons, driven by ideal random numbers. *)
From Coq Require Import ZArith List Reals Lra Lia Permutation.
From mathcomp Require Import ssreflect ssrfun ssrbool eqtype ssrnat seq div.
From Verif Require Import Base BaseFacts RandomSpec ShuffleFacts SimParams TimeStep Strat RandSource GreenConstruct Sweep SweepSpec
  PhononSweep PhononSpec IdealSpec IdealFacts IdealLink BoxSpec BoxFacts PMoves PIdealSpec PKernels PWeightFacts.
Local Open Scope R_scope.

Definition seed_ok (st : list R * list entry) : Prop :=
  List.Forall (fun u => 0 < u <= 1) (fst st) /\
  List.Forall (fun e => match e with Order js us => valid_choices js /\ List.Forall (fun u => 0 < u <= 1) us
                                   | Site _ us => List.Forall (fun u => 0 < u <= 1) us end) (snd st).

Lemma phonon_rand_ok : rand_ok phonon_source seed_ok.
Proof.
  constructor.
  - intros [us t] m sq [H1 H2] Hl. cbn [r_shuffle phonon_source fst snd] in *.
    destruct t as [|[js us'|j us'] t]; try (eexists; split; [reflexivity|]; congruence).
    destruct (Z.eqb_spec (Z.of_nat (length js)) (Z.of_nat m)); [|eexists; split; [reflexivity|]; congruence].
    inversion H2 as [|? ? AB H2']; subst. cbn in AB. destruct AB as [A B].
    rewrite order_of_run; [|auto|lia]. eexists. split; [reflexivity|]. intros st' sq' E. inversion E; subst.
    split; [split; auto|]. apply order_of_perm; auto. lia.
  - intros [us t] bound [H1 H2] Hb. cbn [r_bounded phonon_source fst snd] in *.
    destruct t as [|[js us'|j us'] t]; try (eexists; split; [reflexivity|]; congruence).
    inversion H2; subst. destruct (Z.leb_spec 0 j); [|eexists; split; [reflexivity|]; cbn; congruence].
    destruct (Z.ltb_spec j bound); [|eexists; split; [reflexivity|]; cbn; congruence].
    eexists. split; [reflexivity|]. intros v st' E. inversion E; subst. repeat split; auto.
  - intros [us t] [H1 H2]. cbn [r_uniform phonon_source fst snd] in *. destruct us as [|u us].
    + exists 1, (nil, t). repeat split; auto; cbn; lra.
    + inversion H1; subst. exists u, (us, t). repeat split; auto; cbn; lra.
Qed.

Lemma draws_mean_ext n ds : forall f g, (forall t, Forall2 (drawn_as n) ds t -> f t = g t) -> draws_mean n ds f = draws_mean n ds g.
Proof.
  induction ds as [|[c|c] ds IH]; intros f g H; cbn [draws_mean]; [apply H; constructor| |].
  - apply choice_mean_ext. intros js Hl Hjs. apply uniform_mean_ext. intros us Hu Hr. apply IH. intros t Ht. apply H.
    constructor; auto. cbn. split; [auto|]. split; [intros i Hi; apply Hjs; lia|auto].
  - f_equal. apply total_ext. intros j Hj. apply in_seq in Hj. apply uniform_mean_ext. intros us Hu Hr. apply IH. intros t Ht. apply H.
    constructor; auto. cbn. repeat split; auto; lia.
Qed.
Lemma draws_mean_const n ds c : (0 < n)%coq_nat -> draws_mean n ds (fun _ => c) = c.
Proof.
  intros Hn. induction ds as [|[k|k] ds IH]; cbn [draws_mean]; auto; rewrite IH.
  - rewrite uniform_mean_const. apply choice_mean_const.
  - rewrite uniform_mean_const total_const seq_length. field. apply not_0_INR. lia.
Qed.
Lemma entries_seed n ds t : Forall2 (drawn_as n) ds t -> seed_ok (nil, t).
Proof.
  intros H. split; [constructor|]. cbn [snd]. induction H as [|d e ds t He H IH]; constructor; auto.
  destruct d, e; cbn in He; try contradiction; tauto.
Qed.

Lemma modn_mod a b : (0 < b)%coq_nat -> (a %% b)%N = Nat.modulo a b.
Proof.
  intros Hb. apply (Nat.mod_unique a b (a %/ b)%N).
  - apply/ltP. rewrite ltn_mod. apply/ltP. lia.
  - rewrite {1}(divn_eq a b). rewrite mulnC. reflexivity.
Qed.

Lemma acts_nth u : forall l X p, length l = length X -> (p < length X)%coq_nat ->
  List.nth p (acts u l X) 0 = act1 u (List.nth p l (Shift 0)) (List.nth p X 0).
Proof.
  induction l as [|a l IH]; intros [|x X] p Hl Hp; cbn in Hp; try (exfalso; lia); try discriminate Hl.
  destruct p as [|p]; [reflexivity|]. cbn in Hl. apply (IH X p); lia.
Qed.
Definition pattern (m : nat) (here : nat -> bool) (a : act) : list act :=
  List.map (fun p => if here p then a else Shift 0) (List.seq 0 m).
Lemma pattern_length m here a : length (pattern m here a) = m.
Proof. unfold pattern. now rewrite map_length seq_length. Qed.
Lemma pattern_nth m here a p : (p < m)%coq_nat -> List.nth p (pattern m here a) (Shift 0) = if here p then a else Shift 0.
Proof.
  intros Hp. unfold pattern. rewrite (nth_indep _ _ ((fun p => if here p then a else Shift 0) O)); [|now rewrite map_length seq_length].
  rewrite (map_nth (fun p => if here p then a else Shift 0)) seq_nth; auto.
Qed.
Lemma pattern_le m here a D : 0 <= D -> act_le D a -> List.Forall (act_le D) (pattern m here a).
Proof.
  intros HD Ha. unfold pattern. apply List.Forall_map, List.Forall_forall. intros p _. destruct (here p); auto. cbn. rewrite Rabs_R0. auto.
Qed.
Lemma list_ext (X Y : list R) : length X = length Y -> (forall p, (p < length X)%coq_nat -> List.nth p X 0 = List.nth p Y 0) -> X = Y.
Proof. intros Hl H. apply (List.nth_ext X Y 0 0); auto. Qed.
Lemma acts_pattern m here a u X Y : length X = m -> length Y = m ->
  (forall p, (p < m)%coq_nat -> List.nth p Y 0 = if here p then act1 u a (List.nth p X 0) else List.nth p X 0) ->
  acts u (pattern m here a) X = Y.
Proof.
  intros HX HY H. apply list_ext.
  - rewrite acts_length; [lia|]. rewrite pattern_length. lia.
  - intros p Hp. rewrite acts_length in Hp; [|rewrite pattern_length; lia]. rewrite acts_nth; [|rewrite pattern_length; lia|lia].
    rewrite pattern_nth; [|lia]. rewrite H; [|lia]. destruct (here p); auto. cbn. ring.
Qed.

Lemma flat_lt l n L i : (l < L)%coq_nat -> (i < n)%coq_nat -> (Nat.add (Nat.mul l n) i < Nat.mul L n)%coq_nat.
Proof. clear. intros H1 H2. pose proof (Nat.mul_le_mono_r (S l) L n H1) as H. rewrite Nat.mul_succ_l in H. lia. Qed.
Arguments flat_lt {l n L i}.

Section Link.
Variables (n L : nat) (k : kinetic) (st : strat) (ph : phonon_params) (dt mu : R) (noHS : bool).
Hypothesis n_pos : (0 < n)%coq_nat.
Let m := (L * n)%nat.
Let W := phonon_weight n L k st ph dt.
Let w (s : list Z) (X : list R) : R := Rabs (W s X).
Let nl := Z.to_nat (ph_n_local_updates ph).
Let nb := Z.to_nat (ph_n_block_updates ph).
Let g (i : Z) : R := coupling k ph (Z.to_nat i).

Definition la_of (l : nat) (i : Z) : option (list act) :=
  if Req_EM_T (g i) 0 then None else Some (pattern m (fun p => Nat.eqb p (l * n + Z.to_nat i)%coq_nat) (Shift (ph_local_box_width ph))).
Definition ba_of (i : Z) : option (list act) :=
  if Req_EM_T (g i) 0 then None else Some (pattern m (fun p => eqn (p %% n) (Z.to_nat i)) (Shift (ph_block_box_width ph))).
Definition fa_of (i : Z) : option (list act) :=
  if Req_EM_T (g i) 0 then None else Some (pattern m (fun p => eqn (p %% n) (Z.to_nat i)) (Reflect (2 * mu / g i))).

Lemma shift_one_acts l i u X : length X = m -> (l < L)%coq_nat -> (i < n)%coq_nat ->
  acts u (pattern m (fun p => Nat.eqb p (l * n + i)%coq_nat) (Shift (ph_local_box_width ph))) X =
  shift_one n l i ((u - / 2) * ph_local_box_width ph) X.
Proof.
  intros HX Hl Hi. apply acts_pattern; auto.
  - unfold shift_one. now rewrite lset_length.
  - intros p Hp. unfold shift_one, field_at. rewrite lset_nth_d; [|rewrite HX; exact (flat_lt Hl Hi)]. change (l * n + i)%N with (l * n + i)%coq_nat. rewrite nth_seq.
    destruct (Nat.eqb_spec (l * n + i)%coq_nat p) as [->|N]; [now rewrite Nat.eqb_refl|]. destruct (Nat.eqb_spec p (l * n + i)%coq_nat); [lia|auto].
Qed.
Lemma nth_mkseq_coq (f : nat -> R) c p : (p < c)%coq_nat -> List.nth p (mkseq f c) 0 = f p.
Proof. intros Hp. rewrite <- nth_seq. apply nth_mkseq. apply/ltP. lia. Qed.
Lemma shift_all_acts i u X : length X = m ->
  acts u (pattern m (fun p => eqn (p %% n) i) (Shift (ph_block_box_width ph))) X = shift_all n i ((u - / 2) * ph_block_box_width ph) X.
Proof.
  intros HX. assert (E : size X = m) by auto. apply acts_pattern; auto.
  - unfold shift_all. rewrite <- HX. exact (size_mkseq _ _).
  - intros p Hp. unfold shift_all. rewrite nth_mkseq_coq; [|now rewrite E]. rewrite nth_seq. reflexivity.
Qed.
Lemma reflect_all_acts i u c X : length X = m ->
  acts u (pattern m (fun p => eqn (p %% n) i) (Reflect c)) X = reflect_all n i c X.
Proof.
  intros HX. assert (E : size X = m) by auto. apply acts_pattern; auto.
  - unfold reflect_all. rewrite <- HX. exact (size_mkseq _ _).
  - intros p Hp. unfold reflect_all. rewrite nth_mkseq_coq; [|now rewrite E]. rewrite nth_seq. reflexivity.
Qed.

Notation step := (step n w la_of ba_of fa_of nl).
Notation run := (run n w la_of ba_of fa_of nl).
Notation kind := (kind n nl).
Notation cfg := (list R * list entry * list Z * list Z * list R)%type.

(** [f] executes the phases [ps] *)
Definition drives (f : option cfg -> option (option cfg)) (ps : list phase) : Prop :=
  forall us t1 t2 order s X, Forall2 (drawn_as n) (List.map kind ps) t1 -> length order = n -> length X = m ->
  exists us' order', length order' = n /\ length (snd (run ps t1 (s, X))) = m /\
    f (Some ((us, t1 ++ t2)%list, order, s, X)) = Some (Some ((us', t2), order', fst (run ps t1 (s, X)), snd (run ps t1 (s, X)))).

Lemma run_app ps1 : forall ps2 t1 t2 c, length t1 = length ps1 -> run (ps1 ++ ps2)%list (t1 ++ t2)%list c = run ps2 t2 (run ps1 t1 c).
Proof.
  induction ps1 as [|p ps1 IH]; intros ps2 [|e t1] t2 c Hl; try discriminate; [reflexivity|]. cbn [List.app PKernels.run]. apply IH. now injection Hl.
Qed.
Lemma drives_nil : drives Some nil.
Proof. intros us t1 t2 order s X H Ho HX. inversion H; subst. exists us, order. cbn. auto. Qed.
Lemma drives_app f h ps1 ps2 : drives f ps1 -> drives h ps2 -> drives (fun o => obind (f o) h) (ps1 ++ ps2)%list.
Proof.
  intros H1 H2 us t t3 order s X Ht Ho HX. rewrite List.map_app in Ht. apply Forall2_app_inv_l in Ht as (t1 & t2 & Ht1 & Ht2 & ->).
  assert (El : length t1 = length ps1) by (rewrite <- (map_length kind ps1); clear - Ht1; induction Ht1; cbn; auto).
  destruct (H1 us t1 (t2 ++ t3)%list order s X Ht1 Ho HX) as (us1 & o1 & Ho1 & HX1 & E1).
  destruct (run ps1 t1 (s, X)) as [s1 X1] eqn:Er. cbn [fst snd] in *.
  destruct (H2 us1 t2 t3 o1 s1 X1 Ht2 Ho1 HX1) as (us2 & o2 & Ho2 & HX2 & E2).
  exists us2, o2. rewrite run_app // Er. repeat split; auto. rewrite <- List.app_assoc, E1. cbn [obind]. exact E2.
Qed.
Lemma drives_ext f h ps : (forall o, f o = h o) -> drives f ps -> drives h ps.
Proof.
  intros E H us t1 t2 order s X H1 H2 H3. destruct (H us t1 t2 order s X H1 H2 H3) as (us' & o' & A & B & C). exists us', o'. rewrite <- E. auto.
Qed.
Lemma drives_for (body : Z -> option cfg -> option (option cfg)) (ps : nat -> list phase) : forall (c a : nat),
  (forall l : nat, (a <= l)%coq_nat -> (l < Nat.add a c)%coq_nat -> drives (body (Z.of_nat l)) (ps l)) ->
  drives (for_from c (Z.of_nat a) body) (concat (List.map ps (List.seq a c))).
Proof.
  induction c as [|c IH]; intros a H; [exact drives_nil|].
  cbn [List.seq List.map concat]. apply (drives_ext (fun o => obind (body (Z.of_nat a) o) (for_from c (Z.of_nat (S a)) body))).
  - intros o. cbn [for_from]. replace (Z.of_nat a + 1)%Z with (Z.of_nat (S a)) by lia. reflexivity.
  - apply (drives_app (body (Z.of_nat a)) _ (ps a)); [apply H; lia|]. apply IH. intros l Hl1 Hl2. apply H; lia.
Qed.

(** flips of the discrete field *)
Lemma sites_run_ph X l t : forall sites us s, length us = length sites ->
  metropolis_sites phonon_source n (fun s => W s X) l sites (us, t) s =
  Some ((nil, t), moves (fun s => w s X) (fun i => flipped n l (Z.to_nat i)) sites us s).
Proof.
  induction sites as [|i sites IH]; intros us s Hl; destruct us as [|u us]; try discriminate; [reflexivity|].
  cbn [metropolis_sites r_uniform phonon_source fst snd obind moves]. injection Hl as Hl.
  rewrite IH //. unfold move, w. now destruct (Rlt_dec _ _).
Qed.
Lemma order_len js : length js = n -> length (order_of js) = n.
Proof. intros <-. unfold order_of. now rewrite fy_run_length map_length. Qed.
Lemma shuffle_run js us us' t order : length js = n -> valid_choices js -> length order = n ->
  r_shuffle phonon_source (us, (Order js us' :: t)%list) (Z.of_nat n) order = Some (Some ((us', t), order_of js)).
Proof.
  intros Hl Hv Ho. cbn [r_shuffle phonon_source fst snd]. rewrite Hl Z.eqb_refl order_of_run //. lia.
Qed.

(** local updates *)
Lemma site_in js q : length js = n -> valid_choices js -> (0 <= List.nth (Nat.modulo q n) (order_of js) 0%Z < Z.of_nat n)%Z.
Proof.
  intros Hl Hv.
  assert (In (List.nth (Nat.modulo q n) (order_of js) 0%Z) (order_of js)) as Hin.
  { apply nth_In. rewrite order_len //. apply Nat.mod_upper_bound. lia. }
  apply (Permutation_in _ (order_of_perm n js Hl Hv)) in Hin. apply in_map_iff in Hin as (z & <- & Hz). apply in_seq in Hz. lia.
Qed.
Lemma locals_run l js t : (l < L)%coq_nat -> length js = n -> valid_choices js -> forall c a us s X, (Nat.add c c <= length us)%coq_nat -> length X = m ->
  exists us', let X' := run_locals w (la_of l) (List.map (fun j => List.nth (Nat.modulo j n) (order_of js) 0%Z) (List.seq a c)) us s X in
  for_from c (Z.of_nat a) (fun j => chain_local n k ph phonon_source (weight_ratio n L k st ph dt) l
      (Z.to_nat (nth 0%Z (order_of js) (Z.to_nat j %% n)))) ((us, t), order_of js, s, X) =
  Some ((us', t), order_of js, s, X') /\ length X' = m.
Proof.
  intros Hl Hjs Hv. induction c as [|c IH]; intros a us s X Hu HX; [exists us; cbn; auto|].
  cbn [for_from List.seq List.map run_locals].
  assert (En : nth 0%Z (order_of js) (Z.to_nat (Z.of_nat a) %% n) = List.nth (Nat.modulo a n) (order_of js) 0%Z).
  { rewrite Nat2Z.id modn_mod //. generalize (Nat.modulo a n). generalize (order_of js). clear. induction l as [|x l IH]; intros [|p]; cbn; auto. }
  rewrite En. pose proof (site_in js a Hjs Hv) as Hsite. set (i := List.nth (Nat.modulo a n) (order_of js) 0%Z) in *.
  replace (Z.of_nat a + 1)%Z with (Z.of_nat (S a)) by lia.
  have La : la_of l i = if Req_EM_T (g i) 0 then None else Some (pattern m (fun p => Nat.eqb p (l * n + Z.to_nat i)%coq_nat) (Shift (ph_local_box_width ph))) by [].
  rewrite !La. unfold chain_local at 1. fold (g i). change R0 with 0. destruct (Req_EM_T (g i) 0) as [E|E]; cbn [is_left].
  - cbn [obind]. apply IH; auto. lia.
  - destruct us as [|u [|u' us]]; cbn [length] in Hu; try lia. cbn [r_uniform phonon_source fst snd obind].
    rewrite <- (shift_one_acts l (Z.to_nat i) u X); auto; [|lia].
    replace (accept u' (weight_ratio n L k st ph dt s X l (Z.to_nat i) ((u - / 2) * ph_local_box_width ph)) X
      (acts u (pattern m (fun p => Nat.eqb p (l * n + Z.to_nat i)%coq_nat) (Shift (ph_local_box_width ph))) X))
      with (accepted w u (pattern m (fun p => Nat.eqb p (l * n + Z.to_nat i)%coq_nat) (Shift (ph_local_box_width ph))) u' s X).
    + apply IH; [lia|]. unfold accepted. destruct (Rlt_dec _ _); auto. rewrite acts_length ?pattern_length; lia.
    + unfold accepted, accept, weight_ratio. rewrite <- (shift_one_acts l (Z.to_nat i) u X); [unfold w, W; now destruct (Rlt_dec _ _)|auto|auto|lia].
Qed.

Definition slice_phases (l : nat) : list phase := ((if noHS then nil else HSFlips l :: nil) ++ Locals l :: nil)%list.
Lemma drives_slice l : (l < L)%coq_nat ->
  drives (may_hang (chain_slice n L k st ph dt phonon_source noHS (weight_ratio n L k st ph dt) (Z.of_nat l))) (slice_phases l).
Proof.
  intros Hl us t1 t2 order s X Ht Ho HX. unfold slice_phases in *. cbn [may_hang]. unfold chain_slice. fold W.
  assert (G : forall us t1 order s, Forall2 (drawn_as n) (List.map kind (Locals l :: nil)%list) t1 -> length order = n ->
    exists us' order', length order' = n /\ length (snd (run (Locals l :: nil)%list t1 (s, X))) = m /\
    obind (r_shuffle phonon_source (us, t1 ++ t2)%list (Z.of_nat n) order) (fun sh =>
    match sh with
    | None => Some None
    | Some (seed, order) =>
      obind (for_range 0 (ph_n_local_updates ph)
        (fun j => chain_local n k ph phonon_source (weight_ratio n L k st ph dt) (Z.to_nat (Z.of_nat l)) (Z.to_nat (nth 0%Z order (Z.to_nat j %% n)))) (seed, order, s, X)) (fun c =>
      Some (Some c))
    end) = Some (Some ((us', t2), order', fst (run (Locals l :: nil)%list t1 (s, X)), snd (run (Locals l :: nil)%list t1 (s, X))))).
  { clear us t1 order s Ht Ho. intros us t1 order s Ht Ho. inversion Ht as [|d e ? t1' He Ht']; subst. inversion Ht'; subst. cbn [PKernels.kind] in He.
    destruct e as [js us'|]; [|contradiction]. destruct He as (A & B & C & D).
    cbn [List.app]. rewrite shuffle_run //. cbn [obind]. rewrite Nat2Z.id. cbn [PKernels.run PKernels.step fst snd].
    unfold for_range. rewrite Z.sub_0_r. change 0%Z with (Z.of_nat 0) at 1.
    destruct (locals_run l js t2 Hl A B nl 0 us' s X) as (us2 & E & EX); [lia|auto|]. fold nl.
    exists us2, (order_of js). split; [now apply order_len|]. split; [exact EX|]. rewrite E. reflexivity. }
  destruct noHS.
  - cbn [obind List.app] in *. apply G; auto.
  - cbn [List.app List.map] in Ht. inversion Ht as [|d e ? t1' He Ht']; subst. cbn [PKernels.kind] in He.
    destruct e as [js us'|]; [|contradiction]. destruct He as (A & B & C & D).
    unfold metropolis_slice. cbn [List.app]. rewrite shuffle_run //. cbn [obind]. rewrite Nat2Z.id sites_run_ph; [|now rewrite order_len]. cbn [obind].
    rewrite ?Nat2Z.id. rewrite ?Nat2Z.id in G. cbn [PKernels.run PKernels.step].
    apply (G nil t1' (order_of js)); auto. now apply order_len.
Qed.

(** block and flip updates *)
Lemma drives_block : drives (may_hang (chain_block n L k st ph dt phonon_source)) (Block :: nil)%list.
Proof.
  intros us t1 t2 order s X Ht Ho HX. inversion Ht as [|d e ? t1' He Ht']; subst. inversion Ht'; subst. cbn [PKernels.kind] in He.
  destruct e as [|j us']; [contradiction|]. destruct He as (A & B & D). destruct us' as [|u [|u' [|? ?]]]; try discriminate B.
  cbn [may_hang]. unfold chain_block. cbn [r_bounded phonon_source fst snd List.app].
  destruct (Z.leb_spec 0 j); [|lia]. destruct (Z.ltb_spec j (Z.of_nat n)); [|lia]. cbn [andb obind PKernels.run PKernels.step fst snd].
  unfold ba_of. fold (g j). fold W. change R0 with 0. destruct (Req_EM_T (g j) 0) as [E|E]; cbn [is_left].
  - exists (u :: u' :: nil)%list, order. auto.
  - exists nil, order. cbn [r_uniform phonon_source fst snd obind]. split; auto.
    rewrite <- shift_all_acts; auto. split; [|unfold accepted, accept, w; now destruct (Rlt_dec _ _)].
    unfold accepted. destruct (Rlt_dec _ _); auto. rewrite acts_length ?pattern_length; auto.
Qed.
Lemma drives_flip : drives (may_hang (chain_flip n L k st ph dt phonon_source mu)) (Flip :: nil)%list.
Proof.
  intros us t1 t2 order s X Ht Ho HX. inversion Ht as [|d e ? t1' He Ht']; subst. inversion Ht'; subst. cbn [PKernels.kind] in He.
  destruct e as [|j us']; [contradiction|]. destruct He as (A & B & D). destruct us' as [|u' [|? ?]]; try discriminate B.
  cbn [may_hang]. unfold chain_flip. cbn [r_bounded phonon_source fst snd List.app].
  destruct (Z.leb_spec 0 j); [|lia]. destruct (Z.ltb_spec j (Z.of_nat n)); [|lia]. cbn [andb obind PKernels.run PKernels.step fst snd].
  unfold fa_of. fold (g j). fold W. change R0 with 0. destruct (Req_EM_T (g j) 0) as [E|E]; cbn [is_left].
  - exists (u' :: nil)%list, order. auto.
  - exists nil, order. cbn [r_uniform phonon_source fst snd obind]. split; auto.
    rewrite <- (reflect_all_acts (Z.to_nat j) 0 _ X); auto. split; [|unfold accepted, accept, w; now destruct (Rlt_dec _ _)].
    unfold accepted. destruct (Rlt_dec _ _); auto. rewrite acts_length ?pattern_length; auto.
Qed.

Definition sweep_phases : list phase :=
  (concat (List.map slice_phases (List.seq 0 L)) ++ List.repeat Block nb ++ List.repeat Flip nb)%list.
Lemma concat_repeat {A} (x : A) c : forall a, concat (List.map (fun _ => x :: nil)%list (List.seq a c)) = List.repeat x c.
Proof. induction c as [|c IH]; intros a; cbn; auto. now rewrite IH. Qed.
Lemma drives_sweep : drives (may_hang (metropolis_phonon_sweep n L k st ph dt phonon_source noHS mu)) sweep_phases.
Proof.
  apply (drives_ext (fun o => obind (for_from L 0 (fun l => may_hang (chain_slice n L k st ph dt phonon_source noHS (weight_ratio n L k st ph dt) l)) o)
    (fun o => obind (for_from nb 0 (fun _ => may_hang (chain_block n L k st ph dt phonon_source)) o)
    (fun o => for_from nb 0 (fun _ => may_hang (chain_flip n L k st ph dt phonon_source mu)) o)))).
  - intros [c|]; cbn [may_hang].
    + unfold metropolis_phonon_sweep, chain_sweep, for_range. rewrite !Z.sub_0_r Nat2Z.id. reflexivity.
    + assert (N : forall c a (f : Z -> cfg -> option (option cfg)), for_from c a (fun l => may_hang (f l)) None = Some None).
      { induction c as [|c IH]; intros a f; cbn [for_from may_hang obind]; auto. }
      rewrite N. cbn [obind]. rewrite (N nb 0%Z (fun _ => chain_block n L k st ph dt phonon_source)). cbn [obind].
      exact (N nb 0%Z (fun _ => chain_flip n L k st ph dt phonon_source mu)).
  - unfold sweep_phases. apply (drives_app (for_from L 0 _)).
    + change 0%Z with (Z.of_nat 0). apply drives_for. intros l Hl1 Hl. apply drives_slice. lia.
    + apply (drives_app (for_from nb 0 _)).
      * rewrite <- (concat_repeat Block nb 0). change 0%Z with (Z.of_nat 0). apply drives_for. intros l Hl1 Hl. apply drives_block.
      * rewrite <- (concat_repeat Flip nb 0). change 0%Z with (Z.of_nat 0). apply drives_for. intros l Hl1 Hl. apply drives_flip.
Qed.
Definition all_phases (count : nat) : list phase := concat (List.repeat sweep_phases count).
Lemma drives_all count : drives (for_from count 0 (fun _ => may_hang (metropolis_phonon_sweep n L k st ph dt phonon_source noHS mu))) (all_phases count).
Proof.
  unfold all_phases. replace (List.repeat sweep_phases count) with (List.map (fun _ => sweep_phases) (List.seq 0 count)).
  - change 0%Z with (Z.of_nat 0). apply drives_for. intros. apply drives_sweep.
  - generalize 0%nat. induction count as [|c IH]; intros a; cbn; auto. now rewrite IH.
Qed.
Lemma map_rep {A B} (f : A -> B) x c : List.map f (List.repeat x c) = List.repeat (f x) c.
Proof. induction c as [|c IH]; cbn; auto. now rewrite IH. Qed.
Lemma kinds_sweep : List.map kind sweep_phases = sweep_draws noHS n L nl nb.
Proof.
  unfold sweep_phases, sweep_draws. rewrite !List.map_app !map_rep. f_equal.
  assert (H : forall c a, List.map kind (concat (List.map slice_phases (List.seq a c))) =
    concat (List.repeat ((if noHS then nil else DOrder n :: nil) ++ DOrder (2 * nl) :: nil)%list c)); [|apply H].
  induction c as [|c IH]; intros a; cbn [List.seq List.map concat List.repeat]; auto.
  rewrite List.map_app IH. f_equal. unfold slice_phases. destruct noHS; reflexivity.
Qed.
Lemma kinds_all count : List.map kind (all_phases count) = concat (List.repeat (sweep_draws noHS n L nl nb) count).
Proof. unfold all_phases. induction count as [|c IH]; cbn; auto. now rewrite List.map_app IH kinds_sweep. Qed.
Lemma phases_ok count : List.Forall (phase_ok L) (all_phases count).
Proof.
  unfold all_phases. induction count as [|c IH]; cbn; [constructor|]. apply Forall_app. split; auto. unfold sweep_phases.
  apply Forall_app. split; [|apply Forall_app; split; apply List.Forall_forall; intros x Hx; apply repeat_spec in Hx; subst; exact I].
  apply List.Forall_forall. intros x Hx. apply in_concat in Hx as (l & Hl & Hx). apply in_map_iff in Hl as (q & <- & Hq). apply in_seq in Hq.
  unfold slice_phases in Hx. destruct noHS; cbn in Hx; repeat (destruct Hx as [<-|Hx]; [cbn; lia|]); contradiction.
Qed.

(** * Invariance *)
Let D := Rmax (Rabs (ph_local_box_width ph)) (Rmax (Rabs (ph_block_box_width ph))
  (List.fold_right Rmax 0 (List.map (fun i => Rabs (2 * mu / coupling k ph i)) (List.seq 0 n)))).
Lemma fold_max (f : nat -> R) : forall l i, In i l -> f i <= List.fold_right Rmax 0 (List.map f l).
Proof.
  induction l as [|x l IH]; intros i Hi; [contradiction|]. cbn. destruct Hi as [->|Hi]; [apply Rmax_l|].
  eapply Rle_trans; [now apply IH|apply Rmax_r].
Qed.
Lemma D_pos : 0 <= D.
Proof. unfold D. eapply Rle_trans; [apply Rabs_pos|apply Rmax_l]. Qed.
Lemma la_le l i a : la_of l i = Some a -> act_ok n L D a.
Proof.
  unfold la_of. destruct Req_EM_T; [discriminate|]. intros E. injection E as <-. split; [apply pattern_length|]. apply pattern_le; [apply D_pos|].
  cbn. apply Rmax_l.
Qed.
Lemma ba_le i a : ba_of i = Some a -> act_ok n L D a.
Proof.
  unfold ba_of. destruct Req_EM_T; [discriminate|]. intros E. injection E as <-. split; [apply pattern_length|]. apply pattern_le; [apply D_pos|].
  cbn. eapply Rle_trans; [|apply Rmax_r]. apply Rmax_l.
Qed.
Lemma fa_le i a : (0 <= i < Z.of_nat n)%Z -> fa_of i = Some a -> act_ok n L D a.
Proof.
  intros Hi. unfold fa_of. destruct Req_EM_T; [discriminate|]. intros E. injection E as <-. split; [apply pattern_length|]. apply pattern_le; [apply D_pos|].
  cbn. eapply Rle_trans; [|apply Rmax_r]. eapply Rle_trans; [|apply Rmax_r]. unfold g.
  apply (fold_max (fun i => Rabs (2 * mu / coupling k ph i))). apply in_seq. lia.
Qed.

Theorem chain_invariant count C K (F : list Z -> list R -> R) : 0 <= C -> 0 <= K ->
  cls m w (fields (L * n)) C K F ->
  exists M0, 0 <= M0 /\ forall M, M0 <= M ->
  tot m w (fields (L * n)) M (fun s X => draws_mean n (concat (List.repeat (sweep_draws noHS n L nl nb) count)) (fun t =>
    let c := run (all_phases count) t (s, X) in F (fst c) (snd c))) = tot m w (fields (L * n)) M F.
Proof.
  intros HC HK HF. rewrite <- kinds_all.
  apply (runs_invariant n L w) with (C := C) (K := K) (D := D); auto.
  - intros. apply Rabs_pos.
  - intros s _. apply reg_abs. apply reg_weight.
  - apply D_pos.
  - intros j a Ha u v X. unfold fa_of in Ha. destruct Req_EM_T; [discriminate|]. injection Ha as <-. clear.
    unfold acts. apply List.map_ext_in. intros [a x] Hin. apply in_combine_l in Hin. unfold pattern in Hin. apply in_map_iff in Hin as (p & <- & _).
    cbn [fst snd]. destruct (eqn _ _); cbn; auto. ring.
  - intros l i a _ _. apply la_le.
  - intros i a _. apply ba_le.
  - intros i a. apply fa_le.
  - apply phases_ok.
Qed.
End Link.
