(** C49: the two parallel sections. *)
From Coq Require Import ZArith List Reals Bool Lia Lra.
From Verif Require Import Base RealOps Blas MatProd GreenUpdate Threads ThreadsSpec ThreadsFacts ThreadSections ThreadSectionsFacts.
Import ListNotations.
Local Open Scope Z_scope.

(** For every parallel construct of the program, all section programs that stay within the arrays
    listed in [section_footprint], all initial memories, and all schedules: when both sections have
    finished, each of them has returned what it returns when it runs alone, the arrays that it
    writes contain what it writes when it runs alone, and no other array has changed; the memory is
    also the one after running the up section and then the down section. *)
Theorem C49_schedule_independent :
  forall (V : Type) (c : construct) (A B : Type) (up : prog name V A) (down : prog name V B),
  confined (section_footprint c Up) up -> confined (section_footprint c Down) down ->
  forall sched m m' x y, interleave name_eq sched m up down = Some (m', Ret x, Ret y) ->
  (exists mu md, exec name_eq up m = Some (mu, x) /\ exec name_eq down m = Some (md, y) /\
    forall a, m' a = if section_writes c Up a then mu a else if section_writes c Down a then md a else m a) /\
  (exists m1 m2, exec name_eq up m = Some (m1, x) /\ exec name_eq down m1 = Some (m2, y) /\ forall a, m' a = m2 a).
Proof.
  intros V c A B up down Hu Hd sched m m' x y E. pose proof (sections_compatible c) as HC. split.
  - destruct (interleave_done _ _ _ _ _ _ _ HC _ _ _ _ _ _ _ Hu Hd E) as (mu & md & E1 & E2 & I1 & I2 & I3).
    exists mu, md. split; [auto|]. split; [auto|]. intros a. cbn in I1, I2, I3.
    destruct (section_writes c Up a) eqn:WU; auto. destruct (section_writes c Down a) eqn:WD; auto.
  - apply (interleave_seq _ _ _ _ _ _ _ HC _ _ _ _ _ _ _ Hu Hd E).
Qed.
Print Assumptions C49_schedule_independent.

(** two complete schedules give the same result *)
Theorem C49_deterministic :
  forall (V : Type) (c : construct) (A B : Type) (up : prog name V A) (down : prog name V B),
  confined (section_footprint c Up) up -> confined (section_footprint c Down) down ->
  forall sched sched' m m1 m2 x1 x2 y1 y2,
  interleave name_eq sched m up down = Some (m1, Ret x1, Ret y1) ->
  interleave name_eq sched' m up down = Some (m2, Ret x2, Ret y2) ->
  x1 = x2 /\ y1 = y2 /\ forall a, m1 a = m2 a.
Proof.
  intros V c A B up down Hu Hd sched sched' m m1 m2 x1 x2 y1 y2 E1 E2.
  destruct (C49_schedule_independent V c A B up down Hu Hd _ _ _ _ _ E1) as [_ (a1 & a2 & H1 & H2 & H3)].
  destruct (C49_schedule_independent V c A B up down Hu Hd _ _ _ _ _ E2) as [_ (b1 & b2 & H4 & H5 & H6)].
  rewrite H1 in H4. inversion H4; subst. rewrite H2 in H5. inversion H5; subst.
  repeat split; auto. intros a. congruence.
Qed.
Print Assumptions C49_deterministic.

(** In no reachable state are the next steps of the two sections an access to the same array that
    at least one of them writes. *)
Theorem C49_race_free :
  forall (V : Type) (c : construct) (A B : Type) (up : prog name V A) (down : prog name V B),
  confined (section_footprint c Up) up -> confined (section_footprint c Down) down ->
  forall sched m m' up' down', interleave name_eq sched m up down = Some (m', up', down') ->
  ~ conflict (next_access up') (next_access down').
Proof.
  intros V c A B up down Hu Hd sched m m' up' down' E. pose proof (sections_compatible c) as HC.
  pose proof (interleave_inv _ _ name_eq _ _ _ _ HC sched m up down Hu Hd) as I. rewrite E in I.
  destruct I as (I1 & I2 & _). exact (no_conflict _ _ _ _ _ _ HC _ _ I1 I2).
Qed.
Print Assumptions C49_race_free.

(** If both sections, run alone, are free of undefined behaviour, then so is every interleaving, and
    every schedule that gives each section enough turns ends with both sections finished. *)
Theorem C49_terminates :
  forall (V : Type) (c : construct) (A B : Type) (up : prog name V A) (down : prog name V B),
  confined (section_footprint c Up) up -> confined (section_footprint c Down) down ->
  forall m mu x md y, exec name_eq up m = Some (mu, x) -> exec name_eq down m = Some (md, y) ->
  (forall sched, interleave name_eq sched m up down <> None) /\
  exists nu nd, forall sched, (nu <= turns true sched)%nat -> (nd <= turns false sched)%nat ->
    exists m', interleave name_eq sched m up down = Some (m', Ret x, Ret y).
Proof.
  intros V c A B up down Hu Hd m mu x md y E1 E2. pose proof (sections_compatible c) as HC.
  assert (forall sched, interleave name_eq sched m up down <> None) as HN.
  { intros sched E. pose proof (interleave_inv _ _ name_eq _ _ _ _ HC sched m up down Hu Hd) as I.
    rewrite E in I. destruct I; congruence. }
  split; [exact HN|].
  exists (steps _ _ name_eq up m), (steps _ _ name_eq down m). intros sched S1 S2.
  pose proof (interleave_terminates _ _ name_eq _ _ _ _ HC sched m up down Hu Hd S1 S2) as T.
  pose proof (HN sched) as N. destruct (interleave name_eq sched m up down) as [[[m' p'] q']|] eqn:E; [|congruence].
  destruct T as [[x' ->] [y' ->]]. exists m'.
  destruct (C49_schedule_independent V c A B up down Hu Hd _ _ _ _ _ E) as [(a1 & a2 & H1 & H2 & _) _]. congruence.
Qed.
Print Assumptions C49_terminates.

(** ** The section programs
    For all routines (BLAS, LAPACK, memcpy, loops over elements) that access only the arrays passed to
    them, all dimensions and arguments, and every parallel construct of the program: the two sections
    as they are in the code never race, every complete schedule gives the memory of running one section
    after the other, and if the two sections alone are free of undefined behaviour then so is every
    schedule, and it completes. *)
Theorem C49_sections :
  forall (V : Type) (routine : list Z -> list name -> list name -> prog name V Z) (junk : Z -> list V),
  (forall args rd wr, confined (arguments rd wr) (routine args rd wr)) ->
  forall (d : dims) (c : construct) (i l shift : Z) (m : name -> list V),
  let up := section_program V routine junk d c i l shift Up in
  let down := section_program V routine junk d c i l shift Down in
  (forall sched m' up' down', interleave name_eq sched m up down = Some (m', up', down') ->
    ~ conflict (next_access up') (next_access down')) /\
  (forall sched m', interleave name_eq sched m up down = Some (m', Ret tt, Ret tt) ->
    (exists m1, exec name_eq up m = Some (m1, tt) /\ exists m2, exec name_eq down m1 = Some (m2, tt) /\ forall a, m' a = m2 a) /\
    (exists m1, exec name_eq down m = Some (m1, tt) /\ exists m2, exec name_eq up m1 = Some (m2, tt) /\ forall a, m' a = m2 a)) /\
  (forall mu md, exec name_eq up m = Some (mu, tt) -> exec name_eq down m = Some (md, tt) ->
    (forall sched, interleave name_eq sched m up down <> None) /\
    exists nu nd, forall sched, (nu <= turns true sched)%nat -> (nd <= turns false sched)%nat ->
      exists m', interleave name_eq sched m up down = Some (m', Ret tt, Ret tt)).
Proof.
  intros V routine junk HR d c i l shift m up down.
  pose proof (section_confined V routine HR junk d c i l shift Up) as Hu.
  pose proof (section_confined V routine HR junk d c i l shift Down) as Hd. fold up in Hu. fold down in Hd.
  split; [|split].
  - intros sched m' up' down'. exact (C49_race_free V c unit unit up down Hu Hd sched m m' up' down').
  - intros sched m' E. pose proof (sections_compatible c) as HC. split.
    + destruct (interleave_seq _ _ _ _ _ _ _ HC _ _ _ _ _ _ _ Hu Hd E) as (m1 & m2 & E1 & E2 & E3). eauto.
    + apply interleave_swap in E.
      destruct (interleave_seq _ _ _ _ _ _ _ (compat_sym _ _ _ HC) _ _ _ _ _ _ _ Hd Hu E) as (m1 & m2 & E1 & E2 & E3). eauto.
  - intros mu md Eu Ed. exact (C49_terminates V c unit unit up down Hu Hd m mu tt md tt Eu Ed).
Qed.
Print Assumptions C49_sections.

(** ** The Green's function updates as section programs
    When the functions give the new Green's functions Gu', Gd' for the two spins separately, then every
    complete schedule of the two sections leaves exactly Gu' and Gd' in memory, and changes nothing
    else but the temporary arrays; and every schedule with enough turns is complete. *)
Theorem C49_time_slice_wrap :
  forall (junk : Z -> R) (N l : Z) (m : name -> list R) (Gu' Gd' : list R),
  let up := p_slice_wrap junk N (Tmp Up 0) (Bmat Up false l) (Binv Up false l) (Gmat Up false) in
  let down := p_slice_wrap junk N (Tmp Down 0) (Bmat Down false l) (Binv Down false l) (Gmat Down false) in
  slice_wrap junk N (m (Bmat Up false l)) (m (Binv Up false l)) (m (Gmat Up false)) = Some Gu' ->
  slice_wrap junk N (m (Bmat Down false l)) (m (Binv Down false l)) (m (Gmat Down false)) = Some Gd' ->
  (forall sched m', interleave name_eq sched m up down = Some (m', Ret tt, Ret tt) ->
    m' (Gmat Up false) = Gu' /\ m' (Gmat Down false) = Gd' /\
    forall a, (forall s, a <> Gmat s false) -> (forall s k, a <> Tmp s k) -> m' a = m a) /\
  (forall sched, interleave name_eq sched m up down <> None) /\
  exists nu nd, forall sched, (nu <= turns true sched)%nat -> (nd <= turns false sched)%nat ->
    exists m', interleave name_eq sched m up down = Some (m', Ret tt, Ret tt).
Proof.
  intros junk N l m Gu' Gd' up down Eu Ed.
  assert (confined (section_footprint (Wrap l) Up) up) as Hu by
    (apply confined_slice_wrap; unfold acc; cbn; rewrite ?Z.eqb_refl; auto).
  assert (confined (section_footprint (Wrap l) Down) down) as Hd by
    (apply confined_slice_wrap; unfold acc; cbn; rewrite ?Z.eqb_refl; auto).
  destruct (slice_wrap_prog _ name_eq junk N (Tmp Up 0) (Bmat Up false l) (Binv Up false l) (Gmat Up false) m Gu') as (mu & Xu & Mu); auto; try discriminate.
  destruct (slice_wrap_prog _ name_eq junk N (Tmp Down 0) (Bmat Down false l) (Binv Down false l) (Gmat Down false) m Gd') as (md & Xd & Md); auto; try discriminate.
  split; [|exact (C49_terminates R (Wrap l) unit unit up down Hu Hd m mu tt md tt Xu Xd)].
  intros sched m' E.
  destruct (C49_schedule_independent R (Wrap l) unit unit up down Hu Hd _ _ _ _ _ E) as [(a1 & a2 & H1 & H2 & H3) _].
  unfold up in H1. unfold down in H2. rewrite Xu in H1. inversion H1; subst a1. rewrite Xd in H2. inversion H2; subst a2.
  split; [now rewrite H3|]. split; [now rewrite H3|].
  intros a Ha Ht. rewrite H3. destruct a as [[] []|[] []|[] [] ?|[] [] ?|[] [] ?|[]|[] ?|?| | |[]|[] ?|[] ?]; cbn; auto;
    try (destruct (Ha Up); reflexivity); try (destruct (Ha Down); reflexivity); try (destruct (Ht Up k); reflexivity); destruct (Ht Down k); reflexivity.
Qed.
Print Assumptions C49_time_slice_wrap.

Theorem C49_sherman_morrison :
  forall (junk : Z -> R) (du dd : R) (N i : Z) (m : name -> list R) (Gu' Gd' : list R), 0 <= N ->
  let up := p_sherman_morrison junk du N i (Tmp Up 0) (Tmp Up 1) (Gmat Up false) in
  let down := p_sherman_morrison junk dd N i (Tmp Down 0) (Tmp Down 1) (Gmat Down false) in
  sherman_morrison junk du N i (m (Gmat Up false)) = Some Gu' ->
  sherman_morrison junk dd N i (m (Gmat Down false)) = Some Gd' ->
  (forall sched m', interleave name_eq sched m up down = Some (m', Ret tt, Ret tt) ->
    m' (Gmat Up false) = Gu' /\ m' (Gmat Down false) = Gd' /\
    forall a, (forall s, a <> Gmat s false) -> (forall s k, a <> Tmp s k) -> m' a = m a) /\
  (forall sched, interleave name_eq sched m up down <> None) /\
  exists nu nd, forall sched, (nu <= turns true sched)%nat -> (nd <= turns false sched)%nat ->
    exists m', interleave name_eq sched m up down = Some (m', Ret tt, Ret tt).
Proof.
  intros junk du dd N i m Gu' Gd' HN up down Eu Ed.
  assert (confined (section_footprint FlipUpdate Up) up) as Hu by (apply confined_sherman_morrison; auto).
  assert (confined (section_footprint FlipUpdate Down) down) as Hd by (apply confined_sherman_morrison; auto).
  destruct (sherman_morrison_prog _ name_eq junk du N i (Tmp Up 0) (Tmp Up 1) (Gmat Up false) m Gu') as (mu & Xu & Mu); auto; try discriminate.
  destruct (sherman_morrison_prog _ name_eq junk dd N i (Tmp Down 0) (Tmp Down 1) (Gmat Down false) m Gd') as (md & Xd & Md); auto; try discriminate.
  split; [|exact (C49_terminates R FlipUpdate unit unit up down Hu Hd m mu tt md tt Xu Xd)].
  intros sched m' E.
  destruct (C49_schedule_independent R FlipUpdate unit unit up down Hu Hd _ _ _ _ _ E) as [(a1 & a2 & H1 & H2 & H3) _].
  unfold up in H1. unfold down in H2. rewrite Xu in H1. inversion H1; subst a1. rewrite Xd in H2. inversion H2; subst a2.
  split; [now rewrite H3|]. split; [now rewrite H3|].
  intros a Ha Ht. rewrite H3. destruct a as [[] []|[] []|[] [] ?|[] [] ?|[] [] ?|[]|[] ?|?| | |[]|[] ?|[] ?]; cbn; auto;
    try (destruct (Ha Up); reflexivity); try (destruct (Ha Down); reflexivity); try (destruct (Ht Up k); reflexivity); destruct (Ht Down k); reflexivity.
Qed.
Print Assumptions C49_sherman_morrison.

(** ** Without disjoint footprints the schedule matters: two threads that add 1 to the same element *)
Definition increment : prog bool nat unit := do v <- pload true 0; pstore true 0 (S v).
Theorem C49_shared_array_refuted :
  exists s1 s2 m1 m2,
    interleave Bool.bool_dec s1 (fun _ => [0%nat]) increment increment = Some (m1, Ret tt, Ret tt) /\
    interleave Bool.bool_dec s2 (fun _ => [0%nat]) increment increment = Some (m2, Ret tt, Ret tt) /\
    m1 true = [2%nat] /\ m2 true = [1%nat].
Proof.
  exists [true; true; false; false], [true; false; true; false]. do 2 eexists.
  split; [reflexivity|]. split; [reflexivity|]. split; reflexivity.
Qed.
Print Assumptions C49_shared_array_refuted.

(** ** Non-vacuity *)
(** the Green's function updates have results: one site *)
Definition case_mem (a : name) : list R :=
  match a with Gmat _ false => [3%R] | Bmat _ false 0 => [2%R] | Binv _ false 0 => [(1 / 2)%R] | _ => [] end.
Example C49_case_wrap : exists Gu' Gd',
  slice_wrap (fun _ => 0%R) 1 (case_mem (Bmat Up false 0)) (case_mem (Binv Up false 0)) (case_mem (Gmat Up false)) = Some Gu' /\
  slice_wrap (fun _ => 0%R) 1 (case_mem (Bmat Down false 0)) (case_mem (Binv Down false 0)) (case_mem (Gmat Down false)) = Some Gd'.
Proof.
  do 2 eexists. unfold slice_wrap, dgemm. destruct (Req_EM_T 0 0) as [_|H]; [|destruct (H eq_refl)].
  split; reflexivity.
Qed.
Example C49_case_flip : exists Gu' Gd',
  sherman_morrison (fun _ => 0%R) 1 1 0 (case_mem (Gmat Up false)) = Some Gu' /\
  sherman_morrison (fun _ => 0%R) 2 1 0 (case_mem (Gmat Down false)) = Some Gd'.
Proof.
  assert (forall x y, y <> 0%R -> rdiv x y = Some (x / y)%R) as HD by (intros x y H; unfold rdiv; destruct (Req_EM_T y 0); tauto).
  do 2 eexists. unfold sherman_morrison, copy, write_block. cbn -[rdiv dger]. change (Pos.to_nat 1) with 1%nat. cbn -[rdiv dger]. rewrite !HD by lra. split; reflexivity.
Qed.

(** a routine that adds the first element of every array that it obtains to the arrays that it may write,
    and a schedule in which the sections alternate *)
Definition case_routine (args : list Z) (rd wr : list name) : prog name Z Z :=
  do x <- pfor 0 (Z.of_nat (length rd)) (fun k x => match nth_error rd (Z.to_nat k) with Some a => do v <- pload a 0; Ret (2 * x + v) | None => Ret x end) 1;
  do _ <- pfor 0 (Z.of_nat (length wr)) (fun k _ => match nth_error wr (Z.to_nat k) with Some a => do v <- pload a 0; pstore a 0 (v + x) | None => Ret tt end) tt;
  Ret 0.
Lemma case_routine_confined : forall args rd wr, confined (arguments rd wr) (case_routine args rd wr).
Proof.
  intros args rd wr. unfold case_routine. apply confined_bind; [|intros x; apply confined_bind; [|intros; exact I]].
  - apply confined_for. intros i s. destruct (nth_error rd (Z.to_nat i)) as [a|] eqn:E; [|exact I].
    apply nth_error_In in E. split; [|intros; exact I]. cbn. destruct (in_dec name_eq a rd); [auto|contradiction].
  - apply confined_for. intros i s. destruct (nth_error wr (Z.to_nat i)) as [a|] eqn:E; [|exact I].
    apply nth_error_In in E. cbn. destruct (in_dec name_eq a wr); [|contradiction].
    rewrite orb_true_r. auto.
Qed.
Definition case_dims := mk_dims 1 2 1 2.
Definition alternating (n : nat) : list bool := List.concat (repeat [true; false; false; true] n).
Definition case_run (c : construct) (sched : list bool) : option (list Z) :=
  let up := section_program Z case_routine (fun k => [k]) case_dims c 0 0 0 Up in
  let down := section_program Z case_routine (fun k => [k]) case_dims c 0 0 0 Down in
  match interleave name_eq sched (fun _ => [1]) up down with
  | Some (m, Ret tt, Ret tt) => Some (m (Gmat Up false) ++ m (Gmat Down false) ++ m (Bprod Up false 1) ++ m (Bmat Down false 0))
  | _ => None
  end.
Example C49_case_construct : case_run (Construct false) (alternating 200) = case_run (Construct false) (repeat true 300 ++ repeat false 300) /\
  case_run (Construct false) (alternating 200) <> None /\ case_run (Construct false) (alternating 200) <> Some [1; 1; 1; 1].
Proof. vm_compute. repeat split; discriminate. Qed.
Example C49_case_init : case_run (Init false true) (alternating 200) = case_run (Init false true) (repeat true 300 ++ repeat false 300) /\
  case_run (Init false true) (alternating 200) <> None.
Proof. vm_compute. repeat split; discriminate. Qed.
