(** Metropolis moves of discrete and continuous fields with random displacements leave the weight invariant. *)
From Coq Require Import ZArith List Reals Lra Lia Permutation.
From Coquelicot Require Import Coquelicot.
From Verif Require Import IdealSpec IdealFacts BoxSpec BoxFacts.
Import ListNotations.
Local Open Scope R_scope.

(** what a proposal does with one number: a shift by (u - 1/2) e, or a reflection *)
Inductive act := Shift (e : R) | Reflect (d : R).
Definition act1 (u : R) (a : act) (x : R) : R := match a with Shift e => x + (u - / 2) * e | Reflect d => d - x end.
Definition acts (u : R) (l : list act) (X : list R) : list R := map (fun p => act1 u (fst p) (snd p)) (combine l X).
Definition act_le (D : R) (a : act) : Prop := match a with Shift e => Rabs e <= D | Reflect d => Rabs d <= D end.

Lemma act1_back u a x : act1 (1 - u) a (act1 u a x) = x.
Proof. destruct a; cbn; lra. Qed.
Lemma acts_length u l X : length l = length X -> length (acts u l X) = length X.
Proof. intros H. unfold acts. rewrite map_length, combine_length. lia. Qed.
Lemma acts_back u l : forall X, length l = length X -> acts (1 - u) l (acts u l X) = X.
Proof.
  induction l as [|a l IH]; intros [|x X] H; try discriminate; [reflexivity|]. unfold acts in *. cbn [combine map fst snd].
  rewrite act1_back, IH; auto.
Qed.
Lemma act1_size D u a x : 0 <= u <= 1 -> act_le D a -> Rabs x <= Rabs (act1 u a x) + D.
Proof.
  intros Hu H. destruct a as [e|d]; cbn in *.
  - assert (Rabs ((u - / 2) * e) <= D).
    { rewrite Rabs_mult. assert (Rabs (u - / 2) <= 1) by (apply Rabs_le; lra). pose proof (Rabs_pos e). pose proof (Rabs_pos (u - / 2)). nra. }
    pose proof (Rabs_triang (x + (u - / 2) * e) (- ((u - / 2) * e))) as T. rewrite Rabs_Ropp in T.
    replace (x + (u - / 2) * e + - ((u - / 2) * e)) with x in T by ring. lra.
  - pose proof (Rabs_triang (d - x) (- d)) as T. rewrite Rabs_Ropp in T. replace (d - x + - d) with (- x) in T by ring.
    rewrite Rabs_Ropp in T. lra.
Qed.
Lemma acts_size D K u l : 0 <= u <= 1 -> List.Forall (act_le D) l -> forall X, length l = length X -> in_box K (acts u l X) -> in_box (K + D) X.
Proof.
  intros Hu Hl. induction Hl as [|a l Ha Hl IH]; intros [|x X] H; try discriminate; [constructor|].
  unfold acts in *. cbn [combine map fst snd]. intros HB. inversion HB; subst. constructor.
  - pose proof (act1_size D u a x Hu Ha). lra.
  - apply IH; auto.
Qed.

(** * Translations and reflections do not change integrals *)
Definition supp (m : nat) (K : R) (f : list R -> R) : Prop := forall X, length X = m -> f X = 0 \/ in_box K X.

Lemma RInt_zero g a b : (forall x, Rmin a b < x < Rmax a b -> g x = 0) -> RInt g a b = 0.
Proof.
  intros H. rewrite (RInt_ext _ (fun _ => 0)) by auto. rewrite RInt_const. unfold scal; cbn; unfold mult; cbn. ring.
Qed.
Lemma RInt_wider g K a b a' b' : (forall x, continuous g x) -> (forall x, K < Rabs x -> g x = 0) ->
  a <= - K -> a' <= - K -> K <= b -> K <= b' -> RInt g a b = RInt g a' b'.
Proof.
  intros Hc Hz H1 H2 H3 H4.
  assert (E : forall s t, ex_RInt g s t) by (intros; apply (ex_RInt_continuous (V:=R_CompleteNormedModule)); auto).
  pose proof (RInt_Chasles (V:=R_CompleteNormedModule) g a' a b (E _ _) (E _ _)) as C1.
  pose proof (RInt_Chasles (V:=R_CompleteNormedModule) g a' b b' (E _ _) (E _ _)) as C2.
  rewrite (RInt_zero g a' a) in C1.
  2:{ intros x Hx. apply Hz. pose proof (Rle_abs (- x)) as A. rewrite Rabs_Ropp in A. unfold Rmin, Rmax in Hx. destruct (Rle_dec a' a); lra. }
  rewrite (RInt_zero g b b') in C2.
  2:{ intros x Hx. apply Hz. pose proof (Rle_abs x). unfold Rmin, Rmax in Hx. destruct (Rle_dec b b'); lra. }
  unfold plus in *; cbn in *. lra.
Qed.
Lemma RInt_act g D K M u a : 0 <= u <= 1 -> 0 <= K -> (forall x, continuous g x) -> (forall x, K < Rabs x -> g x = 0) -> act_le D a -> K + D <= M ->
  RInt (fun x => g (act1 u a x)) (- M) M = RInt g (- M) M.
Proof.
  intros Hu HK Hc Hz Ha HM.
  assert (E : forall s t, ex_RInt g s t) by (intros; apply (ex_RInt_continuous (V:=R_CompleteNormedModule)); auto).
  destruct a as [e|d]; cbn [act1 act_le] in *.
  - assert (He : Rabs ((u - / 2) * e) <= D).
    { rewrite Rabs_mult. assert (Rabs (u - / 2) <= 1) by (apply Rabs_le; lra). pose proof (Rabs_pos e). pose proof (Rabs_pos (u - / 2)). nra. }
    apply Rabs_le_between in He. set (v := (u - / 2) * e) in *.
    pose proof (RInt_comp_lin (V:=R_CompleteNormedModule) g 1 v (- M) M (E _ _)) as F.
    transitivity (RInt g (1 * - M + v) (1 * M + v)).
    + rewrite <- F. apply RInt_ext. intros x _. unfold scal; cbn; unfold mult; cbn. rewrite !Rmult_1_l. reflexivity.
    + apply (RInt_wider g K); auto; lra.
  - apply Rabs_le_between in Ha.
    pose proof (RInt_comp_lin (V:=R_CompleteNormedModule) g (-1) d (- M) M (E _ _)) as F.
    pose proof (opp_RInt_swap (V:=R_CompleteNormedModule) g (-1 * - M + d) (-1 * M + d) (E _ _)) as S.
    pose proof (RInt_opp (V:=R_CompleteNormedModule) (fun y => scal (-1) (g (-1 * y + d))) (- M) M
      (ex_RInt_comp_lin (V:=R_NormedModule) g (-1) d (- M) M (E _ _))) as O.
    pose proof (eq_trans O (eq_trans (f_equal opp F) S)) as P. transitivity (RInt g (-1 * M + d) (-1 * - M + d)).
    + refine (eq_trans _ P). apply RInt_ext. intros x _. unfold opp, scal; cbn; unfold mult; cbn. replace (-1 * x + d) with (d - x) by ring. assert (A : forall y : R, y = - (-1 * y)) by (intros; ring). apply A.
    + apply (RInt_wider g K); auto; lra.
Qed.
Lemma box_acts D K M u : 0 <= u <= 1 -> 0 <= K -> 0 <= D -> K + D <= M -> forall m l G, length l = m -> List.Forall (act_le D) l -> reg m G -> supp m K G ->
  box_int m M (fun X => G (acts u l X)) = box_int m M G.
Proof.
  intros Hu HK HD HM. induction m as [|m IH]; intros l G Hl Ha HG HS.
  - destruct l; [|discriminate]. reflexivity.
  - destruct l as [|a l]; [discriminate|]. inversion Ha; subst. cbn [box_int].
    set (g := fun x => box_int m M (fun X => G (x :: X))).
    rewrite (RInt_ext _ (fun x => g (act1 u a x))).
    + apply (RInt_act g D K); auto.
      * apply (reg_continuous 0 (fun u => box_int m M (fun X => G (hd 0 u :: X))) []); auto. apply reg_box0; auto. lra.
      * intros x Hx. unfold g. rewrite (box_int_ext m M _ (fun _ => 0)); [apply box_int_0|lra|].
        intros X HX _. destruct (HS (x :: X)) as [|HB]; [cbn; auto|auto|]. inversion HB; subst. lra.
    + intros x _. unfold g. change (fun X => G (acts u (a :: l) (x :: X))) with (fun X => (fun Y => G (act1 u a x :: Y)) (acts u l X)).
      apply (IH l (fun Y => G (act1 u a x :: Y))); auto.
      * now apply reg_section.
      * intros X HX. destruct (HS (act1 u a x :: X)) as [|HB]; [cbn; auto|auto|]. inversion HB; auto.
Qed.

Lemma RInt_reflect (g : R -> R) d a b : (forall x, continuous g x) -> RInt (fun x => g (d - x)) a b = RInt g (d - b) (d - a).
Proof.
  intros Hc.
  assert (E : forall s t, ex_RInt g s t) by (intros; apply (ex_RInt_continuous (V:=R_CompleteNormedModule)); auto).
  pose proof (RInt_comp_lin (V:=R_CompleteNormedModule) g (-1) d a b (E _ _)) as F.
  pose proof (opp_RInt_swap (V:=R_CompleteNormedModule) g (-1 * a + d) (-1 * b + d) (E _ _)) as S.
  pose proof (RInt_opp (V:=R_CompleteNormedModule) (fun y => scal (-1) (g (-1 * y + d))) a b
    (ex_RInt_comp_lin (V:=R_NormedModule) g (-1) d a b (E _ _))) as O.
  pose proof (eq_trans O (eq_trans (f_equal opp F) S)) as P.
  replace (d - b) with (-1 * b + d) by ring. replace (d - a) with (-1 * a + d) by ring.
  refine (eq_trans _ P). apply RInt_ext. intros x _. unfold opp, scal; cbn; unfold mult; cbn. replace (-1 * x + d) with (d - x) by ring.
  assert (A : forall y : R, y = - (-1 * y)) by (intros; ring). apply A.
Qed.

Lemma metro_lip C a w f a' w' f' : 0 <= C -> 0 <= a -> 0 <= w -> 0 <= a' -> 0 <= w' -> (w <> 0 -> Rabs f <= C) -> (w' <> 0 -> Rabs f' <= C) ->
  Rabs (Rmin a w * f - Rmin a' w' * f') <= Rabs (w * f - w' * f') + C * Rabs (a - a') + C * Rabs (w - w').
Proof.
  intros HC Ha Hw Ha' Hw' Hf Hf'.
  pose proof (Rabs_pos (a - a')) as Pa. pose proof (Rabs_pos (w - w')) as Pw.
  assert (Q1 : 0 <= C * Rabs (a - a')) by nra. assert (Q2 : 0 <= C * Rabs (w - w')) by nra.
  destruct (Req_dec w 0) as [->|N].
  { rewrite (Rmin_right a 0) by lra. rewrite !Rmult_0_l. rewrite !Rminus_0_l in *. rewrite !Rabs_Ropp in *.
    assert (Rabs (Rmin a' w' * f') <= Rabs (w' * f')); [|lra]. rewrite !Rabs_mult. apply Rmult_le_compat_r; [apply Rabs_pos|].
    rewrite !Rabs_pos_eq; auto; [apply Rmin_r|]. now apply Rmin_glb. }
  destruct (Req_dec w' 0) as [->|N'].
  { rewrite (Rmin_right a' 0) by lra. rewrite !Rmult_0_l. rewrite !Rminus_0_r in *.
    assert (Rabs (Rmin a w * f) <= Rabs (w * f)); [|lra]. rewrite !Rabs_mult. apply Rmult_le_compat_r; [apply Rabs_pos|].
    rewrite !Rabs_pos_eq; auto; [apply Rmin_r|]. now apply Rmin_glb. }
  specialize (Hf N). specialize (Hf' N'). assert (0 < w) by lra. assert (0 < w') by lra.
  set (q := Rmin a w / w). assert (Hq : 0 <= q <= 1).
  { unfold q. split; [apply Rmult_le_pos; [now apply Rmin_glb|left; now apply Rinv_0_lt_compat]|].
    apply (Rmult_le_reg_r w); auto. unfold Rdiv. rewrite Rmult_assoc, Rinv_l, Rmult_1_r, Rmult_1_l by lra. apply Rmin_r. }
  assert (E : Rmin a w * f - Rmin a' w' * f' = q * (w * f - w' * f') + (q * w' - Rmin a' w') * f').
  { unfold q. field. lra. }
  rewrite E. apply Rle_trans with (Rabs (q * (w * f - w' * f')) + Rabs ((q * w' - Rmin a' w') * f')); [apply Rabs_triang|].
  rewrite !Rabs_mult. rewrite (Rabs_pos_eq q) by lra.
  assert (B : Rabs (q * w' - Rmin a' w') <= Rabs (a - a') + Rabs (w - w')).
  { assert (B1 : Rabs (Rmin a w' - Rmin a' w') <= Rabs (a - a')).
    { unfold Rmin, Rabs. repeat destruct Rle_dec; repeat destruct Rcase_abs; lra. }
    assert (B2 : Rabs (q * w' - Rmin a w') <= Rabs (w - w')).
    { unfold q. unfold Rmin at 1. destruct (Rle_dec a w) as [L|L].
      - unfold Rmin. destruct (Rle_dec a w') as [L'|L'].
        + replace (a / w * w' - a) with (a / w * (w' - w)) by (field; lra). rewrite Rabs_mult, (Rabs_minus_sym w' w).
          assert (0 <= a / w <= 1).
          { split; [apply Rmult_le_pos; [auto|left; now apply Rinv_0_lt_compat]|].
            apply (Rmult_le_reg_r w); auto. unfold Rdiv. rewrite Rmult_assoc, Rinv_l by lra. lra. }
          rewrite (Rabs_pos_eq (a / w)) by lra. nra.
        + assert (0 <= a / w <= 1).
          { split; [apply Rmult_le_pos; [auto|left; now apply Rinv_0_lt_compat]|].
            apply (Rmult_le_reg_r w); auto. unfold Rdiv. rewrite Rmult_assoc, Rinv_l by lra. lra. }
          rewrite Rabs_left1 by nra. rewrite (Rabs_pos_eq (w - w')) by lra.
          assert (a / w * w = a) by (field; lra). nra.
      - replace (w / w * w') with w' by (field; lra). unfold Rmin. destruct (Rle_dec a w').
        + rewrite Rabs_pos_eq by lra. rewrite Rabs_left1; lra.
        + rewrite Rminus_eq_0, Rabs_R0. auto. }
    replace (q * w' - Rmin a' w') with ((q * w' - Rmin a w') + (Rmin a w' - Rmin a' w')) by ring.
    eapply Rle_trans; [apply Rabs_triang|]. lra. }
  pose proof (Rabs_pos (w * f - w' * f')). pose proof (Rabs_pos f'). pose proof (Rabs_pos (q * w' - Rmin a' w')).
  assert (q * Rabs (w * f - w' * f') <= Rabs (w * f - w' * f')) by nra.
  assert (Rabs (q * w' - Rmin a' w') * Rabs f' <= (Rabs (a - a') + Rabs (w - w')) * C) by (apply Rmult_le_compat; auto). lra.
Qed.

Lemma reg_minf m C a w f : 0 <= C -> (forall X, length X = m -> 0 <= a X) -> (forall X, length X = m -> 0 <= w X) ->
  (forall X, length X = m -> w X <> 0 -> Rabs (f X) <= C) ->
  reg m a -> reg m w -> reg m (fun X => w X * f X) -> reg m (fun X => Rmin (a X) (w X) * f X).
Proof.
  intros HC Pa Pw Hf Ra Rw Rf M. split.
  - destruct (Rf M) as ((B & HB & H) & _). exists B. split; auto. intros X HX HM. apply Rle_trans with (Rabs (w X * f X)); auto.
    rewrite !Rabs_mult. apply Rmult_le_compat_r; [apply Rabs_pos|].
    rewrite !Rabs_pos_eq; auto; [apply Rmin_r|]. apply Rmin_glb; auto.
  - intros eps He. assert (P : 0 < eps / (2 * C + 1)) by (apply Rdiv_lt_0_compat; lra).
    destruct (Ra M) as (_ & Ua), (Rw M) as (_ & Uw), (Rf M) as (_ & Uf).
    destruct (Ua _ P) as (d1 & H1 & V1), (Uw _ P) as (d2 & H2 & V2), (Uf _ P) as (d3 & H3 & V3).
    exists (Rmin d1 (Rmin d2 d3)). split; [repeat apply Rmin_glb_lt; auto|]. intros X Y HX HX1 HY1 HN.
    assert (HY : length Y = m) by (rewrite <- (near_length _ _ _ HN); auto).
    assert (N1 : near d1 X Y) by (apply (near_le (Rmin d1 (Rmin d2 d3))); auto; apply Rmin_l).
    assert (N23 : near (Rmin d2 d3) X Y) by (apply (near_le (Rmin d1 (Rmin d2 d3))); auto; apply Rmin_r).
    specialize (V1 X Y HX HX1 HY1 N1). specialize (V2 X Y HX HX1 HY1 (near_le _ _ _ _ (Rmin_l _ _) N23)).
    specialize (V3 X Y HX HX1 HY1 (near_le _ _ _ _ (Rmin_r _ _) N23)).
    pose proof (metro_lip C (a X) (w X) (f X) (a Y) (w Y) (f Y) HC (Pa X HX) (Pw X HX) (Pa Y HY) (Pw Y HY) (Hf X HX) (Hf Y HY)) as L.
    set (e := eps / (2 * C + 1)) in *. assert (E : eps = (2 * C + 1) * e) by (unfold e; field; lra).
    assert (C * Rabs (a X - a Y) <= C * e) by (apply Rmult_le_compat_l; lra).
    assert (C * Rabs (w X - w Y) <= C * e) by (apply Rmult_le_compat_l; lra). lra.
Qed.

Lemma reg_tl m f : reg m f -> reg (S m) (fun Z => f (tl Z)).
Proof.
  intros H. apply (reg_map (S m) m f (@tl R)); auto. apply regmap_entries; [intros [|? ?] HX; [discriminate|]; cbn in *; lia|].
  intros p Hp. apply (reg_ext _ (fun Z => nth (S p) Z 0)); [|apply reg_nth]. intros [|? ?] HX; [discriminate|reflexivity].
Qed.
Lemma regmap_acts m l : length l = m -> regmap (S m) m (fun Z => acts (hd 0 Z) l (tl Z)).
Proof.
  intros Hl. apply regmap_entries.
  - intros [|u X] HX; [discriminate|]. cbn in *. rewrite acts_length; lia.
  - intros p Hp. apply (reg_ext _ (fun Z => act1 (nth 0 Z 0) (nth p l (Shift 0)) (nth (S p) Z 0))).
    + intros [|u X] HX; [discriminate|]. cbn [hd tl nth]. cbn in HX. injection HX as HX. unfold acts.
      rewrite (nth_indep (map _ _) 0 ((fun q => act1 u (fst q) (snd q)) (Shift 0, 0))) by (rewrite map_length, combine_length; lia).
      rewrite (map_nth (fun q => act1 u (fst q) (snd q))), combine_nth by lia. reflexivity.
    + destruct (nth p l (Shift 0)); cbn [act1].
      * apply reg_plus; [apply reg_nth|]. apply reg_mult; [|apply reg_const]. apply reg_minus; [apply reg_nth|apply reg_const].
      * apply reg_minus; [apply reg_const|apply reg_nth].
Qed.

Section Moves.
Variables (m : nat) (w : list Z -> list R -> R) (confs : list (list Z)).
Hypothesis w_pos : forall s X, 0 <= w s X.
Hypothesis w_reg : forall s, In s confs -> reg m (w s).
Hypothesis confs_nodup : NoDup confs.

(** functions of both fields which may be averaged: bounded, continuous where the weight is not zero, of bounded support *)
Record cls (C K : R) (F : list Z -> list R -> R) : Prop := {
  c_bound : forall s X, In s confs -> length X = m -> w s X <> 0 -> Rabs (F s X) <= C;
  c_reg : forall s, In s confs -> reg m (fun X => w s X * F s X);
  c_supp : forall s, In s confs -> supp m K (fun X => w s X * F s X) }.

(** weighted sum and integral over all fields *)
Definition tot (M : R) (F : list Z -> list R -> R) : R := total (fun s => box_int m M (fun X => w s X * F s X)) confs.

(** probability of accepting y in place of x *)
Definition prob (x y : R) : R := Rmax 0 (Rmin 1 (y / x)).
Lemma prob_min x y : 0 <= x -> 0 <= y -> x * prob x y = Rmin x y.
Proof.
  intros Hx Hy. unfold prob. destruct (Req_dec x 0) as [->|N].
  { rewrite (Rmin_left 0 y) by lra. lra. }
  assert (0 <= y / x) by (apply Rmult_le_pos; auto; left; apply Rinv_0_lt_compat; lra).
  rewrite Rmax_right by (apply Rmin_glb; lra). unfold Rmin. destruct (Rle_dec 1 (y / x)) as [L|L], (Rle_dec x y) as [L'|L']; try (field; lra).
  - exfalso. apply L'. apply (Rmult_le_compat_l x) in L; auto. unfold Rdiv in L. replace (x * (y * / x)) with y in L by (field; lra). lra.
  - exfalso. apply L. apply (Rmult_le_reg_l x); [lra|]. unfold Rdiv. replace (x * (y * / x)) with y by (field; lra). lra.
Qed.
Lemma prob_range x y : 0 <= prob x y <= 1.
Proof. unfold prob, Rmax, Rmin. repeat destruct Rle_dec; lra. Qed.

Section Kernel.
Variables (sg : list Z -> list Z) (l : list act) (D : R).
Hypothesis sg_in : forall s, In s confs -> In (sg s) confs.
Hypothesis sg_twice : forall s, In s confs -> sg (sg s) = s.
Hypothesis l_len : length l = m.
Hypothesis l_le : List.Forall (act_le D) l.
Hypothesis D_pos : 0 <= D.

(** mean after proposing [sg s] and the displaced field with a uniform number, and accepting or not *)
Definition kern (F : list Z -> list R -> R) (s : list Z) (X : list R) : R :=
  RInt (fun u => let p := prob (w s X) (w (sg s) (acts u l X)) in p * F (sg s) (acts u l X) + (1 - p) * F s X) 0 1.

Variables (C K : R) (F : list Z -> list R -> R).
Hypothesis C_pos : 0 <= C.
Hypothesis K_pos : 0 <= K.
Hypothesis HF : cls C K F.

Let there (s : list Z) (Z : list R) : R :=
  Rmin (w s (tl Z)) (w (sg s) (acts (hd 0 Z) l (tl Z))) * F (sg s) (acts (hd 0 Z) l (tl Z)).
Let stay (s : list Z) (Z : list R) : R :=
  Rmin (w s (tl Z)) (w (sg s) (acts (hd 0 Z) l (tl Z))) * F s (tl Z).

Lemma acts_len u X : length X = m -> length (acts u l X) = m.
Proof. intros H. rewrite acts_length; lia. Qed.
Lemma there_reg s : In s confs -> reg (S m) (there s).
Proof.
  intros Hs. pose proof (regmap_acts m l l_len) as RM.
  apply (reg_minf (S m) C (fun Z => w s (tl Z)) (fun Z => w (sg s) (acts (hd 0 Z) l (tl Z))) (fun Z => F (sg s) (acts (hd 0 Z) l (tl Z)))); auto.
  - intros Z HZ. apply (c_bound _ _ _ HF); auto. apply acts_len. destruct Z; cbn in *; lia.
  - apply reg_tl. auto.
  - apply (reg_map (S m) m (w (sg s)) _ (w_reg _ (sg_in s Hs)) RM).
  - apply (reg_map (S m) m (fun X => w (sg s) X * F (sg s) X) _ (c_reg _ _ _ HF _ (sg_in s Hs)) RM).
Qed.
Lemma stay_reg s : In s confs -> reg (S m) (stay s).
Proof.
  intros Hs. pose proof (regmap_acts m l l_len) as RM.
  apply (reg_ext (S m) (fun Z => Rmin (w (sg s) (acts (hd 0 Z) l (tl Z))) (w s (tl Z)) * F s (tl Z))).
  { intros Z _. unfold stay. now rewrite Rmin_comm. }
  apply (reg_minf (S m) C (fun Z => w (sg s) (acts (hd 0 Z) l (tl Z))) (fun Z => w s (tl Z)) (fun Z => F s (tl Z))); auto.
  - intros Z HZ. apply (c_bound _ _ _ HF); auto. destruct Z; cbn in *; lia.
  - apply (reg_map (S m) m (w (sg s)) _ (w_reg _ (sg_in s Hs)) RM).
  - apply reg_tl. auto.
  - apply (reg_tl m (fun X => w s X * F s X)). now apply (c_reg _ _ _ HF).
Qed.

Lemma RInt_lin (f g : R -> R) c : ex_RInt f 0 1 -> ex_RInt g 0 1 -> RInt (fun u => f u + (c - g u)) 0 1 = RInt f 0 1 + (c - RInt g 0 1).
Proof.
  intros Hf Hg. apply is_RInt_unique. apply (is_RInt_plus (V:=R_NormedModule)); [now apply (RInt_correct (V:=R_CompleteNormedModule))|].
  apply (is_RInt_minus (V:=R_NormedModule)); [|now apply (RInt_correct (V:=R_CompleteNormedModule))].
  pose proof (is_RInt_const (V:=R_NormedModule) 0 1 c) as H. refine (eq_ind _ (fun v => is_RInt (fun _ => c) 0 1 v) H c _).
  unfold scal; cbn; unfold mult; cbn. ring.
Qed.
Lemma kern_weighted s X : In s confs -> length X = m ->
  w s X * kern F s X = RInt (fun u => there s (u :: X)) 0 1 + (w s X * F s X - RInt (fun u => stay s (u :: X)) 0 1).
Proof.
  intros Hs HX. pose proof (reg_ex_RInt m (there s) X 0 1 (there_reg s Hs) HX) as E1. pose proof (reg_ex_RInt m (stay s) X 0 1 (stay_reg s Hs) HX) as E2.
  rewrite <- RInt_lin by auto. unfold there, stay. cbn [hd tl]. destruct (Req_dec (w s X) 0) as [E|N].
  - rewrite E, Rmult_0_l. symmetry. apply RInt_zero. intros u _. rewrite Rmin_left by auto. ring.
  - unfold kern. rewrite (RInt_ext (V:=R_CompleteNormedModule) _ (fun u => scal (/ w s X) (there s (u :: X) + (w s X * F s X - stay s (u :: X))))).
    + rewrite (RInt_scal (V:=R_CompleteNormedModule)).
      * assert (A : forall y : R, w s X * (/ w s X * y) = y) by (intros; field; auto). apply A.
      * apply (ex_RInt_plus (V:=R_NormedModule)); auto. apply (ex_RInt_minus (V:=R_NormedModule)); auto. apply ex_RInt_const.
    + intros u _. unfold there, stay. cbn [hd tl]. rewrite <- (prob_min (w s X)) by auto. unfold scal; cbn; unfold mult; cbn.
      cbv zeta. field. auto.
Qed.
Lemma kern_cls : cls C (K + D) (kern F).
Proof.
  assert (Ex : forall s X, In s confs -> length X = m -> ex_RInt (fun u => there s (u :: X) + (w s X * F s X - stay s (u :: X))) 0 1).
  { intros s X Hs HX. apply (ex_RInt_plus (V:=R_NormedModule)); [apply (reg_ex_RInt m); auto; now apply there_reg|].
    apply (ex_RInt_minus (V:=R_NormedModule)); [apply ex_RInt_const|]. apply (reg_ex_RInt m); auto. now apply stay_reg. }
  constructor.
  - intros s X Hs HX N. assert (P : 0 < w s X) by (specialize (w_pos s X); lra).
    apply (Rmult_le_reg_l (w s X)); auto. rewrite <- (Rabs_pos_eq (w s X)) at 1 by auto. rewrite <- Rabs_mult, kern_weighted by auto.
    rewrite <- RInt_lin; [|apply (reg_ex_RInt m); auto; now apply there_reg|apply (reg_ex_RInt m); auto; now apply stay_reg].
    replace (w s X * C) with ((1 - 0) * (w s X * C)) by ring. apply abs_RInt_le_const; [lra|now apply Ex|].
    intros u _. unfold there, stay. cbn [hd tl]. set (v := Rmin _ _).
    assert (V : 0 <= v <= w s X) by (unfold v; split; [apply Rmin_glb; auto|apply Rmin_l]).
    assert (B1 : Rabs (v * F (sg s) (acts u l X)) <= v * C).
    { rewrite Rabs_mult, (Rabs_pos_eq v) by lra. destruct (Req_dec (w (sg s) (acts u l X)) 0) as [E|N'].
      - assert (v = 0) as -> by (unfold v; rewrite E; apply Rmin_right; auto). lra.
      - apply Rmult_le_compat_l; [lra|]. apply (c_bound _ _ _ HF); auto. now apply acts_len. }
    assert (B2 : Rabs ((w s X - v) * F s X) <= (w s X - v) * C).
    { rewrite Rabs_mult, (Rabs_pos_eq (w s X - v)) by lra. apply Rmult_le_compat_l; [lra|]. now apply (c_bound _ _ _ HF). }
    replace (v * F (sg s) (acts u l X) + (w s X * F s X - v * F s X)) with (v * F (sg s) (acts u l X) + (w s X - v) * F s X) by ring.
    eapply Rle_trans; [apply Rabs_triang|]. lra.
  - intros s Hs. apply (reg_ext m (fun X => RInt (fun u => there s (u :: X)) 0 1 + (w s X * F s X - RInt (fun u => stay s (u :: X)) 0 1))).
    + intros X HX. now rewrite kern_weighted.
    + apply reg_plus; [exact (reg_RInt m (there s) 0 1 ltac:(lra) (there_reg s Hs))|].
      apply reg_minus; [now apply (c_reg _ _ _ HF)|exact (reg_RInt m (stay s) 0 1 ltac:(lra) (stay_reg s Hs))].
  - intros s Hs X HX. destruct (Forall_dec (fun x => Rabs x <= K + D) (fun x => Rle_dec _ _) X) as [Y|N]; [right; exact Y|left].
    rewrite kern_weighted by auto. 
    assert (Z0 : w s X * F s X = 0).
    { destruct (c_supp _ _ _ HF s Hs X HX) as [E|B]; auto. exfalso. apply N. apply (box_le K); auto. lra. }
    assert (M0 : forall a b f, 0 <= a -> 0 <= b -> b * f = 0 -> Rmin a b * f = 0).
    { intros a b f Ha Hb E. apply Rmult_integral in E as [-> | ->]; [rewrite Rmin_right by auto|]; ring. }
    rewrite (RInt_zero (fun u => there s (u :: X))), (RInt_zero (fun u => stay s (u :: X))).
    + rewrite Z0. ring.
    + intros u _. unfold stay. cbn [hd tl]. rewrite Rmin_comm. apply M0; auto.
    + intros u Hu. rewrite Rmin_left, Rmax_right in Hu by lra. unfold there. cbn [hd tl]. apply M0; auto.
      destruct (c_supp _ _ _ HF (sg s) (sg_in s Hs) (acts u l X) (acts_len u X HX)) as [E|B]; auto.
      exfalso. apply N. apply (acts_size D K u l ltac:(lra) l_le); auto. lia.
Qed.

Lemma kern_invariant M : K + D <= M -> tot M (kern F) = tot M F.
Proof.
  intros HM. assert (M0 : 0 <= M) by lra. unfold tot.
  assert (RT : forall s, In s confs -> reg m (fun X => RInt (fun u => there s (u :: X)) 0 1))
    by (intros s Hs; exact (reg_RInt m (there s) 0 1 ltac:(lra) (there_reg s Hs))).
  assert (RS : forall s, In s confs -> reg m (fun X => RInt (fun u => stay s (u :: X)) 0 1))
    by (intros s Hs; exact (reg_RInt m (stay s) 0 1 ltac:(lra) (stay_reg s Hs))).
  set (T := fun s => box_int m M (fun X => RInt (fun u => there s (u :: X)) 0 1)).
  set (S := fun s => box_int m M (fun X => RInt (fun u => stay s (u :: X)) 0 1)).
  rewrite (total_ext _ (fun s => T s + (box_int m M (fun X => w s X * F s X) + -1 * S s))).
  2:{ intros s Hs. unfold T, S.
      rewrite <- box_int_scal, <- !box_int_plus; auto.
      - apply box_int_ext; auto. intros X HX _. rewrite kern_weighted by auto. ring.
      - apply reg_plus; [now apply (c_reg _ _ _ HF)|]. apply reg_mult; [apply reg_const|auto].
      - now apply (c_reg _ _ _ HF).
      - apply reg_mult; [apply reg_const|auto]. }
  rewrite !total_plus, total_scal.
  assert (E : total T confs = total S confs); [|rewrite E; ring].
  rewrite <- (total_perm S _ _ (flip_perm confs confs_nodup sg sg_in sg_twice)), total_map. apply total_ext. intros s Hs.
  unfold T, S. rewrite (box_fubini M 0 1 M0 ltac:(lra) m (there s) (there_reg s Hs)).
  rewrite (box_fubini M 0 1 M0 ltac:(lra) m (stay (sg s)) (stay_reg _ (sg_in s Hs))).
  set (h := fun u => box_int m M (fun X => stay (sg s) (u :: X))).
  rewrite (RInt_ext _ (fun u => h (1 - u))).
  - rewrite (RInt_reflect h 1 0 1); [f_equal; lra|].
    apply (reg_continuous 0 (fun u => box_int m M (fun X => stay (sg s) (hd 0 u :: X))) []); auto. apply reg_box0; auto. apply stay_reg. auto.
  - intros u Hu. rewrite Rmin_left, Rmax_right in Hu by lra. unfold h.
    rewrite (box_int_ext m M (fun X => there s (u :: X)) (fun X => (fun Y => stay (sg s) (1 - u :: Y)) (acts u l X))); auto.
    + apply (box_acts D K M u ltac:(lra) K_pos D_pos HM m l (fun Y => stay (sg s) (1 - u :: Y))); auto.
      * exact (reg_section m (stay (sg s)) (1 - u) (stay_reg _ (sg_in s Hs))).
      * intros Y HY. unfold stay. cbn [hd tl]. destruct (c_supp _ _ _ HF (sg s) (sg_in s Hs) Y HY) as [E|B]; auto. left.
        apply Rmult_integral in E as [-> | ->]; [rewrite Rmin_left by auto|]; ring.
    + intros X HX _. unfold there, stay. cbn [hd tl]. rewrite acts_back by lia. rewrite sg_twice by auto. now rewrite Rmin_comm.
Qed.
End Kernel.
End Moves.
