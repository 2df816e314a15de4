(** Proofs about the unequal time measurements. *)
From Coq Require Import ZArith List Reals Lia Lra Bool.
From Verif Require Import Base BaseFacts Sums SumsFacts RealOps Blas BlasFacts Lattice LatticeSpec LatticeFacts
  Accum AccumFacts WickSpec Measure MeasureSpec MeasureFacts MeasureSeqFacts UMeasure UMeasureSpec.
Import ListNotations.
Local Open Scope Z_scope.

Lemma ufield_eqbP f g : ufield_eqb f g = true <-> f = g.
Proof. unfold ufield_eqb. destruct (ufield_eq_dec f g); split; congruence. Qed.

Section Step.
Variables (Nx Ny : Z).
Hypotheses (HNx : 0 < Nx) (HNy : 0 < Ny).
Notation Ncell := (Nx * Ny).
Notation step := (cell_step Nx Ny 0).

Lemma step_step d e c : step d (step e c) = step (fst d + fst e, snd d + snd e) c.
Proof.
  unfold cell_step. rewrite wrap_plus_l by auto. f_equal. unfold vplus. cbn [fst snd]. f_equal; lia.
Qed.
Lemma step_id c : 0 <= c < Ncell -> step (0, 0) c = c.
Proof. apply step_zero; auto. Qed.
Lemma step_inj d a b : 0 <= a < Ncell -> 0 <= b < Ncell -> (step d a =? step d b) = (a =? b).
Proof.
  intros Ha Hb. destruct (Z.eqb_spec a b) as [->|Hn]; [apply Z.eqb_refl|].
  apply Z.eqb_neq. intros E. apply Hn.
  rewrite <- (step_id a Ha), <- (step_id b Hb).
  replace (0, 0) with (fst (- fst d, - snd d) + fst d, snd (- fst d, - snd d) + snd d) by (cbn; f_equal; lia).
  now rewrite <- !step_step, E.
Qed.

Lemma step_fix d c : 0 <= c < Ncell -> (step d c = c <-> fst d mod Nx = 0 /\ snd d mod Ny = 0).
Proof.
  intros Hc. unfold cell_step. rewrite <- (wrap_coords Nx Ny 0 HNx c Hc) at 2.
  rewrite (wrap_same_iff Nx Ny 0 HNx HNy). unfold same_cell, vplus. cbn [fst snd].
  split.
  - intros (a & b & E1 & E2). split.
    + apply Z.mod_divide; [lia|]. exists (-a). lia.
    + apply Z.mod_divide; [lia|]. exists (-b). lia.
  - intros [E1 E2]. apply Z.mod_divide in E1 as [a Ea]; [|lia]. apply Z.mod_divide in E2 as [b Eb]; [|lia].
    exists (-a), (-b). lia.
Qed.

Lemma one_mod n : 0 < n -> (1 mod n = 0 <-> n = 1).
Proof.
  intros. destruct (Z.eq_dec n 1) as [->|]; [split; auto|]. rewrite Z.mod_small by lia. lia.
Qed.
Lemma mone_mod n : 0 < n -> ((-1) mod n = 0 <-> n = 1).
Proof.
  intros. destruct (Z.eq_dec n 1) as [->|]; [split; auto|].
  rewrite <- (Z.mod_add _ 1) by lia. rewrite Z.mod_small by lia. lia.
Qed.
End Step.

(** collapse of the sums over the entries *)
Lemma collapse3 Norb Ncell L (v : Z -> Z -> Z -> Z -> Z -> R) l0 o0 p0 k0 :
  0 <= l0 < L -> 0 <= o0 < Norb -> 0 <= p0 < Norb -> 0 <= k0 < Ncell ->
  sum 0 L (fun l => sum 0 Norb (fun o => sum 0 Norb (fun p => sum 0 Ncell (fun i => sum 0 Ncell (fun k =>
     if uentry Norb Ncell o p l k =? uentry Norb Ncell o0 p0 l0 k0 then v l o p i k else 0%R)))))
  = sum 0 Ncell (fun i => v l0 o0 p0 i k0).
Proof.
  intros Hl Ho Hp Hk. rewrite (@sum_single _ _ _ l0); auto.
  - transitivity (sum 0 Norb (fun o => sum 0 Norb (fun p => sum 0 Ncell (fun i => sum 0 Ncell (fun k =>
       if k + Ncell * (o + Norb * p) =? entry Norb Ncell o0 p0 k0 then v l0 o p i k else 0%R))))).
    + do 4 (apply sum_ext; intros). unfold uentry, entry.
      destruct (Z.eqb_spec (i2 + Ncell * (i + Norb * i0)) (k0 + Ncell * (o0 + Norb * p0))),
        (Z.eqb_spec (i2 + Ncell * (i + Norb * i0 + Norb * Norb * l0)) (k0 + Ncell * (o0 + Norb * p0 + Norb * Norb * l0)));
        auto; exfalso; nia.
    + now apply (collapse2 Norb Ncell (v l0)).
  - intros l Hl' Hn. do 4 (apply sum_zero; intros).
    destruct (Z.eqb_spec (uentry Norb Ncell i i0 l i2) (uentry Norb Ncell o0 p0 l0 k0)) as [E|]; auto.
    unfold uentry in E. apply two_idx in E; auto. destruct E as [_ E]. exfalso.
    assert (0 <= i + Norb * i0 < Norb * Norb) by nia.
    assert (0 <= o0 + Norb * p0 < Norb * Norb) by nia.
    replace (Norb * Norb * l) with ((Norb * Norb) * l) in E by ring.
    apply two_idx in E; auto. lia.
Qed.

Lemma collapse_bond Norb Ncell L (v : Z -> Z -> Z -> Z -> R) l0 o0 k0 :
  0 <= l0 < L -> 0 <= o0 < Norb -> 0 <= k0 < Ncell ->
  sum 0 L (fun l => sum 0 Norb (fun o => sum 0 Ncell (fun i => sum 0 Ncell (fun k =>
     if k + (Ncell * o + Ncell * Norb * l) =? k0 + (Ncell * o0 + Ncell * Norb * l0) then v l o i k else 0%R))))
  = sum 0 Ncell (fun i => v l0 o0 i k0).
Proof.
  intros Hl Ho Hk.
  assert (forall l o k, 0 <= l < L -> 0 <= o < Norb -> 0 <= k < Ncell ->
    k + (Ncell * o + Ncell * Norb * l) = k0 + (Ncell * o0 + Ncell * Norb * l0) -> l = l0 /\ o = o0 /\ k = k0) as U.
  { intros l o k Hl' Ho' Hk' E.
    replace (k + (Ncell * o + Ncell * Norb * l)) with (k + Ncell * (o + Norb * l)) in E by ring.
    replace (k0 + (Ncell * o0 + Ncell * Norb * l0)) with (k0 + Ncell * (o0 + Norb * l0)) in E by ring.
    apply two_idx in E; auto. destruct E as [Ek E]. apply two_idx in E; auto. tauto. }
  rewrite (@sum_single _ _ _ l0); auto.
  - rewrite (@sum_single _ _ _ o0); auto.
    + apply sum_ext. intros i Hi. rewrite (@sum_single _ _ _ k0); auto.
      * now rewrite Z.eqb_refl.
      * intros k Hk' Hn. destruct (Z.eqb_spec (k + (Ncell * o0 + Ncell * Norb * l0)) (k0 + (Ncell * o0 + Ncell * Norb * l0))) as [E|]; auto. lia.
    + intros o Ho' Hn. do 2 (apply sum_zero; intros).
      destruct (Z.eqb_spec (i0 + (Ncell * o + Ncell * Norb * l0)) (k0 + (Ncell * o0 + Ncell * Norb * l0))) as [E|]; auto.
      exfalso. apply Hn. now apply (U l0 o i0).
  - intros l Hl' Hn. do 3 (apply sum_zero; intros).
    destruct (Z.eqb_spec (i1 + (Ncell * i + Ncell * Norb * l)) (k0 + (Ncell * o0 + Ncell * Norb * l0))) as [E|]; auto.
    exfalso. apply Hn. now apply (U l i i1).
Qed.

Section UAcc.
Variables (Norb Nx Ny sh L : Z).
Hypotheses (HNorb : 0 < Norb) (HNx : 0 < Nx) (HNy : 0 < Ny) (Hsh : 0 <= sh) (HL : 0 < L).
Notation Ncell := (Nx * Ny).
Notation N := (Nx * Ny * Norb).
Notation size := (ufield_len Norb Ncell L).
Notation Accs := (accs ufield size).
Notation Adds := (adds ufield size).
Notation plus := (cell_plus Nx Ny sh).
Notation step := (cell_step Nx Ny 0).

Definition nb8 (c : Z) : Z * Z * Z * Z * (Z * Z * Z * Z) :=
  (step (1, 0) c, step (-1, 0) c, step (0, 1) c, step (0, -1) c,
    (step (1, 1) c, step (1, -1) c, step (-1, 1) c, step (-1, -1) c)).
Definition umaps_ok (sm : list Z) (nn : nn_maps) : Prop :=
  (forall k i, 0 <= k < Ncell -> 0 <= i < Ncell -> aget sm (k + Ncell * i) = Some (plus k i)) /\
  (forall c, 0 <= c < Ncell -> neighbours8 nn c = Some (nb8 c)).

Variables (signfac : R) (c : cur_greens).
Hypothesis HC : cur_ok N L c.
Notation w l := (uconfig N L l c).

Lemma uentry_range l o p k : 0 <= l < L -> 0 <= o < Norb -> 0 <= p < Norb -> 0 <= k < Ncell ->
  0 <= uentry Norb Ncell o p l k < Ncell * Norb * Norb * L.
Proof.
  intros. unfold uentry. assert (0 <= o + Norb * p < Norb * Norb) by nia.
  assert (0 <= o + Norb * p + Norb * Norb * l < Norb * Norb * L) by nia.
  split; [nia|]. replace (Ncell * Norb * Norb * L) with (Ncell * (Norb * Norb * L)) by ring. nia.
Qed.
Lemma ubond_range l o k : 0 <= l < L -> 0 <= o < Norb -> 0 <= k < Ncell ->
  0 <= k + (Ncell * o + N * l) < Ncell * Norb * L.
Proof.
  intros. assert (0 <= k + Ncell * o < N) by nia. nia.
Qed.

Lemma col_range l r q : 0 <= l < L -> 0 <= r < N -> 0 <= q < N -> 0 <= r + N * (q + N * l) < N * N * L.
Proof. intros. assert (0 <= q + N * l < N * L) by nia. replace (N * N * L) with (N * (N * L)) by ring. nia. Qed.
Lemma row_range l r q : 0 <= l < L -> 0 <= r < N -> 0 <= q < N -> 0 <= r + N * (l + L * q) < N * N * L.
Proof. intros. assert (0 <= l + L * q < N * L) by nia. replace (N * N * L) with (N * (N * L)) by ring. nia. Qed.

Lemma clen a : In a [cGtau0_u c; cG0tau_u c; cGeqlt_u c; cGtau0_d c; cG0tau_d c; cGeqlt_d c] -> lenZ a = N * N * L.
Proof. apply HC. Qed.
Ltac inl := cbn; tauto.

Lemma gtt_get l s r q : 0 <= l < L -> 0 <= r < N -> 0 <= q < N ->
  aget (match s with up => cGeqlt_u c | dn => cGeqlt_d c end) (r + N * (q + N * l)) = Some (gtt (w l) s r q).
Proof. intros. rewrite aget_rat; [reflexivity|]. rewrite clen by (destruct s; inl). now apply col_range. Qed.
Lemma g00_get l s r q : 0 <= l < L -> 0 <= r < N -> 0 <= q < N ->
  aget (match s with up => cGeqlt_u c | dn => cGeqlt_d c end) (r + N * q) = Some (g00 (w l) s r q).
Proof.
  intros Hl Hr Hq. rewrite aget_rat; [reflexivity|]. rewrite clen by (destruct s; inl).
  pose proof (col_range 0 r q ltac:(lia) Hr Hq) as H. now rewrite Z.mul_0_r, Z.add_0_r in H.
Qed.
Lemma g0t_get l s r q : 0 <= l < L -> 0 <= r < N -> 0 <= q < N ->
  aget (match s with up => cG0tau_u c | dn => cG0tau_d c end) (r + N * (q + N * l)) = Some (g0t (w l) s r q).
Proof. intros. rewrite aget_rat; [reflexivity|]. rewrite clen by (destruct s; inl). now apply col_range. Qed.
Lemma gt0_get l s r q : 0 <= l < L -> 0 <= r < N -> 0 <= q < N ->
  aget (match s with up => cGtau0_u c | dn => cGtau0_d c end) (r + N * (l + L * q)) = Some (gt0 (w l) s r q).
Proof. intros. rewrite aget_rat; [reflexivity|]. rewrite clen by (destruct s; inl). now apply row_range. Qed.

Lemma g00_zero s i j : g00 (w 0) s i j = gtt (w 0) s i j.
Proof. cbn. now rewrite Z.mul_0_r, Z.add_0_r. Qed.

(** correlations *)
Lemma u_same f i : 0 <= i < N ->
  u_two_point f (w 0) i i =
    let u := gtt (w 0) up i i in let d := gtt (w 0) dn i i in
    match f with
    | Geqlt_u | Gtau0_u | G0tau_u => u
    | Geqlt_d | Gtau0_d | G0tau_d => d
    | nn_corr => 4 - 3 * (u + d) + 2 * u * d
    | u_zz_corr | u_xx_corr => u - 2 * u * d + d
    | _ => 0
    end%R.
Proof.
  intros Hi. destruct HC as [_ Hz]. destruct (Hz up i i Hi Hi) as [E1 E2]. destruct (Hz dn i i Hi Hi) as [E3 E4].
  cbv zeta. set (W := w 0) in *. assert (tau_zero W = true) as Et by reflexivity.
  assert (g00 W up i i = gtt W up i i) as E5 by apply g00_zero.
  assert (g00 W dn i i = gtt W dn i i) as E6 by apply g00_zero. clearbody W.
  destruct f; auto; cbn; rewrite ?Et, ?E1, ?E2, ?E3, ?E4, ?E5, ?E6; cbn; unfold delta; rewrite ?Z.eqb_refl; ring.
Qed.
Lemma u_diff l f i j : l <> 0 \/ i <> j ->
  u_two_point f (w l) i j =
    let W := w l in
    match f with
    | Geqlt_u => gtt W up i j | Geqlt_d => gtt W dn i j
    | Gtau0_u => gt0 W up i j | Gtau0_d => gt0 W dn i j
    | G0tau_u => g0t W up i j | G0tau_d => g0t W dn i j
    | nn_corr => (2 - gtt W up i i - gtt W dn i i) * (2 - g00 W up j j - g00 W dn j j)
                 - (gt0 W up i j * g0t W up j i + gt0 W dn i j * g0t W dn j i)
    | u_zz_corr => (gtt W up i i - gtt W dn i i) * (g00 W up j j - g00 W dn j j)
                 - (gt0 W up i j * g0t W up j i + gt0 W dn i j * g0t W dn j i)
    | u_xx_corr => - (gt0 W up i j * g0t W dn j i + gt0 W dn i j * g0t W up j i)
    | _ => 0
    end%R.
Proof.
  intros Hn. cbv zeta. set (W := w l).
  assert (only (tau_zero W) (delta i j) = 0%R) as E.
  { unfold W, only, delta; cbn [uconfig tau_zero]. destruct (Z.eqb_spec l 0), (Z.eqb_spec i j); auto. lia. }
  clearbody W. destruct f; auto; cbn; rewrite ?E; cbn; unfold delta; rewrite ?Z.eqb_refl; ring.
Qed.

Definition ucorr_inc (l o p i k : Z) (f : ufield) (idx : Z) : R :=
  if uentry Norb Ncell o p l k =? idx
  then (signfac * u_two_point f (w l) (site Ncell i o) (site Ncell (plus k i) p))%R else 0%R.

Lemma uacc_corr_site_ok sm nn l o p i k : umaps_ok sm nn ->
  0 <= l < L -> 0 <= o < Norb -> 0 <= p < Norb -> 0 <= i < Ncell -> 0 <= k < Ncell ->
  Adds (uacc_corr_site signfac c N Norb Ncell L sm l o p i (gtt (w l) up (site Ncell i o) (site Ncell i o))
          (gtt (w l) dn (site Ncell i o) (site Ncell i o)) k) (ucorr_inc l o p i k).
Proof.
  intros [Hsm _] Hl Ho Hp Hi Hk s g H. unfold uacc_corr_site.
  rewrite Hsm by auto. cbn [obind].
  change (plus k i + Ncell * p) with (site Ncell (plus k i) p).
  replace (i + o * Ncell) with (site Ncell i o) by (unfold site; ring).
  pose proof (plus_range Nx Ny sh HNx HNy k i) as Hj.
  pose proof (site_range Norb Nx Ny HNx HNy i o Hi Ho) as Ri.
  pose proof (site_range Norb Nx Ny HNx HNy (plus k i) p Hj Hp) as Rj.
  set (ii := site Ncell i o) in *. set (jj := site Ncell (plus k i) p) in *.
  rewrite (gtt_get l up ii jj), (gtt_get l dn ii jj), (gt0_get l up ii jj), (gt0_get l dn ii jj),
    (g0t_get l up ii jj), (g0t_get l dn ii jj), (g00_get l up jj jj), (g00_get l dn jj jj),
    (g0t_get l up jj ii), (g0t_get l dn jj ii) by auto. cbn [obind].
  pose proof (uentry_range l o p k Hl Ho Hp Hk) as He.
  change (k + Ncell * (o + Norb * p + Norb * Norb * l)) with (uentry Norb Ncell o p l k).
  assert (forall f v, In f u_two_point_fields ->
            Adds (u_add f (uentry Norb Ncell o p l k) v)
              (fun f' k' => if ufield_eqb f' f && (uentry Norb Ncell o p l k =? k') then v else 0%R)) as A.
  { intros f v Hf. apply adds_add_to; [exact ufield_eqbP|].
    repeat (destruct Hf as [<-|Hf]; [exact He|]). destruct Hf. }
  destruct ((k =? 0) && (o =? p) && (l =? 0)) eqn:Ekp.
  - apply andb_prop in Ekp as [Ekp El]. apply andb_prop in Ekp as [Ek Ep]. apply Z.eqb_eq in Ek, Ep, El. subst k p l.
    assert (plus 0 i = i) as Epl by (apply plus_zero; auto).
    change (0 + Ncell * (o + Norb * o + Norb * Norb * 0)) with (uentry Norb Ncell o o 0 0).
    revert s g H. eapply adds_ext.
    2:{ refine (adds_seq _ _ _ _ _ _ (A Geqlt_u _ _) (adds_seq _ _ _ _ _ _ (A Geqlt_d _ _)
          (adds_seq _ _ _ _ _ _ (A Gtau0_u _ _) (adds_seq _ _ _ _ _ _ (A Gtau0_d _ _)
          (adds_seq _ _ _ _ _ _ (A G0tau_u _ _) (adds_seq _ _ _ _ _ _ (A G0tau_d _ _)
          (adds_seq _ _ _ _ _ _ (A nn_corr _ _)
          (adds_seq _ _ _ _ _ _ (A u_zz_corr _ _) (A u_xx_corr _ _)))))))));
        cbn; tauto. }
    intros f idx _. unfold ucorr_inc. fold ii jj. assert (jj = ii) as Ej by (unfold ii, jj; now rewrite Epl).
    rewrite Ej. rewrite u_same by auto.
    destruct HC as [_ Hz]. destruct (Hz up ii ii Ri Ri) as [E1 E2]. destruct (Hz dn ii ii Ri Ri) as [E3 E4].
    rewrite E1, E2, E3, E4.
    destruct f; cbn -[gtt uconfig uentry]; destruct (_ =? idx); ring.
  - assert (l <> 0 \/ ii <> jj) as Hne.
    { destruct (Z.eq_dec l 0) as [->|]; [right|now left].
      intros E. apply site_inj in E as [E1 E2]; auto. symmetry in E1. apply plus_zero in E1; auto.
      subst. now rewrite !Z.eqb_refl in Ekp. }
    revert s g H. eapply adds_ext.
    2:{ refine (adds_seq _ _ _ _ _ _ (A Geqlt_u _ _) (adds_seq _ _ _ _ _ _ (A Geqlt_d _ _)
          (adds_seq _ _ _ _ _ _ (A Gtau0_u _ _) (adds_seq _ _ _ _ _ _ (A Gtau0_d _ _)
          (adds_seq _ _ _ _ _ _ (A G0tau_u _ _) (adds_seq _ _ _ _ _ _ (A G0tau_d _ _)
          (adds_seq _ _ _ _ _ _ (A nn_corr _ _)
          (adds_seq _ _ _ _ _ _ (A u_zz_corr _ _) (A u_xx_corr _ _)))))))));
        cbn; tauto. }
    intros f idx _. unfold ucorr_inc. fold ii jj. rewrite u_diff by auto.
    destruct f; cbn -[gtt g00 gt0 g0t uconfig uentry]; destruct (_ =? idx); ring.
Qed.

Lemma uacc_corr_ok sm nn l o : umaps_ok sm nn -> 0 <= l < L -> 0 <= o < Norb ->
  Adds (for_range 0 Norb (fun p => for_range 0 Ncell (uacc_corr_row signfac c N Norb Ncell L sm l o p)))
    (fun f idx => sum 0 Norb (fun p => sum 0 Ncell (fun i => sum 0 Ncell (fun k => ucorr_inc l o p i k f idx)))).
Proof.
  intros Hm Hl Ho.
  apply (adds_loop _ _ 0 Norb _ (fun p f idx => sum 0 Ncell (fun i => sum 0 Ncell (fun k =>
        ucorr_inc l o p i k f idx)))); [lia|]. intros p Hp.
  assert (0 < Ncell) by nia.
  apply (adds_loop _ _ 0 Ncell _ (fun i f idx => sum 0 Ncell (fun k =>
        ucorr_inc l o p i k f idx))); [lia|]. intros i Hi s g H'. unfold uacc_corr_row.
  replace (i + o * Ncell) with (site Ncell i o) by (unfold site; ring).
  pose proof (site_range Norb Nx Ny HNx HNy i o Hi Ho) as Ri.
  rewrite (gtt_get l up), (gtt_get l dn) by auto. cbn [obind]. revert s g H'.
  apply (adds_loop _ _ 0 Ncell _ (fun k => ucorr_inc l o p i k)); [lia|]. intros k Hk.
  now apply uacc_corr_site_ok with nn.
Qed.

(** pairs, currents, Raman; the program leaves out the delta of two hopping sites at equal times
    in the B1g correlation *)
Definition bare (W : config) (A B : bilinear) : R :=
  lsum (fun '(x, a, b) => lsum (fun '(y, e, d) =>
    x * y * (only (same_spin a b) (gtt W (fst a) (snd b) (snd a)) * only (same_spin e d) (g00 W (fst e) (snd d) (snd e))
       + cdag_c_t0 W a d * c_cdag_t0 W b e)) B)%R A.
Definition ubond_code (f : ufield) (W : config) (i j : Z) (nbi nbj : Z * Z -> Z) : R :=
  match f with
  | ram_b1g => bare W (hop_op i (b1g_shape nbi)) (hop_op j (b1g_shape nbj))
  | _ => u_bond f W i j nbi nbj
  end.
Definition ubond_inc (l o i k : Z) (f : ufield) (idx : Z) : R :=
  if k + (Ncell * o + N * l) =? idx
  then (signfac * ubond_code f (w l) (site Ncell i o) (site Ncell (plus k i) o)
          (fun d => site Ncell (step d i) o) (fun d => site Ncell (step d (plus k i)) o))%R else 0%R.

Lemma site_delta a b o : 0 <= a < Ncell -> 0 <= b < Ncell -> delta (site Ncell a o) (site Ncell b o) = delta a b.
Proof.
  intros. unfold delta, site. destruct (Z.eqb_spec (a + Ncell * o) (b + Ncell * o)), (Z.eqb_spec a b); auto; lia.
Qed.

Lemma gtt_base s l o a b :
  rat (match s with up => cGeqlt_u c | dn => cGeqlt_d c end) (Ncell * o + N * (Ncell * o + N * l) + (a + N * b))
  = gtt (w l) s (site Ncell a o) (site Ncell b o).
Proof. cbn. unfold val, rat. do 2 f_equal. unfold site; ring. Qed.
Lemma g00_base s l o a b :
  rat (match s with up => cGeqlt_u c | dn => cGeqlt_d c end) (Ncell * o + N * (Ncell * o) + (a + N * b))
  = g00 (w l) s (site Ncell a o) (site Ncell b o).
Proof. cbn. unfold val, rat. do 2 f_equal. unfold site; ring. Qed.
Lemma g0t_base s l o a b :
  rat (match s with up => cG0tau_u c | dn => cG0tau_d c end) (Ncell * o + N * (Ncell * o + N * l) + (a + N * b))
  = g0t (w l) s (site Ncell a o) (site Ncell b o).
Proof. cbn. unfold val, rat. do 2 f_equal. unfold site; ring. Qed.
Lemma gt0_base s l o a b :
  rat (match s with up => cGtau0_u c | dn => cGtau0_d c end) (Ncell * o + N * (l + L * (Ncell * o)) + (a + N * L * b))
  = gt0 (w l) s (site Ncell a o) (site Ncell b o).
Proof. cbn. unfold val, rat. do 2 f_equal. unfold site; ring. Qed.

Lemma col_base a : In a [cG0tau_u c; cGeqlt_u c; cG0tau_d c; cGeqlt_d c] ->
  forall l o x y, 0 <= l < L -> 0 <= o < Norb -> 0 <= x < Ncell -> 0 <= y < Ncell ->
  0 <= Ncell * o + N * (Ncell * o + N * l) + (x + N * y) < lenZ a.
Proof.
  intros Ha l o x y Hl Ho Hx Hy. rewrite clen by (cbn in *; tauto).
  replace (Ncell * o + N * (Ncell * o + N * l) + (x + N * y)) with (site Ncell x o + N * (site Ncell y o + N * l))
    by (unfold site; ring). apply col_range; auto; apply site_range; auto.
Qed.
Lemma zero_base a : In a [cGeqlt_u c; cGeqlt_d c] ->
  forall o x y, 0 <= o < Norb -> 0 <= x < Ncell -> 0 <= y < Ncell ->
  0 <= Ncell * o + N * (Ncell * o) + (x + N * y) < lenZ a.
Proof.
  intros Ha o x y Ho Hx Hy. pose proof (col_base a ltac:(cbn in *; tauto) 0 o x y ltac:(lia) Ho Hx Hy) as B.
  now rewrite Z.mul_0_r, Z.add_0_r in B.
Qed.
Lemma row_base a : In a [cGtau0_u c; cGtau0_d c] ->
  forall l o x y, 0 <= l < L -> 0 <= o < Norb -> 0 <= x < Ncell -> 0 <= y < Ncell ->
  0 <= Ncell * o + N * (l + L * (Ncell * o)) + (x + N * L * y) < lenZ a.
Proof.
  intros Ha l o x y Hl Ho Hx Hy. rewrite clen by (cbn in *; tauto).
  replace (Ncell * o + N * (l + L * (Ncell * o)) + (x + N * L * y)) with (site Ncell x o + N * (l + L * site Ncell y o))
    by (unfold site; ring). apply row_range; auto; apply site_range; auto.
Qed.

Lemma tau_delta l (a b : Z) : (if (l =? 0) && (a =? b) then 1%R else 0%R) = only (l =? 0) (delta a b).
Proof. unfold only, delta. now destruct (l =? 0), (a =? b). Qed.
Lemma delta_sym a b : delta a b = delta b a.
Proof. unfold delta. now rewrite Z.eqb_sym. Qed.

Ltac bases l :=
  rewrite ?(gtt_base up l), ?(gtt_base dn l), ?(g00_base up l), ?(g00_base dn l), ?(g0t_base up l), ?(g0t_base dn l),
    ?(gt0_base up l), ?(gt0_base dn l).

Section Values.
Variables (l o : Z).
Hypothesis Hl : 0 <= l < L.
Notation gtt0 s := (match s with up => cGtau0_u c | dn => cGtau0_d c end, Ncell * o + N * (l + L * (Ncell * o))).
Notation gco s := (match s with up => cG0tau_u c | dn => cG0tau_d c end, Ncell * o + N * (Ncell * o + N * l)).
Notation gze s := (match s with up => cGeqlt_u c | dn => cGeqlt_d c end, Ncell * o + N * (Ncell * o)).
Notation geq s := (match s with up => cGeqlt_u c | dn => cGeqlt_d c end, Ncell * o + N * (Ncell * o + N * l)).
Notation S x := (site Ncell x o).

Lemma current_value i ip j jp : 0 <= i < Ncell -> 0 <= ip < Ncell -> 0 <= j < Ncell -> 0 <= jp < Ncell ->
  delta ip jp = delta i j ->
  value (jx_expr signfac (gtt0 up) (gtt0 dn) (gco up) (gco dn) (gze up) (gze dn) (geq up) (geq dn) N L l i ip j jp)
  = (signfac * - correlation (w l) (current (S i) (S ip)) (current (S j) (S jp)))%R.
Proof.
  intros Hi Hip Hj Hjp E. unfold jx_expr. rewrite !tau_delta. cbn [value fst snd]. bases l.
  unfold correlation, lsum, current, cdag_c_tt, cdag_c_00, cdag_c_t0, c_cdag_t0, same_spin.
  cbn [fold_right fst snd only]. change (tau_zero (w l)) with (l =? 0).
  set (W := w l). clearbody W.
  rewrite !site_delta by auto. rewrite E, (delta_sym ip i), (delta_sym jp j).
  unfold only. destruct (l =? 0); ring.
Qed.
Lemma current_y_value i ip j jp : 0 <= i < Ncell -> 0 <= ip < Ncell -> 0 <= j < Ncell -> 0 <= jp < Ncell ->
  delta ip jp = delta i j ->
  value (jy_expr signfac (gtt0 up) (gtt0 dn) (gco up) (gco dn) (gze up) (gze dn) (geq up) (geq dn) N L l i ip j jp)
  = (signfac * - correlation (w l) (current (S i) (S ip)) (current (S j) (S jp)))%R.
Proof. exact (current_value i ip j jp). Qed.

Lemma b1g_value i ipx imx ipy imy j jpx jmx jpy jmy :
  Forall (fun x => 0 <= x < Ncell) [i; ipx; imx; ipy; imy; j; jpx; jmx; jpy; jmy] ->
  value (b1g_expr signfac (gtt0 up) (gtt0 dn) (gco up) (gco dn) (gze up) (gze dn) (geq up) (geq dn) N L l
           i ipx imx ipy imy j jpx jmx jpy jmy)
  = (signfac * bare (w l)
        (hop_op (S i) [(/4, S ipx); (/4, S imx); (-/4, S ipy); (-/4, S imy)])
        (hop_op (S j) [(/4, S jpx); (/4, S jmx); (-/4, S jpy); (-/4, S jmy)]))%R.
Proof.
  intros H. repeat match goal with H : Forall _ (_ :: _) |- _ => inversion_clear H end.
  unfold b1g_expr. rewrite !tau_delta. cbn [value fst snd]. bases l.
  unfold bare, lsum, hop_op, cdag_c_t0, c_cdag_t0, same_spin.
  cbn [flat_map app fold_right fst snd only]. change (tau_zero (w l)) with (l =? 0).
  set (W := w l). clearbody W.
  rewrite !site_delta by auto. rewrite !(delta_sym j).
  replace 0.0625%R with (/4 * /4)%R by lra.
  unfold only. destruct (l =? 0); ring.
Qed.

Lemma bare_delta i ipx imx ipy imy j jpx jmx jpy jmy W :
  Forall (fun x => 0 <= x < Ncell) [i; ipx; imx; ipy; imy; j; jpx; jmx; jpy; jmy] ->
  (forall d, In d [ipx; imx; ipy; imy] -> delta d i = delta ipx i) ->
  (forall d, In d [jpx; jmx; jpy; jmy] -> delta d j = delta jpx j) ->
  (bare W (hop_op (S i) [(/4, S ipx); (/4, S imx); (-/4, S ipy); (-/4, S imy)])
        (hop_op (S j) [(/4, S jpx); (/4, S jmx); (-/4, S jpy); (-/4, S jmy)])
  = correlation W (hop_op (S i) [(/4, S ipx); (/4, S imx); (-/4, S ipy); (-/4, S imy)])
        (hop_op (S j) [(/4, S jpx); (/4, S jmx); (-/4, S jpy); (-/4, S jmy)]))%R.
Proof.
  intros H Di Dj. repeat match goal with H : Forall _ (_ :: _) |- _ => inversion_clear H end.
  unfold bare, correlation, lsum, hop_op, cdag_c_tt, cdag_c_00, cdag_c_t0, c_cdag_t0, same_spin.
  cbn [flat_map app fold_right fst snd only].
  rewrite !site_delta by auto.
  rewrite (Di imx), (Di ipy), (Di imy), (Dj jmx), (Dj jpy), (Dj jmy) by (cbn; tauto).
  unfold only. destruct (tau_zero W); ring.
Qed.

Lemma b2g_value i ipp ipm imp imm j jpp jpm jmp jmm :
  Forall (fun x => 0 <= x < Ncell) [i; ipp; ipm; imp; imm; j; jpp; jpm; jmp; jmm] ->
  (forall d, In d [ipp; ipm; imp; imm] -> delta d i = delta ipp i) ->
  (forall d, In d [jpp; jpm; jmp; jmm] -> delta d j = delta jpp j) ->
  value (b2g_expr signfac (gtt0 up) (gtt0 dn) (gco up) (gco dn) (gze up) (gze dn) (geq up) (geq dn) N L l
           i ipp ipm imp imm j jpp jpm jmp jmm)
  = (signfac * correlation (w l)
        (hop_op (S i) [(/4, S ipp); (-/4, S imp); (-/4, S ipm); (/4, S imm)])
        (hop_op (S j) [(/4, S jpp); (-/4, S jmp); (-/4, S jpm); (/4, S jmm)]))%R.
Proof.
  intros H Di Dj. repeat match goal with H : Forall _ (_ :: _) |- _ => inversion_clear H end.
  unfold b2g_expr. rewrite !tau_delta. cbn [value fst snd]. bases l.
  unfold correlation, lsum, hop_op, cdag_c_tt, cdag_c_00, cdag_c_t0, c_cdag_t0, same_spin.
  cbn [flat_map app fold_right fst snd only]. change (tau_zero (w l)) with (l =? 0).
  set (W := w l). clearbody W.
  rewrite !site_delta by auto. rewrite !(delta_sym j).
  replace 0.0625%R with (/4 * /4)%R by lra.
  rewrite (Di imp), (Di ipm), (Di imm), (Dj jmp), (Dj jpm), (Dj jmm) by (cbn; tauto).
  unfold only. destruct (l =? 0); ring.
Qed.
End Values.

Lemma uacc_sc_site_ok sm nn l o i k : umaps_ok sm nn ->
  0 <= l < L -> 0 <= o < Norb -> 0 <= i < Ncell -> 0 <= k < Ncell ->
  Adds (uacc_sc_site signfac c N Ncell L sm nn l o i (nb8 i) k) (ubond_inc l o i k).
Proof.
  intros [Hsm Hnn] Hl Ho Hi Hk s g H. unfold uacc_sc_site, nb8 at 1.
  rewrite Hsm by auto. cbn [obind].
  pose proof (plus_range Nx Ny sh HNx HNy k i) as Hj. rewrite Hnn by auto. unfold nb8. cbn [obind].
  pose proof (fun d => step_range Nx Ny HNx HNy d i) as Ri.
  pose proof (fun d => step_range Nx Ny HNx HNy d (plus k i)) as Rj.
  set (j := plus k i) in *.
  pose proof (ubond_range l o k Hl Ho Hk) as He.
  assert (forall f v, In f u_bond_fields ->
            Adds (u_add f (k + (Ncell * o + N * l)) v)
              (fun f' k' => if ufield_eqb f' f && (k + (Ncell * o + N * l) =? k') then v else 0%R)) as A.
  { intros f v Hf. apply adds_add_to; [exact ufield_eqbP|].
    repeat (destruct Hf as [<-|Hf]; [exact He|]). destruct Hf. }
  pose proof (fun x y => col_base (cG0tau_u c) ltac:(inl) l o x y Hl Ho) as B1.
  pose proof (fun x y => col_base (cG0tau_d c) ltac:(inl) l o x y Hl Ho) as B2.
  pose proof (fun x y => col_base (cGeqlt_u c) ltac:(inl) l o x y Hl Ho) as B3.
  pose proof (fun x y => col_base (cGeqlt_d c) ltac:(inl) l o x y Hl Ho) as B4.
  pose proof (fun x y => zero_base (cGeqlt_u c) ltac:(inl) o x y Ho) as B5.
  pose proof (fun x y => zero_base (cGeqlt_d c) ltac:(inl) o x y Ho) as B6.
  pose proof (fun x y => row_base (cGtau0_u c) ltac:(inl) l o x y Hl Ho) as B7.
  pose proof (fun x y => row_base (cGtau0_d c) ltac:(inl) l o x y Hl Ho) as B8.
  rewrite (eval_ok (Rd _ _)) by (apply B7; auto). cbn [obind].
  rewrite (eval_ok (Rd _ _)) by (apply B8; auto). cbn [obind].
  rewrite (eval_ok (dw_expr _ _ _ _ _ _ _ _ _ _ _ _ _)) by (cbn [dw_expr reads_ok fst snd]; repeat split; apply B8; auto).
  rewrite (eval_ok (sx_expr _ _ _ _ _ _ _ _ _ _ _ _ _)) by (cbn [sx_expr reads_ok fst snd]; repeat split; apply B8; auto).
  rewrite (eval_ok (jx_expr _ _ _ _ _ _ _ _ _ _ _ _ _ _ _ _))
    by (unfold jx_expr; cbn [reads_ok fst snd]; repeat split; first [apply B1|apply B2|apply B3|apply B4|apply B5|apply B6|apply B7|apply B8]; auto).
  rewrite (eval_ok (jy_expr _ _ _ _ _ _ _ _ _ _ _ _ _ _ _ _))
    by (unfold jy_expr; cbn [reads_ok fst snd]; repeat split; first [apply B1|apply B2|apply B3|apply B4|apply B5|apply B6|apply B7|apply B8]; auto).
  rewrite (eval_ok (b1g_expr _ _ _ _ _ _ _ _ _ _ _ _ _ _ _ _ _ _ _ _ _ _))
    by (unfold b1g_expr; cbn [reads_ok fst snd]; repeat split; first [apply B1|apply B2|apply B3|apply B4|apply B5|apply B6|apply B7|apply B8]; auto).
  rewrite (eval_ok (b2g_expr _ _ _ _ _ _ _ _ _ _ _ _ _ _ _ _ _ _ _ _ _ _))
    by (unfold b2g_expr; cbn [reads_ok fst snd]; repeat split; first [apply B1|apply B2|apply B3|apply B4|apply B5|apply B6|apply B7|apply B8]; auto).
  cbn [obind]. clear B1 B2 B3 B4 B5 B6 B7 B8.
  revert s g H. eapply adds_ext.
  2:{ refine (adds_seq _ _ _ _ _ _ (A u_sc_c_sw _ _) (adds_seq _ _ _ _ _ _ (A u_sc_c_dw _ _)
       (adds_seq _ _ _ _ _ _ (A u_sc_c_sx _ _) (adds_seq _ _ _ _ _ _ (A Jcorr_x _ _)
       (adds_seq _ _ _ _ _ _ (A Jcorr_y _ _) (adds_seq _ _ _ _ _ _ (A ram_b1g _ _) (A ram_b2g _ _))))))); cbn; tauto. }
  clear A. intros f idx _. unfold ubond_inc. fold j.
  assert (forall x, 0 <= x < Ncell -> Forall (fun x => 0 <= x < Ncell)
     [x; step (1, 0) x; step (-1, 0) x; step (0, 1) x; step (0, -1) x]) as F1 by (intros; repeat constructor; try apply step_range; auto; lia).
  assert (forall x, 0 <= x < Ncell -> Forall (fun x => 0 <= x < Ncell)
     [x; step (1, 1) x; step (1, -1) x; step (-1, 1) x; step (-1, -1) x]) as F2 by (intros; repeat constructor; try apply step_range; auto; lia).
  assert (forall d, delta (step d i) (step d j) = delta i j) as DS by (intros d; unfold delta; now rewrite step_inj).
  assert (forall x, 0 <= x < Ncell -> forall y, In y [step (1, 1) x; step (1, -1) x; step (-1, 1) x; step (-1, -1) x] ->
     delta y x = delta (step (1, 1) x) x) as D2.
  { intros x Hx. assert (forall d, In d [(1, 1); (1, -1); (-1, 1); (-1, -1)] -> delta (step d x) x = delta (step (1, 1) x) x) as D.
    { intros d Hd. unfold delta.
      pose proof (step_fix Nx Ny HNx HNy d x Hx) as Q1. pose proof (step_fix Nx Ny HNx HNy (1, 1) x Hx) as Q2.
      destruct (Z.eqb_spec (step d x) x) as [E1|E1], (Z.eqb_spec (step (1, 1) x) x) as [E2|E2]; auto; exfalso.
      - apply E2. apply Q2. apply Q1 in E1. cbn [fst snd] in *.
        rewrite !one_mod by auto.
        repeat (destruct Hd as [<-|Hd]; [cbn [fst snd] in E1; rewrite ?one_mod, ?mone_mod in E1 by auto; exact E1|]). destruct Hd.
      - apply E1. apply Q1. apply Q2 in E2. cbn [fst snd] in *. rewrite !one_mod in E2 by auto.
        repeat (destruct Hd as [<-|Hd]; [cbn [fst snd]; rewrite ?one_mod, ?mone_mod by auto; exact E2|]). destruct Hd. }
    intros y Hy. repeat (destruct Hy as [<-|Hy]; [apply D; cbn; tauto|]). destruct Hy. }
  rewrite (current_value l o i (step (1, 0) i) j (step (1, 0) j)) by auto.
  rewrite (current_y_value l o i (step (0, 1) i) j (step (0, 1) j)) by auto.
  rewrite (b1g_value l o) by (apply (Forall_app _ [_; _; _; _; _] [_; _; _; _; _]); auto).
  rewrite (b2g_value l o) by (auto; apply (Forall_app _ [_; _; _; _; _] [_; _; _; _; _]); auto).
  unfold dw_expr, sx_expr. cbn [value fst snd]. bases l.
  set (W := w l). clearbody W.
  unfold ufield_eqb.
  destruct f; cbn [ufield_eq_dec ufield_rec ufield_rect andb ubond_code u_bond]; try (destruct (_ =? idx); ring).
  all: cbn -[bare correlation pair_correlation step j site Z.mul Z.add]; destruct (_ =? idx); [|ring].
  - cbn -[step j site Z.mul Z.add]. rewrite !step_id by auto. ring.
  - cbn -[step j site Z.mul Z.add]. replace 0.25%R with (/2 * /2)%R by lra. ring.
  - cbn -[step j site Z.mul Z.add]. replace 0.25%R with (/2 * /2)%R by lra. ring.
  - ring.
  - ring.
Qed.

Lemma b1g_code l o i k : 0 <= l < L -> 0 <= i < Ncell -> 0 <= k < Ncell -> (Nx = 1 <-> Ny = 1) ->
  let j := plus k i in let nb x d := site Ncell (step d x) o in
  ubond_code ram_b1g (w l) (site Ncell i o) (site Ncell j o) (nb i) (nb j)
  = u_bond ram_b1g (w l) (site Ncell i o) (site Ncell j o) (nb i) (nb j).
Proof.
  intros Hl Hi Hk Hxy j nb. pose proof (plus_range Nx Ny sh HNx HNy k i : 0 <= j < Ncell) as Hj.
  unfold ubond_code, u_bond, b1g_shape, nb.
  assert (forall x, 0 <= x < Ncell -> forall y, In y [step (1, 0) x; step (-1, 0) x; step (0, 1) x; step (0, -1) x] ->
     delta y x = delta (step (1, 0) x) x) as D2.
  { intros x Hx. assert (forall d, In d [(1, 0); (-1, 0); (0, 1); (0, -1)] -> delta (step d x) x = delta (step (1, 0) x) x) as D.
    { intros d Hd. unfold delta.
      pose proof (step_fix Nx Ny HNx HNy d x Hx) as Q1. pose proof (step_fix Nx Ny HNx HNy (1, 0) x Hx) as Q2.
      assert ((fst d mod Nx = 0 /\ snd d mod Ny = 0) <-> (fst (1, 0) mod Nx = 0 /\ snd (1, 0) mod Ny = 0)) as Q3.
      { cbn [fst snd]. repeat (destruct Hd as [<-|Hd]; [cbn [fst snd]; rewrite ?one_mod, ?mone_mod, ?Z.mod_0_l by lia; tauto|]). destruct Hd. }
      destruct (Z.eqb_spec (step d x) x), (Z.eqb_spec (step (1, 0) x) x); auto; exfalso; tauto. }
    intros y Hy. repeat (destruct Hy as [<-|Hy]; [apply D; cbn; tauto|]). destruct Hy. }
  apply (bare_delta l o); auto.
  repeat (apply Forall_cons; [solve [auto | apply step_range; auto]|]). apply Forall_nil.
Qed.

Lemma uacc_sc_ok sm nn l o : umaps_ok sm nn -> 0 <= l < L -> 0 <= o < Norb ->
  Adds (for_range 0 Ncell (uacc_sc_row signfac c N Ncell L sm nn l o))
    (fun f idx => sum 0 Ncell (fun i => sum 0 Ncell (fun k => ubond_inc l o i k f idx))).
Proof.
  intros Hm Hl Ho. assert (0 < Ncell) by nia.
  apply (adds_loop _ _ 0 Ncell _ (fun i f idx => sum 0 Ncell (fun k => ubond_inc l o i k f idx))); [lia|].
  intros i Hi s g H'. unfold uacc_sc_row.
  rewrite (proj2 Hm) by auto. cbn [obind]. revert s g H'.
  apply (adds_loop _ _ 0 Ncell _ (fun k => ubond_inc l o i k)); [lia|]. intros k Hk.
  now apply uacc_sc_site_ok.
Qed.

Lemma uacc_ok sm nn : umaps_ok sm nn ->
  Adds (for_range 0 L (fun l => for_range 0 Norb (uacc_orbital signfac c N Norb Ncell L sm nn l)))
    (fun f idx => sum 0 L (fun l => sum 0 Norb (fun o =>
       sum 0 Norb (fun p => sum 0 Ncell (fun i => sum 0 Ncell (fun k => ucorr_inc l o p i k f idx)))
       + sum 0 Ncell (fun i => sum 0 Ncell (fun k => ubond_inc l o i k f idx)))))%R.
Proof.
  intros Hm.
  apply (adds_loop _ _ 0 L _ (fun l f idx => sum 0 Norb (fun o =>
       sum 0 Norb (fun p => sum 0 Ncell (fun i => sum 0 Ncell (fun k => ucorr_inc l o p i k f idx)))
       + sum 0 Ncell (fun i => sum 0 Ncell (fun k => ubond_inc l o i k f idx))))%R); [lia|]. intros l Hl.
  apply (adds_loop _ _ 0 Norb _ (fun o f idx =>
       sum 0 Norb (fun p => sum 0 Ncell (fun i => sum 0 Ncell (fun k => ucorr_inc l o p i k f idx)))
       + sum 0 Ncell (fun i => sum 0 Ncell (fun k => ubond_inc l o i k f idx)))%R); [lia|]. intros o Ho.
  exact (adds_seq _ _ _ _ _ _ (uacc_corr_ok sm nn l o Hm Hl Ho) (uacc_sc_ok sm nn l o Hm Hl Ho)).
Qed.
End UAcc.
