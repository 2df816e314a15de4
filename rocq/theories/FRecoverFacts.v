(** Proofs: the translation averaged data are averages of the data recorded for every site. *)
From Coq Require Import ZArith List Reals Lia Lra.
From Verif Require Import Base BaseFacts Sums SumsFacts RealOps BlasFacts Lattice LatticeSpec LatticeFacts GreenConstruct
  AccumFacts WickSpec Measure MeasureSpec MeasureFacts MeasureSeqFacts UMeasure UMeasureSpec UMeasureFacts UMeasureSeqFacts
  FMeasure FMeasureSpec FMeasureFacts FUMeasureFacts.
Import ListNotations.
Local Open Scope Z_scope.

Lemma lsum_plus0 A (F G : A -> R) l : lsum (fun s => F s + G s)%R l = (lsum F l + lsum G l)%R.
Proof. unfold lsum. induction l; cbn [fold_right]; [ring|]. rewrite IHl. ring. Qed.
Lemma lsum_sum A n (F : A -> Z -> R) l : lsum (fun s => sum 0 n (F s)) l = sum 0 n (fun i => lsum (fun s => F s i) l).
Proof.
  unfold lsum. induction l; cbn [fold_right].
  - symmetry. now apply sum_zero.
  - rewrite IHl, <- sum_plus. reflexivity.
Qed.
Lemma lsum_div A x (F : A -> R) l : lsum (fun s => F s / x)%R l = (lsum F l / x)%R.
Proof. unfold lsum, Rdiv. induction l; cbn [fold_right]; [ring|]. rewrite IHl. ring. Qed.
Lemma lsum_average A n (F : A -> Z -> R) l :
  lsum (fun s => average n (F s)) l = average n (fun i => lsum (fun s => F s i) l).
Proof. unfold average. rewrite lsum_div, lsum_sum. reflexivity. Qed.
Lemma average_mul x n F : (x * average n F)%R = average n (fun i => x * F i)%R.
Proof. unfold average. rewrite sum_scal. unfold Rdiv. ring. Qed.
Lemma average_div x n F : (average n F / x)%R = average n (fun i => F i / x)%R.
Proof.
  unfold average. rewrite (@sum_ext 0 n (fun i => F i / x)%R (fun i => / x * F i)%R) by (intros; unfold Rdiv; ring).
  rewrite sum_scal. unfold Rdiv. ring.
Qed.
Lemma average_ext n F G : (forall i, 0 <= i < n -> F i = G i) -> average n F = average n G.
Proof. intros H. unfold average. f_equal. now apply sum_ext. Qed.
Lemma lsum_ext0 A (F G : A -> R) l : (forall x, F x = G x) -> lsum F l = lsum G l.
Proof. intros H. unfold lsum. induction l; cbn [fold_right]; [reflexivity|]. now rewrite IHl, H. Qed.

Section Recover.
Variables (Norb Nx Ny sh : Z).
Hypotheses (HNorb : 0 < Norb) (HNx : 0 < Nx) (HNy : 0 < Ny).
Notation Ncell := (Nx * Ny).
Notation N := (Nx * Ny * Norb).
Notation plus := (cell_plus Nx Ny sh).

Lemma plus_range k i : 0 <= k < Ncell -> 0 <= plus k i < Ncell.
Proof. intros. unfold cell_plus. now apply wrap_range. Qed.

(** relation between the contents *)
Definition content_rel (ga gs : mfield -> Z -> R) : Prop :=
  (forall f o p k, In f two_point_fields -> 0 <= o < Norb -> 0 <= p < Norb -> 0 <= k < Ncell ->
     ga f (entry Norb Ncell o p k) = average Ncell (fun i => gs f (site Ncell i o + N * site Ncell (plus k i) p))) /\
  (forall f o, In f [density_u; density_d; doubleocc] -> 0 <= o < Norb ->
     ga f o = average Ncell (fun i => gs f (site Ncell i o))) /\
  (forall f o k, In f pair_fields -> 0 <= o < Norb -> 0 <= k < Ncell ->
     ga f (k + Ncell * o) = average Ncell (fun i => gs f (i + Ncell * plus k i + Ncell * Ncell * o))) /\
  (forall f k, In f [grfun_u; grfun_d] -> 0 <= k < N * N -> ga f k = gs f k).

Lemma content_recovers a s ga gs : meas_ok Norb Nx Ny sh a ga -> fmeas_ok Norb Nx Ny s gs -> content_rel ga gs ->
  m_sign a = m_sign s -> m_nsampl a = m_nsampl s -> averages_of Norb Nx Ny sh a s.
Proof.
  intros Ma Ms (R1 & R2 & R3 & R4) E1 E2.
  assert (forall f k, 0 <= k < mfield_len Norb Ncell f -> val (m_arr a f) k = ga f k) as VA
    by (intros f k Hk; exact (arr_get (mo_arr _ _ _ _ _ _ Ma f) Hk)).
  assert (forall f k, 0 <= k < fmfield_len Norb Ncell f -> val (m_arr s f) k = gs f k) as VS
    by (intros f k Hk; exact (arr_get (fo_arr _ _ _ _ _ Ms f) Hk)).
  assert (0 < Ncell) as HC by nia.
  repeat split; auto.
  - intros f o p k Hf Ho Hp Hk. pose proof (R1 f o p k Hf Ho Hp Hk) as R. rewrite VA, R.
    + apply average_ext. intros i Hi. unfold pair_pos. rewrite VS; [reflexivity|].
      pose proof (mat_range Norb Nx Ny HNorb HNx HNy (site Ncell i o) (site Ncell (plus k i) p)
        (site_range Norb Nx Ny HNx HNy i o Hi Ho) (site_range Norb Nx Ny HNx HNy _ p (plus_range k i Hk) Hp)) as Q.
      repeat (destruct Hf as [<-|Hf]; [exact Q|]). destruct Hf.
    + pose proof (entry_range Norb Nx Ny HNorb HNx HNy o p k Ho Hp Hk) as Q. unfold entry.
      repeat (destruct Hf as [<-|Hf]; [exact Q|]). destruct Hf.
  - intros f o Hf Ho. rewrite VA, R2 by (auto; repeat (destruct Hf as [<-|Hf]; [exact Ho|]); destruct Hf).
    apply average_ext. intros i Hi. rewrite VS; [reflexivity|].
    pose proof (site_range Norb Nx Ny HNx HNy i o Hi Ho) as Q.
    repeat (destruct Hf as [<-|Hf]; [exact Q|]). destruct Hf.
  - intros f o k Hf Ho Hk. rewrite VA, R3; auto.
    + apply average_ext. intros i Hi. unfold cells_pos. rewrite VS; [reflexivity|].
      pose proof (cells_range Norb Nx Ny HNx HNy o i (plus k i) Ho Hi (plus_range k i Hk)) as Q.
      repeat (destruct Hf as [<-|Hf]; [exact Q|]). destruct Hf.
    + assert (0 <= k + Ncell * o < N) as Q by nia.
      repeat (destruct Hf as [<-|Hf]; [exact Q|]). destruct Hf.
  - intros f i j Hf Hi Hj. pose proof (mat_range Norb Nx Ny HNorb HNx HNy i j Hi Hj) as Q. unfold pair_pos.
    rewrite VA, VS, R4; auto; repeat (destruct Hf as [<-|Hf]; [exact Q|]); destruct Hf.
Qed.

(** one sample *)
Lemma inc_rel Gu Gd : content_rel (inc Norb Nx Ny sh Gu Gd) (finc Norb Nx Ny Gu Gd).
Proof.
  repeat split.
  - intros f o p k Hf Ho Hp Hk. rewrite inc_two_point, average_mul by auto. apply average_ext. intros i Hi.
    symmetry. apply finc_two_point; auto.
    + now apply site_range.
    + apply site_range; auto. now apply plus_range.
  - intros f o Hf Ho. destruct (inc_density Norb Nx Ny sh HNx HNy Gu Gd o) as (I1 & I2 & I3).
    destruct Hf as [<-|[<-|[<-|[]]]]; [rewrite I1|rewrite I2|rewrite I3]; rewrite average_mul; apply average_ext; intros i Hi;
      destruct (finc_density Norb Nx Ny Gu Gd (site Ncell i o)) as (J1 & J2 & J3); symmetry; assumption.
  - intros f o k Hf Ho Hk. rewrite inc_pair, average_mul by auto. apply average_ext. intros i Hi. cbv zeta.
    symmetry. apply finc_pair; auto. now apply plus_range.
  - intros f k Hf Hk. destruct Hf as [<-|[<-|[]]]; reflexivity.
Qed.

Lemma content_zero : content_rel (fun _ _ => 0%R) (fun _ _ => 0%R).
Proof.
  assert (0%R = average Ncell (fun _ => 0%R)) as E by (unfold average; rewrite sum_zero by auto; unfold Rdiv; ring).
  repeat split; intros; auto.
Qed.

Lemma content_add ga gs A (ia is : A -> mfield -> Z -> R) l : content_rel ga gs -> (forall x, content_rel (ia x) (is x)) ->
  content_rel (fun f k => ga f k + lsum (fun x => ia x f k) l)%R (fun f k => gs f k + lsum (fun x => is x f k) l)%R.
Proof.
  intros (R1 & R2 & R3 & R4) H.
  assert (forall F (G : A -> Z -> R), (average Ncell F + lsum (fun x => average Ncell (G x)) l)%R
     = average Ncell (fun i => F i + lsum (fun x => G x i) l)%R) as Q.
  { intros. rewrite lsum_average. unfold average. rewrite sum_plus. unfold Rdiv. ring. }
  repeat split.
  - intros f o p k Hf Ho Hp Hk. rewrite R1, <- Q by auto. f_equal. apply lsum_ext0. intros x.
    destruct (H x) as (S1 & _). now apply S1.
  - intros f o Hf Ho. rewrite R2, <- Q by auto. f_equal. apply lsum_ext0. intros x.
    destruct (H x) as (_ & S2 & _). now apply S2.
  - intros f o k Hf Ho Hk. rewrite R3, <- Q by auto. f_equal. apply lsum_ext0. intros x.
    destruct (H x) as (_ & _ & S3 & _). now apply S3.
  - intros f k Hf Hk. rewrite R4 by auto. f_equal. apply lsum_ext0. intros x.
    destruct (H x) as (_ & _ & _ & S4). now apply S4.
Qed.

Lemma content_div x ga gs : content_rel ga gs -> content_rel (fun f k => ga f k / x)%R (fun f k => gs f k / x)%R.
Proof.
  intros (R1 & R2 & R3 & R4). repeat split; intros.
  - rewrite R1 by auto. apply average_div.
  - rewrite R2 by auto. apply average_div.
  - rewrite R3 by auto. apply average_div.
  - now rewrite R4 by auto.
Qed.

Section Unequal.
Variable L : Z.
Hypothesis HL : 0 < L.

Definition ucontent_rel (ga gs : ufield -> Z -> R) : Prop :=
  (forall f l o p k, In f u_two_point_fields -> 0 <= l < L -> 0 <= o < Norb -> 0 <= p < Norb -> 0 <= k < Ncell ->
     ga f (uentry Norb Ncell o p l k) = average Ncell (fun i =>
       gs f (upair_pos N L f l (site Ncell i o) (site Ncell (plus k i) p)))) /\
  (forall f l o k, In f site_bond_fields -> 0 <= l < L -> 0 <= o < Norb -> 0 <= k < Ncell ->
     ga f (k + (Ncell * o + N * l)) = average Ncell (fun i => gs f (ucells_pos Norb Ncell l o i (plus k i)))).

Lemma upair_range f l i j : In f u_two_point_fields -> 0 <= l < L -> 0 <= i < N -> 0 <= j < N ->
  0 <= upair_pos N L f l i j < fufield_len Norb Ncell L f.
Proof.
  intros Hf Hl Hi Hj. pose proof (pair_time_range Norb Nx Ny L HNorb HNx HNy l i j Hl Hi Hj) as Q1.
  assert (0 <= i + N * (j + N * l) < N * N * L) as Q2 by (replace (i + N * (j + N * l)) with (i + N * j + N * N * l) by ring; exact Q1).
  assert (0 <= i + N * (l + L * j) < N * L * N) as Q3.
  { assert (0 <= l + L * j < L * N) as Q by nia. set (t := l + L * j) in *. replace (N * L * N) with (N * (L * N)) by ring. nia. }
  repeat (destruct Hf as [<-|Hf]; [first [exact Q1|exact Q2|exact Q3]|]). destruct Hf.
Qed.
Lemma ucells_range f l o i j : In f site_bond_fields -> 0 <= l < L -> 0 <= o < Norb -> 0 <= i < Ncell -> 0 <= j < Ncell ->
  0 <= ucells_pos Norb Ncell l o i j < fufield_len Norb Ncell L f.
Proof.
  intros Hf Hl Ho Hi Hj. pose proof (cells_time_range Norb Nx Ny L HNorb HNx HNy HL l o i j Hl Ho Hi Hj) as Q.
  repeat (destruct Hf as [<-|Hf]; [exact Q|]). destruct Hf.
Qed.

Lemma ucontent_recovers a s ga gs : umeas_ok Norb Nx Ny sh L a ga -> fumeas_ok Norb Nx Ny L s gs -> ucontent_rel ga gs ->
  u_sign a = u_sign s -> u_nsampl a = u_nsampl s -> u_averages_of Norb Nx Ny sh L a s.
Proof.
  intros Ma Ms (R1 & R2) E1 E2.
  assert (forall f k, 0 <= k < ufield_len Norb Ncell L f -> val (u_arr a f) k = ga f k) as VA
    by (intros f k Hk; exact (arr_get (uo_arr _ _ _ _ _ _ _ Ma f) Hk)).
  assert (forall f k, 0 <= k < fufield_len Norb Ncell L f -> val (u_arr s f) k = gs f k) as VS
    by (intros f k Hk; exact (arr_get (fuo_arr _ _ _ _ _ _ Ms f) Hk)).
  assert (0 < Ncell) as HC by nia.
  repeat split; auto.
  - intros f l o p k Hf Hl Ho Hp Hk. rewrite VA, R1; auto.
    + apply average_ext. intros i Hi. rewrite VS; [reflexivity|]. apply upair_range; auto.
      * now apply site_range.
      * apply site_range; auto. now apply plus_range.
    + pose proof (uentry_range Norb Nx Ny L HNorb HNx HNy HL l o p k Hl Ho Hp Hk) as Q.
      repeat (destruct Hf as [<-|Hf]; [exact Q|]). destruct Hf.
  - intros f l o k Hf Hl Ho Hk. rewrite VA, R2; auto.
    + apply average_ext. intros i Hi. rewrite VS; [reflexivity|]. apply ucells_range; auto. now apply plus_range.
    + pose proof (ubond_range Norb Nx Ny L HNorb HNx HNy l o k Hl Ho Hk) as Q.
      repeat (destruct Hf as [<-|Hf]; [exact Q|]). destruct Hf.
Qed.

Lemma fuinc_two_point sign c f l i j : In f u_two_point_fields -> 0 <= l < L -> 0 <= i < N -> 0 <= j < N ->
  fuinc Norb Nx Ny L sign c f (upair_pos N L f l i j) = (sign * u_two_point f (uconfig N L l c) i j)%R.
Proof.
  intros Hf Hl Hi Hj. repeat (destruct Hf as [<-|Hf]; [first
    [rewrite fuinc_greens by (cbn; tauto); reflexivity | apply fuinc_corr; auto; cbn; tauto]|]). destruct Hf.
Qed.

Lemma uinc_rel sign c : ucontent_rel (uinc Norb Nx Ny sh L sign c) (fuinc Norb Nx Ny L sign c).
Proof.
  split.
  - intros f l o p k Hf Hl Ho Hp Hk. rewrite uinc_two_point, average_mul by auto. apply average_ext. intros i Hi.
    symmetry. apply fuinc_two_point; auto.
    + now apply site_range.
    + apply site_range; auto. now apply plus_range.
  - intros f l o k Hf Hl Ho Hk. rewrite uinc_bond, average_mul by (auto; cbn in *; tauto). apply average_ext. intros i Hi.
    symmetry. apply fuinc_bond; auto. now apply plus_range.
Qed.

Lemma ucontent_zero : ucontent_rel (fun _ _ => 0%R) (fun _ _ => 0%R).
Proof.
  assert (0%R = average Ncell (fun _ => 0%R)) as E by (unfold average; rewrite sum_zero by auto; unfold Rdiv; ring).
  repeat split; intros; auto.
Qed.

Lemma ucontent_add ga gs A (ia is : A -> ufield -> Z -> R) l : ucontent_rel ga gs -> (forall x, ucontent_rel (ia x) (is x)) ->
  ucontent_rel (fun f k => ga f k + lsum (fun x => ia x f k) l)%R (fun f k => gs f k + lsum (fun x => is x f k) l)%R.
Proof.
  intros (R1 & R2) H.
  assert (forall F (G : A -> Z -> R), (average Ncell F + lsum (fun x => average Ncell (G x)) l)%R
     = average Ncell (fun i => F i + lsum (fun x => G x i) l)%R) as Q.
  { intros. rewrite lsum_average. unfold average. rewrite sum_plus. unfold Rdiv. ring. }
  split.
  - intros f l' o p k Hf Hl Ho Hp Hk. rewrite R1, <- Q by auto. f_equal. apply lsum_ext0. intros x.
    destruct (H x) as (S1 & _). now apply S1.
  - intros f l' o k Hf Hl Ho Hk. rewrite R2, <- Q by auto. f_equal. apply lsum_ext0. intros x.
    destruct (H x) as (_ & S2). now apply S2.
Qed.

Lemma ucontent_div x ga gs hs : ucontent_rel ga gs ->
  (forall f k, In f u_two_point_fields \/ In f site_bond_fields -> hs f k = (gs f k / x)%R) ->
  ucontent_rel (fun f k => ga f k / x)%R hs.
Proof.
  intros (R1 & R2) H. split; intros.
  - rewrite R1, average_div by auto. apply average_ext. intros. symmetry. auto.
  - rewrite R2, average_div by auto. apply average_ext. intros. symmetry. auto.
Qed.
End Unequal.
End Recover.
