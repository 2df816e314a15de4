(** The results of the two forms of the program: averages over all cells and means over the chain commute. *)
From Coq Require Import ZArith List Reals Lia Lra.
From Verif Require Import Sums SumsFacts SimParams LatticeSpec LatticeFacts WickSpec ConfigFacts Measure MeasureSpec MeasureFacts UMeasure UMeasureSpec
  UMeasureFacts FMeasure FMeasureSpec FRecoverFacts SweepSpec SimulationSpec FSimulationSpec.
Import ListNotations.
Local Open Scope Z_scope.

Definition commutes (mean : (config -> R) -> R) : Prop := forall n (F : config -> Z -> R),
  mean (fun w => average n (F w)) = average n (fun i => mean (fun w => F w i)).

Lemma list_mean_average A (g : A -> R) (h : A -> config) xs : commutes (fun f => list_mean (fun x => g x * f (h x))%R xs).
Proof.
  intros n F. unfold list_mean.
  rewrite (@lsum_ext0 _ _ (fun x => average n (fun i => g x * F (h x) i))%R).
  2:{ intros x. apply average_mul. }
  rewrite lsum_average. apply average_div.
Qed.
Lemma eq_mean_commutes n L k st eq : commutes (eq_mean n L k st eq).
Proof. unfold eq_mean. apply (list_mean_average _ (fun x => sgn (SweepSpec.weight n L k st (snd x)))). Qed.
Lemma un_mean_commutes n L k st un l : commutes (un_mean n L k st un l).
Proof. unfold un_mean. apply (list_mean_average _ (fun s => sgn (SweepSpec.weight n L k st s))). Qed.

(** what the code records for bonds depends on the Green's functions of the sites only *)
Section Agree.
Variables (N : Z) (w w' : config).
Hypothesis H : agree N w w'.
Lemma agree_bare A B : modes_in N A -> modes_in N B -> bare w A B = bare w' A B.
Proof.
  intros HA HB. unfold bare. apply lsum_ext_in. intros [[x a] b] Hi. apply lsum_ext_in. intros [[y c] d] Hj.
  destruct (proj1 (Forall_forall _ _) HA _ Hi), (proj1 (Forall_forall _ _) HB _ Hj). cbn [fst snd] in *.
  rewrite (agree_t0 N w w' H), (agree_c N w w' H) by assumption.
  destruct (proj2 H (fst a) (snd b) (snd a)) as (-> & _); try assumption.
  destruct (proj2 H (fst c) (snd d) (snd c)) as (_ & -> & _); try assumption. reflexivity.
Qed.
Lemma agree_ubond_code f i j n1 n2 : 0 <= i < N -> 0 <= j < N -> (forall d, 0 <= n1 d < N) -> (forall d, 0 <= n2 d < N) ->
  ubond_code f w i j n1 n2 = ubond_code f w' i j n1 n2.
Proof.
  intros Hi Hj H1 H2. destruct f; try (apply (agree_u_bond N w w' H); assumption).
  cbn [ubond_code]. apply agree_bare; solve [unfold modes_in; cbn; repeat (apply Forall_cons; [cbn; auto|]); apply Forall_nil].
Qed.
End Agree.

Section Averages.
Variable p : sim_params.
Hypotheses (H2 : 0 < sp_Nx p) (H3 : 0 < sp_Ny p).
Notation Ncell := (sp_Nx p * sp_Ny p).
Notation plus k i := (cell_plus (sp_Nx p) (sp_Ny p) (sp_pbc_shift p) k i).
(** neighbours without the shift *)
Notation nb o c := (fun d => site Ncell (cell_step (sp_Nx p) (sp_Ny p) 0 d c) o).

(** results as recorded by the code *)
Definition pair_code (f : mfield) (o i j : Z) (w : config) : R :=
  pair_correlation w (pair_op (site Ncell i o) (pair_shape f (nb o i))) (pair_op (site Ncell j o) (pair_shape f (nb o j))).
Definition bond_code (f : ufield) (o i j : Z) (w : config) : R :=
  ubond_code f w (site Ncell i o) (site Ncell j o) (nb o i) (nb o j).
Definition eq_code mean (m : meas) : Prop := forall f o d, In f pair_fields -> 0 <= o < sp_Norb p -> 0 <= d < Ncell ->
  val (m_arr m f) (d + Ncell * o) = mean (fun w => average Ncell (fun i => pair_code f o i (plus d i) w)).
Definition un_code (mean : nat -> (config -> R) -> R) (u : umeas) : Prop := forall f l o d, In f u_bond_fields -> 0 <= l < sp_L p -> 0 <= o < sp_Norb p -> 0 <= d < Ncell ->
  val (u_arr u f) (d + (Ncell * o + Ncell * sp_Norb p * l)) = mean (Z.to_nat l) (fun w => average Ncell (fun i => bond_code f o i (plus d i) w)).
Definition eq_site_code mean (m : meas) : Prop := forall f o i j, In f pair_fields -> 0 <= o < sp_Norb p -> 0 <= i < Ncell -> 0 <= j < Ncell ->
  val (m_arr m f) (cells_pos Ncell o i j) = mean (pair_code f o i j).
Definition un_site_code (mean : nat -> (config -> R) -> R) (u : umeas) : Prop := forall f l o i j, In f site_bond_fields ->
  0 <= l < sp_L p -> 0 <= o < sp_Norb p -> 0 <= i < Ncell -> 0 <= j < Ncell ->
  val (u_arr u f) (ucells_pos (sp_Norb p) Ncell l o i j) = mean (Z.to_nat l) (bond_code f o i j).

Lemma site_in o i : 0 <= o < sp_Norb p -> 0 <= i < Ncell -> 0 <= site Ncell i o < Ncell * sp_Norb p.
Proof. intros. now apply site_range. Qed.

Lemma results_averages mean a s : commutes mean -> equal_time_results p mean a -> site_results p mean s -> eq_code mean a -> eq_site_code mean s ->
  m_sign a = m_sign s -> m_nsampl a = m_nsampl s -> averages_of (sp_Norb p) (sp_Nx p) (sp_Ny p) (sp_pbc_shift p) a s.
Proof.
  intros C [_ A1 A2 A3 A4 A5 A6 _] [_ B1 B2 B3 _] A7 B4 ES EN. unfold averages_of.
  assert (forall k c, 0 <= plus k c < Ncell) as RP by (intros; apply MeasureFacts.plus_range; assumption).
  split; [|split; [|split; [|split; [|split]]]]; auto.
  - intros f o q k Hf Ho Hq Hk. rewrite (A1 f o q k) by assumption. rewrite C. apply average_ext. intros i Hi.
    symmetry. apply B1; [assumption|now apply site_in|apply site_in; auto].
  - intros f o Hf Ho. cbn [In] in Hf.
    destruct Hf as [<-|[<-|[<-|[]]]]; rewrite ?A2, ?A3, ?A4 by assumption; rewrite C; apply average_ext; intros i Hi;
      destruct (B2 (site Ncell i o) (site_in o i Ho Hi)) as (Q1 & Q2 & Q3); congruence.
  - intros f o k Hf Ho Hk. rewrite (A7 f o k) by assumption. rewrite C. apply average_ext. intros i Hi.
    symmetry. now apply B4.
  - intros f i j Hf Hi Hj. destruct (B3 i j Hi Hj) as [Q1 Q2].
    cbn [In] in Hf. destruct Hf as [<-|[<-|[]]].
    + rewrite Q1. rewrite <- A5 by lia. f_equal. ring.
    + rewrite Q2. rewrite <- A6 by lia. f_equal. ring.
Qed.

Lemma unequal_results_averages mean a s : (forall l, commutes (mean l)) ->
  unequal_time_results p mean a -> site_unequal_results p mean s -> un_code mean a -> un_site_code mean s ->
  u_sign a = u_sign s -> u_nsampl a = u_nsampl s -> u_averages_of (sp_Norb p) (sp_Nx p) (sp_Ny p) (sp_pbc_shift p) (sp_L p) a s.
Proof.
  intros C [A1 _] [B1 _] A2 B2 ES EN. unfold u_averages_of.
  assert (forall k c, 0 <= plus k c < Ncell) as RP by (intros; apply MeasureFacts.plus_range; assumption).
  split; [|split; [|split]]; auto.
  - intros f l o q k Hf Hl Ho Hq Hk. rewrite (A1 f l o q k) by assumption. rewrite C. apply average_ext. intros i Hi.
    symmetry. apply B1; [assumption|assumption|now apply site_in|apply site_in; auto].
  - intros f l o k Hf Hl Ho Hk.
    rewrite (A2 f l o k) by (try assumption; cbn in Hf |- *; tauto).
    rewrite C. apply average_ext. intros i Hi.
    symmetry. apply B2; auto.
Qed.
End Averages.
