(** C20, C23, C24: the kinetic matrix. *)
From Coq Require Import ZArith NArith List Reals Lia Lra Bool.
From Verif Require Import Base BaseFacts SumsFacts SimParams ParamSpec Lattice LatticeSpec LatticeFacts
  Kinetic KineticSpec KineticFacts.
Import ListNotations.
Local Open Scope Z_scope.

(** C23: the matrix handed to the matrix exponential is symmetric, its diagonal is
    -dt (eps_o - mu), and every other entry is dt times the sum of the amplitudes of all bonds
    between the two sites.  (All array accesses are in bounds.) *)
Theorem C23_kinetic_matrix : forall p, well_formed p ->
  let Ncell := sp_Nx p * sp_Ny p in
  let N := sp_Norb p * Ncell in
  exists M, kinetic_matrix p = Some M /\ Z.of_nat (length M) = N * N /\
    (forall r s, 0 <= r < N -> 0 <= s < N -> entry N M r s = entry N M s r) /\
    (forall a o b q, 0 <= a < Ncell -> 0 <= b < Ncell -> 0 <= o < sp_Norb p -> 0 <= q < sp_Norb p ->
       entry N M (a + o * Ncell) (b + q * Ncell) =
       if (a =? b) && (o =? q) then (- sp_dt p * (nth (Z.to_nat o) (sp_eps p) 0 - sp_mu p))%R
       else (sp_dt p * total_amplitude p a o b q)%R).
Proof.
  intros p WF Ncell N. destruct (kinetic_ok p WF) as (M & E & HL & H).
  exists M; split; [exact E|]. split; [exact HL|]. split; [|exact H].
  assert (0 < Ncell) as Hc by (apply HNcell; auto).
  assert (forall r, 0 <= r < N -> 0 <= r mod Ncell < Ncell /\ 0 <= r / Ncell < sp_Norb p /\
            r = r mod Ncell + r / Ncell * Ncell) as Hr.
  { intros r Hr. split; [apply Z.mod_pos_bound; auto|]. split.
    - split; [apply Z.div_pos; lia|]. apply Z.div_lt_upper_bound; unfold N in Hr; lia.
    - pose proof (Z.div_mod r Ncell). lia. }
  intros r s H1 H2. destruct (Hr r H1) as (A1 & A2 & A3). destruct (Hr s H2) as (B1 & B2 & B3).
  rewrite A3, B3. etransitivity; [apply H; auto|]. symmetry. etransitivity; [apply H; auto|].
  rewrite (Z.eqb_sym (s mod Ncell)), (Z.eqb_sym (s / Ncell)).
  destruct (_ && _) eqn:Eb.
  - apply andb_true_iff in Eb as [_ Eb]. apply Z.eqb_eq in Eb. now rewrite Eb.
  - f_equal. apply total_sym.
Qed.
Print Assumptions C23_kinetic_matrix.

(** two orbitals on a 2 x 2 lattice with all kinds of bonds *)
Definition demo : sim_params :=
  mk_sim_params 2 2 2 1
    (mk_bonds [0; 0; 3; 0] [1; 2; 5; 1] [1; 0; 7; 2] [0; 1; 0; 1] [1; 1; 1; 4])%R
    [4; 4]%R [1; 2]%R 3 false (mk_phonon_params [0; 0] [0; 0] 0 0 0 0)%R
    (1/8) 4 2 2 0 1 1 0 1 0.
Example C23_case : well_formed demo.
Proof. unfold well_formed; cbn; repeat split; try lia; repeat constructor. Qed.
(** orbital 0 of cells 0 and 1 are connected by two bonds ab (periodic boundary) *)
Example C23_case_bonds : total_amplitude demo 0 0 1 0 = 2%R.
Proof. cbv -[Rplus IZR]. lra. Qed.

(** C24: moving both cells by the same displacement of the sum map does not change an entry. *)
Theorem C24_kinetic_translation_invariant : forall p m0, well_formed p ->
  let Ncell := sp_Nx p * sp_Ny p in
  let N := sp_Norb p * Ncell in
  Z.of_nat (length m0) = Ncell * Ncell ->
  exists M m, kinetic_matrix p = Some M /\
    lattice_sum_map (sp_Nx p) (sp_Ny p) (sp_pbc_shift p) m0 = Some m /\
    forall a b d o q, 0 <= a < Ncell -> 0 <= b < Ncell -> 0 <= d < Ncell ->
      0 <= o < sp_Norb p -> 0 <= q < sp_Norb p ->
      entry N M (at_ m (a + Ncell * d) + o * Ncell) (at_ m (b + Ncell * d) + q * Ncell) =
      entry N M (a + o * Ncell) (b + q * Ncell).
Proof.
  intros p m0 WF Ncell N HL0. destruct (kinetic_ok p WF) as (M & E & _ & H).
  pose proof WF as (_ & Hx & Hy & Hs & _).
  destruct (sum_map_ok _ _ _ Hx Hy Hs m0 HL0) as (m & Em & _ & Hm).
  exists M, m. split; [exact E|]. split; [exact Em|].
  intros a b d o q Ha Hb Hd Ho Hq. unfold Ncell. rewrite !Hm by auto.
  assert (forall c, cplus (sp_Nx p) (sp_Ny p) (sp_pbc_shift p) c d = moved p c (coords (sp_Nx p) d)) as Ec
    by reflexivity.
  rewrite !Ec.
  etransitivity; [apply H; auto; apply mv_range; auto|]. symmetry. etransitivity; [apply H; auto|].
  rewrite total_moved by auto.
  destruct (Z.eqb_spec a b), (Z.eqb_spec (moved p a (coords (sp_Nx p) d)) (moved p b (coords (sp_Nx p) d)));
    subst; auto; [congruence|].
  apply mv_inj in e; auto. congruence.
Qed.
Print Assumptions C24_kinetic_translation_invariant.

Example C24_case : well_formed demo /\ Z.of_nat (length (repeat 0 16)) = (2 * 2) * (2 * 2).
Proof. split; [exact C23_case|reflexivity]. Qed.

(** C20, second half, is false: validation accepts a negative pbc_shift, and then the kinetic
    matrix is written out of bounds. *)
Theorem C20_indices_in_range_refuted : exists p, valid_params p /\
  Forall (fun t => Z.of_nat (length t) = sp_Norb p * sp_Norb p)
    [t_aa (sp_t p); t_ab (sp_t p); t_ac (sp_t p); t_ad (sp_t p); t_bc (sp_t p)] /\
  Z.of_nat (length (sp_eps p)) = sp_Norb p /\
  kinetic_matrix p = None.
Proof.
  exists (mk_sim_params 1 2 1 (-1) (mk_bonds [0] [1] [1] [0] [0])%R [4]%R [0]%R 0 false
    (mk_phonon_params [0] [0] 0 0 0 0)%R (1/8) 4 2 2 0 1 1 0 1 0).
  split; [|split; [|split]].
  - split; cbn; try lia; try (exists 2; lia); try (exists 1; lia); try discriminate.
    intros i Hi. replace i with 0 by lia. reflexivity.
  - cbn. repeat constructor.
  - reflexivity.
  - cbv -[Rplus Rminus Rmult Ropp Rdiv IZR]. reflexivity.
Qed.
Print Assumptions C20_indices_in_range_refuted.
