(** C39: unequal time Green's functions, and the measurements made from them. *)
From Coq Require Import ZArith List Reals Lia Lra.
From mathcomp Require Import all_ssreflect ssralg matrix.
From Verif Require Import Base BaseFacts Sums SumsFacts RField BlasFacts MatSpec MatFacts TimeStep TimeStepSpec TimeStepFacts Lapack LapackSpec LapackExists
  GreenSpec GreenFacts SimParams ParamParser ParamSpec LatticeSpec WickSpec AccumFacts MeasureSpec UMeasure UMeasureSpec UMeasureFacts UMeasureSeqFacts
  BlockCyclic UnequalTime UnequalTimeSpec UnequalTimeFacts.
Set Implicit Arguments.
Unset Strict Implicit.
Unset Printing Implicit Defensive.
Local Open Scope ring_scope.
Import GRing.Theory.

(** C39: for every LAPACK that meets its contracts, every dimension n >= 1, number of time slices L
    and block length b with at least two blocks, all invertible time step matrices M 0, ..., M (L-1)
    for which 1 + M (L-1) ... M 0 is invertible, and every initial contents of the arrays, the
    computation is defined, and afterwards the three arrays contain G(tau_i,0), G(0,tau_i) and
    G(tau_i,tau_i) for every time slice i.  Missing: a single block, b = L, see below. *)
Theorem C39_unequal_time_greens_partial : forall la junk n L b (M : nat -> 'M[R]_n) t (H Gtau0 G0tau Geqlt : list R),
  lapack_ok la -> (0 < n)%N -> (2 * b <= L)%N -> tsm_holds L b M t -> 1%:M + oprod M 0 L \in unitmx ->
  List.length H = (n * (L %/ b) * (n * (L %/ b)))%N ->
  List.length Gtau0 = (n * L * n)%N -> List.length G0tau = (n * n * L)%N -> List.length Geqlt = (n * n * L)%N ->
  exists H' Gtau0' G0tau' Geqlt',
    unequal_time_greens la junk (Z.of_nat n) (Z.of_nat L) t H Gtau0 G0tau Geqlt = Some (H', (Gtau0', G0tau', Geqlt')) /\
    List.length H' = List.length H /\ List.length Gtau0' = List.length Gtau0 /\
    List.length G0tau' = List.length G0tau /\ List.length Geqlt' = List.length Geqlt /\
    forall i, (i < L)%N ->
      column_block n L Gtau0' i = green_tau0 M L i /\
      matrix_no n G0tau' i = green_0tau M L i /\
      matrix_no n Geqlt' i = green_eqlt M L i.
Proof.
  move=> la junk n L b M t H g1 g2 g3 LA Hn HLb HT HU E0 E1 E2 E3.
  have L1 : lenZ g1 = (Z.of_nat n * Z.of_nat L * Z.of_nat n)%Z by rewrite /lenZ E1 -!multE; lia.
  have L2 : lenZ g2 = (Z.of_nat n * Z.of_nat n * Z.of_nat L)%Z by rewrite /lenZ E2 -!multE; lia.
  have L3 : lenZ g3 = (Z.of_nat n * Z.of_nat n * Z.of_nat L)%Z by rewrite /lenZ E3 -!multE; lia.
  have [H' [g1' [g2' [g3' [E [S' [M1 [M2 [M3 HM]]]]]]]]] := unequal_ok junk LA Hn HLb HT HU (square_len E0) L1 L2 L3.
  exists H', g1', g2', g3'. split => //. split; first by rewrite E0 (len_square S').
  move: L1 L2 L3 M1 M2 M3. rewrite /lenZ => L1 L2 L3 M1 M2 M3. do 3!(split; first lia). done.
Qed.
Print Assumptions C39_unequal_time_greens_partial.

(** one site, four slices in two blocks; G(tau_1,0) and G(0,tau_1) *)
Definition demo_B (l : nat) : R := nth R0 [:: 2; 3; 1/2; 4]%coqR l.
Definition demo_tsm : tsm :=
  mk_tsm [:: [:: 2]; [:: 3]; [:: 1/2]; [:: 4] ]%coqR [:: [:: 1/2]; [:: 1/3]; [:: 2]; [:: 1/4] ]%coqR [:: [:: 6]; [:: 2] ]%coqR 1 4 2 2.
Example C39_case_holds : tsm_holds 4 2 (fun l => (demo_B l)%:M : 'M[R]_1) demo_tsm /\
  1%:M + oprod (fun l => (demo_B l)%:M : 'M[R]_1) 0 4 \in unitmx.
Proof.
  split.
  - split; last split.
    + by constructor => //; split => //; repeat constructor.
    + move=> [|[|[|[|//]]]] _; rewrite /mat_at /= !mat_scalar -!scalar_mxM; (split; first by []); split; congr (_ %:M);
      rewrite /demo_B /= -RmultE -R1E; lra.
    + move=> [|[|q]] Hq; last by []; rewrite oprod_scalar /mat_at /= mat_scalar big_ltn // big_ltn // big_geq // /demo_B /=;
      congr (_ %:M); rewrite -!RmultE -?R1E; lra.
  - rewrite oprod_scalar -raddfD unitmxE det_scalar1 unitfE big_ltn // big_ltn // big_ltn // big_ltn // big_geq // /demo_B /=.
    apply/eqP. rewrite -!RmultE -RplusE -R1E -R0E. lra.
Qed.

Example C39_case : exists la H Gtau0 G0tau Geqlt, lapack_ok la /\
  unequal_time_greens la (fun _ => R0) 1 4 demo_tsm [:: 7; 7; 7; 7]%coqR [:: 7; 7; 7; 7]%coqR [:: 7; 7; 7; 7]%coqR [:: 7; 7; 7; 7]%coqR
    = Some (H, (Gtau0, G0tau, Geqlt)) /\
  nth R0 Gtau0 1 = (2/13)%coqR /\ nth R0 G0tau 1 = (-6/13)%coqR /\ nth R0 Geqlt 1 = (1/13)%coqR.
Proof.
  have [la LA] := lapack_exists. exists la. have [HT HU] := C39_case_holds.
  have [H [g1 [g2 [g3 [E [_ [_ [_ [_ HG]]]]]]]]] := @C39_unequal_time_greens_partial la (fun _ => R0) 1 4 2 _ demo_tsm
    [:: 7; 7; 7; 7]%coqR [:: 7; 7; 7; 7]%coqR [:: 7; 7; 7; 7]%coqR [:: 7; 7; 7; 7]%coqR LA isT isT HT HU erefl erefl erefl erefl.
  exists H, g1, g2, g3. split => //. split; first exact: E.
  have [E1 [E2 E3]] := HG 1%N isT. move: HU E1 E2 E3.
  rewrite /green_tau0 /green_0tau /green_eqlt /cyclic_flow /= !oprod_scalar -!scalar_mxM -!raddfD => HU.
  have I : invmx (1 + \prod_(0 <= l < 0 + 4) demo_B l)%:M = (/13)%coqR%:M :> 'M[R]_1.
  { symmetry. apply: inv_unique. rewrite -scalar_mxM big_ltn // big_ltn // big_ltn // big_ltn // big_geq // /demo_B /=.
    congr (_ %:M). rewrite -!RmultE -RplusE -R1E. lra. }
  have J : invmx (1 + \prod_(0 <= l < 0 + 1) demo_B l * \prod_(1 <= l < 1 + (4 - 1)) demo_B l)%:M = (/13)%coqR%:M :> 'M[R]_1.
  { symmetry. apply: inv_unique. rewrite -scalar_mxM big_ltn // big_geq // big_ltn // big_ltn // big_ltn // big_geq // /demo_B /=.
    congr (_ %:M). rewrite -!RmultE -RplusE -R1E. lra. }
  rewrite I J -!scalar_mxM => /matrixP /(_ ord0 ord0) + /matrixP /(_ ord0 ord0) + /matrixP /(_ ord0 ord0).
  rewrite !mxE /= => -> -> ->. rewrite !mulr1n big_ltn // big_geq // big_ltn // big_ltn // big_ltn // big_geq // /demo_B /=.
  rewrite -!RmultE -?RoppE -?R1E. by split; [|split]; lra.
Qed.

(** C39, b = L: with L = prodBlen, which passes the validation together with a positive number of
    unequal time measurements, there is a single product of time step matrices, and the
    computation of the Green's functions accesses memory outside of the array, for every input. *)
Theorem C39_one_block_refuted : exists p, validate p = Some 0%Z /\ (0 < sp_nuneqlt p)%Z /\
  forall la junk t H g1 g2 g3, ts_numBprod t = (sp_L p / sp_prodBlen p)%Z ->
    unequal_time_greens la junk (sp_Norb p * (sp_Nx p * sp_Ny p)) (sp_L p) t H g1 g2 g3 = None.
Proof.
  exists (mk_sim_params 1 4 4 0 (mk_bonds [:: 0]%coqR [:: 1]%coqR [:: 1]%coqR [:: 0]%coqR [:: 0]%coqR) [:: 4]%coqR [:: 0]%coqR 0%coqR false
  (mk_phonon_params [::] [::] 0 0 0 0)%coqR (1/8)%coqR 8 8 8 10 20 2 1 7 0).
  split; first by rewrite /validate /= /check_taa /for_range /= /is_zero; case: Req_EM_T.
  split => // la junk t H g1 g2 g3 Et. rewrite /unequal_time_greens Et.
  case: (uneq_identity _ _ _) => //= H1. by case: (uneq_blocks _ _ _ _).
Qed.
Print Assumptions C39_one_block_refuted.

(** C39, complete measurements.  Starting from a freshly allocated structure, any sequence of calls of
    AccumulateUnequalTimeMeasurement with time step matrices as above (different ones in each call)
    is defined.  Afterwards every entry of the Green's function, density and spin correlation arrays
    is the sum over all samples of the sign of the sample times the average over all cells of the
    expectation value at time difference l, evaluated with the unequal time Green's functions of the
    sample.  Missing: a single block, b = L, as for C39. *)
Theorem C39_measurements_partial : forall la junk Norb Nx Ny shift n L b xs (Hu Hd : list R),
  (0 < Norb)%Z -> (0 < Nx)%Z -> (0 < Ny)%Z -> (0 <= shift)%Z -> (0 < b)%N -> (2 * b <= L)%N ->
  Z.of_nat n = (Nx * Ny * Norb)%Z -> lapack_ok la ->
  List.length Hu = (n * (L %/ b) * (n * (L %/ b)))%N -> List.length Hd = (n * (L %/ b) * (n * (L %/ b)))%N ->
  List.Forall (fun x => exists Mu Md : nat -> 'M[R]_n, sample_of L b Mu Md x) xs ->
  let Ncell := (Nx * Ny)%Z in let N := Z.of_nat n in
  exists m0 Hu' Hd' m (cs : list (R * cur_greens)),
    allocate_umeas junk Norb Nx Ny shift (Z.of_nat L) = Some m0 /\
    measure_samples la xs Hu Hd m0 = Some (Hu', Hd', m) /\
    List.Forall2 (fun x s => fst s = sa_sign x /\
      forall Mu Md : nat -> 'M[R]_n, sample_of L b Mu Md x -> greens_match L Mu Md (snd s)) xs cs /\
    (forall f l o p k, In f u_two_point_fields ->
       (0 <= l < Z.of_nat L)%Z -> (0 <= o < Norb)%Z -> (0 <= p < Norb)%Z -> (0 <= k < Ncell)%Z ->
       val (u_arr m f) (uentry Norb Ncell o p l k) =
         lsum (fun s => Rmult (fst s) (average Ncell (fun i => u_two_point f (uconfig N (Z.of_nat L) l (snd s))
           (site Ncell i o) (site Ncell (cell_plus Nx Ny shift k i) p)))) cs) /\
    u_sign m = lsum sa_sign xs /\ u_nsampl m = Z.of_nat (List.length xs).
Proof.
  move=> la junk Norb Nx Ny sh n L b xs Hu Hd H1 H2 H3 H4 Hb HLb HN LA Eu Ed HX Ncell N.
  have HLz : (0 < Z.of_nat L)%Z by move/ltP: Hb; move/leP: HLb; rewrite -multE; lia.
  have [m0 [E0 [M0 [S0 N0]]]] := allocate_umeas_ok Norb Nx Ny sh (Z.of_nat L) H1 H2 H3 H4 HLz junk.
  have [Hu' [Hd' [m [cs [Em [_ [_ [F2 [Fc Ea]]]]]]]]] := measure_ok H1 H2 H3 HN LA Hb HLb M0 HX (square_len Eu) (square_len Ed).
  have [m' [Ea' [M' [S' N']]]] := uaccumulate_all_ok Norb Nx Ny sh (Z.of_nat L) H1 H2 H3 HLz cs m0 _ Fc M0.
  move: Ea'. rewrite Ea => -[Em']. subst m'.
  exists m0, Hu', Hd', m, cs. split => //. split => //. split => //. split; last split.
  - move=> f l o p k Hf Hl Ho Hp Hk.
    have Re : (0 <= uentry Norb Ncell o p l k < ufield_len Norb (Nx * Ny) (Z.of_nat L) f)%Z.
    { have Hr := uentry_range Norb Nx Ny (Z.of_nat L) H1 H2 H3 HLz l o p k Hl Ho Hp Hk.
      repeat (destruct Hf as [<-|Hf]; [exact Hr|]). destruct Hf. }
    change (val (u_arr m f)) with (rat (u_arr m f)). rewrite (arr_get (uo_arr _ _ _ _ _ _ _ M' f) Re) Rplus_0_l.
    have lsum_ext : forall (A : Type) (f g : A -> R) l, (forall x, f x = g x) -> lsum f l = lsum g l.
    { move=> A f1 g1 l1 Hfg. elim: l1 => //= a l1 IH. by rewrite /lsum /= Hfg -/(lsum f1 l1) -/(lsum g1 l1) IH. }
    apply: lsum_ext => s. rewrite /N HN. exact: uinc_two_point.
  - rewrite S' S0 Rplus_0_l. clear -F2. elim: F2 => //= x s xs' cs' [E _] _ IH. by rewrite /lsum /= E -/(lsum fst cs') IH.
  - rewrite N' N0. clear -F2. have -> : List.length xs = List.length cs by elim: F2 => //= *; congr S. lia.
Qed.
Print Assumptions C39_measurements_partial.

Example C39_measurements_case : exists la, lapack_ok la /\ exists m0 Hu Hd m,
  allocate_umeas (fun _ => 7%Z) 1 1 1 0 4 = Some m0 /\
  measure_samples la [:: mk_sample (fun _ => R0) 1%coqR demo_tsm demo_tsm; mk_sample (fun _ => R1) (-1)%coqR demo_tsm demo_tsm]
    [:: 7; 7; 7; 7]%coqR [:: 7; 7; 7; 7]%coqR m0 = Some (Hu, Hd, m) /\ u_nsampl m = 2%Z /\ u_sign m = 0%coqR.
Proof.
  have [la LA] := lapack_exists. exists la. split => //. have [HT HU] := C39_case_holds.
  have [|m0 [Hu [Hd [m [cs [E0 [E [_ [_ [Es En]]]]]]]]]] := @C39_measurements_partial la (fun _ => 7%Z) 1 1 1 0 1 4 2
    [:: mk_sample (fun _ => R0) 1%coqR demo_tsm demo_tsm; mk_sample (fun _ => R1) (-1)%coqR demo_tsm demo_tsm]
    [:: 7; 7; 7; 7]%coqR [:: 7; 7; 7; 7]%coqR erefl erefl erefl (Z.le_refl 0) isT isT erefl LA erefl erefl.
  { repeat constructor; by exists (fun l => (demo_B l)%:M), (fun l => (demo_B l)%:M). }
  exists m0, Hu, Hd, m. split => //. split; first exact: E. split; first exact: En. rewrite Es /lsum /=. lra.
Qed.
