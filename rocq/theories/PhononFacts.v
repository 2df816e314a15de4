(** Proofs about Monte Carlo sweeps with phonons. *)
From Coq Require Import ZArith List Reals Permutation Lia Lra.
From mathcomp Require Import all_ssreflect ssralg matrix.
From Verif Require Import Base BaseFacts Sums SumsFacts RealOps RField SimParams ParamParser Blas BlasFacts MatProd MatSpec MatFacts TimeStep TimeStepSpec
  TimeStepFacts Strat StratSpec GreenUpdate GreenSpec GreenFacts Lapack LapackSpec TimeFlow TimeFlowSpec TimeFlowFacts
  GreenConstruct GreenConstructFacts RandSource Sweep SweepSpec SweepFacts PhononSweep PhononSpec PhononFieldFacts PhononLoopFacts.
Set Implicit Arguments.
Unset Strict Implicit.
Unset Printing Implicit Defensive.
Local Open Scope ring_scope.
Import GRing.Theory.

(** two loops in lockstep, unless the first one fails *)
Lemma for_range_sim_or (A B : Type) (Rel : Z -> A -> B -> Prop) (P : Prop) lo hi f g a b : (lo <= hi)%Z ->
  (forall i a b, (lo <= i < hi)%Z -> Rel i a b ->
     (exists a' b', f i a = Some a' /\ g i b = Some b' /\ Rel (i + 1)%Z a' b') \/ (f i a = None /\ P)) ->
  Rel lo a b -> (exists a' b', for_range lo hi f a = Some a' /\ for_range lo hi g b = Some b' /\ Rel hi a' b') \/ (for_range lo hi f a = None /\ P).
Proof.
  rewrite /for_range => Hle. have : (lo + Zn (Z.to_nat (hi - lo)) = hi)%Z by lia.
  move: (Z.to_nat _) => c. clear Hle. elim: c lo a b => [|c IH] lo a b Hc Hstep H0.
  - left. exists a, b. do 2 split => //. have -> // : hi = lo by lia.
  - have [|[a1 [b1 [E1 [E2 H1]]]]|[E1 HP]] := Hstep lo a b _ H0; first lia.
    + rewrite /= E1 E2 /=. apply: IH => //; first lia. move=> i a2 b2 Hi. apply: Hstep. lia.
    + right. by rewrite /= E1.
Qed.
Lemma for_range_none (A : Type) lo hi (f : Z -> A -> option A) a : (hi <= lo)%Z -> for_range lo hi f a = Some a.
Proof. move=> H. rewrite /for_range. by have -> : Z.to_nat (hi - lo) = 0%N by lia. Qed.

(** the chain depends on the weight only by ratios *)
Lemma metropolis_ext (RS : Type) (rng : rand_source RS) n W W' l c :
  (forall s s', Rdiv (Rabs (W s')) (Rabs (W s)) = Rdiv (Rabs (W' s')) (Rabs (W' s))) ->
  metropolis_slice rng n W l c = metropolis_slice rng n W' l c.
Proof.
  move=> H. case: c => [[seed order] s]. rewrite /metropolis_slice. case: (r_shuffle _ _ _ _) => [[[seed' order']|]|] //=.
  have -> // : forall l sites sd s, metropolis_sites rng n W l sites sd s = metropolis_sites rng n W' l sites sd s.
  move=> l'. elim=> [|i sites IH] sd s' //=. case: (r_uniform _ _) => [[u sd']|] //=. by rewrite IH H.
Qed.
Lemma ratio_scale a c e : Rlt R0 e -> Rdiv (Rabs (Rmult a e)) (Rabs (Rmult c e)) = Rdiv (Rabs a) (Rabs c).
Proof.
  move=> He. rewrite !Rabs_mult (Rabs_pos_eq e); last lra. rewrite /Rdiv.
  case: (Req_EM_T (Rabs c) 0) => [->|Hc]; first by rewrite Rmult_0_l Rinv_0 !Rmult_0_r. by field; split => //; lra.
Qed.

(** logdet and the determinant *)
Lemma exp_logdet n (A : 'M[R]_n) G : green_of A G -> exp (gf_logdet G) = Rinv (Rabs (\det (1%:M + A))).
Proof.
  move=> HG. have H := green_det HG. have Hnz := green_nz HG. rewrite -(go_det HG) in H.
  have Ha : Rmult (Rmult (IZR (gf_sgndet G)) (exp (gf_logdet G))) (\det (1%:M + A)) = R1 by [].
  have := congr1 Rabs Ha. rewrite !Rabs_mult Rabs_R1.
  have -> : Rabs (IZR (gf_sgndet G)) = R1.
  { case: (go_sgn HG) => ->; [by rewrite Rabs_R1 | by rewrite Rabs_Ropp Rabs_R1]. }
  rewrite (Rabs_pos_eq (exp _)); last exact: Rlt_le (exp_pos _).
  move=> E. have Hp := Rabs_pos_lt _ Hnz. apply: (Rmult_eq_reg_r (Rabs (\det (1%:M + A)))); last lra.
  rewrite Rinv_l; last lra. lra.
Qed.

Section Phonon.
Context {RS MT PT : Type}.
Variables (rng : rand_source RS) (valid : RS -> Prop).
Hypothesis RO : rand_ok rng valid.
Variables (la : lapack) (LA : lapack_ok la) (junk : Z -> R).
Variables (measure : greens_func -> greens_func -> MT -> option MT) (MI : MT -> Prop).
Variables (measure_ph : greens_func -> greens_func -> Z -> list R -> PT -> option PT) (PI : PT -> Prop).
Variables (n L b : nat) (k : kinetic) (st : strat) (ph : phonon_params) (dt : R).
Hypotheses (Hn : (0 < n)%N) (Hn64 : (Zn n < 2^64)%Z) (KO : kinetic_ok n k) (SO : strat_ok (k_Norb k) st) (PO : phonon_ok (k_Norb k) ph).
Hypotheses (HM : measure_ok n measure MI) (HP : measure_ph_ok n L measure_ph PI) (Hdt : dt <> R0).

Notation phstate := (phstate RS MT PT).
Definition SMX (eX : list R) := fun expV s => phonon_step_mx n k expV s eX.
Notation exp_field := (exp_field n k ph dt).
Notation dets := (phonon_dets n L k st ph dt).
Notation W := (phonon_weight n L k st ph dt).
Notation consistent := (@ph_consistent n L k st ph dt RS MT PT valid MI PI b).

Definition cfg (p : phstate) := (mc_seed (p_mc p), mc_order (p_mc p), mc_s (p_mc p), p_X p).

(** acceptance ratio used by the program for a local update *)
Definition code_ratio (s : list Z) (X : list R) (l i : nat) (dx : R) : R :=
  Rmult (Rdiv (Rabs (dets s (shift_one n l i dx X))) (Rabs (dets s X))) (exp (Rmult (Ropp dt) (local_change n L k ph dt l i dx X))).

Lemma dets_wgt s X : dets s X = wgt L st (SMX (exp_field X)) 0 s.
Proof. by []. Qed.

Lemma W_ratio s X X' : Rdiv (Rabs (W s X')) (Rabs (W s X)) =
  Rmult (Rdiv (Rabs (dets s X')) (Rabs (dets s X))) (exp (Rmult (Ropp dt) (Rminus (phonon_energy n L k ph dt X') (phonon_energy n L k ph dt X)))).
Proof.
  rewrite /phonon_weight -?RmultE !Rabs_mult.
  rewrite !(Rabs_pos_eq (exp _)); try exact: Rlt_le (exp_pos _).
  have -> : Rmult (Ropp dt) (Rminus (phonon_energy n L k ph dt X') (phonon_energy n L k ph dt X)) =
    Rplus (Ropp (Rmult dt (phonon_energy n L k ph dt X'))) (Ropp (Ropp (Rmult dt (phonon_energy n L k ph dt X)))) by ring.
  rewrite exp_plus (exp_Ropp (Ropp _)). set a := exp (Ropp _). set c := exp (Ropp _). rewrite /Rdiv Rinv_mult. ring.
Qed.

Lemma code_ratio_weight s X (l : 'I_L) (i : 'I_n) dx : (2 <= L)%N -> List.length X = (L * n)%N ->
  code_ratio s X l i dx = weight_ratio n L k st ph dt s X l i dx.
Proof. move=> HL HX. by rewrite /code_ratio /weight_ratio W_ratio energy_local. Qed.

Lemma coupling_at i : (i < n)%N -> aget (ph_g ph) (Zn i / k_Ncell k) = Some (coupling k ph i).
Proof.
  move=> Hi. have [|_ Ho] := @orb_at n k KO (Zn i); first by move/ltP: Hi; lia.
  rewrite (@aget_nth _ _ _ R0); last by case: PO => -> _. by rewrite /coupling nthE.
Qed.
Lemma frequency_at i : (i < n)%N -> aget (ph_omega ph) (Zn i / k_Ncell k) = Some (frequency k ph i).
Proof.
  move=> Hi. have [|_ Ho] := @orb_at n k KO (Zn i); first by move/ltP: Hi; lia.
  rewrite (@aget_nth _ _ _ R0); last by case: PO => _ ->. by rewrite /frequency nthE.
Qed.
Lemma orb_ok i : (i < n)%N -> cdiv (Zn i) (k_Ncell k) = Some (Zn i / k_Ncell k)%Z.
Proof. move=> Hi. have [|-> _] := @orb_at n k KO (Zn i); [by move/ltP: Hi; lia|by []]. Qed.

Lemma X_at X l i : List.length X = (L * n)%N -> (l < L)%N -> (i < n)%N ->
  aget X (Zn i + Zn l * Zn n) = Some (field_at n X l i).
Proof.
  move=> HX Hl Hi. rewrite posZ (@aget_list _ _ _ R0); last by rewrite HX; apply/ltP; exact: pos_lt. by rewrite /field_at nthE.
Qed.

Lemma SMX_unit X expV s l : List.length X = (L * n)%N -> expV = expVu st \/ expV = expVd st -> field_ok n L s -> (l < L)%N ->
  SMX (exp_field X) expV s l \in unitmx.
Proof.
  move=> HX HV Hs Hl. apply: (@phonon_step_unit n L) Hl => //.
  - by case: HV => ->; [exact: so_u SO|exact: so_d SO].
  - exact: exp_field_len.
  - exact: exp_field_nz.
Qed.

(** state within a slice *)
Record in_slice (l : nat) (p : phstate) : Prop := {
  is_site : site_ok valid L st (SMX (p_expX p)) l (p_mc p);
  is_L : ts_L (mc_tu (p_mc p)) = Zn L;
  is_X : List.length (p_X p) = (L * n)%N;
  is_expX : p_expX p = exp_field (p_X p) }.

Variable rl : list Z -> list R -> nat -> nat -> R -> R.
Hypothesis Hrl : forall s X (l : 'I_L) (i : 'I_n) dx, List.length X = (L * n)%N -> rl s X l i dx = code_ratio s X l i dx.

(** everything but the seed, the phonon field with its exponential and the Green's functions is unchanged *)
Definition same_rest (l : nat) (p p' : phstate) : Prop :=
  mc_order (p_mc p') = mc_order (p_mc p) /\ mc_s (p_mc p') = mc_s (p_mc p) /\ mc_tu (p_mc p') = mc_tu (p_mc p) /\
  mc_td (p_mc p') = mc_td (p_mc p) /\ mc_meas (p_mc p') = mc_meas (p_mc p) /\ p_meas p' = p_meas p /\
  forall expV s l', l' <> l -> (l' < L)%N -> SMX (p_expX p') expV s l' = SMX (p_expX p) expV s l'.

Lemma local_dE_ok w X (l : 'I_L) (i : 'I_n) dx : List.length X = (L * n)%N -> w = frequency k ph i ->
  local_dE dt w dx (Zn L) (Zn n) (Zn l) (Zn i) X = Some (local_change n L k ph dt l i dx X).
Proof.
  move=> HX ->. have HL : (0 < L)%N by apply: leq_ltn_trans (ltn_ord l). rewrite /local_dE.
  have -> : (Zn l + 1 = Zn l.+1)%Z by lia.
  have -> : (Zn l + Zn L - 1 = Zn (l + L - 1)%N)%Z by rewrite -minusE -plusE; move/ltP: HL; lia.
  rewrite !cmodE //. cbn [obind]. rewrite /rdiv. case: Req_EM_T => E.
  { exfalso. by case: (Rmult_integral _ _ E). }
  cbn [obind]. rewrite !X_at //; try exact: ltn_pmod. cbn [obind]. congr Some. rewrite /local_change /Rsqr.
  set a := field_at _ _ _ _. set c := field_at _ _ _ _. set d := field_at _ _ _ _.
  have -> : 0.5%coqR = (/2)%coqR by lra. congr Rmult. congr Rplus. rewrite /Rdiv Rmult_1_l. ring.
Qed.

Lemma local_update_ok (l : 'I_L) (i : 'I_n) p : in_slice l.+1 p ->
  exists p', local_update rng junk k ph dt (Zn l) (Zn i) p = Some p' /\
    chain_local n k ph rng rl l i (cfg p) = Some (cfg p') /\ in_slice l.+1 p' /\ same_rest l p p'.
Proof.
  move=> [[H1 H2 H3 H4 H5] HL HX HE]. have Hi := ltn_ord i. have Hl := ltn_ord l.
  rewrite /local_update H3 HL orb_ok //. cbn [obind]. rewrite coupling_at //. cbn [obind].
  rewrite /chain_local /cfg. case: Req_EM_T => Hg.
  { exists p. split => //. }
  have [u [seed [-> [Hu1 [Hu2 Hu3]]]]] := ro_uniform RO H1. cbn [obind].
  have -> : 0.5%coqR = (/2)%coqR by lra.
  set dx := Rmult (Rminus u _) _.
  set delta := Rminus (exp _) 1.
  have Edel : Rplus 1 delta = exp (Rmult (Rmult (Ropp dt) (coupling k ph i)) dx).
  { have E : forall x, Rplus 1 (Rminus x 1) = x by move=> x; ring. exact: E. }
  have [du [-> [Du1 Du2]]] := rank1_ok junk i delta H4. have [dd [-> [Dd1 Dd2]]] := rank1_ok junk i delta H5. cbn [obind].
  rewrite frequency_at //. cbn [obind]. rewrite (@local_dE_ok _ (p_X p) l i dx) //. cbn [obind].
  have [u' [seed' [-> [Hu1' [Hu2' Hu3']]]]] := ro_uniform RO Hu3. cbn [obind].
  set X' := shift_one n l i dx (p_X p).
  have HX' : List.length X' = (L * n)%N by apply: shift_one_len.
  have Hsh := fun expV s => @step_shift n L k ph dt (p_X p) HX expV s l i dx Hl.
  rewrite -/X' in Hsh.
  have Cy : forall expV, cyclic_flow (SMX (exp_field X') expV (mc_s (p_mc p))) L l.+1 =
      scale_row i (1 + delta) (cyclic_flow (SMX (p_expX p) expV (mc_s (p_mc p))) L l.+1).
  { move=> expV. rewrite HE Edel. apply: (cyclic_scale Hl); [exact: (Hsh _ _).2|exact: (Hsh _ _).1]. }
  rewrite -Cy in Du1 Du2. rewrite -Cy in Dd1 Dd2.
  have Nu := green_nz H4. have Nd := green_nz H5.
  have Ew : rl (mc_s (p_mc p)) (p_X p) l i dx = Rmult (Rabs (Rmult du dd)) (exp (Rmult (Ropp dt) (local_change n L k ph dt l i dx (p_X p)))).
  { rewrite Hrl // /code_ratio. congr Rmult. rewrite !dets_wgt -/X'.
    have EX : forall Y, List.length Y = (L * n)%N -> wgt L st (SMX (exp_field Y)) 0 (mc_s (p_mc p)) = wgt L st (SMX (exp_field Y)) l.+1 (mc_s (p_mc p)).
    { move=> Y HY. symmetry. apply: wgt_slice => //. move=> expV s l'. exact: SMX_unit. }
    rewrite !EX // /wgt -HE Du1 Dd1 -?RmultE. rewrite -RmultE in Du1. set x := \det _ in Nu *. set y := \det _ in Nd *.
    rewrite /Rdiv -Rabs_inv -Rabs_mult. congr Rabs. by field; split. }
  rewrite Ew /accept. case: Rlt_dec => Hacc.
  - have Hdu : du <> 0 by move=> E; move: Hacc; rewrite E Rmult_0_l Rabs_R0 Rmult_0_l; lra.
    have Hdd : dd <> 0 by move=> E; move: Hacc; rewrite E Rmult_0_r Rabs_R0 Rmult_0_l; lra.
    have [Gu1 [Gu2 [Eu1 [Eu2 Hgu]]]] := Du2 Hdu. have [Gd1 [Gd2 [Ed1 [Ed2 Hgd]]]] := Dd2 Hdd.
    rewrite /update_both Eu1. cbn [obind]. rewrite Ed1. cbn [obind]. rewrite Eu2. cbn [obind]. rewrite Ed2. cbn [obind fst snd].
    rewrite X_at //. cbn [obind].
    have -> : aset (p_X p) (Zn i + Zn l * Zn n) (field_at n (p_X p) l i + dx)%coqR = Some X'.
    { rewrite posZ aset_list //. rewrite HX. apply/ltP. exact: pos_lt. }
    cbn [obind]. rewrite X_at //. cbn [obind]. rewrite (shift_one_at HX) // !eqxx /=.
    have -> : aset (p_expX p) (Zn i + Zn l * Zn n) (exp (- dt * coupling k ph i * (field_at n (p_X p) l i + dx)))%coqR = Some (exp_field X').
    { rewrite posZ aset_list; last by rewrite HE (@exp_field_len n L k ph dt _ HX); apply/ltP; exact: pos_lt.
      by rewrite HE /X' (exp_shift_one _ _ _ HX). }
    cbn [obind]. eexists. split; first reflexivity. split => //. split.
    + constructor => //. constructor => //.
    + rewrite /same_rest /=. do 5 (apply: conj; first by []). move=> expV s l' Hne Hl' /=. rewrite HE. exact: (Hsh expV s).2.
  - eexists. split; first reflexivity. split => //.
Qed.

Lemma same_rest_trans l p q r : same_rest l p q -> same_rest l q r -> same_rest l p r.
Proof.
  move=> [A1 [A2 [A3 [A4 [A5 [A6 A7]]]]]] [B1 [B2 [B3 [B4 [B5 [B6 B7]]]]]].
  rewrite /same_rest B1 B2 B3 B4 B5 B6. do 6 (split; first by []). move=> expV s l' Hne Hl'. by rewrite B7 // A7.
Qed.

Lemma local_updates_ok (l : 'I_L) p : in_slice l.+1 p -> List.length (mc_order (p_mc p)) = n ->
  exists r r', local_updates rng junk k ph dt (Zn l) p = Some r /\
    obind (r_shuffle rng (mc_seed (p_mc p)) (Zn n) (mc_order (p_mc p))) (fun sh =>
      match sh with
      | None => Some None
      | Some (seed, order) =>
        obind (for_range 0 (ph_n_local_updates ph)
          (fun j => chain_local n k ph rng rl l (Z.to_nat (nth 0%Z order (Z.to_nat j %% n)))) (seed, order, mc_s (p_mc p), p_X p)) (fun c =>
        Some (Some c))
      end) = Some r' /\
    match r, r' with
    | None, None => True
    | Some p', Some c => c = cfg p' /\ in_slice l.+1 p' /\ List.length (mc_order (p_mc p')) = n /\
        mc_s (p_mc p') = mc_s (p_mc p) /\ mc_tu (p_mc p') = mc_tu (p_mc p) /\
        mc_td (p_mc p') = mc_td (p_mc p) /\ mc_meas (p_mc p') = mc_meas (p_mc p) /\ p_meas p' = p_meas p /\
        forall expV s (l' : nat), l' <> l -> (l' < L)%N -> SMX (p_expX p') expV s l' = SMX (p_expX p) expV s l'
    | _, _ => False
    end.
Proof.
  move=> Hp Ho. case: (Hp) => [[H1 H2 H3 H4 H5] HL HX HE]. rewrite /local_updates H3.
  have [sh [-> Hsh]] := ro_shuffle RO H1 Ho. cbn [obind].
  case: sh Hsh => [[seed order]|] Hsh; last by exists None, None.
  have [Hseed Hperm] := Hsh _ _ erefl.
  set p1 := mk_ph _ _ _ _ _.
  have Hp1 : in_slice l.+1 p1 by constructor => //; constructor.
  have Hlen : List.length order = n by rewrite (Permutation_length Hperm) List.map_length List.seq_length.
  have Hin : List.Forall (fun i => (0 <= i < Zn n)%Z) order.
  { apply/List.Forall_forall => x Hx. have := Permutation_in _ Hperm Hx. rewrite List.in_map_iff => [[y [<- Hy]]].
    move/List.in_seq: Hy. lia. }
  have [p' [c' [E1 [E2 [E3 [E4 E5]]]]]] : exists p' c', for_range 0 (ph_n_local_updates ph) (fun j p =>
      let* r := cmod j (Zn n) in let* i := aget (mc_order (p_mc p)) r in local_update rng junk k ph dt (Zn l) i p) p1 = Some p' /\
      for_range 0 (ph_n_local_updates ph)
          (fun j => chain_local n k ph rng rl l (Z.to_nat (nth 0%Z order (Z.to_nat j %% n)))) (cfg p1) = Some c' /\
      c' = cfg p' /\ in_slice l.+1 p' /\ same_rest l p1 p'.
  { case: (Z_le_gt_dec 0 (ph_n_local_updates ph)) => Hpos; last first.
    { exists p1, (cfg p1). rewrite !for_range_none; try lia. by []. }
    apply: (@for_range_sim _ _ (fun _ p c => c = cfg p /\ in_slice l.+1 p /\ same_rest l p1 p)) => //.
    move=> j q c Hj [-> [Hq Hs]].
    have -> : j = Zn (Z.to_nat j) by lia. rewrite cmodE // Nat2Z.id. cbn [obind]. set r := (_ %% n)%N.
    have Hr : (r < n)%N by exact: ltn_pmod.
    have -> : mc_order (p_mc q) = order by case: Hs.
    rewrite (@aget_list _ _ _ 0%Z); last by rewrite Hlen; apply/ltP.
    cbn [obind]. rewrite nthE.
    have Hi := @Forall_nth_ok _ _ _ r 0%Z Hin. cbv beta in Hi. have {}Hi := Hi ltac:(by rewrite Hlen; apply/ltP).
    set i := List.nth r order 0%Z in Hi *.
    have Hi' : (Z.to_nat i < n)%N by apply/ltP; lia.
    have [q' [F1 [F2 [F3 F4]]]] := @local_update_ok l (Ordinal Hi') q Hq.
    rewrite /= Z2Nat.id in F1; last lia. exists q', (cfg q'). do 2 (split => //). split => //. split => //.
    exact: same_rest_trans Hs F4. }
  rewrite E1. cbn [obind]. rewrite E2. cbn [obind]. do 2 eexists. do 2 (split; first reflexivity).
  case: E5 => B1 [B2 [B3 [B4 [B5 [B6 B7]]]]]. rewrite B1 B2 B3 B4 B5 B6. do 3 (split; first by []). do 5 (split; first by []). exact: B7.
Qed.

(** state between two slices *)
Record at_slice (l : nat) (p : phstate) : Prop := {
  as_slice : slice_ok valid L b st (SMX (p_expX p)) MI l (p_mc p);
  as_X : List.length (p_X p) = (L * n)%N;
  as_expX : p_expX p = exp_field (p_X p);
  as_pmeas : PI (p_meas p) }.

Variables (noHS : bool) (mu : R).

Lemma phonon_slice_ok nw neqlt (l : 'I_L) p : (0 < nw)%N -> (b %| nw)%N -> at_slice l p ->
  exists r r', phonon_slice rng measure measure_ph la junk k noHS st ph dt (Zn nw) neqlt (Zn l) p = Some r /\
    chain_slice n L k st ph dt rng noHS rl (Zn l) (cfg p) = Some r' /\
    match r, r' with
    | None, None => True
    | Some p', Some c => c = cfg p' /\ at_slice l.+1 p'
    | _, _ => False
    end.
Proof.
  move=> Hnw Hb [Hm HX HE HPI]. have Hl := ltn_ord l. rewrite /phonon_slice /chain_slice /cfg Nat2Z.id.
  have [m1 [-> [W1 [W2 [W3 [W4 [W5 [W6 W7]]]]]]]] := wrap_both_ok junk Hl Hm. cbn [obind].
  have Ho : List.length (mc_order m1) = n by rewrite W3; case: Hm.
  have HUX : forall expV s l', expV = expVu st \/ expV = expVd st -> field_ok n L s -> (l' < L)%N -> SMX (p_expX p) expV s l' \in unitmx.
  { move=> expV s l'. rewrite HE. exact: SMX_unit. }
  have [r [r' [-> [-> Hr]]]] : exists r r', (if noHS then Some (Some m1) else hs_sites rng junk k st (Zn l) m1) = Some r /\
    (if noHS then Some (Some (mc_seed (p_mc p), mc_order (p_mc p), mc_s (p_mc p)))
     else metropolis_slice rng n (fun s => W s (p_X p)) (Zn l) (mc_seed (p_mc p), mc_order (p_mc p), mc_s (p_mc p))) = Some r' /\
    match r, r' with
    | None, None => True
    | Some m', Some c => c = (mc_seed m', mc_order m', mc_s m') /\
        site_ok valid L st (SMX (p_expX p)) l.+1 m' /\ List.length (mc_order m') = n /\ mc_tu m' = mc_tu m1 /\ mc_td m' = mc_td m1 /\ mc_meas m' = mc_meas m1 /\
        forall expV (l' : nat), l' <> l -> expV = expVu st \/ expV = expVd st -> SMX (p_expX p) expV (mc_s m') l' = SMX (p_expX p) expV (mc_s m1) l'
    | _, _ => False
    end.
  { case: noHS.
    - do 2 eexists. do 2 (split; first reflexivity). split; first by rewrite W2 W3 W4. by [].
    - have [r [r' [E1 [E2 Hr]]]] := hs_sites_ok RO junk KO SO (@phonon_step_flips n L k (p_expX p)) HUX Hl W1 Ho.
      exists r, r'. split => //. split => //. rewrite -E2 W2 W3 W4. apply: metropolis_ext => s s'.
      have E := ratio_scale (dets s' (p_X p)) (dets s (p_X p)) (exp_pos (Ropp (Rmult dt (phonon_energy n L k ph dt (p_X p))))).
      by rewrite -[LHS]/(Rdiv (Rabs (Rmult _ _)) (Rabs (Rmult _ _))) E !dets_wgt -HE. }
  cbn [obind]. case: r r' Hr => [m2|] [c|] //; last by move=> _; exists None, None.
  move=> [-> [F1 [F2 [F3 [F4 [F5 F6]]]]]].
  case: (Hm) => _ _ Hu Hd HMe.
  set p2 := mk_ph m2 _ _ _ _.
  have HL2 : ts_L (mc_tu m2) = Zn L by rewrite F3 W5; case: Hu => [[]].
  have Hp2 : in_slice l.+1 p2 by constructor.
  have [r [r' [-> [Er' Hr]]]] := @local_updates_ok l p2 Hp2 F2. cbn [obind].
  rewrite Er'. clear Er'. case: r r' Hr => [p3|] [c'|] //; last by move=> _; exists None, None.
  move=> [-> [A1 [A2 [A3 [A4 [A5 [A6 [A7 A8]]]]]]]].
  case: (A1) => [[B1 B2 B3 B4 B5] B6 B7 B8].
  rewrite /update_phonon_tsms A4 A5 /= F3 F4 W5 W6.
  have HeL : List.length (p_expX p3) = (L * n)%N by rewrite B8; exact: exp_field_len.
  have Hez : List.Forall (fun x => x <> R0) (p_expX p3) by rewrite B8; exact: exp_field_nz.
  have [tu [-> Uu]] := update_phonon_tsm_ok junk KO (so_u SO) B2 HeL Hez (proj1 Hu) Hl. cbn [obind].
  have [td [-> Ud]] := update_phonon_tsm_ok junk KO (so_d SO) B2 HeL Hez (proj1 Hd) Hl. cbn [obind].
  have HS : forall expV (l' : nat), expV = expVu st \/ expV = expVd st -> l' <> l -> (l' < L)%N ->
      SMX (p_expX p3) expV (mc_s (p_mc p3)) l' = SMX (p_expX p) expV (mc_s (p_mc p)) l'.
  { move=> expV l' HV Hne Hl'. rewrite A8 // A3 /= F6 // W4. by []. }
  have Hu' : tsm_sync L b (SMX (p_expX p3) (expVu st) (mc_s (p_mc p3))) tu l.+1.
  { apply: (sync_update Hl Hu) Uu => l' Hne Hl'. apply: HS => //. by left. }
  have Hd' : tsm_sync L b (SMX (p_expX p3) (expVd st) (mc_s (p_mc p3))) td l.+1.
  { apply: (sync_update Hl Hd) Ud => l' Hne Hl'. apply: HS => //. by right. }
  set m4 := set_tsms tu td (p_mc p3).
  have Hm4 : slice_ok valid L b st (SMX (p_expX p3)) MI l.+1 m4.
  { constructor => //; last by rewrite /= A6 /= F5 W7. constructor => //. by case: Hu' => [[]]. }
  cbn [p_mc p_X p_expX p_cnt p_meas].
  have [m5 [-> [V1 [V2 [V3 [V4 [V5 [V6 V7]]]]]]]] := recompute_ok LA junk Hn Hl Hnw Hb Hm4. cbn [obind].
  rewrite /measure_phonon_slice. cbn [p_mc p_X p_expX p_cnt p_meas].
  set p5 := mk_ph m5 _ _ _ _.
  have Hp5 : at_slice l.+1 p5 by constructor => //; rewrite /= A7.
  have Ecfg : cfg p3 = cfg p5 by rewrite /cfg /= V2 V3 V4.
  case: Z.ltb_spec => Hpos; last first.
  { cbn [obind]. do 2 eexists. do 2 (split; first reflexivity). by []. }
  rewrite /cmod. have -> : (neqlt =? 0)%Z = false by apply/Z.eqb_neq; lia. cbn [obind].
  case: Z.eqb_spec => _; last first.
  { cbn [obind]. do 2 eexists. do 2 (split; first reflexivity). by []. }
  have [m6 [-> [Y1 [Y2 [Y3 Y4]]]]] := @measure_slice_ok _ _ _ _ _ _ _ _ measure MI neqlt l.+1 m5 HM V1 l. cbn [obind].
  have [d' [-> Hd2]] := HP (si_Gu (sl_site Y1)) (si_Gd (sl_site Y1)) Hl B7 (as_pmeas Hp5). cbn [obind].
  do 2 eexists. do 2 (split; first reflexivity). split; last by constructor.
  by rewrite Ecfg /cfg /= Y2 Y3 Y4.
Qed.

Lemma consistent_at p : consistent p -> at_slice 0 p.
Proof.
  case=> H1 H2 H3 HX HE H4 H5 H6 H7 H8 H9. constructor => //. constructor => //; [constructor => //|exact: holds_sync|exact: holds_sync].
  by case: H4 => [[]].
Qed.
Lemma at_consistent p : at_slice L p -> consistent p.
Proof.
  case=> [[[H1 H2 H3 H4 H5] H6 H7 H8 H9]] HX HE HPI.
  have HbL : (b %| L)%N.
  { case: H7 => [[_ _ _ _ Hnum _ _ _] _]. apply/dvdnP. exists (Z.to_nat (ts_numBprod (mc_tu (p_mc p)))). rewrite -multE. nia. }
  rewrite !cyclic_end in H4 H5. constructor => //; exact: sync_holds HbL _.
Qed.

(** block updates *)
Notation blkstate := (@blkstate RS MT PT).
Record blk_ok (q : blkstate) : Prop := {
  bk_p : consistent (b_p q);
  bk_tu : tsm_shape n L b (b_tu q); bk_td : tsm_shape n L b (b_td q);
  bk_Gu : square n (gf_mat (b_Gu q)) /\ gf_N (b_Gu q) = Zn n;
  bk_Gd : square n (gf_mat (b_Gd q)) /\ gf_N (b_Gd q) = Zn n }.

Lemma construct0 (A := fun M : nat -> 'M[R]_n => cyclic_flow M L 0) M t G : tsm_holds L b M t -> square n (gf_mat G) -> gf_N G = Zn n ->
  (\det (1%:M + A M) <> 0 -> exists G', green_construct la junk t 0 G = Some G' /\ green_of (A M) G') /\
  (\det (1%:M + A M) = 0 -> green_construct la junk t 0 G = None).
Proof.
  move=> Hh HG HN. have Pp : tsm_products L b M t by case: Hh => h1 [h2 h3]; split.
  have E0 : ((0 * b) %% L = 0)%N by rewrite mul0n mod0n.
  split=> HA.
  - have [|G' [E [U1 [U2 [U3 [U4 U5]]]]]] := @green_construct_ok la LA junk n L b M t 0 G Hn Pp HG; first by rewrite E0.
    rewrite mul0n in E. exists G'. split => //. rewrite E0 in U3. constructor => //; [by rewrite U2|exact: len_square].
  - have := @green_construct_none la LA junk n L b M t 0 G Hn Pp HG. rewrite E0 mul0n. by apply.
Qed.

(** decision about a new field *)
Lemma block_decide_ok count dE i f h Xi eXi X' q : blk_ok q -> (i < n)%N ->
  let p := b_p q in
  List.length X' = (L * n)%N -> X' = colset n L i f (p_X p) -> exp_field X' = colset n L i h (p_expX p) ->
  List.length Xi = L -> (forall l, (l < L)%N -> nth R0 Xi l = nth R0 (p_X p) (l * n + i)) ->
  List.length eXi = L -> (forall l, (l < L)%N -> nth R0 eXi l = nth R0 (p_expX p) (l * n + i)) ->
  dE = Rminus (phonon_energy n L k ph dt X') (phonon_energy n L k ph dt (p_X p)) ->
  (exists u seed q', r_uniform rng (mc_seed (p_mc p)) = Some (u, seed) /\
     block_decide rng la junk k st dt (Zn L) (Zn n) (Zn i) count dE Xi eXi X' (exp_field X') q = Some q' /\ blk_ok q' /\
     cfg (b_p q') = (seed, mc_order (p_mc p), mc_s (p_mc p), accept u (Rdiv (Rabs (W (mc_s (p_mc p)) X')) (Rabs (W (mc_s (p_mc p)) (p_X p)))) (p_X p) X') /\
     (Rlt u (Rdiv (Rabs (W (mc_s (p_mc p)) X')) (Rabs (W (mc_s (p_mc p)) (p_X p)))) /\ p_cnt (b_p q') = count 1%Z 1%Z (p_cnt p) \/
      ~ Rlt u (Rdiv (Rabs (W (mc_s (p_mc p)) X')) (Rabs (W (mc_s (p_mc p)) (p_X p)))) /\
      b_p q' = mk_ph (set_seed seed (p_mc p)) (p_X p) (p_expX p) (count 0%Z 1%Z (p_cnt p)) (p_meas p))) \/
  (block_decide rng la junk k st dt (Zn L) (Zn n) (Zn i) count dE Xi eXi X' (exp_field X') q = None /\
   W (mc_s (p_mc p)) X' = 0).
Proof.
  move=> [Hc Htu Htd [HGu NGu] [HGd NGd]] Hi p HX' EX' EeX' HXi EXi HeXi EeXi EdE.
  case: (Hc); rewrite -/p => H1 H2 H3 HX HE H4 H5 H6 H7 H8 H9.
  rewrite /block_decide -/p.
  have HeL := exp_field_len (n := n) (L := L) k ph dt HX'. have Hez := exp_field_nz n k ph dt X'.
  have [tun [-> Hu]] := init_phonon_tsm_ok junk KO (so_u SO) H3 HeL Hez Htu. cbn [obind].
  have [tdn [-> Hd]] := init_phonon_tsm_ok junk KO (so_d SO) H3 HeL Hez Htd. cbn [obind].
  have [Cu1 Cu2] := construct0 Hu HGu NGu. have [Cd1 Cd2] := construct0 Hd HGd NGd.
  case: (Req_EM_T (\det (1%:M + cyclic_flow (SMX (exp_field X') (expVu st) (mc_s (p_mc p))) L 0)) R0) => Zu.
  { right. rewrite Cu2 //. split => //. rewrite /phonon_weight /phonon_dets. by rewrite (Zu : _ = 0%coqR) !Rmult_0_l. }
  case: (Req_EM_T (\det (1%:M + cyclic_flow (SMX (exp_field X') (expVd st) (mc_s (p_mc p))) L 0)) R0) => Zd.
  { right. have [Gun [-> _]] := Cu1 Zu. cbn [obind]. rewrite Cd2 //. split => //. rewrite /phonon_weight /phonon_dets. by rewrite (Zd : _ = 0%coqR) Rmult_0_r Rmult_0_l. }
  left. have [Gun [-> HGun]] := Cu1 Zu. have [Gdn [-> HGdn]] := Cd1 Zd. cbn [obind].
  have [u [seed [Eu [Hu1 [Hu2 Hu3]]]]] := ro_uniform RO H1. rewrite Eu. cbn [obind]. exists u, seed.
  have Eratio : exp ((gf_logdet (mc_Gu (p_mc p)) + gf_logdet (mc_Gd (p_mc p))) - (gf_logdet Gun + gf_logdet Gdn) - dt * dE)%coqR =
    Rdiv (Rabs (W (mc_s (p_mc p)) X')) (Rabs (W (mc_s (p_mc p)) (p_X p))).
  { rewrite W_ratio -EdE /Rminus !exp_plus.
    have -> : Ropp (Rmult dt dE) = Rmult (Ropp dt) dE by ring.
    congr Rmult. rewrite exp_Ropp exp_plus (exp_logdet H6) (exp_logdet H7) (exp_logdet HGun) (exp_logdet HGdn) HE.
    rewrite /phonon_dets !Rabs_mult.
    have Nu := green_nz H6. have Nd := green_nz H7. rewrite HE in Nu Nd.
    move: (Rabs_pos_lt _ Nu) (Rabs_pos_lt _ Nd) (Rabs_pos_lt _ Zu) (Rabs_pos_lt _ Zd). rewrite /SMX.
    set a := Rabs _. set c := Rabs _. set d := Rabs _. set e := Rabs _. move=> Ha Hc' Hd' He. field. repeat split; lra. }
  rewrite Eratio /accept. case: Rlt_dec => Hacc.
  - have -> : copy_greens Gun (mc_Gu (p_mc p)) = Some Gun.
    { move: (go_N HGun) (square_len (go_len HGun)) (go_N H6) (square_len (go_len H6)). case: Gun {HGun Eratio Cu1 Cu2} => ms ls ss Ns /=. case: (mc_Gu _) => md ld sd Nd /= -> S1 -> S2.
      rewrite /copy_greens /=. by have [B [-> [_ ->]]] := copy_square S1 S2. }
    have -> : copy_greens Gdn (mc_Gd (p_mc p)) = Some Gdn.
    { move: (go_N HGdn) (square_len (go_len HGdn)) (go_N H7) (square_len (go_len H7)). case: Gdn {HGdn Eratio Cd1 Cd2} => ms ls ss Ns /=. case: (mc_Gd _) => md ld sd Nd /= -> S1 -> S2.
      rewrite /copy_greens /=. by have [B [-> [_ ->]]] := copy_square S1 S2. }
    cbn [obind]. rewrite (copy_tsm_ok (proj1 Hu) (proj1 H4)) (copy_tsm_ok (proj1 Hd) (proj1 H5)). cbn [obind].
    eexists. do 2 (split; first reflexivity). split; last by split => //; left.
    constructor => //=.
    + exact: (proj1 Hu).
    + exact: (proj1 Hd).
    + split; [exact: square_len (go_len HGun)|exact: go_N HGun].
    + split; [exact: square_len (go_len HGdn)|exact: go_N HGdn].
  - have -> : restore_col (Zn L) (Zn n) (Zn i) Xi X' = Some (p_X p) by rewrite EX'; apply: restore_col_ok.
    have -> : restore_col (Zn L) (Zn n) (Zn i) eXi (exp_field X') = Some (p_expX p).
    { rewrite EeX'. apply: restore_col_ok => //. rewrite HE. exact: exp_field_len. }
    cbn [obind]. eexists. do 2 (split; first reflexivity). split; last by split => //; right.
    constructor => //=.
    + exact: (proj1 Hu).
    + exact: (proj1 Hd).
    + split; [exact: square_len (go_len HGun)|exact: go_N HGun].
    + split; [exact: square_len (go_len HGdn)|exact: go_N HGdn].
Qed.

(** a proposed configuration of weight zero *)
Definition zero_weight : Prop := exists s X, field_ok n L s /\ List.length X = (L * n)%N /\ W s X = 0.

(** nothing but the seed and the counters changed *)
Definition rolled_back (p p' : phstate) : Prop :=
  p_X p' = p_X p /\ p_expX p' = p_expX p /\ p_meas p' = p_meas p /\ exists seed, p_mc p' = set_seed seed (p_mc p).

Definition in_lockstep (acc : counts -> Z) (q : blkstate) (upd : blkstate -> option (option blkstate)) (chain : config -> option (option (config (RS := RS)))) : Prop :=
  (exists r r', upd q = Some r /\ chain (cfg (b_p q)) = Some r' /\
     match r, r' with
     | None, None => True
     | Some q', Some c => c = cfg (b_p q') /\ blk_ok q' /\
         (acc (p_cnt (b_p q')) = acc (p_cnt (b_p q)) /\ rolled_back (b_p q) (b_p q') \/ acc (p_cnt (b_p q')) = (acc (p_cnt (b_p q)) + 1)%Z)
     | _, _ => False
     end) \/ (upd q = None /\ zero_weight).

Lemma bounded_site seed : valid seed -> exists r, r_bounded rng seed (Zn n) = Some r /\
  forall v seed', r = Some (v, seed') -> exists i : nat, v = Zn i /\ (i < n)%N /\ valid seed'.
Proof.
  move=> Hs. have [|r [E Hr]] := ro_bounded RO Hs (bound := Zn n); first by move/ltP: Hn; lia.
  exists r. split => // v seed' Er. have [Hv Hs'] := Hr _ _ Er. exists (Z.to_nat v). split; first lia. split => //. apply/ltP. lia.
Qed.

Lemma consistent_seed p seed : valid seed -> consistent p ->
  consistent (mk_ph (set_seed seed (p_mc p)) (p_X p) (p_expX p) (p_cnt p) (p_meas p)).
Proof. move=> Hs [*]. by constructor. Qed.

Lemma block_update_ok q : blk_ok q ->
  in_lockstep n_block_accept q (block_update rng la junk k st ph dt) (chain_block n L k st ph dt rng).
Proof.
  move=> Hq. case: (Hq) => Hc Htu Htd HGu HGd. case: (Hc) => H1 H2 H3 HX HE H4 H5 H6 H7 H8 H9.
  rewrite /in_lockstep /block_update /chain_block /cfg.
  have -> : ts_N (mc_tu (p_mc (b_p q))) = Zn n by case: H4 => [[]].
  have -> : ts_L (mc_tu (p_mc (b_p q))) = Zn L by case: H4 => [[]].
  have [r [-> Hr]] := bounded_site H1. cbn [obind].
  case: r Hr => [[v seed]|] Hr; last by left; exists None, None.
  have [i [-> [Hi Hseed]]] := Hr _ _ erefl. rewrite Nat2Z.id. clear Hr.
  rewrite orb_ok //. cbn [obind]. rewrite coupling_at //. cbn [obind]. case: Req_EM_T => Hg.
  { left. do 2 eexists. do 2 (split; first reflexivity). split => //. split => //. left. split => //. do 3 (split => //). by exists seed. }
  have HeL : List.length (p_expX (b_p q)) = (L * n)%N by rewrite HE; exact: exp_field_len.
  have [Xi [-> [SX1 SX2]]] := save_col_ok junk Hi HX. cbn [obind].
  have [eXi [-> [SE1 SE2]]] := save_col_ok junk Hi HeL. cbn [obind].
  have [u [seed' [-> [Hu1 [Hu2 Hu3]]]]] := ro_uniform RO Hseed. cbn [obind].
  rewrite frequency_at //. cbn [obind].
  have -> : 0.5%coqR = (/2)%coqR by lra.
  set dx := Rmult (Rminus u _) _.
  rewrite block_dE_ok //. cbn [obind]. rewrite block_shift_ok //. cbn [obind].
  have EE : colset n L i (fun l => exp (Rmult (Rmult (Ropp dt) (coupling k ph i)) (Rplus (nth R0 (p_X (b_p q)) (l * n + i)) dx))) (p_expX (b_p q)) =
    exp_field (shift_all n i dx (p_X (b_p q))) by rewrite HE exp_shift_all_col.
  rewrite shift_all_col // EE.
  set q1 := mk_blk _ _ _ _ _.
  have Hq1 : blk_ok q1 by constructor => //; exact: consistent_seed.
  set dE := Rmult (BigOp.bigop _ _ _) _.
  have EdE : dE = Rminus (phonon_energy n L k ph dt (shift_all n i dx (p_X (b_p q)))) (phonon_energy n L k ph dt (p_X (b_p q))).
  { rewrite (@energy_block n L k ph dt _ HX (Ordinal Hi)) /dE /Rsqr /= /field_at. ring. }
  have [||[u' [seed2 [q2 [E1 [E2 [E3 [E4 E5]]]]]]]|[E1 E2]] := @block_decide_ok count_block dE i
     (fun l => Rplus (nth R0 (p_X (b_p q)) (l * n + i)) dx)
     (fun l => exp (Rmult (Rmult (Ropp dt) (coupling k ph i)) (Rplus (nth R0 (p_X (b_p q)) (l * n + i)) dx)))
     Xi eXi (shift_all n i dx (p_X (b_p q))) q1 Hq1 Hi (shift_all_len HX i dx) _ _ SX1 SX2 SE1 SE2 EdE.
  - by rewrite /= shift_all_col.
  - by rewrite /= HE exp_shift_all_col.
  - left. rewrite E2. cbn [obind]. rewrite /= in E1. rewrite E1. cbn [obind]. do 2 eexists. do 2 (split; first reflexivity).
    split; first by rewrite -[RHS]/(cfg (b_p q2)) E4. split => //.
    case: E5 => [[_ ->]|[_ ->]]; [by right|left]. split; first exact: Z.add_0_r. do 3 (split => //). by exists seed2.
  - right. rewrite E1. split => //. exists (mc_s (p_mc (b_p q))), (shift_all n i dx (p_X (b_p q))). split => //. split => //. exact: shift_all_len.
Qed.

Lemma flip_update_ok q : blk_ok q ->
  in_lockstep n_flip_accept q (flip_update rng la junk k st ph dt mu) (chain_flip n L k st ph dt rng mu).
Proof.
  move=> Hq. case: (Hq) => Hc Htu Htd HGu HGd. case: (Hc) => H1 H2 H3 HX HE H4 H5 H6 H7 H8 H9.
  rewrite /in_lockstep /flip_update /chain_flip /cfg.
  have -> : ts_N (mc_tu (p_mc (b_p q))) = Zn n by case: H4 => [[]].
  have -> : ts_L (mc_tu (p_mc (b_p q))) = Zn L by case: H4 => [[]].
  have [r [-> Hr]] := bounded_site H1. cbn [obind].
  case: r Hr => [[v seed]|] Hr; last by left; exists None, None.
  have [i [-> [Hi Hseed]]] := Hr _ _ erefl. rewrite Nat2Z.id. clear Hr.
  rewrite orb_ok //. cbn [obind]. rewrite coupling_at //. cbn [obind]. case: Req_EM_T => Hg.
  { left. do 2 eexists. do 2 (split; first reflexivity). split => //. split => //. left. split => //. do 3 (split => //). by exists seed. }
  have HeL : List.length (p_expX (b_p q)) = (L * n)%N by rewrite HE; exact: exp_field_len.
  have [Xi [-> [SX1 SX2]]] := save_col_ok junk Hi HX. cbn [obind].
  have [eXi [-> [SE1 SE2]]] := save_col_ok junk Hi HeL. cbn [obind].
  have -> : rdiv (2 * mu)%coqR (coupling k ph i) = Some (Rdiv (Rmult 2 mu) (coupling k ph i)) by rewrite /rdiv; case: Req_EM_T.
  cbn [obind].
  rewrite frequency_at //. cbn [obind].
  set c := Rdiv _ _.
  rewrite flip_shift_ok //. cbn [obind].
  have EE : colset n L i (fun l => exp (Rmult (Rmult (Ropp dt) (coupling k ph i)) (Rminus c (nth R0 (p_X (b_p q)) (l * n + i))))) (p_expX (b_p q)) =
    exp_field (reflect_all n i c (p_X (b_p q))) by rewrite HE exp_reflect_all_col.
  rewrite reflect_all_col // EE.
  set q1 := mk_blk _ _ _ _ _.
  have Hq1 : blk_ok q1 by constructor => //; exact: consistent_seed.
  set dE := BigOp.bigop _ _ _.
  have EdE : dE = Rminus (phonon_energy n L k ph dt (reflect_all n i c (p_X (b_p q)))) (phonon_energy n L k ph dt (p_X (b_p q))).
  { by rewrite (@energy_flip n L k ph dt _ HX (Ordinal Hi)) /dE /Rsqr /= /field_at. }
  have [||[u' [seed2 [q2 [E1 [E2 [E3 [E4 E5]]]]]]]|[E1 E2]] := @block_decide_ok count_flip dE i
     (fun l => Rminus c (nth R0 (p_X (b_p q)) (l * n + i)))
     (fun l => exp (Rmult (Rmult (Ropp dt) (coupling k ph i)) (Rminus c (nth R0 (p_X (b_p q)) (l * n + i)))))
     Xi eXi (reflect_all n i c (p_X (b_p q))) q1 Hq1 Hi (reflect_all_len HX i c) _ _ SX1 SX2 SE1 SE2 EdE.
  - by rewrite /= reflect_all_col.
  - by rewrite /= HE exp_reflect_all_col.
  - left. rewrite E2. cbn [obind]. rewrite /= in E1. rewrite E1. cbn [obind]. do 2 eexists. do 2 (split; first reflexivity).
    split; first by rewrite -[RHS]/(cfg (b_p q2)) E4. split => //.
    case: E5 => [[_ ->]|[_ ->]]; [by right|left]. split; first exact: Z.add_0_r. do 3 (split => //). by exists seed2.
  - right. rewrite E1. split => //. exists (mc_s (p_mc (b_p q))), (reflect_all n i c (p_X (b_p q))). split => //. split => //. exact: reflect_all_len.
Qed.

Lemma block_updates_ok acc upd chain p : consistent p -> (forall q, blk_ok q -> in_lockstep acc q upd chain) ->
  (exists r r', block_updates junk ph upd p = Some r /\
     for_range 0 (ph_n_block_updates ph) (fun _ => may_hang chain) (Some (cfg p)) = Some r' /\
     match r, r' with
     | None, None => True
     | Some p', Some c => c = cfg p' /\ consistent p'
     | _, _ => False
     end) \/ (block_updates junk ph upd p = None /\ zero_weight).
Proof.
  move=> Hp Hupd. rewrite /block_updates. case: Z.leb_spec => Hnum.
  { left. rewrite for_range_none //. do 2 eexists. do 2 (split; first reflexivity). by []. }
  case: (Hp) => H1 H2 H3 HX HE H4 H5 H6 H7 H8 H9. case: (H4) => [[S1 S2 S3 [S4 S4'] S5 _ _ _] _]. case: (H5) => [[_ _ T3 _ _ _ _ _] _].
  rewrite S1 S2 S3 T3.
  have EL : L = (Z.to_nat (ts_numBprod (mc_tu (p_mc p))) * b)%N by rewrite -multE; nia.
  have [t [-> Ht]] := allocate_ok junk n EL S4'. cbn [obind].
  set q0 := mk_blk _ _ _ _ _.
  have Hq0 : blk_ok q0.
  { constructor => //; split => //; exact: fresh_square. }
  pose Rel (_ : Z) (o : option blkstate) (o' : option config) :=
    match o, o' with
    | None, None => True
    | Some q, Some c => c = cfg (b_p q) /\ blk_ok q
    | _, _ => False
    end.
  have [|||[r [r' [E1 [E2 HR]]]]|[E1 HZ]] := @for_range_sim_or _ _ Rel zero_weight 0%Z (ph_n_block_updates ph)
    (fun _ => may_hang upd) (fun _ => may_hang chain) (Some q0) (Some (cfg p)).
  - lia.
  - move=> j o o' _. case: o o' => [q|] [c|] //=; last by move=> _; left; exists None, None.
    move=> [-> Hq]. have [[r [r' [E1 [E2 HR]]]]|HZ] := Hupd q Hq; [left|by right]. exists r, r'. do 2 (split => //).
    by case: r r' HR {E1 E2} => [q'|] [c'|] // [-> [Hq' _]].
  - by [].
  - left. rewrite E1 E2. cbn [obind]. do 2 eexists. do 2 (split; first reflexivity).
    case: r r' HR {E1 E2} => [q|] [c|] //= [-> Hq]. split => //. exact: bk_p Hq.
  - right. by rewrite E1.
Qed.

Definition sweep_step (f : option (option phstate)) (g : option (option (config (RS := RS)))) : Prop :=
  (exists r r', f = Some r /\ g = Some r' /\
     match r, r' with
     | None, None => True
     | Some p', Some c => c = cfg p' /\ consistent p'
     | _, _ => False
     end) \/ (f = None /\ zero_weight).

Lemma phonon_iteration_ok nw neqlt p : (0 < nw)%N -> (b %| nw)%N -> consistent p ->
  sweep_step (phonon_iteration rng measure measure_ph la junk k noHS st ph dt mu (Zn nw) neqlt p)
             (chain_sweep n L k st ph dt rng noHS mu rl (cfg p)).
Proof.
  move=> Hnw Hb Hp. rewrite /phonon_iteration /chain_sweep.
  have -> : ts_L (mc_tu (p_mc p)) = Zn L by case: (phc_tu Hp) => [[]].
  pose Rel (l : Z) (o : option phstate) (o' : option config) :=
    match o, o' with
    | None, None => True
    | Some m', Some c => c = cfg m' /\ at_slice (Z.to_nat l) m'
    | _, _ => False
    end.
  have [|||r [r' [-> [-> HR]]]] := @for_range_sim _ _ Rel 0%Z (Zn L)
    (fun l => may_hang (phonon_slice rng measure measure_ph la junk k noHS st ph dt (Zn nw) neqlt l))
    (fun l => may_hang (chain_slice n L k st ph dt rng noHS rl l)) (Some p) (Some (cfg p)).
  - lia.
  - move=> l o o' Hl. case: o o' => [p1|] [c|] //=; last by move=> _; exists None, None.
    move=> [-> Hp1]. have Hl' : (Z.to_nat l < L)%N by apply/ltP; lia.
    have [r [r' [E1 [E2 HR]]]] := @phonon_slice_ok nw neqlt (Ordinal Hl') p1 Hnw Hb Hp1.
    rewrite /= Z2Nat.id in E1 E2; last lia. exists r, r'. do 2 (split => //).
    rewrite /Rel. have -> : Z.to_nat (l + 1) = (Z.to_nat l).+1 by lia. by [].
  - split => //. exact: consistent_at.
  cbn [obind].
  have Hhang : forall (chain : config (RS := RS) -> option (option config)), for_range 0 (ph_n_block_updates ph) (fun _ => may_hang chain) None = Some None.
  { move=> chain. case: (Z_le_gt_dec 0 (ph_n_block_updates ph)) => Hpos; last by rewrite for_range_none //; lia.
    have [//|||o [-> ->] //] := @for_range_inv _ (fun _ (o : option (config (RS := RS))) => o = None) 0%Z (ph_n_block_updates ph) (fun _ => may_hang chain) None.
    - move=> j o _ ->. by exists None.
    - by []. }
  case: r r' HR => [p1|] [c|] //=.
  2:{ move=> _. left. rewrite /= !Hhang /= !Hhang. by exists None, None. }
  move=> [-> Hp1]. rewrite Nat2Z.id in Hp1. have {}Hp1 := at_consistent Hp1.
  have [[r [r' [-> [-> HR]]]]|[-> HZ]] := block_updates_ok Hp1 block_update_ok; last by right. cbn [obind].
  case: r r' HR => [p2|] [c'|] //=.
  2:{ move=> _. left. rewrite /= !Hhang. by exists None, None. }
  move=> [-> Hp2]. exact: block_updates_ok Hp2 flip_update_ok.
Qed.

Lemma phonon_sweeps_ok nw neqlt count p : (0 < nw)%N -> (b %| nw)%N -> consistent p ->
  sweep_step (phonon_sweeps rng measure measure_ph la junk k noHS st ph dt mu (Zn nw) neqlt (Zn count) p)
             (for_range 0 (Zn count) (fun _ => may_hang (chain_sweep n L k st ph dt rng noHS mu rl)) (Some (cfg p))).
Proof.
  move=> Hnw Hb Hp. rewrite /phonon_sweeps.
  pose Rel (_ : Z) (o : option phstate) (o' : option config) :=
    match o, o' with
    | None, None => True
    | Some m', Some c => c = cfg m' /\ consistent m'
    | _, _ => False
    end.
  apply: (@for_range_sim_or _ _ Rel) => //; first lia.
  move=> l o o' Hl. case: o o' => [m1|] [c|] //=; last by move=> _; left; exists None, None.
  move=> [-> Hm1]. exact: phonon_iteration_ok.
Qed.

(** initial state *)
Lemma phonon_setup_ok q seed order s X c d e : L = (q * b)%N -> (0 < L)%N -> valid seed -> List.length order = n ->
  field_ok n L s -> List.length X = (L * n)%N -> MI d -> PI e -> W s X <> 0 ->
  exists p, phonon_setup la junk k st (Zn n) (Zn L) (Zn b) seed order s X (exp_field X) c d e = Some p /\
    consistent p /\ mc_s (p_mc p) = s /\ p_X p = X /\ mc_seed (p_mc p) = seed /\ p_cnt p = c.
Proof.
  move=> EL HL Hs Ho Hf HX Hd He Hw. rewrite /phonon_setup.
  have [t [Et Ht]] := allocate_ok junk n EL HL. rewrite Et. cbn [obind].
  have HeL := exp_field_len (n := n) (L := L) k ph dt HX. have Hez := exp_field_nz n k ph dt X.
  have [tu [-> Hu]] := init_phonon_tsm_ok junk KO (so_u SO) Hf HeL Hez Ht. cbn [obind].
  have [td [-> Hdn]] := init_phonon_tsm_ok junk KO (so_d SO) Hf HeL Hez Ht. cbn [obind].
  have HA : square n (gf_mat (allocate_greens junk (Zn n))) by exact: fresh_square.
  have [Wu Wd] : \det (1%:M + cyclic_flow (SMX (exp_field X) (expVu st) s) L 0) <> 0 /\ \det (1%:M + cyclic_flow (SMX (exp_field X) (expVd st) s) L 0) <> 0.
  { split=> E; apply: Hw; rewrite /phonon_weight /phonon_dets; rewrite (E : _ = 0%coqR) ?Rmult_0_l ?Rmult_0_r ?Rmult_0_l //. }
  have [Cu _] := construct0 Hu HA erefl. have [Cd _] := construct0 Hdn HA erefl.
  have [Gu [-> HGu]] := Cu Wu. cbn [obind]. have [Gd [-> HGd]] := Cd Wd. cbn [obind].
  eexists. split; first reflexivity. split; last by []. by constructor.
Qed.

(** random initial phonon field *)
Lemma init_phonon_field_ok seed : valid seed ->
  exists seed' X, init_phonon_field rng junk ph dt (k_Ncell k) (Zn n) (Zn L) seed = Some (seed', (X, exp_field X)) /\
    valid seed' /\ List.length X = (L * n)%N /\
    forall l i, (l < L)%N -> (i < n)%N -> coupling k ph i = R0 -> field_at n X l i = R0.
Proof.
  move=> Hs. rewrite /init_phonon_field.
  pose Inv (m : nat) (t : RS * (list R * list R)) := valid t.1 /\ List.length t.2.1 = (L * n)%N /\ List.length t.2.2 = (L * n)%N /\
    forall p, (p < m)%N -> nth R0 t.2.2 p = exp (Rmult (Rmult (Ropp dt) (coupling k ph (p %% n))) (nth R0 t.2.1 p)) /\
       (coupling k ph (p %% n) = R0 -> nth R0 t.2.1 p = R0).
  have Hfl : List.length (fresh junk (Zn L * Zn n)) = (L * n)%N by rewrite /fresh List.map_length List.seq_length -multE; lia.
  have [|||[seed' [X eX]] [-> [I1 [I2 [I3 I4]]]]] := @for_range_inv _ (fun l t => Inv (Z.to_nat l * n)%N t) 0%Z (Zn L)
    (fun l => for_range 0 (Zn n) (init_phonon_site rng ph dt (k_Ncell k) (Zn n) l)) (seed, (fresh junk (Zn L * Zn n), fresh junk (Zn L * Zn n))).
  - lia.
  - move=> l t Hl0 HI.
    have [l' [? Hl]] : exists l', l = Zn l' /\ (l' < L)%N by exists (Z.to_nat l); split; [lia|apply/ltP; lia]. subst l.
    have [|||t' [E HI']] := @for_range_inv _ (fun i t => Inv (l' * n + Z.to_nat i)%N t) 0%Z (Zn n)
      (init_phonon_site rng ph dt (k_Ncell k) (Zn n) (Zn l')) t.
    + lia.
    + move=> i [sd [X eX]] Hi [J1 [J2 [J3 J4]]].
      have [i' [? Hi']] : exists i', i = Zn i' /\ (i' < n)%N by exists (Z.to_nat i); split; [lia|apply/ltP; lia]. subst i.
      rewrite /init_phonon_site orb_ok //. cbn [obind]. rewrite coupling_at //. cbn [obind].
      have [x [sd' [-> [V1 V2]]]] : exists x sd', match Req_EM_T (coupling k ph i') 0 with left _ => Some (0%coqR, sd) | right _ =>
                obind (r_uniform rng sd) (fun ux =>
                Some (((fst ux - 0.5) * ph_local_box_width ph)%coqR, snd ux)) end = Some (x, sd') /\ valid sd' /\ (coupling k ph i' = R0 -> x = R0).
      { case: Req_EM_T => Hg; first by exists 0%coqR, sd.
        have [u [sd' [-> [_ [_ Hv]]]]] := ro_uniform RO J1. cbn [obind]. by do 2 eexists. }
      cbn [obind]. rewrite !posZ.
      have Hp : (l' * n + i' < L * n)%N by exact: pos_lt.
      rewrite aset_list; last by rewrite J2; apply/ltP. cbn [obind].
      rewrite (@aget_list _ _ _ R0); last by rewrite lset_length J2; apply/ltP. cbn [obind].
      rewrite aset_list; last by rewrite J3; apply/ltP. cbn [obind].
      eexists. split; first reflexivity. split => //. split; first by rewrite lset_length. split; first by rewrite lset_length.
      have -> : Z.to_nat (Zn i' + 1) = i'.+1 by lia.
      move=> p. rewrite addnS ltnS leq_eqVlt => /orP [/eqP ->|Hlt] /=.
      * rewrite pos_mod // !nthE !lset_nth_d ?Nat.eqb_refl //; by [rewrite J2; apply/ltP|rewrite J3; apply/ltP].
      * rewrite !nthE !lset_nth_d ?J2 ?J3; try by apply/ltP.
        case: Nat.eqb_spec => [E|_]; first by move: Hlt; rewrite -E ltnn.
        rewrite -!nthE. have := J4 p. rewrite Nat2Z.id. exact.
    + by rewrite addn0 -[l']Nat2Z.id.
    exists t'. split => //. have -> : Z.to_nat (Zn l' + 1) = l'.+1 by lia. rewrite Nat2Z.id in HI'. by rewrite mulSn addnC.
  - rewrite /=. split => //.
  rewrite Nat2Z.id /= in I1 I2 I3 I4. exists seed', X. split; last first.
  { do 2 (split => //). move=> l i Hl Hi Hg. have := (I4 _ (pos_lt Hl Hi)).2. rewrite pos_mod //. exact. }
  congr (Some (_, (_, _))). apply: (@field_ext n L) => //; first exact: exp_field_len.
  move=> l i Hl Hi. rewrite (exp_field_at (L := L)) //. have := (I4 _ (pos_lt Hl Hi)).1. by rewrite pos_mod.
Qed.
End Phonon.
