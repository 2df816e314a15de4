(** Proofs about the printed summary. *)
From Coq Require Import ZArith List Reals Lia Lra.
From mathcomp Require Import all_ssreflect ssralg matrix.
From Verif Require Import LatticeFacts Base BaseFacts RField RealOps TimeStep TimeStepSpec Strat SimParams LatticeSpec SweepSpec WickSpec Sums SumsFacts Measure MeasureSpec
  SimulationSpec Summary SummarySpec.
Set Implicit Arguments.
Unset Strict Implicit.
Unset Printing Implicit Defensive.

Lemma list_mean_sum (A : Type) (f : A -> R) xs : list_mean f xs = Rmult (lsum f xs) (Rinv (INR (List.length xs))).
Proof. by []. Qed.
Lemma lsum_plus (A : Type) (f g : A -> R) xs : lsum (fun x => Rplus (f x) (g x)) xs = Rplus (lsum f xs) (lsum g xs).
Proof. rewrite /lsum. elim: xs => [|x xs IH] /=; [lra|rewrite IH; lra]. Qed.
Lemma lsum_ext (A : Type) (f g : A -> R) xs : (forall x, f x = g x) -> lsum f xs = lsum g xs.
Proof. move=> H. rewrite /lsum. elim: xs => [|x xs IH] //=. by rewrite IH H. Qed.
Lemma lsum_mul (A : Type) (c : R) (f : A -> R) xs : lsum (fun x => Rmult c (f x)) xs = Rmult c (lsum f xs).
Proof. rewrite /lsum. elim: xs => [|x xs IH] /=; [lra|rewrite IH; lra]. Qed.
Lemma lsum_zero (A : Type) (xs : list A) : lsum (fun _ => R0) xs = R0.
Proof. rewrite /lsum. elim: xs => [|x xs IH] //=. rewrite IH. lra. Qed.

Lemma average_plus N f g : average N (fun i => Rplus (f i) (g i)) = Rplus (average N f) (average N g).
Proof. rewrite /average sum_plus. exact: Rdiv_plus_distr. Qed.
Lemma average_ext N f g : (forall i, f i = g i) -> average N f = average N g.
Proof. move=> H. rewrite /average. congr (Rdiv _ _). apply: sum_ext => i _. exact: H. Qed.
Lemma average_mul N c f : average N (fun i => Rmult c (f i)) = Rmult c (average N f).
Proof. rewrite /average sum_scal. rewrite /Rdiv. ring. Qed.

(** the square of the spin at a site *)
Lemma moment_density w i : gtt w = g00 w -> gt0 w = g00 w -> g0t w = g00 w -> tau_zero w ->
  correlation w (spin_z i) (spin_z i) =
  Rplus (Rplus (expect_00 w (number up i)) (expect_00 w (number dn i))) (Rmult (-2) (correlation w (number up i) (number dn i))).
Proof.
  move=> E1 E2 E3 E4. rewrite /correlation /expect_00 /spin_z /number /lsum /= /cdag_c_tt /cdag_c_00 /cdag_c_t0 /c_cdag_t0 /same_spin /=.
  rewrite E1 E2 E3 E4 /only /delta Z.eqb_refl. ring.
Qed.
Lemma charge_density w i : expect_00 w (charge i) = Rplus (expect_00 w (number up i)) (expect_00 w (number dn i)).
Proof. rewrite /expect_00 /charge /number /lsum /=. ring. Qed.

Lemma for_range_flat (A : Type) N (F : Z -> option (list A)) (f : Z -> list A) init : (0 <= N)%Z ->
  (forall o, (0 <= o < N)%Z -> F o = Some (f o)) ->
  for_range 0 N (fun o out => obind (F o) (fun ls => Some (out ++ ls)%list)) init =
  Some (init ++ List.flat_map f (List.map Z.of_nat (List.seq 0 (Z.to_nat N))))%list.
Proof.
  move=> HN HF.
  have [//|i t Hi ->||t [-> ->] //] := @for_range_inv _ (fun i t => t = (init ++ List.flat_map f (List.map Z.of_nat (List.seq 0 (Z.to_nat i))))%list)
    0%Z N (fun o out => obind (F o) (fun ls => Some (out ++ ls)%list)) init.
  - rewrite HF //. cbn [obind]. eexists. split; first reflexivity.
    have -> : Z.to_nat (i + 1) = S (Z.to_nat i) by lia. rewrite List.seq_S List.map_app List.flat_map_app /= List.app_nil_r List.app_assoc Z2Nat.id //. lia.
  - by rewrite /= List.app_nil_r.
Qed.

Section Est.
Variables (n L : nat) (k : kinetic) (st : strat) (eq : eq_record).
Notation mean := (eq_mean n L k st eq).
Notation est := (sign_average n L k st eq).
Notation sg := (lsum (fun x => sgn (weight n L k st (snd x))) eq).

Lemma est_mean f : eq <> [::] -> sg <> R0 -> Rdiv (mean f) (list_mean (fun x => sgn (weight n L k st (snd x))) eq) = est f.
Proof.
  move=> He Hs. rewrite /eq_mean /sign_average /list_mean. set a := lsum _ _. set b := lsum _ _. have : b <> R0 by []. move: a b => a b Hb.
  have : INR (List.length eq) <> R0 by apply: not_0_INR; case: eq He. move: (INR _) => c Hc. by field.
Qed.
Lemma mean_plus f g : mean (fun w => Rplus (f w) (g w)) = Rplus (mean f) (mean g).
Proof. rewrite /eq_mean !list_mean_sum -Rmult_plus_distr_r -lsum_plus. congr (Rmult _ _). apply: lsum_ext => x. ring. Qed.
Lemma mean_mul c f : mean (fun w => Rmult c (f w)) = Rmult c (mean f).
Proof. rewrite /eq_mean !list_mean_sum -Rmult_assoc -lsum_mul. congr (Rmult _ _). apply: lsum_ext => x. ring. Qed.
Lemma mean_ext f g : (forall x, f (state_at n L k st x) = g (state_at n L k st x)) -> mean f = mean g.
Proof. move=> H. rewrite /eq_mean !list_mean_sum. congr (Rmult _ _). apply: lsum_ext => x. by rewrite H. Qed.
Lemma mean_zero : mean (fun _ => R0) = R0.
Proof. rewrite /eq_mean list_mean_sum (@lsum_ext _ _ (fun _ => R0)) ?lsum_zero; [ring|move=> x; ring]. Qed.
Lemma mean_sum m lo (f : Z -> config -> R) : mean (fun w => sum_from m lo (fun o => f o w)) = sum_from m lo (fun o => mean (f o)).
Proof. elim: m lo => [|m IH] lo /=; first exact: mean_zero. by rewrite mean_plus IH. Qed.

Variables (p : sim_params) (m : meas).
Hypotheses (ER : equal_time_results p mean m) (He : eq <> [::]) (HN : (0 < sp_Norb p)%Z).
Hypothesis HS : m_sign m = list_mean (fun x => sgn (weight n L k st (snd x))) eq.
Notation Norb := (sp_Norb p).
Notation Ncell := (Z.mul (sp_Nx p) (sp_Ny p)).

Lemma sign_zero : m_sign m = R0 <-> sg = R0.
Proof.
  rewrite HS /list_mean. have Hc : INR (List.length eq) <> R0 by apply: not_0_INR; case: eq He.
  move: (lsum _ _) (INR _) Hc => a c Hc. split=> [H|->]; last by rewrite /Rdiv Rmult_0_l.
  have -> : a = Rmult (Rdiv a c) c by field. by rewrite H Rmult_0_l.
Qed.

Lemma get f o : mfield_len Norb Ncell f = Norb -> (0 <= o < Norb)%Z -> aget (m_arr m f) o = Some (val (m_arr m f) o).
Proof. move=> Hl Ho. case: (er_shape ER) => _ [_ /(_ f) Hf]. apply: aget_nth. rewrite Hl in Hf. rewrite Hf. exact: Ho. Qed.

Lemma total_loop : for_range 0 (m_Norb m) (fun o t => obind (aget (m_arr m density_u) o) (fun u => obind (aget (m_arr m density_d) o) (fun d => Some (Rplus t (Rplus u d))))) R0 =
  Some (sum 0 Norb (fun o => Rplus (val (m_arr m density_u) o) (val (m_arr m density_d) o))).
Proof.
  case: (er_shape ER) => -> _.
  match goal with |- for_range _ _ ?b _ = _ =>
  have [//|i t Hi -> /=||t [-> ->] //] := @for_range_inv _ (fun i t => t = sum 0 i (fun o => Rplus (val (m_arr m density_u) o) (val (m_arr m density_d) o)))
    0 Norb b R0 end.
  - lia.
  - rewrite (@get density_u i erefl Hi) (@get density_d i erefl Hi). cbn [obind]. eexists. split; first reflexivity. rewrite sum_last //. lia.
  - by rewrite sum_nil.
Qed.

Lemma average_sum_from N c lo (f : Z -> Z -> R) : sum_from c lo (fun o => average N (fun i => f o i)) = average N (fun i => sum_from c lo (fun o => f o i)).
Proof.
  elim: c lo => [|c IH] lo /=; first by rewrite /average sum_zero // /Rdiv Rmult_0_l.
  by rewrite IH average_plus.
Qed.

Lemma lines_ok : sg <> R0 -> print_summary m = Some (summary_lines Norb Ncell (m_sign m) est).
Proof.
  move=> Hs. have Hz : m_sign m <> R0 by move/sign_zero.
  have RD : forall x f, x = mean f -> rdiv x (m_sign m) = Some (est f).
  { move=> x f ->. rewrite /rdiv. case: Req_EM_T => // _. by rewrite -est_mean // -HS. }
  have CH : forall o, (0 <= o < Norb)%Z -> Rplus (val (m_arr m density_u) o) (val (m_arr m density_d) o) =
    mean (fun w => average Ncell (fun i => expect_00 w (charge (site Ncell i o)))).
  { move=> o Ho. rewrite (er_density_u ER Ho) (er_density_d ER Ho) -mean_plus. apply: mean_ext => x. rewrite -average_plus. apply: average_ext => i.
    by rewrite charge_density. }
  rewrite /print_summary total_loop. cbn [obind].
  rewrite (RD _ (fun w => average Ncell (fun i => sum 0 Norb (fun o => expect_00 w (charge (site Ncell i o)))))); last first.
  { rewrite (sum_ext _ _ CH) /sum -mean_sum. apply: mean_ext => x. exact: average_sum_from. }
  cbn [obind]. case: (er_shape ER) => -> _.
  rewrite /summary_lines. cbv zeta. apply: for_range_flat; first lia. move=> o Ho.
  rewrite /orbital_lines !get //. cbn [obind].
  rewrite (RD _ _ (CH o Ho)). cbn [obind].
  rewrite (RD _ _ (er_density_u ER Ho)). cbn [obind].
  rewrite (RD _ _ (er_density_d ER Ho)). cbn [obind].
  rewrite (RD _ _ (er_doubleocc ER Ho)). cbn [obind].
  rewrite (RD _ (fun w => average Ncell (fun i => correlation w (spin_z (site Ncell i o)) (spin_z (site Ncell i o))))) //.
  have -> : forall a b, Rminus a (Rmult 2 b) = Rplus a (Rmult (-2) b) by move=> a b; ring.
  rewrite (er_doubleocc ER Ho) (er_density_u ER Ho) (er_density_d ER Ho) -mean_plus -mean_mul -mean_plus. apply: mean_ext => x.
  rewrite -average_mul -!average_plus. apply: average_ext => i. by rewrite moment_density.
Qed.

Lemma lines_undefined : sg = R0 -> print_summary m = None.
Proof.
  move=> Hs. have Hz : m_sign m = R0 by apply/sign_zero.
  rewrite /print_summary total_loop. cbn [obind]. rewrite /rdiv Hz. by case: Req_EM_T.
Qed.
End Est.

Lemma moment_line Norb' Ncell' sign e o v : In (Some o, average_local_moment, v) (summary_lines Norb' Ncell' sign e) ->
  (0 <= o < Z.max 0 Norb')%Z /\ v = e (fun w => average Ncell' (fun i => correlation w (spin_z (site Ncell' i o)) (spin_z (site Ncell' i o)))).
Proof.
  move=> [|[|H]] //. rewrite /= in H.
  have [q [Hq H1]] := proj1 (List.in_flat_map _ _ _) H. have [j [Ej Hj]] := proj1 (List.in_map_iff _ _ _) Hq.
  have := proj1 (List.in_seq _ _ _) Hj. clear H Hq Hj. move: H1 => /= H1 Hj.
  repeat (case: H1 => [|H1]; first by move=> [] *; subst; split => //; lia). by case: H1.
Qed.

Lemma zero_shift Nx Ny sh i : (0 < Nx)%Z -> (0 < Ny)%Z -> (0 <= i < Nx * Ny)%Z -> cell_plus Nx Ny sh 0 i = i.
Proof.
  move=> H1 H2 Hi. rewrite /cell_plus. have -> : vplus (coords Nx 0) (coords Nx i) = coords Nx i; last exact: LatticeFacts.wrap_coords.
  rewrite /vplus /coords Zmod_0_l Zdiv_0_l. by [].
Qed.

Lemma moment_is_correlation n L k st eq p m o v : equal_time_results p (eq_mean n L k st eq) m -> eq <> [::] -> (0 < sp_Nx p)%Z -> (0 < sp_Ny p)%Z ->
  m_sign m = list_mean (fun x => sgn (weight n L k st (snd x))) eq -> lsum (fun x => sgn (weight n L k st (snd x))) eq <> R0 ->
  In (Some o, average_local_moment, v) (summary_lines (sp_Norb p) (Z.mul (sp_Nx p) (sp_Ny p)) (m_sign m) (sign_average n L k st eq)) ->
  Rmult v (m_sign m) = val (m_arr m zz_corr) (entry (sp_Norb p) (Z.mul (sp_Nx p) (sp_Ny p)) o o 0).
Proof.
  move=> ER He Hx Hy HS Hs /moment_line [Ho ->].
  have Ho' : (0 <= o < sp_Norb p)%Z by lia.
  rewrite (er_two_point ER (f := zz_corr)) //; [|by do 4 right; left|nia].
  rewrite -est_mean // -HS.
  have Hz : m_sign m <> R0.
  { rewrite HS /list_mean. have Hc : INR (List.length eq) <> R0 by apply: not_0_INR; case: (eq) He.
    move: (lsum _ _) (INR _) Hc Hs => a c Hc Ha H. apply: Ha. have -> : a = Rmult (Rdiv a c) c by field. by rewrite H Rmult_0_l. }
  have -> : forall x, Rmult (Rdiv x (m_sign m)) (m_sign m) = x by move=> x; field.
  apply: mean_ext => x. rewrite /average. congr (Rdiv _ _). apply: sum_ext => i Hi. by rewrite zero_shift.
Qed.
