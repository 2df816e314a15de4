(** Expectation values in a field as traces over the Fock space. *)
From Coq Require Import ZArith List Reals Lia Lra.
From mathcomp Require Import all_ssreflect fingroup perm ssralg matrix.
From Verif Require Import Base RField MatSpec MatFacts TimeStep TimeStepSpec Strat StratSpec GreenSpec GreenFacts SimParams KineticExpSpec
  SweepSpec SweepFacts WickSpec UnequalTimeSpec SimulationSpec SimulationRun FockSpec FockFacts FockWick FockExp HubbardSpec HubbardFacts.
Set Implicit Arguments.
Unset Strict Implicit.
Unset Printing Implicit Defensive.
Local Open Scope ring_scope.
Import GRing.Theory.

Lemma lsumE A (f : A -> R) xs : lsum f xs = \sum_(x <- xs) f x.
Proof. elim: xs => [|x xs IH]; first by rewrite big_nil. by rewrite big_cons -IH. Qed.

Section Entries.
Variables (n : nat) (M : spin -> 'M[R]_n).
Lemma both_place (s t : spin) (i j : 'I_n) : both (M up) (M dn) (place s i) (place t j) =
  match s, t with up, up => M up i j | dn, dn => M dn i j | _, _ => 0 end.
Proof.
  case: s; case: t; rewrite /both /place ?block_mxEul ?block_mxEur ?block_mxEdl ?block_mxEdr ?mxE //.
Qed.
End Entries.

Lemma at_place n (a : mode) : (0 <= snd a < Z.of_nat n)%Z -> exists (i : 'I_n),
  a = (fst a, Z.of_nat i) /\ cdag_at n a = cdag (fst a) i /\ cann_at n a = cann (fst a) i.
Proof.
  case: a => [s z] /= H. have [i E] := ord_of H. exists i. rewrite /cdag_at /cann_at /= E Nat2Z.id valK. by [].
Qed.

Section Sums.
Variables (n : nat) (P2 P1 : fock n).
Lemma tr_bilinear (A : bilinear) : \tr (P2 *m bilinear_op n A *m P1) = \sum_(t <- A) t.1.1 * \tr (P2 *m (cdag_at n t.1.2 *m cann_at n t.2) *m P1).
Proof.
  rewrite /bilinear_op mulmx_sumr mulmx_suml raddf_sum /=. apply: eq_bigr => t _. by rewrite -scalemxAr -scalemxAl mxtraceZ.
Qed.
Lemma tr_bilinear2 (A B : bilinear) : \tr (P2 *m bilinear_op n A *m P1 *m bilinear_op n B) =
  \sum_(t <- A) \sum_(u <- B) t.1.1 * u.1.1 * \tr (P2 *m (cdag_at n t.1.2 *m cann_at n t.2) *m P1 *m (cdag_at n u.1.2 *m cann_at n u.2)).
Proof.
  move EY : (bilinear_op n B) => Y. rewrite /bilinear_op mulmx_sumr !mulmx_suml raddf_sum /=. apply: eq_bigr => t _.
  rewrite -EY /bilinear_op mulmx_sumr raddf_sum /=. apply: eq_bigr => u _.
  by rewrite -!scalemxAr -!scalemxAl !mxtraceZ mulrA [u.1.1 * _]mulrC.
Qed.
Lemma tr_pairing (A B : pairing) : \tr (P2 *m pairing_op n A *m P1 *m (pairing_op n B)^T) =
  \sum_(t <- A) \sum_(u <- B) t.1.1 * u.1.1 * \tr (P2 *m (cann_at n t.1.2 *m cann_at n t.2) *m P1 *m (cdag_at n u.2 *m cdag_at n u.1.2)).
Proof.
  move EY : (pairing_op n B)^T => Y. rewrite /pairing_op mulmx_sumr !mulmx_suml raddf_sum /=. apply: eq_bigr => t _.
  rewrite -EY /pairing_op linear_sum mulmx_sumr raddf_sum /=. apply: eq_bigr => u _. rewrite [(_ *: _)^T]linearZ /= trmx_mul.
  have E a : (cann_at n a)^T = cdag_at n a.
  { rewrite /cann_at /cdag_at. case: insub => [i|]; last by rewrite trmx0. by rewrite /cann /cdag /annihilate trmxK. }
  by rewrite !E -!scalemxAr -!scalemxAl !mxtraceZ mulrA [u.1.1 * _]mulrC.
Qed.
End Sums.

(** Wick's theorem for a configuration whose Green's functions are entries of the given matrices *)
Section Abstract.
Variables (n : nat) (w : config) (M1 M2 N1 G : 'M[R]_(n + n)).
Hypothesis HN : N1 *m M1 = 1%:M.
Hypothesis HG : G *m (1%:M + M2 *m M1) = 1%:M.
Hypothesis Htt : forall s t (i j : 'I_n), cdag_c_tt w (s, Z.of_nat i) (t, Z.of_nat j) = (1%:M - M1 *m G *m N1) (place t j) (place s i).
Hypothesis H00 : forall s t (i j : 'I_n), cdag_c_00 w (s, Z.of_nat i) (t, Z.of_nat j) = (1%:M - G) (place t j) (place s i).
Hypothesis Ht0 : forall s t (i j : 'I_n), cdag_c_t0 w (s, Z.of_nat i) (t, Z.of_nat j) = (G *m M2) (place t j) (place s i).
Hypothesis Hc0 : forall s t (i j : 'I_n), c_cdag_t0 w (s, Z.of_nat i) (t, Z.of_nat j) = (M1 *m G) (place s i) (place t j).
Notation tot := (\tr (second (M2 *m M1))).

Lemma lat_in (A : list (R * mode * mode)) : on_lattice n A -> forall t, List.In t A -> exists x s i r j,
  t = (x, (s, Z.of_nat (i : 'I_n)), (r, Z.of_nat (j : 'I_n))) /\
  cdag_at n t.1.2 = cdag s i /\ cann_at n t.1.2 = cann s i /\ cdag_at n t.2 = cdag r j /\ cann_at n t.2 = cann r j.
Proof.
  move=> /List.Forall_forall H t /H. case: t => [[x a] b] /= [/at_place [i [-> [E1 E2]]] /at_place [j [-> [E3 E4]]]].
  exists x, a.1, i, b.1, j. by rewrite -!E1 -!E2 -!E3 -!E4.
Qed.

Lemma abs_tt A : on_lattice n A -> tot * expect_tt w A = \tr (second M2 *m bilinear_op n A *m second M1).
Proof.
  move=> HA. rewrite tr_bilinear /expect_tt lsumE mulr_sumr. apply: sum_In => t /(lat_in HA) [x [s [i [r [j [-> [/= -> [_ [_ ->]]]]]]]]].
  rewrite (tau_expect HN HG) Htt. change Rmult with (@GRing.mul R_ringType). by rewrite mulrCA.
Qed.
Lemma abs_00 A : on_lattice n A -> tot * expect_00 w A = \tr (second M2 *m second M1 *m bilinear_op n A).
Proof.
  move=> HA. rewrite -second_mul -[second _ *m _]mulmx1 tr_bilinear /expect_00 lsumE mulr_sumr.
  apply: sum_In => t /(lat_in HA) [x [s [i [r [j [-> [/= -> [_ [_ ->]]]]]]]]].
  rewrite mulmx1 (two_point' HG) H00. change Rmult with (@GRing.mul R_ringType). by rewrite mulrCA.
Qed.
Lemma abs_corr A B : on_lattice n A -> on_lattice n B ->
  tot * correlation w A B = \tr (second M2 *m bilinear_op n A *m second M1 *m bilinear_op n B).
Proof.
  move=> HA HB. rewrite tr_bilinear2 /correlation lsumE mulr_sumr.
  apply: sum_In => t /(lat_in HA) [x [s [i [r [j [-> [/= -> [_ [_ ->]]]]]]]]].
  rewrite lsumE mulr_sumr. apply: sum_In => u /(lat_in HB) [y [s' [i' [r' [j' [-> [/= -> [_ [_ ->]]]]]]]]].
  rewrite (tau_corr HN HG) Htt H00 Ht0 Hc0. change Rmult with (@GRing.mul R_ringType). change Rplus with (@GRing.add R_ringType). by rewrite mulrCA.
Qed.
Lemma abs_pair A B : on_lattice n A -> on_lattice n B ->
  tot * pair_correlation w A B = \tr (second M2 *m pairing_op n A *m second M1 *m (pairing_op n B)^T).
Proof.
  move=> HA HB. rewrite tr_pairing /pair_correlation lsumE mulr_sumr.
  apply: sum_In => t /(lat_in HA) [x [s [i [r [j [-> [/= _ [-> [_ ->]]]]]]]]].
  rewrite lsumE mulr_sumr. apply: sum_In => u /(lat_in HB) [y [s' [i' [r' [j' [-> [/= -> [_ [-> _]]]]]]]]].
  rewrite (tau_pair HG) !Hc0. change Rmult with (@GRing.mul R_ringType). change Rminus with (fun a b : R => a - b). by rewrite mulrCA.
Qed.
End Abstract.

Section Config.
Variables (n L : nat) (M : spin -> nat -> 'M[R]_n).
Hypothesis HM : forall sp l, (l < L)%N -> M sp l \in unitmx.
Hypothesis HD : forall sp, \det (1%:M + oprod (M sp) 0 L) <> 0.
Notation PM := (fun l => both (M up l) (M dn l)).
Notation F := (fun l => second (PM l) : fock n).
Notation W := (\tr (oprod F 0 L)).

(** the Green's functions at slices l and 0 *)
Definition config_at (l : nat) : config :=
  mk_config (fun sp => entry_of (green_eqlt (M sp) L l)) (fun sp => entry_of (green_eqlt (M sp) L 0))
    (fun sp => entry_of (green_tau0 (M sp) L l)) (fun sp => entry_of (green_0tau (M sp) L l)) (l == 0%N).

Section At.
Variable l : nat.
Hypothesis Hl : (l <= L)%N.
Notation S1 sp := (oprod (M sp) 0 l).
Notation S2 sp := (oprod (M sp) l (L - l)).
Definition gr sp := invmx (1%:M + oprod (M sp) 0 L).
Definition M1 := both (S1 up) (S1 dn).
Definition M2 := both (S2 up) (S2 dn).
Definition N1 := both (invmx (S1 up)) (invmx (S1 dn)).
Definition Gr := both (gr up) (gr dn).

Lemma oprod_unit sp lo len : (lo + len <= L)%N -> oprod (M sp) lo len \in unitmx.
Proof.
  elim: len => [|len IH] H; first by rewrite oprod0 unitmx1.
  rewrite oprodS unitmx_mul HM ?IH //; [by rewrite (leq_trans _ H) // addnS|by rewrite -addnS].
Qed.
Lemma split_flow sp : S2 sp *m S1 sp = oprod (M sp) 0 L.
Proof. by rewrite -{2}(subnKC Hl) oprod_cat add0n. Qed.
Lemma S1V sp : invmx (S1 sp) *m S1 sp = 1%:M.
Proof. apply: mulVmx. apply: oprod_unit. by rewrite add0n. Qed.
Lemma grV sp : gr sp *m (1%:M + oprod (M sp) 0 L) = 1%:M.
Proof. apply: mulVmx. rewrite unitmxE unitfE. by apply/eqP. Qed.

Lemma HN1 : N1 *m M1 = 1%:M.
Proof. by rewrite /N1 /M1 both_mul !S1V both1. Qed.
Lemma HGr : Gr *m (1%:M + M2 *m M1) = 1%:M.
Proof. by rewrite /Gr /M2 /M1 both_mul !split_flow -both1 both_add both_mul !grV both1. Qed.

Lemma F1 : oprod F 0 l = second M1.
Proof. by rewrite -second_oprod both_oprod. Qed.
Lemma F2 : oprod F l (L - l) = second M2.
Proof. by rewrite -second_oprod both_oprod. Qed.
Lemma FW : W = \tr (second (M2 *m M1)).
Proof. by rewrite -second_oprod both_oprod /M2 /M1 both_mul !split_flow. Qed.

Lemma eqlt_conj sp : green_eqlt (M sp) L l = S1 sp *m gr sp *m invmx (S1 sp).
Proof.
  rewrite /green_eqlt /cyclic_flow.
  have H : S1 sp *m gr sp *m invmx (S1 sp) *m (1%:M + S1 sp *m S2 sp) = 1%:M.
  { rewrite mulmxDr mulmx1 -!mulmxA (mulmxA (invmx (S1 sp))) S1V mul1mx -mulmxDr -mulmxDr.
    have -> : invmx (S1 sp) + S2 sp = (1%:M + oprod (M sp) 0 L) *m invmx (S1 sp).
    { by rewrite mulmxDl mul1mx -split_flow -mulmxA (mulmx1C (S1V sp)) mulmx1. }
    by rewrite (mulmxA (gr sp)) grV mul1mx (mulmx1C (S1V sp)). }
  have HU : (1%:M + S1 sp *m S2 sp) \in unitmx by have [] := mulmx1_unit H.
  transitivity (S1 sp *m gr sp *m invmx (S1 sp) *m ((1%:M + S1 sp *m S2 sp) *m invmx (1%:M + S1 sp *m S2 sp))).
  - by rewrite mulmxA H mul1mx.
  - by rewrite mulmxV // mulmx1.
Qed.
Lemma eqlt0 sp : green_eqlt (M sp) L 0 = gr sp.
Proof. by rewrite /green_eqlt /cyclic_flow oprod0 mul1mx subn0. Qed.

Notation w := (config_at l).

Lemma deltaE (i j : 'I_n) : delta (Z.of_nat i) (Z.of_nat j) = (j == i)%:R.
Proof.
  rewrite /delta. case: Z.eqb_spec => [/Nat2Z.inj/ord_inj ->|H]; first by rewrite eqxx. case: eqP => // E. by rewrite E in H.
Qed.
Lemma both_sub (A B C D : 'M[R]_n) : both A B - both C D = both (A - C) (B - D).
Proof. by rewrite /both opp_block_mx add_block_mx !oppr0 !addr0. Qed.
Lemma sel (X : spin -> 'M[R]_n) (s t : spin) (i j : 'I_n) :
  both (X up) (X dn) (place t j) (place s i) = only (same_spin (s, Z.of_nat i) (t, Z.of_nat j)) (X s j i).
Proof. rewrite both_place. by case: s; case: t. Qed.

Lemma E_tt s t (i j : 'I_n) : cdag_c_tt w (s, Z.of_nat i) (t, Z.of_nat j) = (1%:M - M1 *m Gr *m N1) (place t j) (place s i).
Proof.
  rewrite /M1 /Gr /N1 !both_mul -both1 both_sub (sel (fun sp => 1%:M - S1 sp *m gr sp *m invmx (S1 sp))).
  rewrite /cdag_c_tt /=. congr only. by rewrite deltaE entry_ofE eqlt_conj !mxE.
Qed.
Lemma E_00 s t (i j : 'I_n) : cdag_c_00 w (s, Z.of_nat i) (t, Z.of_nat j) = (1%:M - Gr) (place t j) (place s i).
Proof.
  rewrite /Gr -both1 both_sub (sel (fun sp => 1%:M - gr sp)).
  rewrite /cdag_c_00 /=. congr only. by rewrite deltaE entry_ofE eqlt0 !mxE.
Qed.
Lemma gr_flow sp : gr sp *m oprod (M sp) 0 L = 1%:M - gr sp.
Proof. by rewrite -(grV sp) mulmxDr mulmx1 addrC addKr. Qed.
Lemma E_t0 s t (i j : 'I_n) : cdag_c_t0 w (s, Z.of_nat i) (t, Z.of_nat j) = (Gr *m M2) (place t j) (place s i).
Proof.
  rewrite /Gr /M2 both_mul (sel (fun sp => gr sp *m S2 sp)) /cdag_c_t0 /=. congr only. rewrite entry_ofE /green_0tau.
  case: eqP => [->|_] /=; first by rewrite subn0 gr_flow deltaE !mxE.
  rewrite [X in Rminus _ X]mxE. change (0 - - ((gr s *m S2 s) j i) = (gr s *m S2 s) j i). by rewrite opprK add0r.
Qed.
Lemma E_c0 s t (i j : 'I_n) : c_cdag_t0 w (s, Z.of_nat i) (t, Z.of_nat j) = (M1 *m Gr) (place s i) (place t j).
Proof.
  rewrite /Gr /M1 both_mul (sel (fun sp => S1 sp *m gr sp)) /c_cdag_t0 /= /same_spin /=.
  by case: s; case: t; rewrite //= entry_ofE.
Qed.

Lemma config_tt A : on_lattice n A -> W * expect_tt w A = trace_at F L l (bilinear_op n A) 1%:M.
Proof. move=> HA. by rewrite FW (abs_tt HN1 HGr E_tt HA) /trace_at F1 F2 mulmx1. Qed.
Lemma config_00 A : on_lattice n A -> W * expect_00 w A = trace_at F L l 1%:M (bilinear_op n A).
Proof. move=> HA. by rewrite FW (abs_00 HGr E_00 HA) /trace_at F1 F2 mulmx1. Qed.
Lemma config_corr A B : on_lattice n A -> on_lattice n B -> W * correlation w A B = trace_at F L l (bilinear_op n A) (bilinear_op n B).
Proof. move=> HA HB. by rewrite FW (abs_corr HN1 HGr E_tt E_00 E_t0 E_c0 HA HB) /trace_at F1 F2. Qed.
Lemma config_pair A B : on_lattice n A -> on_lattice n B -> W * pair_correlation w A B = trace_at F L l (pairing_op n A) (pairing_op n B)^T.
Proof. move=> HA HB. by rewrite FW (abs_pair HGr E_c0 HA HB) /trace_at F1 F2. Qed.

Lemma config_green sp (i j : 'I_n) : W * gt0 w sp (Z.of_nat i) (Z.of_nat j) = trace_at F L l (cann sp i) (cdag sp j).
Proof.
  have E := E_c0 sp sp i j. rewrite /c_cdag_t0 /= in E. rewrite FW /trace_at F1 F2 (tau_green HGr) -E. by case: sp E.
Qed.
Lemma config_green' sp (i j : 'I_n) : W * cdag_c_t0 w (sp, Z.of_nat j) (sp, Z.of_nat i) = trace_at F L l (cdag sp j) (cann sp i).
Proof. by rewrite FW /trace_at F1 F2 (tau_green' HN1 HGr) E_t0. Qed.

(** equal times *)
Definition config_eq : config := equal_time (fun sp => entry_of (green_eqlt (M sp) L l)).
Definition Ge := M1 *m Gr *m N1.
Lemma GeE : Ge = both (green_eqlt (M up) L l) (green_eqlt (M dn) L l).
Proof. by rewrite /Ge /M1 /Gr /N1 !both_mul !eqlt_conj. Qed.
Lemma HGe : Ge *m (1%:M + (M1 *m M2) *m 1%:M) = 1%:M.
Proof.
  rewrite mulmx1 mulmxDr mulmx1 /Ge -!mulmxA (mulmxA N1) HN1 mul1mx -mulmxDr -mulmxDr.
  have -> : N1 + M2 = (1%:M + M2 *m M1) *m N1.
  { by rewrite mulmxDl mul1mx -mulmxA (mulmx1C HN1) mulmx1. }
  by rewrite (mulmxA Gr) HGr mul1mx (mulmx1C HN1).
Qed.
Lemma eq_c s t (i j : 'I_n) : cdag_c_tt config_eq (s, Z.of_nat i) (t, Z.of_nat j) = (1%:M - Ge) (place t j) (place s i).
Proof.
  rewrite GeE -both1 both_sub (sel (fun sp => 1%:M - green_eqlt (M sp) L l)).
  rewrite /cdag_c_tt /=. congr only. by rewrite deltaE entry_ofE !mxE.
Qed.
Lemma eq_c' s t (i j : 'I_n) : cdag_c_tt config_eq (s, Z.of_nat i) (t, Z.of_nat j) = (1%:M - 1%:M *m Ge *m 1%:M) (place t j) (place s i).
Proof. by rewrite mul1mx mulmx1 eq_c. Qed.
Lemma eq_t0 s t (i j : 'I_n) : cdag_c_t0 config_eq (s, Z.of_nat i) (t, Z.of_nat j) = (Ge *m (M1 *m M2)) (place t j) (place s i).
Proof.
  have -> : Ge *m (M1 *m M2) = 1%:M - Ge by rewrite -HGe mulmx1 mulmxDr mulmx1 addrC addKr.
  by rewrite -eq_c.
Qed.
Lemma eq_c0 s t (i j : 'I_n) : c_cdag_t0 config_eq (s, Z.of_nat i) (t, Z.of_nat j) = (1%:M *m Ge) (place s i) (place t j).
Proof.
  rewrite mul1mx GeE (sel (fun sp => green_eqlt (M sp) L l)) /c_cdag_t0 /= /same_spin /=.
  by case: s; case: t; rewrite //= entry_ofE.
Qed.
Lemma WE : W = \tr (second (M1 *m M2 *m 1%:M)).
Proof. by rewrite FW mulmx1 !second_mul mxtrace_mulC. Qed.
Let H11 : (1%:M : 'M[R]_(n + n)) *m 1%:M = 1%:M. Proof. exact: mulmx1. Qed.
Lemma eq_trace (O O' : fock n) : \tr (second (M1 *m M2) *m O *m second 1%:M *m O') = trace_at F L l (O *m O') 1%:M.
Proof. by rewrite second1 second_mul /trace_at F1 F2 !mulmx1 -!mulmxA mxtrace_mulC !mulmxA. Qed.

Lemma config_eq_tt A : on_lattice n A -> W * expect_tt config_eq A = trace_at F L l (bilinear_op n A) 1%:M.
Proof. move=> HA. by rewrite WE (abs_tt H11 HGe eq_c' HA) -[_ *m second 1%:M]mulmx1 eq_trace mulmx1. Qed.
Lemma config_eq_corr A B : on_lattice n A -> on_lattice n B ->
  W * correlation config_eq A B = trace_at F L l (bilinear_op n A *m bilinear_op n B) 1%:M.
Proof. move=> HA HB. by rewrite WE (abs_corr H11 HGe eq_c' eq_c eq_t0 eq_c0 HA HB) eq_trace. Qed.
Lemma config_eq_pair A B : on_lattice n A -> on_lattice n B ->
  W * pair_correlation config_eq A B = trace_at F L l (pairing_op n A *m (pairing_op n B)^T) 1%:M.
Proof. move=> HA HB. by rewrite WE (abs_pair HGe eq_c0 HA HB) eq_trace. Qed.
End At.
End Config.
