(** The spectral theorem for real symmetric matrices. *)
From mathcomp Require Import all_ssreflect ssralg ssrnum poly matrix mxalgebra mxpoly.
From mathcomp Require Import complex.
Set Implicit Arguments.
Unset Strict Implicit.
Unset Printing Implicit Defensive.
Local Open Scope ring_scope.
Import Order.Theory GRing.Theory Num.Theory.

Section Spectral.
Variable F : rcfType.

Definition dot n (x y : 'rV[F]_n) : F := (x *m y^T) ord0 ord0.
Lemma dotE n (x y : 'rV[F]_n) : x *m y^T = (dot x y)%:M.
Proof. exact: mx11_scalar. Qed.
Lemma dot_sum n (x y : 'rV[F]_n) : dot x y = \sum_i x ord0 i * y ord0 i.
Proof. rewrite /dot mxE. by apply: eq_bigr => i _; rewrite mxE. Qed.
Lemma dotC n (x y : 'rV[F]_n) : dot x y = dot y x.
Proof. rewrite !dot_sum. by apply: eq_bigr => i _; rewrite mulrC. Qed.
Lemma dotDl n (x y z : 'rV[F]_n) : dot (x + y) z = dot x z + dot y z.
Proof. by rewrite /dot mulmxDl mxE. Qed.
Lemma dotZl n a (x z : 'rV[F]_n) : dot (a *: x) z = a * dot x z.
Proof. by rewrite /dot -scalemxAl mxE. Qed.
Lemma dotBl n (x y z : 'rV[F]_n) : dot (x - y) z = dot x z - dot y z.
Proof. by rewrite /dot mulmxBl !mxE. Qed.
Lemma dot_ge0 n (x : 'rV[F]_n) : 0 <= dot x x.
Proof. rewrite dot_sum. apply: sumr_ge0 => i _. exact: sqr_ge0. Qed.
Lemma dot_eq0 n (x : 'rV[F]_n) : dot x x = 0 -> x = 0.
Proof.
  rewrite dot_sum => /eqP. rewrite psumr_eq0; last by move=> i _; exact: sqr_ge0.
  move=> /allP H. apply/rowP => i. have := H i (mem_index_enum i). by rewrite mxE mulf_eq0 orbb => /eqP.
Qed.
Lemma dot_sym n (A : 'M[F]_n) x y : A^T = A -> dot (x *m A) y = dot (y *m A) x.
Proof.
  move=> HA. rewrite /dot. have -> : x *m A *m y^T = (y *m A *m x^T)^T by rewrite !trmx_mul trmxK HA mulmxA.
  by rewrite mxE.
Qed.

(** a real symmetric matrix has an eigenvector *)
Lemma sym_eigen m (A : 'M[F]_m.+1) : A^T = A -> exists (u : 'rV[F]_m.+1) a, dot u u = 1 /\ u *m A = a *: u.
Proof.
  move=> HA. set B := map_mx (real_complex F) A.
  have /closed_rootP [c Hc] : size (char_poly B) != 1%N by rewrite size_char_poly.
  rewrite -eigenvalue_root_char in Hc. have /eigenvalueP [v Hv vn0] := Hc.
  pose x := map_mx (@complex.Re F) v. pose y := map_mx (@complex.Im F) v. pose p := complex.Re c. pose q := complex.Im c.
  have Hx : x *m A = p *: x - q *: y.
  { apply/rowP => j. move/rowP/(_ j)/(congr1 (@complex.Re F)): Hv. rewrite !mxE. rewrite raddf_sum /= => E.
    transitivity (\sum_i complex.Re (v ord0 i * B i j)); last by rewrite E /p /q; case: (c) => c1 c2; case: (v ord0 j).
    apply: eq_bigr => i _. rewrite !mxE. by case: (v ord0 i) => v1 v2 /=; rewrite mulr0 subr0. }
  have Hy : y *m A = p *: y + q *: x.
  { apply/rowP => j. move/rowP/(_ j)/(congr1 (@complex.Im F)): Hv. rewrite !mxE. rewrite raddf_sum /= => E.
    transitivity (\sum_i complex.Im (v ord0 i * B i j)); last by rewrite E /p /q; case: (c) => c1 c2; case: (v ord0 j) => v1 v2 /=.
    apply: eq_bigr => i _. rewrite !mxE. by case: (v ord0 i) => v1 v2 /=; rewrite mulr0 add0r. }
  have Hq : q = 0.
  { have := dot_sym x y HA. rewrite Hx Hy dotBl dotDl !dotZl [dot y x]dotC.
    move/(congr1 (fun z => p * dot x y - z)). rewrite opprB addrCA subrr addr0 opprD addrA subrr add0r => /eqP.
    rewrite -subr_eq0 opprK -mulrDr mulf_eq0 => /orP [/eqP //|].
    rewrite paddr_eq0 ?dot_ge0 // => /andP [/eqP/dot_eq0 H1 /eqP/dot_eq0 H2].
    case/eqP: vn0. apply/rowP => j. move/rowP/(_ j): H1. move/rowP/(_ j): H2. rewrite !mxE. by case: (v ord0 j) => v1 v2 /= -> ->. }
  have [u [un0 Hu]] : exists u : 'rV[F]_m.+1, u != 0 /\ u *m A = p *: u.
  { rewrite Hq !scale0r subr0 in Hx. rewrite Hq !scale0r addr0 in Hy.
    case: (eqVneq x 0) => [Ex|Ex]; last by exists x.
    exists y. split => //. apply: contraNneq vn0 => Ey. apply/eqP/rowP => j.
    move/rowP/(_ j): Ex. move/rowP/(_ j): Ey. rewrite !mxE. by case: (v ord0 j) => v1 v2 /= -> ->. }
  have Hd : 0 < dot u u by rewrite lt_def dot_ge0 andbT; apply: contraNneq un0 => /dot_eq0 ->.
  exists ((Num.sqrt (dot u u))^-1 *: u), p. split.
  - rewrite dotZl dotC dotZl mulrA -invfM -expr2 sqr_sqrtr ?dot_ge0 // mulVf // gt_eqF //.
  - by rewrite -scalemxAl Hu !scalerA mulrC.
Qed.

(** a reflection that maps one unit vector to another *)
Lemma reflection n (u e : 'rV[F]_n) : dot u u = 1 -> dot e e = 1 ->
  exists H : 'M[F]_n, H^T = H /\ H *m H = 1%:M /\ e *m H = u.
Proof.
  move=> Hu He. case: (eqVneq u e) => [->|ne].
  { exists 1%:M. by rewrite trmx1 !mulmx1. }
  pose w := u - e. pose s := dot w w. 
  have Hs : s != 0 by apply: contraNneq ne => /dot_eq0 /eqP; rewrite subr_eq0.
  pose H := 1%:M - (2%:R / s) *: (w^T *m w).
  have Hw : w *m (w^T *m w) = s *: w by rewrite mulmxA dotE mul_scalar_mx.
  exists H. split; first by rewrite /H linearB /= trmx1 linearZ /= trmx_mul trmxK.
  have H2 : 2%:R / s * s = 2%:R by rewrite -mulrA mulVf ?mulr1.
  split.
  - rewrite /H. set t := 2%:R / s in H2 *. set W := w^T *m w.
    have HW : W *m W = s *: W by rewrite {1}/W -mulmxA Hw -scalemxAr.
    rewrite mulmxBr mulmx1 mulmxBl mul1mx -scalemxAr -scalemxAl HW !scalerA -mulrA H2.
    rewrite mulr_natr mulr2n scalerDl. set z := t *: W.
    have -> : z - (z + z) = - z by rewrite opprD addrA subrr sub0r.
    by rewrite opprK subrK.
  - have Hes : dot e w *+ 2 = - s.
    { rewrite /s /w dotBl ![dot _ (u - e)]dotC !dotBl Hu He [dot e u]dotC.
      set z := dot u e. rewrite mulr2n !opprB. by rewrite -!addrA; congr (_ + _); rewrite !addrA addrC !addrA subrr add0r. }
    rewrite /H mulmxBr mulmx1 -scalemxAr mulmxA dotE mul_scalar_mx scalerA.
    have -> : 2%:R / s * dot e w = -1.
    { by rewrite mulrAC mulr_natl Hes mulNr mulfV. }
    by rewrite scaleN1r opprK /w addrC subrK.
Qed.

Theorem spectral n (A : 'M[F]_n) : A^T = A -> exists (U : 'M[F]_n) d, U^T *m U = 1%:M /\ A = U *m diag_mx d *m U^T.
Proof.
  elim: n A => [|m IH] A HA.
  { exists 1%:M, 0. split; by rewrite [LHS]flatmx0 [RHS]flatmx0. }
  have [u [a [Hu Ha]]] := sym_eigen HA.
  pose e : 'rV[F]_(1 + m) := row_mx 1%:M 0.
  have He : dot e e = 1 by rewrite /dot /e tr_row_mx mul_row_col trmx1 mul1mx mul0mx addr0 mxE eqxx.
  have [H [HT [HH Heu]]] := reflection Hu He.
  pose B : 'M[F]_(1 + m) := H *m A *m H.
  have HB : B^T = B by rewrite /B !trmx_mul HT HA mulmxA.
  have HeB : e *m B = a *: e.
  { rewrite /B !mulmxA Heu Ha -scalemxAl -Heu -mulmxA HH mulmx1 //. }
  have Hur : ursubmx B = 0.
  { move: HeB. rewrite -{1}[B]submxK /e mul_row_block !mul1mx !mul0mx !addr0 scale_row_mx scaler0. by case/eq_row_mx. }
  have Hul : ulsubmx B = a%:M.
  { move: HeB. rewrite -{1}[B]submxK /e mul_row_block !mul1mx !mul0mx !addr0 scale_row_mx scaler0 scalemx1. by case/eq_row_mx. }
  have Hdl : dlsubmx B = 0 by rewrite -[LHS]trmxK trmx_dlsub HB Hur trmx0.
  have Hdr : (drsubmx B)^T = drsubmx B by rewrite trmx_drsub HB.
  have [V [d [HV EV]]] := IH _ Hdr.
  pose W : 'M[F]_(1 + m) := block_mx 1%:M 0 0 V.
  have HW : W^T *m W = 1%:M by rewrite /W tr_block_mx mulmx_block !trmx0 !mulmx0 !mul0mx trmx1 mul1mx !addr0 !add0r HV -scalar_mx_block.
  have EB : B = W *m diag_mx (row_mx a%:M d) *m W^T.
  { rewrite -{1}[B]submxK Hul Hur Hdl EV diag_mx_row /W tr_block_mx !mulmx_block !trmx0 !(mulmx0, mul0mx) trmx1 !(mul1mx, mulmx1) !(addr0, add0r).
    congr block_mx; last by rewrite mul0mx. apply/matrixP => i j. by rewrite !mxE !ord1 /= ?mulr1n. }
  exists (H *m W), (row_mx a%:M d). split.
  - by rewrite trmx_mul HT mulmxA -[W^T *m H *m H]mulmxA HH mulmx1.
  - have -> : H *m W *m diag_mx (row_mx a%:M d) *m (H *m W)^T = H *m B *m H by rewrite EB trmx_mul HT !mulmxA.
    by rewrite /B -!mulmxA HH mulmx1 mulmxA HH mul1mx.
Qed.
End Spectral.
