(** Proofs about the time step matrices. *)
From Coq Require Import ZArith List Reals Lia.
From mathcomp Require Import all_ssreflect ssralg matrix.
From Verif Require Import Base BaseFacts Sums SumsFacts RealOps ParamParser RField Blas BlasFacts MatProd MatSpec MatFacts
  TimeStep TimeStepSpec.
Set Implicit Arguments.
Unset Strict Implicit.
Unset Printing Implicit Defensive.
Local Open Scope ring_scope.
Import GRing.Theory.

Lemma square_len n (A : list R) : List.length A = (n * n)%N -> square n A.
Proof. rewrite /square /lenZ -multE => ->. lia. Qed.
Lemma len_square n (A : list R) : square n A -> List.length A = (n * n)%N.
Proof. rewrite /square /lenZ -multE. lia. Qed.

Lemma rdiv_some a b : b <> R0 -> rdiv a b = Some (Rdiv a b).
Proof. by move=> Hb; rewrite /rdiv; case: Req_EM_T. Qed.

(** scaling all rows *)
Lemma rows_scale n (w : Z -> R) body B : square n B ->
  (forall i B, (0 <= i < Zn n)%Z -> body i B = dscal (Zn n) (w i) B i (Zn n)) ->
  exists B', for_range 0 (Zn n) body B = Some B' /\ square n B' /\
    mat n B' = diag_mx (\row_(i < n) w (Zn i)) *m mat n B.
Proof.
  move=> HB Hbody.
  have [|||B' [E [HB' HI]]] := @for_range_inv _ (fun h B' => square n B' /\ forall i j, (0 <= i < Zn n)%Z -> (0 <= j < Zn n)%Z ->
     ent B' 0 (Zn n) i j = if (i <? h)%Z then Rmult (w i) (ent B 0 (Zn n) i j) else ent B 0 (Zn n) i j) 0%Z (Zn n) body B.
  - lia.
  - move=> h C Hh [HC HI]. rewrite Hbody //.
    have [|||| C' [E [HL [H1 H2]]]] := @dscal_ok (Zn n) (w h) C h (Zn n); try (rewrite /square in HC; nia).
    exists C'. split => //. split; first by rewrite /square HL.
    move=> i j Hi Hj. rewrite /ent.
    have [Ei|Ei] := Z.eq_dec i h.
    + rewrite Ei. have -> : (0 + h + j * Zn n = h + j * Zn n)%Z by lia. rewrite H1 //.
      have := HI h j Hh Hj. rewrite /ent. have -> : (0 + h + j * Zn n = h + j * Zn n)%Z by lia. move=> ->.
      case: Z.ltb_spec; first lia. case: Z.ltb_spec => //; lia.
    + rewrite H2; last 1 first.
      * move=> j' Hj' HE. apply: Ei. have Hjj : j = j' by nia. lia.
      * have := HI i j Hi Hj. rewrite /ent => ->.
        case: Z.ltb_spec; case: Z.ltb_spec => //; lia.
      * nia.
  - split => // i j Hi Hj. case: Z.ltb_spec => //; lia.
  - exists B'. split => //. split => //.
    have -> : \row_(i < n) w (Zn i) = mxf 1 n (fun _ j => w j) by apply/matrixP => i j; rewrite !mxE.
    rewrite !mat_mxf mxf_diag_l. apply: mxf_ext => i j Hi Hj. rewrite HI //.
    case: Z.ltb_spec => //; lia.
Qed.

(** scaling all columns *)
Lemma cols_scale n (w : Z -> R) body B : square n B ->
  (forall i B, (0 <= i < Zn n)%Z -> body i B = dscal (Zn n) (w i) B (i * Zn n) 1) ->
  exists B', for_range 0 (Zn n) body B = Some B' /\ square n B' /\
    mat n B' = mat n B *m diag_mx (\row_(i < n) w (Zn i)).
Proof.
  move=> HB Hbody.
  have [|||B' [E [HB' HI]]] := @for_range_inv _ (fun h B' => square n B' /\ forall i j, (0 <= i < Zn n)%Z -> (0 <= j < Zn n)%Z ->
     ent B' 0 (Zn n) i j = if (j <? h)%Z then Rmult (w j) (ent B 0 (Zn n) i j) else ent B 0 (Zn n) i j) 0%Z (Zn n) body B.
  - lia.
  - move=> h C Hh [HC HI]. rewrite Hbody //.
    have [|||| C' [E [HL [H1 H2]]]] := @dscal_ok (Zn n) (w h) C (h * Zn n) 1; try (rewrite /square in HC; nia).
    exists C'. split => //. split; first by rewrite /square HL.
    move=> i j Hi Hj. rewrite /ent.
    have [Ei|Ei] := Z.eq_dec j h.
    + rewrite Ei. have -> : (0 + i + h * Zn n = h * Zn n + i * 1)%Z by lia. rewrite H1 //.
      have := HI i h Hi Hh. rewrite /ent. have -> : (0 + i + h * Zn n = h * Zn n + i * 1)%Z by lia. move=> ->.
      case: Z.ltb_spec; first lia. case: Z.ltb_spec => //; lia.
    + rewrite H2; last 1 first.
      * move=> j' Hj' HE. apply: Ei. nia.
      * have := HI i j Hi Hj. rewrite /ent => ->.
        case: Z.ltb_spec; case: Z.ltb_spec => //; lia.
      * nia.
  - split => // i j Hi Hj. case: Z.ltb_spec => //; lia.
  - exists B'. split => //. split => //.
    have -> : \row_(i < n) w (Zn i) = mxf 1 n (fun _ j => w j) by apply/matrixP => i j; rewrite !mxE.
    rewrite !mat_mxf mxf_diag_r. apply: mxf_ext => i j Hi Hj. rewrite HI //.
    case: Z.ltb_spec => //; lia.
Qed.

Section Slices.
Variables (n L : nat) (k : kinetic) (expV : list (list R)) (s : list Z).
Hypothesis (KO : kinetic_ok n k) (VO : expV_ok (k_Norb k) expV) (FO : field_ok n L s).

Lemma field_at l i : (l < L)%N -> (0 <= i < Zn n)%Z ->
  exists v, aget s (Zn l * Zn n + i) = Some v /\ (v = 0%Z \/ v = 1%Z) /\
    v = nth 0%Z s (l * n + Z.to_nat i).
Proof.
  move=> Hl Hi. case: FO => HL HF.
  have Hb : (0 <= Zn l * Zn n + i < Zn (List.length s))%Z.
  { rewrite HL -multE. move/ltP: Hl => Hl. nia. }
  have Hk : Z.to_nat (Zn l * Zn n + i) = (l * n + Z.to_nat i)%N by rewrite -multE -plusE; nia.
  exists (List.nth (Z.to_nat (Zn l * Zn n + i)) s 0%Z). split; first exact: aget_nth.
  rewrite nthE -Hk. split => //. apply: (Forall_nth_ok _ HF). lia.
Qed.

Lemma orb_at i : (0 <= i < Zn n)%Z ->
  cdiv i (k_Ncell k) = Some (i / k_Ncell k)%Z /\ (0 <= i / k_Ncell k < k_Norb k)%Z.
Proof.
  move=> Hi. case: KO => HC HD _ _ _. rewrite /cdiv. case: Z.eqb_spec => [|_]; first lia.
  rewrite Z.quot_div_nonneg; try lia. split => //. split; first by apply: Z.div_pos; lia.
  apply: Z.div_lt_upper_bound; lia.
Qed.

Lemma vtab_at v o : (v = 0%Z \/ v = 1%Z) -> (0 <= o < k_Norb k)%Z ->
  vtab expV v o = Some (nth R0 (nth nil expV (Z.to_nat v)) (Z.to_nat o)).
Proof.
  move=> Hv Ho. case: VO => H2 HL _. rewrite /vtab (@aget_nth _ _ _ nil); last by rewrite H2; case: Hv => ->; lia.
  cbn [obind]. rewrite (@aget_nth _ _ _ R0); first by rewrite !nthE.
  have := @Forall_nth_ok _ _ expV (Z.to_nat v) nil HL. cbv beta. move=> ->; first lia.
  rewrite H2. case: Hv => ->; simpl; lia.
Qed.

Lemma factor_inv v o : (v = 0%Z \/ v = 1%Z) -> (0 <= o < k_Norb k)%Z ->
  nth R0 (nth nil expV (Z.to_nat (1 - v))) (Z.to_nat o) * nth R0 (nth nil expV (Z.to_nat v)) (Z.to_nat o) = 1.
Proof.
  move=> Hv Ho. case: VO => _ _ HI. case: Hv => ->.
  - have -> : Z.to_nat (1 - 0) = 1%N by []. rewrite mulrC. apply: HI. lia.
  - have -> : Z.to_nat (1 - 1) = 0%N by []. apply: HI. lia.
Qed.

Lemma dimE : (k_Ncell k * k_Norb k)%Z = Zn n. Proof. by case: KO. Qed.

Definition wfac l (i : Z) : R := field_factor n (k_Ncell k) expV s l (Z.to_nat i).

Lemma wfac_row l : \row_(i < n) wfac l (Zn i) = \row_(i < n) field_factor n (k_Ncell k) expV s l i.
Proof. by apply/matrixP => a b; rewrite !mxE /wfac Nat2Z.id. Qed.

Lemma lookup_v l i : (l < L)%N -> (0 <= i < Zn n)%Z ->
  exists v, aget s (Zn l * Zn n + i) = Some v /\
    vtab expV v (i / k_Ncell k) = Some (wfac l i) /\
    exists w, vtab expV (1 - v) (i / k_Ncell k) = Some w /\ w * wfac l i = 1.
Proof.
  move=> Hl Hi. have [v [E [Hv Ev]]] := field_at Hl Hi. exists v. split => //.
  have [_ Ho] := orb_at Hi.
  have Ew : wfac l i = nth R0 (nth nil expV (Z.to_nat v)) (Z.to_nat (i / k_Ncell k)).
  { by rewrite /wfac /field_factor Ev Z2Nat.id; last lia. }
  rewrite (vtab_at Hv Ho) Ew. split => //.
  have Hv' : (1 - v = 0)%Z \/ (1 - v = 1)%Z by lia.
  rewrite (vtab_at Hv' Ho). eexists; split; first reflexivity. exact: factor_inv.
Qed.

Lemma compute_step_ok l B : (l < L)%N -> square n B ->
  exists B', compute_step k expV s (Zn l * Zn n) B = Some B' /\ square n B' /\ mat n B' = step_mx n k expV s l.
Proof.
  move=> Hl HB. rewrite /compute_step dimE.
  have HK : square n (expK k) by apply: square_len; case: KO.
  have [B0 [-> [HB0 EB0]]] := copy_square HK HB. cbn [obind].
  have [|B' [E [HB' HM]]] := rows_scale (w := wfac l) HB0 (body := fun i B =>
    let* o := cdiv i (k_Ncell k) in
    let* si := aget s (Zn l * Zn n + i) in
    let* v := vtab expV si o in dscal (Zn n) v B i (Zn n)).
  - move=> i C Hi. have [-> Ho] := orb_at Hi. cbn [obind]. have [v [-> [Ev _]]] := lookup_v Hl Hi.
    cbn [obind]. by rewrite Ev.
  - exists B'. split => //. split => //. by rewrite HM EB0 wfac_row.
Qed.

Lemma diag_inv (w w' : Z -> R) : (forall i, (0 <= i < Zn n)%Z -> w' i * w i = 1) ->
  diag_mx (\row_(i < n) w' (Zn i)) *m diag_mx (\row_(i < n) w (Zn i)) = 1%:M.
Proof.
  move=> H. rewrite mulmx_diag. rewrite -diag_const_mx. congr diag_mx.
  apply/matrixP => a b. rewrite !mxE. apply: H. exact: ordZ.
Qed.

Lemma choose_w (P : Z -> R -> Prop) : (forall i, (0 <= i < Zn n)%Z -> exists w, P i w) ->
  exists f, forall i, (0 <= i < Zn n)%Z -> P i (f i).
Proof.
  move=> H.
  have H' : forall m, (m <= n)%N -> exists f, forall i, (0 <= i < Zn m)%Z -> P i (f i).
  { elim => [|m IH] Hm; first by exists (fun _ => R0) => i; lia.
    have [f Hf] := IH (ltnW Hm). move/ltP: Hm => Hm. have [w Hw] := H (Zn m) ltac:(lia).
    exists (fun i => if (i =? Zn m)%Z then w else f i) => i Hi.
    case: Z.eqb_spec => [->//|Hne]. apply: Hf. lia. }
  exact: H'.
Qed.

Lemma inv_from (w w' : Z -> R) (K K' : 'M[R]_n) : (forall i, (0 <= i < Zn n)%Z -> w' i * w i = 1) ->
  K' *m K = 1%:M ->
  (K' *m diag_mx (\row_(i < n) w' (Zn i))) *m (diag_mx (\row_(i < n) w (Zn i)) *m K) = 1%:M.
Proof. move=> H HK. by rewrite mulmxA -(mulmxA K') diag_inv // mulmx1. Qed.

Lemma compute_inv_step_ok l B : (l < L)%N -> square n B ->
  exists B', compute_inv_step k expV s (Zn l * Zn n) B = Some B' /\ square n B' /\
    mat n B' *m step_mx n k expV s l = 1%:M.
Proof.
  move=> Hl HB. rewrite /compute_inv_step dimE.
  have HK : square n (inv_expK k) by apply: square_len; case: KO.
  have [B0 [-> [HB0 EB0]]] := copy_square HK HB. cbn [obind].
  have [w' Hw'] := choose_w (P := fun i w => forall v, aget s (Zn l * Zn n + i) = Some v ->
     vtab expV (1 - v) (i / k_Ncell k) = Some w /\ w * wfac l i = 1)
    ltac:(move=> i Hi; have [v [Ev [_ [w [Hw1 Hw2]]]]] := lookup_v Hl Hi; exists w => v'; rewrite Ev => - [<-]; auto).
  have [|B' [E [HB' HM]]] := cols_scale (w := w') HB0 (body := fun i invB =>
    let* o := cdiv i (k_Ncell k) in
    let* si := aget s (Zn l * Zn n + i) in
    let* v := vtab expV (1 - si) o in dscal (Zn n) v invB (i * Zn n) 1).
  - move=> i C Hi. have [-> Ho] := orb_at Hi. cbn [obind]. have [v [Ev _]] := lookup_v Hl Hi.
    have [Hv _] := Hw' i Hi v Ev. rewrite Ev. cbn [obind]. by rewrite Hv.
  - exists B'. split => //. split => //. rewrite HM EB0 /step_mx -wfac_row. apply: inv_from; last by case: KO.
    move=> i Hi. have [v [Ev _]] := lookup_v Hl Hi. by have [_ ->] := Hw' i Hi v Ev.
Qed.

Variable (expX : list R).
Hypothesis (XO : List.length expX = (L * n)%N) (XP : List.Forall (fun x => x <> R0) expX).

Lemma expX_at l i : (l < L)%N -> (0 <= i < Zn n)%Z ->
  aget expX (Zn l * Zn n + i) = Some (nth R0 expX (l * n + Z.to_nat i)) /\ nth R0 expX (l * n + Z.to_nat i) <> R0.
Proof.
  move=> Hl Hi.
  have Hb : (0 <= Zn l * Zn n + i < Zn (List.length expX))%Z.
  { rewrite XO -multE. move/ltP: Hl => Hl. nia. }
  have Hk : Z.to_nat (Zn l * Zn n + i) = (l * n + Z.to_nat i)%N by rewrite -multE -plusE; nia.
  rewrite (@aget_nth _ _ _ R0) // nthE -Hk. split => //. apply: (Forall_nth_ok _ XP). lia.
Qed.

Definition pfac l (i : Z) : R := wfac l i * nth R0 expX (l * n + Z.to_nat i).

Lemma pfac_row l : \row_(i < n) pfac l (Zn i) =
  \row_(i < n) (field_factor n (k_Ncell k) expV s l i * nth R0 expX (l * n + i)).
Proof. by apply/matrixP => a b; rewrite !mxE /pfac /wfac Nat2Z.id. Qed.

Lemma compute_phonon_step_ok l B : (l < L)%N -> square n B ->
  exists B', compute_phonon_step k expV s expX (Zn l * Zn n) B = Some B' /\ square n B' /\
    mat n B' = phonon_step_mx n k expV s expX l.
Proof.
  move=> Hl HB. rewrite /compute_phonon_step dimE.
  have HK : square n (expK k) by apply: square_len; case: KO.
  have [B0 [-> [HB0 EB0]]] := copy_square HK HB. cbn [obind].
  have [|B' [E [HB' HM]]] := rows_scale (w := pfac l) HB0 (body := fun i B =>
    let* o := cdiv i (k_Ncell k) in
    let* si := aget s (Zn l * Zn n + i) in
    let* v := vtab expV si o in
    let* x := aget expX (Zn l * Zn n + i) in dscal (Zn n) (Rmult v x) B i (Zn n)).
  - move=> i C Hi. have [-> Ho] := orb_at Hi. cbn [obind]. have [v [-> [Ev _]]] := lookup_v Hl Hi.
    cbn [obind]. rewrite Ev. cbn [obind]. by have [-> _] := expX_at Hl Hi.
  - exists B'. split => //. split => //. by rewrite HM EB0 pfac_row.
Qed.

Lemma compute_inv_phonon_step_ok l B : (l < L)%N -> square n B ->
  exists B', compute_inv_phonon_step k expV s expX (Zn l * Zn n) B = Some B' /\ square n B' /\
    mat n B' *m phonon_step_mx n k expV s expX l = 1%:M.
Proof.
  move=> Hl HB. rewrite /compute_inv_phonon_step dimE.
  have HK : square n (inv_expK k) by apply: square_len; case: KO.
  have [B0 [-> [HB0 EB0]]] := copy_square HK HB. cbn [obind].
  have [w' Hw'] := choose_w (P := fun i w => forall v, aget s (Zn l * Zn n + i) = Some v ->
     vtab expV (1 - v) (i / k_Ncell k) = Some w /\ w * wfac l i = 1)
    ltac:(move=> i Hi; have [v [Ev [_ [w [Hw1 Hw2]]]]] := lookup_v Hl Hi; exists w => v'; rewrite Ev => - [<-]; auto).
  have [|B' [E [HB' HM]]] := cols_scale (w := fun i => Rdiv (w' i) (nth R0 expX (l * n + Z.to_nat i))) HB0 (body := fun i invB =>
    let* o := cdiv i (k_Ncell k) in
    let* si := aget s (Zn l * Zn n + i) in
    let* v := vtab expV (1 - si) o in
    let* x := aget expX (Zn l * Zn n + i) in
    let* q := rdiv v x in dscal (Zn n) q invB (i * Zn n) 1).
  - move=> i C Hi. have [-> Ho] := orb_at Hi. cbn [obind]. have [v [Ev _]] := lookup_v Hl Hi.
    have [Hv _] := Hw' i Hi v Ev. rewrite Ev. cbn [obind]. rewrite Hv. cbn [obind].
    have [-> Hx] := expX_at Hl Hi. cbn [obind]. by rewrite rdiv_some.
  - exists B'. split => //. split => //. rewrite HM EB0 /phonon_step_mx -pfac_row.
    apply: (@inv_from (pfac l) (fun i => Rdiv (w' i) (nth R0 expX (l * n + Z.to_nat i)))); last by case: KO.
    move=> i Hi. have [v [Ev _]] := lookup_v Hl Hi. have [_ Hw] := Hw' i Hi v Ev.
    have [_ Hx] := expX_at Hl Hi. rewrite /pfac RdivE // mulrACA mulVf ?mulr1 //; exact/eqP.
Qed.
End Slices.

Lemma Forall_square n l : List.Forall (fun m : list R => List.length m = (n * n)%N) l <-> List.Forall (square n) l.
Proof.
  split; apply: List.Forall_impl => m; [exact: square_len | exact: len_square].
Qed.

Lemma Forall_lset (T : Type) (P : T -> Prop) l k v : List.Forall P l -> P v -> List.Forall P (lset l k v).
Proof.
  move=> H Hv. elim: l k H => [|a l IH] [|k] H //=; inversion H; subst; constructor => //. exact: IH.
Qed.

Lemma Forall_skipn (T : Type) (P : T -> Prop) k l : List.Forall P l -> List.Forall P (List.skipn k l).
Proof.
  elim: l k => [|a l IH] [|k] H //=. inversion H; subst. exact: IH.
Qed.

Lemma firstn_skipn_map n (Bs : list (list R)) lo len : (lo + len <= List.length Bs)%coq_nat ->
  List.map (mat n) (List.firstn len (List.skipn lo Bs)) = map (mat_at n Bs) (iota lo len).
Proof.
  elim: len lo => [|len IH] lo H //=.
  have Hs : List.skipn lo Bs = List.nth lo Bs nil :: List.skipn lo.+1 Bs.
  { clear IH. rewrite -plusE in H. elim: Bs lo H => [|a l IH] [|lo] H; try (by []); try (simpl in H; lia).
    change (List.skipn lo l = List.nth lo l nil :: List.skipn lo.+1 l). apply: IH. simpl in H; lia. }
  rewrite Hs. cbn [List.map]. rewrite IH; last by (rewrite -plusE in H *; lia). by rewrite /mat_at nthE.
Qed.

Lemma mat_at_lset n Ms l m l' : (l < List.length Ms)%coq_nat ->
  mat_at n (lset Ms l m) l' = if l' == l then mat n m else mat_at n Ms l'.
Proof.
  move=> H. rewrite /mat_at !nthE lset_nth_d //. rewrite eq_sym. case: Nat.eqb_spec => [->|Hne]; first by rewrite eqxx.
  by case: eqP.
Qed.

Lemma aget_list (T : Type) (l : list T) k d : (k < List.length l)%coq_nat -> aget l (Zn k) = Some (List.nth k l d).
Proof. move=> H. rewrite (@aget_nth _ _ _ d); first by rewrite Nat2Z.id. lia. Qed.

Lemma aset_list (T : Type) (l : list T) k v : (k < List.length l)%coq_nat -> aset l (Zn k) v = Some (lset l k v).
Proof. move=> H. rewrite aset_ok; first by rewrite Nat2Z.id. lia. Qed.

Lemma shape_sq n L b t l : tsm_shape n L b t -> (l < L)%N ->
  square n (List.nth l (ts_B t) nil) /\ square n (List.nth l (ts_invB t) nil).
Proof.
  move=> [_ _ _ _ _ [HB1 HB2] [HI1 HI2] _] Hl. move/ltP: Hl => Hl.
  split; apply: square_len.
  - apply: (Forall_nth_ok (P := fun m => List.length m = (n * n)%N)) => //. by rewrite HB1.
  - apply: (Forall_nth_ok (P := fun m => List.length m = (n * n)%N)) => //. by rewrite HI1.
Qed.

Lemma set_slice_ok n L b t l cs ci (Ml : 'M[R]_n) : tsm_shape n L b t -> (l < L)%N ->
  (forall x, square n x -> exists y, cs x = Some y /\ square n y /\ mat n y = Ml) ->
  (forall x, square n x -> exists y, ci x = Some y /\ square n y /\ mat n y *m Ml = 1%:M) ->
  exists t', set_slice cs ci (Zn l) t = Some t' /\ tsm_shape n L b t' /\ ts_Bprod t' = ts_Bprod t /\
    (forall l', mat_at n (ts_B t') l' = if l' == l then Ml else mat_at n (ts_B t) l') /\
    mat_at n (ts_invB t') l *m Ml = 1%:M /\
    (forall l', l' <> l -> mat_at n (ts_invB t') l' = mat_at n (ts_invB t) l').
Proof.
  move=> SH Hl Hcs Hci. have [HB HI] := shape_sq SH Hl. rewrite /set_slice.
  have [x [Ex [Hx Mx]]] := Hcs _ HB. have [y [Ey [Hy My]]] := Hci _ HI.
  have HlB : (l < List.length (ts_B t))%coq_nat by case: SH => _ _ _ _ _ [-> _] _ _; apply/ltP.
  have HlI : (l < List.length (ts_invB t))%coq_nat by case: SH => _ _ _ _ _ _ [-> _] _; apply/ltP.
  rewrite (aget_list nil HlB). cbn [obind]. rewrite Ex. cbn [obind]. rewrite (aset_list _ HlB). cbn [obind].
  rewrite (aget_list nil HlI). cbn [obind]. rewrite Ey. cbn [obind]. rewrite (aset_list _ HlI). cbn [obind].
  eexists; split; first reflexivity. split; last split; last split; last split.
  - case: SH => *. constructor => //=; rewrite lset_length; split; try tauto; apply: Forall_lset; try tauto;
    exact: len_square.
  - by [].
  - move=> l' /=. by rewrite mat_at_lset // Mx.
  - by rewrite /= mat_at_lset // eqxx.
  - move=> l' Hne /=. rewrite mat_at_lset //. by case: eqP.
Qed.

Lemma numq n L b t q : tsm_shape n L b t -> (q * b < L)%N <-> (q < List.length (ts_Bprod t))%coq_nat.
Proof.
  move=> [_ _ _ [Hb HL] Hn _ _ [HP _]]. move/ltP: Hb => Hb.
  split.
  - move/ltP. rewrite -multE. nia.
  - move=> H. apply/ltP. rewrite -multE. nia.
Qed.

Lemma block_end n L b t q : tsm_shape n L b t -> (q * b < L)%N -> (q * b + b <= L)%N.
Proof.
  move=> SH H. have H' := (numq q SH).1 H. move: SH => [_ _ _ [Hb HL] Hn _ _ [HP _]].
  move/ltP: Hb => Hb. apply/leP. rewrite -multE -plusE. nia.
Qed.

Lemma product_block junk n L b t q ret : tsm_shape n L b t -> (q * b < L)%N -> square n ret ->
  exists m, product_sequence junk (Zn n) (ts_prodBlen t) (List.skipn (q * b) (ts_B t)) ret = Some m /\
    square n m /\ mat n m = oprod (mat_at n (ts_B t)) (q * b) b.
Proof.
  move=> SH Hq Hr. have Hend := block_end SH Hq. move/leP: Hend => Hend.
  move: SH => [_ _ Hpb [Hb HL] Hn [HB1 HB2] _ [HP _]]. move/ltP: Hb => Hb.
  have [|||m [E [Hm HM]]] := @product_sequence_ok junk n (ts_prodBlen t) (List.skipn (q * b) (ts_B t)) ret.
  - rewrite Hpb /lenZ List.skipn_length HB1. rewrite -plusE in Hend. lia.
  - apply: Forall_skipn. exact/Forall_square.
  - by [].
  - exists m. split => //. split => //. rewrite HM Hpb Nat2Z.id firstn_skipn_map //.
    by rewrite HB1.
Qed.

Lemma form_products_ok junk n L b t : tsm_shape n L b t ->
  exists t', form_products junk (Zn n) t = Some t' /\ tsm_shape n L b t' /\
    ts_B t' = ts_B t /\ ts_invB t' = ts_invB t /\
    (forall q, (q * b < L)%N -> mat_at n (ts_Bprod t') q = oprod (mat_at n (ts_B t)) (q * b) b).
Proof.
  move=> SH. rewrite /form_products.
  have Hnum : ts_numBprod t = Zn (List.length (ts_Bprod t)) by case: SH => _ _ _ _ _ _ _ [-> _].
  have [|||P [E [HP1 [HP2 HP3]]]] := @for_range_inv _ (fun h P => List.length P = List.length (ts_Bprod t) /\
      List.Forall (square n) P /\
      forall q, (Zn q < h)%Z -> (q * b < L)%N -> mat_at n P q = oprod (mat_at n (ts_B t)) (q * b) b) 0%Z (ts_numBprod t)
    (fun l P => let* r := aget P l in
       let* m := product_sequence junk (Zn n) (ts_prodBlen t)
                (List.skipn (Z.to_nat (l * ts_prodBlen t)) (ts_B t)) r in
       aset P l m) (ts_Bprod t).
  - rewrite Hnum. lia.
  - move=> h P Hh [H1 [H2 H3]].
    pose q := Z.to_nat h. have Eh : h = Zn q by rewrite /q Z2Nat.id; lia. rewrite Eh.
    have Hq : (q < List.length P)%coq_nat by rewrite H1; lia.
    have Hqb : (q * b < L)%N by apply/(numq _ SH); rewrite -H1.
    rewrite (aget_list nil Hq). cbn [obind].
    have -> : Z.to_nat (Zn q * ts_prodBlen t) = (q * b)%N.
    { case: SH => _ _ -> _ _ _ _ _. rewrite -multE. lia. }
    have Hsq : square n (List.nth q P nil) by apply: Forall_nth_ok.
    have [m [-> [Hm HM]]] := product_block junk SH Hqb Hsq. cbn [obind]. rewrite (aset_list _ Hq).
    eexists; split; first reflexivity. split; first by rewrite lset_length. split; first exact: Forall_lset.
    move=> q' Hq' Hqb'. rewrite mat_at_lset //. case: eqP => [->//|Hne]. apply: H3 => //. lia.
  - split => //. split; first by apply/Forall_square; case: SH => _ _ _ _ _ _ _ [_ HF].
    move=> q. lia.
  - rewrite E. cbn [obind]. eexists; split; first reflexivity. split; last split; last split => //.
    + case: SH => *. constructor => //=. split; last exact/Forall_square. rewrite HP1. tauto.
    + by [].
    + move=> q Hq. apply: HP3 => //. have := (numq q SH).1 Hq. lia.
Qed.

Lemma update_product_ok junk n L b t l : tsm_shape n L b t -> (l < L)%N ->
  exists t', update_product junk (Zn l) t = Some t' /\ tsm_shape n L b t' /\
    ts_B t' = ts_B t /\ ts_invB t' = ts_invB t /\
    (forall q, (q * b < L)%N -> mat_at n (ts_Bprod t') q =
       if l.+1 == (q.+1 * b)%N then oprod (mat_at n (ts_B t)) (q * b) b else mat_at n (ts_Bprod t) q).
Proof.
  move=> SH Hl. rewrite /update_product. move/ltP: Hl => Hl.
  have Hpb : ts_prodBlen t = Zn b by case: SH.
  have HN : ts_N t = Zn n by case: SH.
  have Hb : (0 < b)%coq_nat by case: SH => _ _ _ [/ltP Hb _].
  rewrite Hpb /cmod. case: Z.eqb_spec => [|_]; first lia. cbn [obind].
  rewrite Z.rem_mod_nonneg; try lia.
  have Hdm := Z.div_mod (Zn l) (Zn b) ltac:(lia). have Hmb := Z.mod_pos_bound (Zn l) (Zn b) ltac:(lia).
  case: Z.eqb_spec => Hr.
  - pose q := Z.to_nat (Zn l / Zn b). have Hdiv : (0 <= Zn l / Zn b)%Z by apply: Z.div_pos; lia.
    have Eq : (Zn l / Zn b)%Z = Zn q by rewrite /q Z2Nat.id.
    have Els : (Zn l - (Zn b - 1) = Zn (q * b)%N)%Z by rewrite -multE; nia.
    have Elq : l.+1 = (q.+1 * b)%N by rewrite -multE; nia.
    have Hqb : (q * b < L)%N by apply/ltP; rewrite -multE in Elq *; nia.
    rewrite Els /cdiv. case: Z.eqb_spec => [|_]; first lia. cbn [obind].
    have -> : (Zn (q * b)%N ÷ Zn b = Zn q)%Z.
    { rewrite -multE Nat2Z.inj_mul Z.quot_mul //. lia. }
    have Hq : (q < List.length (ts_Bprod t))%coq_nat by apply/(numq _ SH).
    rewrite (aget_list nil Hq). cbn [obind]. rewrite Nat2Z.id HN -Hpb.
    have Hsq : square n (List.nth q (ts_Bprod t) nil).
    { apply: Forall_nth_ok => //. apply/Forall_square. by case: SH => _ _ _ _ _ _ _ [_ HF]. }
    have [m [-> [Hm HM]]] := product_block junk SH Hqb Hsq. cbn [obind]. rewrite (aset_list _ Hq). cbn [obind].
    eexists; split; first reflexivity. split; last split; last split => //.
    + case: SH => *. constructor => //=; try congruence. rewrite lset_length. split; first tauto. apply: Forall_lset; first tauto.
      exact: len_square.
    + by [].
    + move=> q' Hq'. rewrite /= mat_at_lset //. case: eqP => [->|Hne]; first by rewrite -Elq eqxx.
      case: eqP => // Heq. exfalso. apply: Hne. rewrite Elq -multE in Heq. nia.
  - exists t. split => //. split => //. split => //. split => // q Hq. case: eqP => // Heq. exfalso. apply: Hr.
    have El : (Zn l = Zn q * Zn b + (Zn b - 1))%Z by rewrite -multE in Heq; nia.
    rewrite El. rewrite Z.add_comm Z_mod_plus_full Z.mod_small //. lia.
Qed.

Lemma init_generic junk n L b t (cs ci : Z -> list R -> option (list R)) (M : nat -> 'M[R]_n) : tsm_shape n L b t ->
  (forall l x, (l < L)%N -> square n x -> exists y, cs (Zn l) x = Some y /\ square n y /\ mat n y = M l) ->
  (forall l x, (l < L)%N -> square n x -> exists y, ci (Zn l) x = Some y /\ square n y /\ mat n y *m M l = 1%:M) ->
  exists t', (let* t := for_range 0 (ts_L t) (fun l t => set_slice (cs l) (ci l) l t) t in form_products junk (Zn n) t) = Some t' /\
    tsm_holds L b M t'.
Proof.
  move=> SH Hcs Hci. have HL : ts_L t = Zn L by case: SH.
  have [|||t1 [E [SH1 HI]]] := @for_range_inv _ (fun h t' => tsm_shape n L b t' /\
     forall l, (Zn l < h)%Z -> mat_at n (ts_B t') l = M l /\ mat_at n (ts_invB t') l *m M l = 1%:M) 0%Z (ts_L t)
     (fun l t => set_slice (cs l) (ci l) l t) t.
  - lia.
  - move=> h t1 Hh [SH1 HI]. pose l := Z.to_nat h. have Eh : h = Zn l by rewrite /l Z2Nat.id; lia.
    have Hl : (l < L)%N by apply/ltP; lia.
    rewrite Eh.
    have [t2 [-> [SH2 [_ [H1 [H2 H3]]]]]] := @set_slice_ok n L b t1 l (cs (Zn l)) (ci (Zn l)) (M l) SH1 Hl
      (fun x => @Hcs l x Hl) (fun x => @Hci l x Hl).
    eexists; split; first reflexivity. split => // l' Hl'. rewrite H1. case: eqP => [->//|Hne].
    rewrite H3 //. apply: HI. lia.
  - split => // l. lia.
  - rewrite E. cbn [obind]. have [t2 [-> [SH2 [EB [EI HP]]]]] := form_products_ok junk SH1.
    exists t2. split => //. split => //. split.
    + move=> l /ltP Hl. have [|H1 H2] := HI l; first by rewrite HL; lia.
      rewrite EB EI. split => //. split => //. exact: mulmx1C.
    + move=> q Hq. rewrite HP //. rewrite /oprod. congr mprod. apply/eq_in_map => l. rewrite mem_iota => /andP [_ Hl].
      have := block_end SH1 Hq => Hend. have Hl' : (l < L)%N by apply: leq_trans Hl Hend.
      move/ltP: Hl' => Hl'. have [|H1 H2] := HI l; first by rewrite HL; lia. exact: H1.
Qed.

Lemma init_tsm_ok junk n L b k expV s t : kinetic_ok n k -> expV_ok (k_Norb k) expV -> field_ok n L s ->
  tsm_shape n L b t -> exists t', init_tsm junk k expV s t = Some t' /\ tsm_holds L b (step_mx n k expV s) t'.
Proof.
  move=> KO VO FO SH. rewrite /init_tsm (dimE KO).
  apply: (@init_generic junk n L b t (fun l => compute_step k expV s (l * Zn n)) (fun l => compute_inv_step k expV s (l * Zn n))) => //.
  - move=> l x Hl Hx. exact: (compute_step_ok KO VO FO).
  - move=> l x Hl Hx. exact: (compute_inv_step_ok KO VO FO).
Qed.

Lemma init_phonon_tsm_ok junk n L b k expV s expX t : kinetic_ok n k -> expV_ok (k_Norb k) expV -> field_ok n L s ->
  List.length expX = (L * n)%N -> List.Forall (fun x => x <> R0) expX ->
  tsm_shape n L b t -> exists t', init_phonon_tsm junk k expV s expX t = Some t' /\
    tsm_holds L b (phonon_step_mx n k expV s expX) t'.
Proof.
  move=> KO VO FO XO XP SH. rewrite /init_phonon_tsm (dimE KO).
  apply: (@init_generic junk n L b t (fun l => compute_phonon_step k expV s expX (l * Zn n))
    (fun l => compute_inv_phonon_step k expV s expX (l * Zn n))) => //.
  - move=> l x Hl Hx. exact: (compute_phonon_step_ok KO VO FO XO XP).
  - move=> l x Hl Hx. exact: (compute_inv_phonon_step_ok KO VO FO XO XP).
Qed.

Lemma update_generic junk n L b l t cs ci (Ml : 'M[R]_n) : tsm_shape n L b t -> (l < L)%N ->
  (forall x, square n x -> exists y, cs x = Some y /\ square n y /\ mat n y = Ml) ->
  (forall x, square n x -> exists y, ci x = Some y /\ square n y /\ mat n y *m Ml = 1%:M) ->
  exists t', (let* t := set_slice cs ci (Zn l) t in update_product junk (Zn l) t) = Some t' /\ updated L b l Ml t t'.
Proof.
  move=> SH Hl Hcs Hci.
  have [t1 [-> [SH1 [EP [H1 [H2 H3]]]]]] := set_slice_ok SH Hl Hcs Hci. cbn [obind].
  have [t2 [-> [SH2 [EB [EI HP]]]]] := update_product_ok junk SH1 Hl.
  exists t2. split => //. split => //. rewrite EB EI. split; first by rewrite H1 eqxx. split => //.
  split; first exact: mulmx1C. split.
  - move=> l' Hne. rewrite H1 H3 //. by case: eqP.
  - move=> q Hq. rewrite HP //. by rewrite EP.
Qed.

Lemma update_tsm_ok junk n L b k expV s l t : kinetic_ok n k -> expV_ok (k_Norb k) expV -> field_ok n L s ->
  tsm_shape n L b t -> (l < L)%N ->
  exists t', update_tsm junk k expV s (Zn l) t = Some t' /\ updated L b l (step_mx n k expV s l) t t'.
Proof.
  move=> KO VO FO SH Hl. rewrite /update_tsm. have -> : ts_N t = Zn n by case: SH.
  apply: update_generic => //.
  - move=> x Hx. exact: (compute_step_ok KO VO FO).
  - move=> x Hx. exact: (compute_inv_step_ok KO VO FO).
Qed.

Lemma update_phonon_tsm_ok junk n L b k expV s expX l t : kinetic_ok n k -> expV_ok (k_Norb k) expV -> field_ok n L s ->
  List.length expX = (L * n)%N -> List.Forall (fun x => x <> R0) expX ->
  tsm_shape n L b t -> (l < L)%N ->
  exists t', update_phonon_tsm junk k expV s expX (Zn l) t = Some t' /\ updated L b l (phonon_step_mx n k expV s expX l) t t'.
Proof.
  move=> KO VO FO XO XP SH Hl. rewrite /update_phonon_tsm. have -> : ts_N t = Zn n by case: SH.
  apply: update_generic => //.
  - move=> x Hx. exact: (compute_phonon_step_ok KO VO FO XO XP).
  - move=> x Hx. exact: (compute_inv_phonon_step_ok KO VO FO XO XP).
Qed.

Lemma allocate_ok junk n L b q : L = (q * b)%N -> (0 < L)%N ->
  exists t, allocate_tsm junk (Zn n) (Zn L) (Zn b) = Some t /\ tsm_shape n L b t.
Proof.
  move=> EL HL. have Hb : (0 < b)%N by case: b EL HL => // ->; rewrite muln0.
  move/ltP: (Hb) => Hb'. rewrite /allocate_tsm /cdiv. case: Z.eqb_spec => [|_]; first lia. cbn [obind].
  eexists; split; first reflexivity.
  have Eq : (Zn L ÷ Zn b = Zn q)%Z by rewrite EL -multE Nat2Z.inj_mul Z.quot_mul //; lia.
  have HF : forall j, List.Forall (fun m : list R => List.length m = (n * n)%N) (repeat (fresh junk (Zn n * Zn n)) j).
  { move=> j. apply/List.Forall_forall => m Hm. rewrite (@List.repeat_spec _ _ _ _ Hm). apply: len_square. exact: fresh_square. }
  constructor => //=; rewrite ?Eq ?List.repeat_length ?Nat2Z.id //.
  rewrite EL -multE. lia.
Qed.

(** copying an array of matrices *)
Lemma copy_all n (src dst : list (list R)) body : List.length src = List.length dst ->
  List.Forall (square n) src -> List.Forall (square n) dst ->
  (forall l P, (l < List.length src)%coq_nat -> List.length P = List.length dst -> body (Zn l) P =
    let* m := copy (Zn n * Zn n) (List.nth l src nil) 0 (List.nth l P nil) 0 in Some (lset P l m)) ->
  for_range 0 (Zn (List.length src)) body dst = Some src.
Proof.
  move=> HL HS HD Hb.
  have [|||P [-> [HP1 [HP2 HP3]]]] := @for_range_inv _ (fun h P => List.length P = List.length dst /\ List.Forall (square n) P /\
     forall l, (Zn l < h)%Z -> List.nth l P nil = List.nth l src nil) 0%Z (Zn (List.length src)) body dst.
  - lia.
  - move=> h P Hh [H1 [H2 H3]]. pose l := Z.to_nat h. have Eh : h = Zn l by rewrite /l Z2Nat.id; lia.
    rewrite Eh Hb //; last lia.
    have [||m [-> [Hm Em]]] := @copy_square n (List.nth l src nil) (List.nth l P nil).
    + apply: Forall_nth_ok => //. lia.
    + apply: Forall_nth_ok => //. lia.
    + cbn [obind]. eexists; split; first reflexivity. split; first by rewrite lset_length.
      split; first exact: Forall_lset. move=> l' Hl'. rewrite lset_nth_d; last lia.
      case: Nat.eqb_spec => [<-//|Hne]. apply: H3. lia.
  - split => //. split => // l. lia.
  - congr Some. apply: (List.nth_ext _ _ nil nil); first by rewrite HP1 HL.
    move=> l Hl. apply: HP3. lia.
Qed.

Lemma copy_two n (src1 dst1 src2 dst2 : list (list R)) Lz :
  List.length src1 = List.length dst1 -> List.length src2 = List.length dst2 -> List.length src1 = List.length src2 ->
  List.Forall (square n) src1 -> List.Forall (square n) dst1 -> List.Forall (square n) src2 -> List.Forall (square n) dst2 ->
  Lz = Zn (List.length src1) ->
  for_range 0 Lz (fun l (st : list (list R) * list (list R)) =>
    let '(B, invB) := st in
    let* sB := aget src1 l in
    let* dB := aget B l in
    let* m := copy (Zn n * Zn n) sB 0 dB 0 in
    let* B := aset B l m in
    let* sB := aget src2 l in
    let* dB := aget invB l in
    let* m := copy (Zn n * Zn n) sB 0 dB 0 in
    let* invB := aset invB l m in
    Some (B, invB)) (dst1, dst2) = Some (src1, src2).
Proof.
  move=> L1 L2 L12 S1 D1 S2 D2 ->.
  have [|||[P Q] [-> [HP1 [HP2 [HP3 [HQ1 [HQ2 HQ3]]]]]]] := @for_range_inv _ (fun h (st : list (list R) * list (list R)) =>
     List.length st.1 = List.length dst1 /\ List.Forall (square n) st.1 /\
     (forall l, (Zn l < h)%Z -> List.nth l st.1 nil = List.nth l src1 nil) /\
     List.length st.2 = List.length dst2 /\ List.Forall (square n) st.2 /\
     (forall l, (Zn l < h)%Z -> List.nth l st.2 nil = List.nth l src2 nil)) 0%Z (Zn (List.length src1)) (fun l (st : list (list R) * list (list R)) =>
    let '(B, invB) := st in
    let* sB := aget src1 l in
    let* dB := aget B l in
    let* m := copy (Zn n * Zn n) sB 0 dB 0 in
    let* B := aset B l m in
    let* sB := aget src2 l in
    let* dB := aget invB l in
    let* m := copy (Zn n * Zn n) sB 0 dB 0 in
    let* invB := aset invB l m in
    Some (B, invB)) (dst1, dst2).
  - lia.
  - move=> h [P Q] Hh /= [H1 [H2 [H3 [K1 [K2 K3]]]]]. pose l := Z.to_nat h. have Eh : h = Zn l by rewrite /l Z2Nat.id; lia.
    rewrite Eh.
    rewrite (@aget_list _ src1 l nil); last lia. cbn [obind]. rewrite (@aget_list _ P l nil); last lia. cbn [obind].
    have [||m [-> [Hm Em]]] := @copy_square n (List.nth l src1 nil) (List.nth l P nil).
    1,2: by apply: Forall_nth_ok => //; lia.
    cbn [obind]. rewrite aset_list; last lia. cbn [obind].
    rewrite (@aget_list _ src2 l nil); last lia. cbn [obind]. rewrite (@aget_list _ Q l nil); last lia. cbn [obind].
    have [||m' [-> [Hm' Em']]] := @copy_square n (List.nth l src2 nil) (List.nth l Q nil).
    1,2: by apply: Forall_nth_ok => //; lia.
    cbn [obind]. rewrite aset_list; last lia. cbn [obind].
    eexists; split; first reflexivity. rewrite /= !lset_length.
    do 5 (split; first by [|apply: Forall_lset|move=> l' Hl'; rewrite lset_nth_d; [case: Nat.eqb_spec => [<-//|Hne]; apply: H3; lia|lia]]).
    move=> l' Hl'. rewrite lset_nth_d; [case: Nat.eqb_spec => [<-//|Hne]; apply: K3; lia|lia].
  - rewrite /=. do 2 (split => //). split; first by move=> l; lia. do 2 (split => //). move=> l; lia.
  - rewrite /= in HP1 HP2 HP3 HQ1 HQ2 HQ3. congr Some. congr pair; apply: (List.nth_ext _ _ nil nil); try lia.
    + move=> l Hl. apply: HP3. lia.
    + move=> l Hl. apply: HQ3. lia.
Qed.

Lemma copy_tsm_ok n L b src dst : tsm_shape n L b src -> tsm_shape n L b dst ->
  copy_tsm src dst = Some src.
Proof.
  move=> [S1 S2 S3 [Sb _] S5 [S6 S6'] [S7 S7'] [S8 S8']] [D1 D2 D3 _ D5 [D6 D6'] [D7 D7'] [D8 D8']].
  move/ltP: Sb => Sb.
  have Hnum : ts_numBprod src = ts_numBprod dst by nia.
  rewrite /copy_tsm S1.
  rewrite (@copy_two n (ts_B src) (ts_B dst) (ts_invB src) (ts_invB dst)); try congruence; try exact/Forall_square.
  cbn [obind]. rewrite -S8.
  rewrite (@copy_all n (ts_Bprod src) (ts_Bprod dst)); try exact/Forall_square; try lia.
  - cbn [obind]. rewrite D1 D2 D3 -Hnum -S1 -S2 -S3. by case: src {S1 S2 S3 S5 S6 S6' S7 S7' S8 S8' Hnum}.
  - move=> l P Hl HP. rewrite (@aget_list _ (ts_Bprod src) l nil) //. cbn [obind].
    rewrite (@aget_list _ P l nil); last lia. cbn [obind].
    case: copy => [m|] //=. by rewrite aset_list //; lia.
Qed.
