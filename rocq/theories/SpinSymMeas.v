(** Systems without repulsion: measurements with equal Green's functions of both spin species. *)
From Coq Require Import ZArith List Reals Lia Lra Bool.
From Verif Require Import Base BaseFacts RealOps SimParams ParamParser Blas MatProd TimeStep Strat GreenUpdate Lapack TimeFlow GreenConstruct KineticExp
  RandSource Sweep Lattice Accum Measure UMeasure UnequalTime Simulation PMeasure PhononSweep PSimulation SpinSymSpec SpinSymFacts.
Import ListNotations.
Local Open Scope Z_scope.

Section Store.
Variables (fld : Type) (feq : fld -> fld -> bool).
Definition tot (a : list R) (o : option (list R)) : list R := match o with Some b => b | None => a end.
Definition addt (a : list R) (k : Z) (v : R) : list R := tot a (let* x := aget a k in aset a k (x + v)%R).
Hypothesis feq_refl : forall f, feq f f = true.
Definition only (f : fld) (a : list R) (s s' : store fld) : Prop := s' f = a /\ forall g, feq g f = false -> s' g = s g.
Lemma put_only f a s : only f a s (put fld feq f a s).
Proof. split; unfold put; [now rewrite feq_refl|]. intros g ->. reflexivity. Qed.
Lemma add_put f k v (s s' : store fld) : add_to fld feq f k v s = Some s' -> only f (addt (s f) k v) s s'.
Proof.
  unfold add_to, addt. intros E. apply obind_Some in E as (x & E1 & E). rewrite E1. cbn [obind]. apply obind_Some in E as (a & E2 & E). rewrite E2. cbn [tot].
  injection E as <-. apply put_only.
Qed.
Lemma scale_put n al f (s s' : store fld) : scale_field fld feq n al f s = Some s' -> only f (tot (s f) (dscal n al (s f) 0 1)) s s'.
Proof. unfold scale_field. intros E. apply obind_Some in E as (x & E1 & E). rewrite E1. cbn [tot]. injection E as <-. apply put_only. Qed.
Lemma axpy_put n al x f (s s' : store fld) : axpy_field fld feq n al x f s = Some s' -> only f (tot (s f) (daxpy n al x (s f))) s s'.
Proof. unfold axpy_field. intros E. apply obind_Some in E as (y & E1 & E). rewrite E1. cbn [tot]. injection E as <-. apply put_only. Qed.
End Store.

Lemma meqb_refl f : mfield_eqb f f = true. Proof. unfold mfield_eqb. now destruct (mfield_eq_dec f f). Qed.
Lemma ueqb_refl f : ufield_eqb f f = true. Proof. unfold ufield_eqb. now destruct (ufield_eq_dec f f). Qed.
Ltac puts1 L refl H := let A := fresh "A" in let B := fresh "B" in apply (L _ _ refl) in H; destruct H as [A B].
Ltac puts refl := repeat match goal with
  | H : add_to _ _ _ _ _ _ = Some _ |- _ => puts1 add_put refl H
  | H : scale_field _ _ _ _ _ _ = Some _ |- _ => puts1 scale_put refl H
  | H : axpy_field _ _ _ _ _ _ _ = Some _ |- _ => puts1 axpy_put refl H end.
Ltac reduce := repeat match goal with
  | A : ?x ?g = ?v |- context [?x ?g] => is_var x; rewrite A
  | B : forall g', _ = false -> ?x g' = _ |- context [?x ?g] => rewrite (B g eq_refl) end.

(** equal time *)
Definition msame (s : store mfield) : Prop :=
  s density_u = s density_d /\ s grfun_u = s grfun_d /\ s uu_corr = s dd_corr /\ s zz_corr = s xx_corr /\ s ff_corr = s xx_corr.
Ltac msolve := match goal with H : msame _ |- _ => destruct H as (?H1 & ?H2 & ?H3 & ?H4 & ?H5) end; unfold msame;
  repeat split; reduce; try reflexivity; f_equal; try ring.

Lemma density_sums_same G N Ncell o nu nd oc : density_sums G G N Ncell o = Some (nu, nd, oc) -> nu = nd.
Proof.
  unfold density_sums. intros E. refine (loop_inv _ (fun t : R * R * R => fst (fst t) = snd (fst t)) _ _ _ _ _ _ _ E); [|reflexivity].
  intros i [[a b] c] s' H Eb. cbn in H. subst. obs. same. injection Eb as <-. reflexivity.
Qed.

Lemma acc_corr_same f G N Norb Ncell sm s s' : msame s -> acc_corr f G G N Norb Ncell sm s = Some s' -> msame s'.
Proof.
  unfold acc_corr. intros H E. refine (loop_inv _ msame _ _ _ _ _ _ H E). clear s s' H E. intros o s s' H E.
  refine (loop_inv _ msame _ _ _ _ _ _ H E). clear s s' H E. intros p s s' H E.
  refine (loop_inv _ msame _ _ _ _ _ _ H E). clear s s' H E. intros i s s' H E.
  unfold acc_corr_row in E. obs. same. refine (loop_inv _ msame _ _ _ _ _ _ H E). clear s s' H E. intros k s s' H E.
  unfold acc_corr_site in E. ob. ob. ob. ob. ob. ob. ob. same. ob.
  match type of E with add_to _ _ _ _ _ ?t = _ => assert (msame t) end.
  { destruct (_ && _); obs; puts meqb_refl; msolve. }
  clear H.
  puts meqb_refl. msolve.
Qed.

Lemma acc_sc_same f Gu Gd N Norb Ncell sm nn s s' : msame s -> acc_sc f Gu Gd N Norb Ncell sm nn s = Some s' -> msame s'.
Proof.
  unfold acc_sc. intros H E. refine (loop_inv _ msame _ _ _ _ _ _ H E). clear s s' H E. intros o s s' H E.
  refine (loop_inv _ msame _ _ _ _ _ _ H E). clear s s' H E. intros i s s' H E.
  unfold acc_sc_row in E. ob. destruct x as [[[ipx imx] ipy] imy]. refine (loop_inv _ msame _ _ _ _ _ _ H E). clear s s' H E E0. intros k s s' H E.
  unfold acc_sc_site in E. ob. ob. destruct x0 as [[[jpx jmx] jpy] jmy]. ob. ob. ob. ob. ob. ob. puts meqb_refl. msolve.
Qed.

Definition msym (m : meas) : Prop := m_sign m = IZR (m_nsampl m) /\ msame (m_arr m).

Lemma accumulate_sym G m m' : unit_sign (gf_sgndet G) -> msym m -> accumulate G G m = Some m' -> msym m'.
Proof.
  unfold unit_sign, accumulate. intros HG [Hs Ha] E. rewrite HG in E. ob.
  ob. assert (A1 : msame x0).
  { refine (loop_inv _ msame _ _ _ _ _ _ Ha E1). clear. intros o s s' H E. ob. destruct x0 as [[nu nd] oc]. apply density_sums_same in E0. subst. obs. puts meqb_refl. msolve. }
  ob. ob. assert (A2 : msame x2). { puts meqb_refl. msolve. }
  ob. apply acc_corr_same in E4; [|exact A2]. ob. apply acc_sc_same in E5; [|exact E4]. injection E as <-. split; [|exact E5]. cbn [m_sign m_nsampl]. rewrite plus_IZR, Hs. reflexivity.
Qed.

Lemma normalize_sym m m' : msym m -> normalize m = Some m' -> spin_symmetric m'.
Proof.
  unfold normalize. intros [Hs Ha] E. generalize dependent (m_arr m). intros s0 Ha E. obs. injection E as <-. unfold spin_symmetric. cbn [m_sign m_arr]. split.
  - rewrite Hs. unfold rdiv in E0. destruct (Req_EM_T _ _); [discriminate|]. injection E0 as <-. field. assumption.
  - match goal with H : scale_field _ _ _ _ sc_c_sx _ = Some ?t |- _ => enough (msame t) by assumption end. puts meqb_refl. msolve.
Qed.

Lemma allocate_sym ij Norb Nx Ny sh m : allocate_meas ij Norb Nx Ny sh = Some m -> msym m.
Proof. unfold allocate_meas. intros E. obs. injection E as <-. split; [reflexivity|]. repeat split; reflexivity. Qed.

(** unequal time *)
Definition usame (s : store ufield) : Prop :=
  s Gtau0_u = s Gtau0_d /\ s G0tau_u = s G0tau_d /\ s Geqlt_u = s Geqlt_d /\ s u_zz_corr = s u_xx_corr.
Ltac usolve := match goal with H : usame _ |- _ => destruct H as (?H1 & ?H2 & ?H3 & ?H4) end; unfold usame;
  repeat split; reduce; try reflexivity; f_equal; try ring.

Lemma uacc_corr_same f c N Norb Ncell L sm l o p i k gu s s' : cGtau0_u c = cGtau0_d c -> cG0tau_u c = cG0tau_d c -> cGeqlt_u c = cGeqlt_d c ->
  usame s -> uacc_corr_site f c N Norb Ncell L sm l o p i gu gu k s = Some s' -> usame s'.
Proof.
  intros C1 C2 C3 H E. unfold uacc_corr_site in E. rewrite C1, C2, C3 in E. do 13 ob. same.
  match type of E with (if _ then (let* _ := add_to _ _ _ _ _ ?t in _) else _) = _ => assert (A : usame t) end. { puts ueqb_refl. usolve. }
  clear H. destruct (_ && _); obs; same; puts ueqb_refl; usolve.
Qed.

Lemma uacc_sc_same f c N Ncell L sm nn l o i ni k s s' :
  usame s -> uacc_sc_site f c N Ncell L sm nn l o i ni k s = Some s' -> usame s'.
Proof.
  intros H E. unfold uacc_sc_site in E. destruct ni as [[[[ipx imx] ipy] imy] [[[ipxpy ipxmy] imxpy] imxmy]].
  ob. ob. destruct x0 as [[[[jpx jmx] jpy] jmy] [[[jpxpy jpxmy] jmxpy] jmxmy]]. obs. puts ueqb_refl. usolve.
Qed.

Definition usym (u : umeas) : Prop := u_sign u = IZR (u_nsampl u) /\ usame (u_arr u).

Lemma uaccumulate_sym c u u' : cGtau0_u c = cGtau0_d c -> cG0tau_u c = cG0tau_d c -> cGeqlt_u c = cGeqlt_d c ->
  usym u -> uaccumulate 1 c u = Some u' -> usym u'.
Proof.
  intros C1 C2 C3 [Hs Ha]. unfold uaccumulate. intros E. ob. ob. injection E as <-. split.
  - cbn [u_sign u_nsampl]. rewrite plus_IZR, Hs. reflexivity.
  - cbn [u_arr]. refine (loop_inv _ usame _ _ _ _ _ _ Ha E1). clear E1 Ha. intros l s s' H E.
    refine (loop_inv _ usame _ _ _ _ _ _ H E). clear s s' H E. intros o s s' H E. unfold uacc_orbital in E. ob.
    assert (A : usame x1).
    { refine (loop_inv _ usame _ _ _ _ _ _ H E1). clear s s' H E E1. intros p s s' H E.
      refine (loop_inv _ usame _ _ _ _ _ _ H E). clear s s' H E. intros i s s' H E. unfold uacc_corr_row in E. rewrite C3 in E. obs. same.
      refine (loop_inv _ usame _ _ _ _ _ _ H E). clear s s' H E. intros; eauto using uacc_corr_same. }
    refine (loop_inv _ usame _ _ _ _ _ _ A E). clear s s' H E E1 A. intros i s s' H E. unfold uacc_sc_row in E. ob.
    refine (loop_inv _ usame _ _ _ _ _ _ H E). intros; eauto using uacc_sc_same.
Qed.

Lemma unequal_sym la junk t H u Hu Hd u' : usym u -> accumulate_unequal_time la junk 1 t t H H u = Some (Hu, Hd, u') -> Hu = Hd /\ usym u'.
Proof.
  unfold accumulate_unequal_time, current_greens. intros Hy E. ob. destruct x as [HH c]. ob. injection E as -> <-.
  ob. destruct x0 as [Hu' gu]. ob. destruct x0 as [Hd' gd]. same. destruct gd as [[a b] e]. injection E0 as <- <- <-.
  split; [reflexivity|]. eapply uaccumulate_sym; [| | |exact Hy|eassumption]; reflexivity.
Qed.

Lemma unormalize_sym u u' : usym u -> unormalize u = Some u' -> u_spin_symmetric u'.
Proof.
  unfold unormalize. intros [Hs Ha] E. generalize dependent (u_arr u). intros s0 Ha E. obs. injection E as <-. unfold u_spin_symmetric. cbn [u_sign u_arr]. split.
  - rewrite Hs. unfold rdiv in E0. destruct (Req_EM_T _ _); [discriminate|]. injection E0 as <-. field. assumption.
  - match goal with H : scale_field _ _ _ _ ram_b2g _ = Some ?t |- _ => enough (usame t) by assumption end. puts ueqb_refl. usolve.
Qed.

Lemma uallocate_sym ij Norb Nx Ny sh L u : allocate_umeas ij Norb Nx Ny sh L = Some u -> usym u.
Proof. unfold allocate_umeas. intros E. obs. injection E as <-. split; [reflexivity|]. repeat split; reflexivity. Qed.

(** phonons *)
Definition pmsym (e : pmeas) : Prop := p_sign e = IZR (p_nsampl e).
Lemma paccumulate_sym G l X dt om e e' : unit_sign (gf_sgndet G) -> pmsym e -> paccumulate G G l X dt om e = Some e' -> pmsym e'.
Proof.
  unfold unit_sign, paccumulate, pmsym. intros HG He E. rewrite HG in E. obs. injection E as <-. cbn [p_sign p_nsampl]. rewrite plus_IZR, He. reflexivity.
Qed.
Lemma pnormalize_sym e e' : pmsym e -> pnormalize e = Some e' -> p_sign e' = 1%R.
Proof.
  unfold pnormalize, pmsym. intros He E. obs. injection E as <-. cbn [p_sign]. rewrite He.
  unfold rdiv in E0. destruct (Req_EM_T _ _); [discriminate|]. injection E0 as <-. field. assumption.
Qed.
