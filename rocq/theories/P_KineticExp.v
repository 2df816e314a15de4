(** C25: the exponentials of the kinetic operator. *)
From Coq Require Import ZArith List Reals Lia Lra.
From mathcomp Require Import all_ssreflect fingroup perm ssralg matrix.
From Verif Require Import Base BaseFacts RealOps Blas BlasFacts MatProd RField MatSpec MatFacts TimeStep TimeStepSpec
  Lapack LapackSpec LapackFacts LapackSyev SimParams Kinetic KineticSpec KineticFacts KineticExp KineticExpSpec KineticExpFacts P_Kinetic.
Set Implicit Arguments.
Unset Strict Implicit.
Unset Printing Implicit Defensive.
Local Open Scope ring_scope.
Import GRing.Theory.

(** For every symmetric matrix, MatrixExp stores the power series exponential of its argument, if
    the eigensolver works. *)
Theorem C25_matrix_exp : forall la junk n A ret, lapack_ok la -> syev_converges la ->
  List.length A = (n * n)%N -> List.length ret = (n * n)%N -> (mat n A)^T = mat n A ->
  exists E, matrix_exp la junk (Z.of_nat n) A ret = Some (E, 0%Z) /\ List.length E = (n * n)%N /\
    is_exp (mat n A) (mat n E).
Proof. exact: matrix_exp_is_exp. Qed.
Print Assumptions C25_matrix_exp.

(** For all parameters of the right shape, the stored matrices are the exponentials of -dt times and
    dt times the one particle Hamiltonian, and they are inverse to each other, although they come from
    two independent diagonalisations. *)
Theorem C25_kinetic_exponentials : forall la junk p, lapack_ok la -> syev_converges la -> well_formed p ->
  exists k, kinetic_exponential la junk p = Some k /\
    k_Norb k = sp_Norb p /\ k_Ncell k = Z.mul (sp_Nx p) (sp_Ny p) /\
    List.length (expK k) = (sites p * sites p)%N /\ List.length (inv_expK k) = (sites p * sites p)%N /\
    is_exp (- sp_dt p *: hamiltonian p) (mat (sites p) (expK k)) /\
    is_exp (sp_dt p *: hamiltonian p) (mat (sites p) (inv_expK k)) /\
    mat (sites p) (expK k) *m mat (sites p) (inv_expK k) = 1%:M /\
    mat (sites p) (inv_expK k) *m mat (sites p) (expK k) = 1%:M.
Proof.
  move=> la junk p HLA HC WF.
  have [k [E [HK [H1 [H2 [H3 [H4 H5]]]]]]] := kinetic_exponential_ok junk HLA HC WF.
  exists k. do !split => //; [exact: ko_expK HK|exact: ko_inv_expK HK|exact: ko_inverse HK].
Qed.
Print Assumptions C25_kinetic_exponentials.

(** the exponential is determined by its power series *)
Theorem C25_exponential_unique : forall n (A E F : 'M[R]_n), is_exp A E -> is_exp A F -> E = F.
Proof. exact: is_exp_uniq. Qed.
Print Assumptions C25_exponential_unique.

(** the hypotheses of the theorems about Green's functions and sweeps are met by the matrices of
    RectangularKineticExponential *)
Theorem C25_usable : forall la junk p, lapack_ok la -> syev_converges la -> well_formed p ->
  exists k, kinetic_exponential la junk p = Some k /\ TimeStepSpec.kinetic_ok (sites p) k.
Proof.
  move=> la junk p HLA HC WF. have [k [E [HK _]]] := kinetic_exponential_ok junk HLA HC WF. by exists k.
Qed.
Print Assumptions C25_usable.

(** If the eigensolver reports a failure, then RectangularKineticExponential goes on with the contents
    of freshly allocated memory: the claim needs the eigensolver to succeed. *)
Theorem C25_failure_ignored_refuted : exists la, lapack_ok la /\
  forall junk p, well_formed p -> exists k, kinetic_exponential la junk p = Some k /\
    forall i, (0 <= i < Z.of_nat (sites p * sites p))%Z ->
      aget (expK k) i = Some (junk i) /\ aget (inv_expK k) i = Some (junk i).
Proof.
  have [la [HLA Hf]] := lapack_syev_fails. exists la. split => // junk p WF. exact: kinetic_exponential_fails.
Qed.
Print Assumptions C25_failure_ignored_refuted.

(** two orbitals on a 2 x 2 lattice with all kinds of bonds, and a library that works *)
Example C25_case : exists la k, lapack_ok la /\ syev_converges la /\ well_formed demo /\ sites demo = 8%N /\
  kinetic_exponential la (fun _ => R0) demo = Some k /\
  mat (sites demo) (expK k) *m mat (sites demo) (inv_expK k) = 1%:M.
Proof.
  have [la [H1 H2]] := lapack_converges.
  have [k [E [_ [_ [_ [_ [_ [_ [H _]]]]]]]]] := C25_kinetic_exponentials (fun _ => R0) H1 H2 C23_case.
  exact: (ex_intro _ la (ex_intro _ k (conj H1 (conj H2 (conj C23_case (conj erefl (conj E H))))))).
Qed.
(** the Hamiltonian is not trivial: sites 0 and 1 are connected by two bonds of amplitude 1 *)
Example C25_case_entry : hamiltonian demo (@Ordinal (sites demo) 0 isT) (@Ordinal (sites demo) 1 isT) = (-2)%coqR.
Proof. rewrite mxE. cbv -[Rplus Ropp Rmult IZR]. lra. Qed.
(** the exponential of 0 is 1 *)
Example C25_exp_0 : is_exp (0 : 'M[R]_2) 1%:M.
Proof.
  have := @is_exp_expd 2 1%:M 1%:M 0 (mulmx1 _). rewrite /expd !mul1mx !mulmx1. congr is_exp.
  - by apply/matrixP => i j; rewrite !mxE mul0rn.
  - apply/matrixP => i j; rewrite !mxE exp_0. by [].
Qed.
