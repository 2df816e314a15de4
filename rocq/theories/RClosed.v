(** The Coq reals as a real closed field in the sense of mathcomp. *)
From Coq Require Import Reals Lra FunctionalExtensionality.
From mathcomp Require Import all_ssreflect ssralg ssrnum poly.
From Verif Require Import RField.
Set Implicit Arguments.
Unset Strict Implicit.
Unset Printing Implicit Defensive.
Import Order.Theory GRing.Theory Num.Theory.

Definition Rleb (x y : R) : bool := if Rle_dec x y is left _ then true else false.
Definition Rltb (x y : R) : bool := if Rlt_dec x y is left _ then true else false.
Lemma RlebP x y : reflect (Rle x y) (Rleb x y).
Proof. by rewrite /Rleb; case: Rle_dec => h; constructor. Qed.
Lemma RltbP x y : reflect (Rlt x y) (Rltb x y).
Proof. by rewrite /Rltb; case: Rlt_dec => h; constructor. Qed.

Lemma Rle0_add x y : Rleb R0 x -> Rleb R0 y -> Rleb R0 (Rplus x y).
Proof. move=> /RlebP hx /RlebP hy. apply/RlebP. lra. Qed.
Lemma Rle0_mul x y : Rleb R0 x -> Rleb R0 y -> Rleb R0 (Rmult x y).
Proof. move=> /RlebP hx /RlebP hy. apply/RlebP. exact: Rmult_le_pos. Qed.
Lemma Rle0_anti x : Rleb R0 x -> Rleb x R0 -> x = R0.
Proof. move=> /RlebP hx /RlebP hy. lra. Qed.
Lemma Rsub_ge0 x y : Rleb R0 (Rplus y (Ropp x)) = Rleb x y.
Proof. by apply/RlebP/RlebP => h; lra. Qed.
Lemma Rle0_total x : Rleb R0 x || Rleb x R0.
Proof. case: (Rle_dec R0 x) => h; apply/orP; [left|right]; apply/RlebP; lra. Qed.
Lemma Rlt_def x y : Rltb x y = (y != x :> R) && Rleb x y.
Proof.
  apply/RltbP/andP => [h|[/eqP h1 /RlebP h2]].
  - split; [apply/eqP|apply/RlebP]; lra.
  - case: h2 => // h. by case: h1.
Qed.
Lemma Rge0_norm x : Rleb R0 x -> Rabs x = x.
Proof. move=> /RlebP h. apply: Rabs_pos_eq. exact: h. Qed.

Definition R_leMixin : realLeMixin R_idomainType :=
  @RealLeMixin R_idomainType Rleb Rltb Rabs Rle0_add Rle0_mul Rle0_anti Rsub_ge0 Rle0_total Rabs_Ropp Rge0_norm Rlt_def.
Canonical R_porderType := POrderType ring_display R R_leMixin.
Canonical R_numDomainType := NumDomainType R R_leMixin.
Canonical R_normedZmodType := NormedZmodType R R R_leMixin.
Canonical R_latticeType := LatticeType R R_leMixin.
Canonical R_distrLatticeType := DistrLatticeType R R_leMixin.
Canonical R_orderType := OrderType R R_leMixin.
Canonical R_numFieldType := [numFieldType of R].
Canonical R_realDomainType := [realDomainType of R].
Canonical R_realFieldType := [realFieldType of R].

Lemma poly_continuous (p : {poly R}) : continuity (fun x => p.[x]%R).
Proof.
  elim/poly_ind: p => [|p c IH].
  - rewrite (_ : (fun x => _) = (fun _ => R0)); first by move=> x; exact: continuity_pt_const.
    by apply: functional_extensionality => x; rewrite horner0.
  - rewrite (_ : (fun x => _) = (fun y => Rplus (Rmult p.[y]%R y) c)); last first.
    { by apply: functional_extensionality => x; rewrite hornerMXaddC. }
    move=> x. apply: continuity_pt_plus; last exact: continuity_pt_const.
    apply: continuity_pt_mult; first exact: IH. exact: derivable_continuous_pt (derivable_pt_id x).
Qed.

Lemma R_closed : Num.real_closed_axiom R_numDomainType.
Proof.
  move=> p a b /RlebP hab /andP [/RlebP ha /RlebP hb].
  case: hab => [hab|eab].
  - case: ha => [ha|ea]; last by exists a; [rewrite lexx /=; apply/RlebP; lra|exact/eqP].
    case: hb => [hb|eb]; last by exists b; [rewrite lexx andbT /=; apply/RlebP; lra|apply/eqP].
    have [x [[h1 h2] hx]] := @IVT (fun x => p.[x]%R) a b (poly_continuous p) hab ha hb.
    exists x; last exact/eqP. by apply/andP; split; apply/RlebP.
  - exists a; first by apply/andP; split; apply/RlebP; lra.
    apply/eqP. subst b. exact: (Rle_antisym _ _ ha hb).
Qed.
Canonical R_rcfType := RcfType R R_closed.
