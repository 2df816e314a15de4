(** Model of the phonon measurements of the build which records the correlations for every pair of sites,
    /repo/src/measurement_full.c.

    Integers do not wrap around (see Overflow.v), doubles are real numbers.  Left out: the files (the writer is that of
    DataFiles.v). *)
From Coq Require Import ZArith List Reals Bool.
From Verif Require Import Base RealOps Blas GreenConstruct Accum PMeasure PhononSweep Summary.
Import ListNotations.
Local Open Scope Z_scope.

(** measurement.h:135-148, the accumulator arrays which this build allocates *)
Inductive fpfield := fX_avg | fX_sq_avg | fiteration_X_avg | fiteration_X0.

Definition fpfield_eq_dec (f g : fpfield) : {f = g} + {f <> g}.
Proof. decide equality. Defined.
Definition fpfield_eqb (f g : fpfield) : bool := if fpfield_eq_dec f g then true else false.

Notation fp_add := (add_to fpfield fpfield_eqb).
Notation fp_scale := (scale_field fpfield fpfield_eqb).

(** measurement.h:135-166 [measurement_data_phonon_t]; both builds share the header, the other arrays of the structure are never
    allocated or read here *)
Record fpmeas := mk_fpmeas {
  fp_arr : fpfield -> list R;
  fp_Norb : Z;
  fp_Ncell : Z;
  fp_L : Z;
  fp_sign : R;
  fp_nsampl : Z;
  fp_max : Z;
  fp_counts : counts }.

(** lengths of the arrays allocated in measurement_full.c:822-825 *)
Definition fpfield_len (Norb max_nsampl : Z) (f : fpfield) : Z :=
  match f with
  | fiteration_X_avg | fiteration_X0 => Norb * max_nsampl
  | _ => Norb
  end.

(** measurement_full.c:807-826 [AllocatePhononData]; the acceptance counters are not written, they keep whatever the
    memory of the structure holds ([mem]).  As in PMeasure.v a negative number of elements is outside of the model. *)
Definition fallocate_pmeas (mem : counts) (Norb Nx Ny L max_nsampl : Z) : option fpmeas :=
  if Norb * max_nsampl <? 0 then None
  else Some (mk_fpmeas (fun f => repeat 0%R (Z.to_nat (fpfield_len Norb max_nsampl f))) Norb (Nx * Ny) L 0 0 max_nsampl mem).

Section Accumulate.
Variables (sign signfac : R) (X : list R) (Norb Ncell L nsampl : Z).
Let N := Ncell * Norb.

(** measurement_full.c:870-872 *)
Definition facc_site (l o i : Z) (s : fpfield -> list R) : option (fpfield -> list R) :=
  let* x := aget X (i + o * Ncell + l * N) in
  let* s := fp_add fX_avg o (signfac * x)%R s in
  let* s := fp_add fX_sq_avg o (signfac * (x * x))%R s in
  fp_add fiteration_X_avg (o + nsampl * Norb) (signfac * x)%R s.

(** measurement_full.c:865-875 *)
Definition facc_orbital (l o : Z) (s : fpfield -> list R) : option (fpfield -> list R) :=
  let* s := for_range 0 Ncell (facc_site l o) s in
  let* x0 := aget X (o * Ncell + l * N) in
  let* c := rdiv sign (IZR L) in
  fp_add fiteration_X0 (o + nsampl * Norb) (c * x0)%R s.

(** measurement_full.c:862-876 *)
Definition facc_slice (l : Z) (s : fpfield -> list R) : option (fpfield -> list R) :=
  for_range 0 Norb (facc_orbital l) s.
End Accumulate.

(** measurement_full.c:846-883 [AccumulatePhononData]; the arguments l_green, dt and omega are not used, of the Green's
    functions only the signs *)
Definition fpaccumulate (Gu Gd : greens_func) (X : list R) (m : fpmeas) : option fpmeas :=
  let Norb := fp_Norb m in
  let Ncell := fp_Ncell m in
  let L := fp_L m in
  let sign := IZR (gf_sgndet Gu * gf_sgndet Gd) in
  let* c := rdiv sign (IZR Ncell) in
  let* signfac := rdiv c (IZR L) in
  let* s := for_range 0 L (facc_slice sign signfac X Norb Ncell L (fp_nsampl m)) (fp_arr m) in
  Some (mk_fpmeas s Norb Ncell L (fp_sign m + sign)%R (fp_nsampl m + 1) (fp_max m) (fp_counts m)).

(** measurement_full.c:890-904 [NormalizePhononData] *)
Definition fpnormalize (m : fpmeas) : option fpmeas :=
  let Norb := fp_Norb m in
  let* nfac := rdiv 1 (IZR (fp_nsampl m)) in
  let* s := fp_scale Norb nfac fX_avg (fp_arr m) in
  let* s := fp_scale Norb nfac fX_sq_avg s in
  Some (mk_fpmeas s Norb (fp_Ncell m) (fp_L m) (fp_sign m * nfac)%R (fp_nsampl m) (fp_max m) (fp_counts m)).

(** any sequence of calls of AccumulatePhononData *)
Definition fpaccumulate_all (samples : list psample) (m : fpmeas) : option fpmeas :=
  fold_left (fun o s => let* m := o in fpaccumulate (ps_Gu s) (ps_Gd s) (ps_X s) m) samples (Some m).

(** measurement_full.c:911-923 [PrintPhononData] *)
Definition print_fphonon_summary (m : fpmeas) : option (list line) :=
  for_range 0 (fp_Norb m) (fun o out =>
    let* a := aget (fp_arr m fX_avg) o in let* l1 := rdiv a (fp_sign m) in
    let* a := aget (fp_arr m fX_sq_avg) o in let* l2 := rdiv a (fp_sign m) in
    Some (out ++ [(Some o, average_X, l1); (Some o, average_X2, l2)])) [(None, average_sign, fp_sign m)].
