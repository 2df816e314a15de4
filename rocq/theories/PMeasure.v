(** Model of the phonon measurements, /repo/src/measurement.c, and of the loop in which they are
    taken.

    Integers do not wrap around (see Overflow.v), doubles are real numbers.  The acceptance
    counters of the phonon updates are part of the sweep (PhononSweep.v). *)
From Coq Require Import ZArith List Reals Bool.
From Verif Require Import Base RealOps Blas ParamParser GreenConstruct Accum.
Import ListNotations.
Local Open Scope Z_scope.

(** measurement.h:137-150, the accumulator arrays; [cur_X] is the local array cur_X_avg of
    AccumulatePhononData (measurement.c:1010), whose contents are meaningless between calls *)
Inductive pfield :=
| X_avg | X_avg_sq | X_sq_avg | V_avg | V_sq_avg | PE | KE | nX
| iteration_X_avg | iteration_X0
| cur_X.

Definition pfield_eq_dec (f g : pfield) : {f = g} + {f <> g}.
Proof. decide equality. Defined.
Definition pfield_eqb (f g : pfield) : bool := if pfield_eq_dec f g then true else false.

Notation p_add := (add_to pfield pfield_eqb).
Notation p_scale := (scale_field pfield pfield_eqb).
Notation p_put := (put pfield pfield_eqb).

(** measurement.h:135-166 [measurement_data_phonon_t] *)
Record pmeas := mk_pmeas {
  p_arr : pfield -> list R;
  p_Norb : Z;
  p_Ncell : Z;
  p_L : Z;
  p_sign : R;
  p_nsampl : Z;
  p_max : Z }.

(** lengths of the arrays allocated in measurement.c:948-958 and 1010 *)
Definition pfield_len (Norb max_nsampl : Z) (f : pfield) : Z :=
  match f with
  | iteration_X_avg | iteration_X0 => Norb * max_nsampl
  | _ => Norb
  end.

(** measurement.c:935-966 [AllocatePhononData]; a negative number of elements is converted to a
    size of nearly 2^64 bytes in C, which is outside of the model *)
Definition allocate_pmeas (Norb Nx Ny L max_nsampl : Z) : option pmeas :=
  if Norb * max_nsampl <? 0 then None
  else Some (mk_pmeas (fun f => repeat 0%R (Z.to_nat (pfield_len Norb max_nsampl f))) Norb (Nx * Ny) L 0 0 max_nsampl).

(** main.c:127-131: the allocation, with the number of samples to be expected *)
Definition allocate_for_run (Norb Nx Ny L nsampl neqlt : Z) : option pmeas :=
  let* max_nsampl := cdiv (nsampl * L) neqlt in
  allocate_pmeas Norb Nx Ny L max_nsampl.

Section Accumulate.
Variables (sign signfac dt : R) (X omega : list R) (Norb Ncell L nsampl : Z).
Let N := Ncell * Norb.

(** measurement.c:1018-1024 *)
Definition acc_site (l lplus o i : Z) (s : pfield -> list R) : option (pfield -> list R) :=
  let* x := aget X (i + o * Ncell + l * N) in
  let* y := aget X (i + o * Ncell + lplus * N) in
  let* w := aget omega o in
  let* s1 := rdiv signfac dt in
  let* s2 := rdiv signfac (dt * dt) in
  let* h := rdiv 0.5 (dt * dt) in
  let* s := p_add cur_X o (signfac * x)%R s in
  let* s := p_add X_sq_avg o (signfac * (x * x))%R s in
  let* s := p_add iteration_X_avg (o + nsampl * Norb) (signfac * x)%R s in
  let* s := p_add V_avg o (s1 * (y - x))%R s in
  let* s := p_add V_sq_avg o (s2 * ((y - x) * (y - x)))%R s in
  let* s := p_add PE o (0.5 * (w * w) * signfac * (x * x))%R s in
  p_add KE o (- (h * signfac * ((y - x) * (y - x))))%R s.

(** measurement.c:1016-1027 *)
Definition acc_orbital (l lplus o : Z) (s : pfield -> list R) : option (pfield -> list R) :=
  let* s := for_range 0 Ncell (acc_site l lplus o) s in
  let* x0 := aget X (o * Ncell + l * N) in
  let* c := rdiv sign (IZR L) in
  p_add iteration_X0 (o + nsampl * Norb) (c * x0)%R s.

(** measurement.c:1011-1028 *)
Definition acc_slice (l : Z) (s : pfield -> list R) : option (pfield -> list R) :=
  let* lplus := cmod (l + 1) L in
  for_range 0 Norb (acc_orbital l lplus) s.

(** measurement.c:1030-1035; the index of KE is 0 in the code *)
Definition acc_average (o : Z) (s : pfield -> list R) : option (pfield -> list R) :=
  let* c := aget (s cur_X) o in
  let* s := p_add X_avg o c s in
  let* s := p_add X_avg_sq o (c * c)%R s in
  let* v := rdiv (sign * 0.5) dt in
  p_add KE 0 v s.

Variables (Gu Gd : list R) (l_green : Z).

(** measurement.c:1041-1049 *)
Definition sum_nX (o : Z) : option R :=
  for_range 0 Ncell (fun i a =>
    let io := i + Ncell * o in
    let* gu := aget Gu (io + N * io) in
    let* gd := aget Gd (io + N * io) in
    let* x := aget X (i + o * Ncell + l_green * N) in
    Some (a + ((1 - gu) + (1 - gd)) * x)%R) 0%R.

(** measurement.c:1038-1053 *)
Definition acc_nX (o : Z) (s : pfield -> list R) : option (pfield -> list R) :=
  let* a := sum_nX o in
  let* c := rdiv sign (IZR Ncell) in
  p_add nX o (a * c)%R s.
End Accumulate.

(** measurement.c:992-1061 [AccumulatePhononData] *)
Definition paccumulate (Gu Gd : greens_func) (l_green : Z) (X : list R) (dt : R) (omega : list R) (m : pmeas) : option pmeas :=
  let Norb := p_Norb m in
  let Ncell := p_Ncell m in
  let L := p_L m in
  let sign := IZR (gf_sgndet Gu * gf_sgndet Gd) in
  let* c := rdiv sign (IZR Ncell) in
  let* signfac := rdiv c (IZR L) in
  let s := p_put cur_X (repeat 0%R (Z.to_nat Norb)) (p_arr m) in
  let* s := for_range 0 L (acc_slice sign signfac dt X omega Norb Ncell L (p_nsampl m)) s in
  let* s := for_range 0 Norb (acc_average sign dt) s in
  let* s := for_range 0 Norb (acc_nX sign X Norb Ncell (gf_mat Gu) (gf_mat Gd) l_green) s in
  Some (mk_pmeas s Norb Ncell L (p_sign m + sign)%R (p_nsampl m + 1) (p_max m)).

(** measurement.c:1068-1088 [NormalizePhononData] *)
Definition pnormalize (m : pmeas) : option pmeas :=
  let Norb := p_Norb m in
  let* nfac := rdiv 1 (IZR (p_nsampl m)) in
  let* s := p_scale Norb nfac X_avg (p_arr m) in
  let* s := p_scale Norb nfac X_avg_sq s in
  let* s := p_scale Norb nfac X_sq_avg s in
  let* s := p_scale Norb nfac V_avg s in
  let* s := p_scale Norb nfac V_sq_avg s in
  let* s := p_scale Norb nfac PE s in
  let* s := p_scale Norb nfac KE s in
  let* s := p_scale Norb nfac nX s in
  Some (mk_pmeas s Norb (p_Ncell m) (p_L m) (p_sign m * nfac)%R (p_nsampl m) (p_max m)).

(** the arguments of one call of AccumulatePhononData *)
Record psample := mk_psample {
  ps_Gu : greens_func; ps_Gd : greens_func; ps_l : Z; ps_X : list R }.

Definition paccumulate1 (dt : R) (omega : list R) (s : psample) (m : pmeas) : option pmeas :=
  paccumulate (ps_Gu s) (ps_Gd s) (ps_l s) (ps_X s) dt omega m.

(** any sequence of samples *)
Definition paccumulate_all (dt : R) (omega : list R) (samples : list psample) (m : pmeas) : option pmeas :=
  fold_left (fun o s => let* m := o in paccumulate1 dt omega s m) samples (Some m).

(** monte_carlo.c:534, 692-703 and 818-838: the samples taken by [nsampl] sweeps;  [what it l] are
    the Green's functions and the field at time slice l of sweep it, whatever the updates made
    of them *)
Definition measure_run (dt : R) (omega : list R) (L nsampl neqlt : Z) (what : Z -> Z -> psample) (m : pmeas) : option pmeas :=
  for_range 0 nsampl (fun it m =>
    for_range 0 L (fun l m =>
      if 0 <? neqlt then
        let* r := cmod (l + 1) neqlt in
        if r =? 0 then paccumulate1 dt omega (what it l) m else Some m
      else Some m) m) m.
