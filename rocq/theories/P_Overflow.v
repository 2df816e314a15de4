(** C50: sizes and indices representable in [int]. *)
From Coq Require Import ZArith List Bool Reals Lia.
From Verif Require Import Base SimParams ParamParser Overflow OverflowSpec OverflowFacts.
Import ListNotations.
Local Open Scope Z_scope.

(** Exactly for the parameters that fit is every size computed without overflow and every allocation requested with the intended number
    of bytes. (Partial: C50 says this for every validated parameter set, which does not hold, see below.) *)
Theorem C50_sizes_partial p k : validate p = Some 0 ->
  sizes_fit p <->
  forall r, In r (requests p) ->
    exists v, ieval (env_of p k) (rq_count r) = Some v /\ 0 <= v /\ bytes (env_of p k) r = Some (v * rq_elem r).
Proof.
  intros HV. split.
  - intros HF r Hr. exact (requests_ok p k HV HF r Hr).
  - intros H. apply (requests_need p k HV). intros r Hr. destruct (H r Hr) as (v & E & Hv & _). eauto.
Qed.
Print Assumptions C50_sizes_partial.

(** An evaluated expression has its mathematical value. *)
Theorem C50_exact env e v : ieval env e = Some v -> v = value env e.
Proof. exact (ieval_value env e v). Qed.
Print Assumptions C50_exact.

(** For parameters that fit, every index is computed without overflow and lies inside the array allocated. *)
Theorem C50_indices_partial p k m : validate p = Some 0 -> sizes_fit p -> In m (accesses p) ->
  (forall j e, In (j, e) (ma_bounds m) -> 0 <= k j < value (env_of p k) e) ->
  exists u v w, ieval (env_of p k) (ma_base m) = Some u /\ ieval (env_of p k) (ma_inner m) = Some v /\
    ieval (env_of p k) (ma_size m) = Some w /\ 0 <= u /\ 0 <= v /\ u + v < w.
Proof.
  intros HV HF Hm HB. apply (accesses_ok p k HV HF m Hm). apply Forall_forall. intros [j e] Hje. exact (HB j e Hje).
Qed.
Print Assumptions C50_indices_partial.

Local Definition lattice nx ny l prodBlen nwraps nuneqlt : sim_params :=
  mk_sim_params 1 nx ny 0 (mk_bonds [0%R] [0%R] [0%R] [0%R] [0%R]) [4%R] [0%R] 0 false (mk_phonon_params [] [] 0 0 0 0)
    1 l prodBlen nwraps 10 10 1 nuneqlt 1%N 100.

Ltac valid := cbv -[Req_EM_T IZR]; destruct (Req_EM_T 0 0); [reflexivity|congruence].

(** A 16 x 16 lattice with 1024 time steps in products of 4 is accepted, but the size of the block matrix of the unequal time Green's
    functions overflows. With wrap-around, no byte at all is requested for it, although the writes go on. *)
Theorem C50_unequal_time_refuted : exists p r, validate p = Some 0 /\ In r (requests p) /\
  (forall k, ieval (env_of p k) (rq_count r) = None) /\ (forall k, wbytes (env_of p k) r = Some 0) /\
  exists m, In m (accesses p) /\ ma_size m = rq_count r /\
    exists k, (forall j e, In (j, e) (ma_bounds m) -> 0 <= k j < value (env_of p k) e) /\
      weval (env_of p k) (ma_base m) = Some 0 /\ weval (env_of p k) (ma_inner m) = Some 65537.
Proof.
  exists (lattice 16 16 1024 4 8 1), (mk_request Hsize 8). split; [valid|].
  split; [cbn; tauto|]. split; [reflexivity|]. split; [reflexivity|].
  exists (nth 0 unequal_accesses (mk_maccess zero zero zero [])). split; [cbn; tauto|]. split; [reflexivity|].
  exists (fun _ => 1). split; [|split; reflexivity]. intros j e [E|[]]. inversion E. subst. cbn. lia.
Qed.
Print Assumptions C50_unequal_time_refuted.

(** Also without unequal time measurements: for a 256 x 256 lattice the number of entries of the Green's function overflows. *)
Theorem C50_equal_time_refuted : exists p r, validate p = Some 0 /\ sp_nuneqlt p = 0 /\ In r (requests p) /\
  (forall k, ieval (env_of p k) (rq_count r) = None) /\ (forall k, wbytes (env_of p k) r = Some 0).
Proof.
  exists (lattice 256 256 4 2 2 0), (mk_request (N' * N')%int 8). split; [valid|].
  split; [reflexivity|]. split; [cbn; tauto|]. split; reflexivity.
Qed.
Print Assumptions C50_equal_time_refuted.

(** * Cases *)
Example C50_case_fits : let p := lattice 8 8 40 8 8 1 in validate p = Some 0 /\ sizes_fit p.
Proof.
  split; [valid|]. split; cbn; unfold MAX_INT; lia.
Qed.
Example C50_case_phonon_fits :
  let p := mk_sim_params 1 2 2 0 (mk_bonds [0%R] [0%R] [0%R] [0%R] [0%R]) [4%R] [0%R] 0 true (mk_phonon_params [1%R] [1%R] 1 1 1 1)
    1 4 2 2 10 10 2 0 1%N 100 in
  validate p = Some 0 /\ sizes_fit p /\ In (mk_request (Norb * (nsampl * L / neqlt))%int 8) (requests p).
Proof.
  split; [valid|]. split; [|cbn; tauto]. split; cbn; unfold MAX_INT; lia.
Qed.
(** the last entry of the block matrix *)
Example C50_case_index : let p := lattice 8 8 40 8 8 1 in let k := fun j : Z => 319 in
  ieval (env_of p k) (i0 + i0 * numBprod * N)%int = Some (320 * 320 - 1) /\ ieval (env_of p k) Hsize = Some (320 * 320).
Proof. split; reflexivity. Qed.
