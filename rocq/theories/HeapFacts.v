(** The functions of the heap model release what they request. *)
From Coq Require Import ZArith List String Bool Lia Permutation.
From Verif Require Import Base SimParams ParamSpec Heap HeapSpec HeapRules.
Import ListNotations.
Local Open Scope string_scope.
Local Open Scope Z_scope.

Lemma total_cons b l : total (b :: l) = snd b + total l.
Proof. reflexivity. Qed.

Ltac budget := let S := fresh "S" in intros S; repeat match goal with H : sound _ -> _ |- _ => specialize (H S) end;
  rewrite ?total_app, ?total_cons in *; cbn [snd fold_right] in *;
  unfold dbl, int_, pointer, matrix, vector in *; try lia; try nia.
Ltac size := unfold dbl, int_, pointer, matrix, vector in *; try lia; try nia.
Ltac norm_in H := rewrite ?map_app in H; cbn [map fst In app] in H; repeat (rewrite in_app_iff in H; cbn [map fst In app] in H).
Ltac owned := let q := fresh "q" in let Hq := fresh "Hq" in
  intros q Hq; norm_in Hq;
  repeat match goal with H : incl ?xs ?ys |- _ => let K := fresh "K" in pose proof (H q) as K; norm_in K; clear H end;
  rewrite ?map_app; cbn [map fst In app]; repeat (rewrite in_app_iff; cbn [map fst In app]); tauto.

Ltac b_alloc := eapply spec_bind; [apply spec_alloc; [budget | size] | cbn beta; intros ? ? ? [-> ->]].
Ltac l_free := eapply spec_perm; [| eapply spec_free]; [find_block | size].
Ltac b_free := eapply spec_bind; [l_free | cbn beta; intros ? ? ? [-> ->]].
Ltac b_touch := eapply spec_bind; [apply spec_touch; owned | cbn beta; intros ? ? ? [-> ->]].
Ltac b_decide b := eapply spec_bind; [apply spec_decide | cbn beta; intros b ? ? (-> & -> & ?)].
Ltac b_neat H := eapply spec_bind; [apply H | cbn beta; intros ? ? ? [-> ->]].
Ltac done_ := apply spec_ret; repeat split; try reflexivity.

Section Functions.

Variable orc : choice -> nat -> bool.
Variable c : Z.
Hypothesis c_nonneg : 0 <= c.

Notation neat := (neat orc c).
Notation spec := (spec orc c).

Variable N : Z.
Hypothesis N_pos : 0 < N.

Lemma neat_product B l A dst : incl (dst :: A) (map fst l) -> (sound orc -> total l + matrix N <= B) ->
  neat B l (product_sequence N A dst).
Proof.
  intros Hi HB n. unfold product_sequence. b_alloc. b_touch. l_free.
Qed.

Lemma neat_flow B l t out : incl (out ++ ptrs (ts_arr t) ++ ts_Bprod t) (map fst l) ->
  (sound orc -> total l + matrix N + 20 * N <= B) -> neat B l (time_flow N t out).
Proof.
  intros Hi HB n. unfold time_flow. do 4 b_alloc. b_touch. do 3 b_free. l_free.
Qed.

Lemma neat_construct B l t G : incl (G :: tsm_ptrs t) (map fst l) ->
  (sound orc -> total l + 3 * matrix N + 36 * N <= B) -> neat B l (green_construct N t G).
Proof.
  intros Hi HB n. unfold green_construct, tsm_ptrs in *. do 4 b_alloc.
  b_neat neat_flow; [owned | budget |].
  b_touch. b_alloc. b_touch. do 4 b_free. l_free.
Qed.

Lemma neat_sherman B l G : incl [G] (map fst l) -> (sound orc -> total l + 16 * N <= B) ->
  neat B l (sherman_morrison N G).
Proof. intros Hi HB n. unfold sherman_morrison. b_alloc. b_touch. b_alloc. b_touch. b_free. l_free. Qed.

Lemma neat_wrap B l b ib G : incl [b; ib; G] (map fst l) -> (sound orc -> total l + matrix N <= B) ->
  neat B l (green_wrap N b ib G).
Proof. intros Hi HB n. unfold green_wrap. b_alloc. b_touch. l_free. Qed.

(** an early return is only possible if the linear algebra failed *)
Lemma unsound ch k : In ch [NoFile; BadSize; LapackFails] -> orc ch k = true -> ~ sound orc.
Proof. intros H E S. rewrite (S ch H k) in E. discriminate. Qed.

Lemma neat_matrix_exp B l A dst : incl [A; dst] (map fst l) -> (sound orc -> total l + 2 * matrix N + 8 * N <= B) ->
  neat B l (matrix_exp orc N A dst).
Proof.
  intros Hi HB n. unfold matrix_exp. do 2 b_alloc. b_touch. b_decide b.
  match goal with H : exists _, _ |- _ => destruct H as [k E] end. destruct b.
  - assert (NS : ~ sound orc) by (apply (unsound LapackFails k); [cbn; auto | now symmetry]).
    do 2 (apply spec_drop; [exact NS|]). done_.
  - b_alloc. b_touch. do 2 b_free. l_free.
Qed.

Variables (L prodBlen : Z).
Hypothesis L_pos : 0 < L.
Hypothesis len_pos : 0 < prodBlen.
Hypothesis divides : (prodBlen | L).
Let nb := L / prodBlen.

Lemma nb_pos : 0 < nb.
Proof.
  unfold nb. destruct divides as [k ->]. rewrite Z.div_mul by lia. nia.
Qed.

Lemma neat_inverse B l H : incl [H] (map fst l) -> (sound orc -> total l + 4 * matrix N + vector (N * nb) <= B) ->
  neat B l (block_cyclic_inverse orc N nb H).
Proof.
  intros Hi HB n. pose proof nb_pos. unfold block_cyclic_inverse.
  assert (0 < N * nb) by nia. assert (0 < N * N) by nia.
  b_alloc. b_touch. b_decide b.
  match goal with H : exists _, _ |- _ => destruct H as [k E] end. destruct b.
  - apply spec_drop; [apply (unsound LapackFails k); [cbn; auto | now symmetry]|]. done_.
  - b_alloc. b_touch. b_free. l_free.
Qed.

(** *** Time step matrices *)

Definition arr_layout : list (string * Z) := [("B", pointer L); ("invB", pointer L); ("Bprod", pointer (L / prodBlen))].
Definition mats (ps : list ptr) : list (ptr * Z) := map (fun q => (q, dbl (N * N))) ps.
Definition tsm_blocks (t : tsm) : list (ptr * Z) :=
  mats (ts_B t) ++ mats (ts_invB t) ++ mats (ts_Bprod t) ++ blocks_of (ts_arr t) arr_layout.

Record tsm_ok (t : tsm) : Prop := {
  tk_arr : map fst (ts_arr t) = ["B"; "invB"; "Bprod"];
  tk_B : List.length (ts_B t) = Z.to_nat L;
  tk_invB : List.length (ts_invB t) = Z.to_nat L;
  tk_Bprod : List.length (ts_Bprod t) = Z.to_nat nb }.

Lemma mats_app a b : mats (a ++ b) = (mats a ++ mats b)%list.
Proof. apply map_app. Qed.
Lemma mats_fst ps : map fst (mats ps) = ps.
Proof. unfold mats. rewrite map_map. cbn. apply map_id. Qed.
Lemma mats_total ps : total (mats ps) = Z.of_nat (List.length ps) * matrix N.
Proof.
  induction ps as [|q ps IH]; [reflexivity|]. cbn [mats map List.length]. rewrite total_cons. fold (mats ps). rewrite IH.
  cbn [snd]. unfold dbl, matrix. lia.
Qed.

Lemma tsm_total t : tsm_ok t -> total (tsm_blocks t) = (2 * L + nb) * (8 + matrix N).
Proof.
  intros [A EB EI EP]. pose proof nb_pos. unfold tsm_blocks. rewrite !total_app, !mats_total, EB, EI, EP.
  rewrite blocks_total by exact A. cbn [arr_layout fold_right snd]. unfold pointer. fold nb. rewrite !Z2Nat.id by lia. ring.
Qed.

Lemma tsm_fst t : tsm_ok t -> Permutation (map fst (tsm_blocks t)) (tsm_ptrs t).
Proof.
  intros [A _ _ _]. unfold tsm_blocks, tsm_ptrs. rewrite !map_app, !mats_fst, blocks_fst by exact A.
  rewrite !app_assoc. rewrite Permutation_app_comm. rewrite !app_assoc. reflexivity.
Qed.

Lemma spec_alloc_tsm B n l : (sound orc -> total l + (2 * L + nb) * (8 + matrix N) <= B) ->
  spec B n l (alloc_tsm N L prodBlen)
    (fun t n' l' => n' = n /\ tsm_ok t /\ Permutation l' (tsm_blocks t ++ l)).
Proof.
  intros HB. pose proof nb_pos as Hn. unfold alloc_tsm. fold arr_layout.
  assert (HN : 0 <= matrix N) by (unfold matrix; nia).
  eapply spec_bind.
  { apply spec_alloc_fields.
    - unfold arr_layout, pointer. fold nb. repeat (apply Forall_cons; [cbn [snd]; lia|]). apply Forall_nil.
    - cbn [arr_layout fold_right snd]. unfold pointer. fold nb. intros S. specialize (HB S). nia. }
  cbn beta. intros arr n' l0 (-> & Ea & P0).
  assert (Et : total (blocks_of arr arr_layout) = (2 * L + nb) * 8).
  { rewrite blocks_total by exact Ea. cbn [arr_layout fold_right snd]. unfold pointer. fold nb. lia. }
  assert (Ef : map fst (blocks_of arr arr_layout) = ptrs arr) by (apply blocks_fst; exact Ea).
  eapply spec_bind.
  { unfold loop. apply (spec_loop_from orc c (fun i (bs : list ptr * list ptr) n' l' =>
      n' = n /\ List.length (fst bs) = i /\ List.length (snd bs) = i /\
      Permutation l' (mats (fst bs) ++ mats (snd bs) ++ blocks_of arr arr_layout ++ l))).
    - cbn. repeat split. exact P0.
    - intros j [b1 b2] n' l' Hj (-> & E1 & E2 & P1). cbn [fst snd] in *.
      assert (Hmax : sound orc -> total l' + 2 * matrix N <= B).
      { intros S. specialize (HB S). rewrite (total_perm _ _ P1), !total_app, !mats_total, E1, E2, Et.
        assert (Z.of_nat j + 1 <= L) by lia. nia. }
      b_alloc. b_alloc.
      eapply spec_bind; [apply spec_touch | cbn beta; intros ? ? ? [-> ->]].
      { intros q Hq. cbn. right. right. apply (Permutation_in _ (Permutation_map fst (Permutation_sym P1))).
        rewrite !map_app, Ef, !in_app_iff. tauto. }
      apply spec_ret. cbn [fst snd]. repeat split.
      + rewrite app_length, E1. cbn. lia.
      + rewrite app_length, E2. cbn. lia.
      + rewrite P1, !mats_app. cbn.
        match goal with |- Permutation (?x :: ?y :: ?u ++ ?v ++ ?w) _ =>
          transitivity (u ++ y :: x :: v ++ w)%list end.
        * rewrite perm_swap. rewrite (Permutation_app_comm (mats b1) (_ :: _ :: _)). cbn. do 2 constructor. apply Permutation_app_comm.
        * rewrite <- !app_assoc. apply Permutation_app_head. cbn. constructor. apply Permutation_middle. }
  cbn beta. cbn [Nat.add]. intros [b1 b2] n' l1 (-> & E1 & E2 & P1). cbn [fst snd] in *.
  eapply spec_bind.
  { unfold loop. apply (spec_loop_from orc c (fun i (ps : list ptr) n' l' =>
      n' = n /\ List.length ps = i /\
      Permutation l' (mats ps ++ mats b1 ++ mats b2 ++ blocks_of arr arr_layout ++ l))).
    - cbn. repeat split. exact P1.
    - intros j ps n' l' Hj (-> & E3 & P3).
      assert (Hmax : sound orc -> total l' + matrix N <= B).
      { intros S. specialize (HB S). rewrite (total_perm _ _ P3), !total_app, !mats_total, E1, E2, E3, Et.
        fold nb in Hj. assert (Z.of_nat j + 1 <= nb) by lia. rewrite !Z2Nat.id by lia. nia. }
      b_alloc.
      eapply spec_bind; [apply spec_touch | cbn beta; intros ? ? ? [-> ->]].
      { intros q Hq. cbn. right. apply (Permutation_in _ (Permutation_map fst (Permutation_sym P3))).
        rewrite !map_app, Ef, !in_app_iff. tauto. }
      apply spec_ret. repeat split.
      + rewrite app_length, E3. cbn. lia.
      + rewrite P3, mats_app. cbn. rewrite <- app_assoc. cbn. apply Permutation_middle. }
  cbn beta. cbn [Nat.add]. intros ps n' l2 (-> & E3 & P3). apply spec_ret. split; [reflexivity|]. split.
  - constructor; cbn; assumption.
  - rewrite P3. unfold tsm_blocks. cbn. rewrite <- !app_assoc.
    rewrite (Permutation_app_comm (mats ps)). rewrite <- !app_assoc. do 2 apply Permutation_app_head.
    rewrite (app_assoc (mats ps)). rewrite (Permutation_app_comm (mats ps)). rewrite <- !app_assoc. 
    apply Permutation_app_head. apply Permutation_app_comm.
Qed.


Lemma mats_skip ps i q : nth_error ps i = Some q -> mats (skipn i ps) = (q, dbl (N * N)) :: mats (skipn (S i) ps).
Proof.
  revert i. induction ps as [|x ps IH]; intros [|i] H; try discriminate.
  - now injection H as ->.
  - cbn in H. rewrite !skipn_cons. now apply IH.
Qed.

Lemma skip_all (ps : list ptr) k : List.length ps = k -> skipn k ps = [].
Proof. intros <-. apply skipn_all. Qed.

Lemma spec_delete_tsm B n l t : tsm_ok t ->
  spec B n (tsm_blocks t ++ l) (delete_tsm L prodBlen t) (fun _ n' l' => n' = n /\ Permutation l' l).
Proof.
  intros [Ea E1 E2 E3]. pose proof nb_pos as Hn. unfold delete_tsm. fold nb.
  assert (Ef : map fst (blocks_of (ts_arr t) arr_layout) = ptrs (ts_arr t)) by (apply blocks_fst; exact Ea).
  assert (HN : 0 <= dbl (N * N)) by (unfold dbl; nia).
  eapply spec_bind.
  { unfold repeat_m, loop. apply (spec_loop_from orc c (fun i (_ : unit) n' l' => n' = n /\
      Permutation l' (mats (skipn i (ts_Bprod t)) ++ mats (ts_B t) ++ mats (ts_invB t) ++ blocks_of (ts_arr t) arr_layout ++ l))).
    - split; [reflexivity|]. unfold tsm_blocks. cbn [skipn]. rearrange.
    - intros j _ n' l' Hj [-> P].
      eapply spec_bind; [apply spec_touch | cbn beta; intros ? ? ? [-> ->]].
      { intros q Hq. apply (Permutation_in _ (Permutation_map fst (Permutation_sym P))).
        rewrite !map_app, Ef, !in_app_iff. tauto. }
      eapply spec_bind; [apply nth_ptr_ok; lia | cbn beta; intros q ? ? (-> & -> & Eq)].
      eapply spec_perm; [rewrite P, (mats_skip _ _ _ Eq); apply Permutation_refl|].
      eapply spec_weaken; [apply spec_free; exact HN|]. cbn beta. intros _ n' l'' [-> ->]. split; [reflexivity|].
      apply Permutation_refl. }
  cbn beta. cbn [Nat.add]. intros _ n' l1 [-> P1]. rewrite (skip_all _ _ E3) in P1. cbn [mats map app] in P1.
  eapply spec_bind.
  { unfold repeat_m, loop. apply (spec_loop_from orc c (fun i (_ : unit) n' l' => n' = n /\
      Permutation l' (mats (skipn i (ts_B t)) ++ mats (skipn i (ts_invB t)) ++ blocks_of (ts_arr t) arr_layout ++ l))).
    - split; [reflexivity | exact P1].
    - intros j _ n' l' Hj [-> P].
      eapply spec_bind; [apply spec_touch | cbn beta; intros ? ? ? [-> ->]].
      { intros q Hq. apply (Permutation_in _ (Permutation_map fst (Permutation_sym P))).
        rewrite !map_app, Ef, !in_app_iff. tauto. }
      eapply spec_bind; [apply nth_ptr_ok; lia | cbn beta; intros q ? ? (-> & -> & Eq)].
      eapply spec_bind.
      { eapply spec_perm; [rewrite P, (mats_skip _ _ _ Eq); symmetry; apply Permutation_middle|].
        apply spec_free; exact HN. }
      cbn beta. intros _ ? ? [-> ->].
      eapply spec_bind; [apply nth_ptr_ok; lia | cbn beta; intros q2 ? ? (-> & -> & Eq2)].
      rewrite (mats_skip _ _ _ Eq2).
      eapply spec_weaken; [apply spec_free; exact HN|]. cbn beta. intros _ n' l'' [-> ->]. split; [reflexivity|].
      apply Permutation_refl. }
  cbn beta. cbn [Nat.add]. intros _ n' l2 [-> P2]. rewrite (skip_all _ _ E1), (skip_all _ _ E2) in P2. cbn [mats map app] in P2.
  eapply spec_perm; [exact P2|].
  apply spec_free_fields; [exact Ea | | | ].
  - rewrite Ea. apply Permutation_sym. change ["Bprod"; "invB"; "B"] with (rev ["B"; "invB"; "Bprod"]). apply Permutation_rev.
  - repeat (constructor; [cbn; intuition discriminate|]). constructor.
  - unfold arr_layout, pointer. fold nb. repeat (apply Forall_cons; [cbn [snd]; lia|]). apply Forall_nil.
Qed.

(** a structure owned as part of [l] *)
Definition owns (t : tsm) (l : list (ptr * Z)) : Prop := tsm_ok t /\ incl (tsm_ptrs t) (map fst l).

Lemma owns_B t l : owns t l -> incl (ts_B t) (map fst l) /\ incl (ts_invB t) (map fst l) /\
  incl (ts_Bprod t) (map fst l) /\ incl (ptrs (ts_arr t)) (map fst l).
Proof.
  intros [_ H]. unfold tsm_ptrs in H. repeat split; intros q Hq; apply H; rewrite !in_app_iff; tauto.
Qed.

Lemma owns_weaken t l l' : incl l l' -> owns t l -> owns t l'.
Proof. intros H [K I]. split; [exact K|]. intros q Hq. apply (incl_map fst H). now apply I. Qed.

Lemma owns_blocks t l : tsm_ok t -> incl (tsm_blocks t) l -> owns t l.
Proof.
  intros K H. split; [exact K|]. intros q Hq. apply (incl_map fst H).
  now apply (Permutation_in _ (Permutation_sym (tsm_fst t K))).
Qed.

Lemma nth_incl (ps qs : list ptr) i q : nth_error ps i = Some q -> incl ps qs -> In q qs.
Proof. intros E H. apply H. now apply nth_error_In with i. Qed.

Lemma neat_init B l src t : owns t l -> incl src (map fst l) -> (sound orc -> total l + matrix N <= B) ->
  neat B l (init_tsm N L prodBlen src t).
Proof.
  intros O Hs HB n. pose proof (owns_B _ _ O) as (I1 & I2 & I3 & I4). unfold init_tsm. fold nb.
  b_touch. apply neat_repeat. intros i Hi n'.
  eapply spec_bind; [apply nth_ptr_ok; rewrite (tk_Bprod _ (proj1 O)); exact Hi | cbn beta; intros q ? ? (-> & -> & Eq)].
  apply neat_product; [|exact HB]. intros q' [<-|H]; [exact (nth_incl _ _ _ _ Eq I3) | now apply I1].
Qed.

Lemma neat_update B l src i t : owns t l -> incl src (map fst l) -> (i < Z.to_nat L)%nat ->
  (sound orc -> total l + matrix N <= B) -> neat B l (update_tsm N prodBlen src i t).
Proof.
  intros O Hs Hi HB n. pose proof (owns_B _ _ O) as (I1 & I2 & I3 & I4). unfold update_tsm.
  eapply spec_bind; [apply nth_ptr_ok; rewrite (tk_B _ (proj1 O)); exact Hi | cbn beta; intros b ? ? (-> & -> & Eb)].
  eapply spec_bind; [apply nth_ptr_ok; rewrite (tk_invB _ (proj1 O)); exact Hi | cbn beta; intros ib ? ? (-> & -> & Eib)].
  assert (Hb := nth_incl _ _ _ _ Eb I1). assert (Hib := nth_incl _ _ _ _ Eib I2).
  eapply spec_bind; [apply spec_touch | cbn beta; intros ? ? ? [-> ->]].
  { intros q Hq. rewrite !in_app_iff in Hq. cbn in Hq. destruct Hq as [Hq|[[<-|[<-|[]]]|Hq]]; auto. }
  apply neat_when. intros _ n'.
  eapply spec_bind; [apply nth_ptr_ok; rewrite (tk_Bprod _ (proj1 O)) | cbn beta; intros q ? ? (-> & -> & Eq)].
  { unfold nb. destruct divides as [k Ek]. rewrite Ek, Z.div_mul by lia.
    pose proof nb_pos as Hn. unfold nb in Hn. rewrite Ek, Z.div_mul in Hn by lia.
    assert ((Z.of_nat i - (prodBlen - 1)) / prodBlen < k); [|lia].
    apply Z.div_lt_upper_bound; nia. }
  apply neat_product; [|exact HB]. intros q' [<-|H]; [exact (nth_incl _ _ _ _ Eq I3) | now apply I1].
Qed.

Lemma neat_unequal B l t H g1 g2 g3 : owns t l -> incl [H; g1; g2; g3] (map fst l) ->
  (sound orc -> total l + 4 * matrix N + vector (N * nb) <= B) ->
  neat B l (unequal_green orc N L prodBlen t H g1 g2 g3).
Proof.
  intros O Hi HB n. pose proof (owns_B _ _ O) as (I1 & I2 & I3 & I4). pose proof nb_pos as Hn.
  destruct O as [K I]. unfold unequal_green. fold nb.
  assert (HB' : sound orc -> total l + matrix N <= B).
  { intros S. specialize (HB S). assert (0 < N * nb) by nia. unfold matrix, vector in *. nia. }
  b_touch. b_neat neat_inverse; [owned | exact HB |]. b_touch.
  eapply spec_bind; [apply neat_repeat | cbn beta; intros ? ? ? [-> ->]].
  { intros i Hi' n'. destruct (_ =? 0); [apply spec_touch; owned|].
    destruct (Nat.eqb i 1); [|apply spec_touch; owned].
    b_alloc. b_touch. l_free. }
  apply neat_repeat. intros i Hi' n'. destruct (_ =? 0); [apply spec_touch; owned|].
  eapply spec_bind; [apply nth_ptr_ok; rewrite (tk_B _ K); lia | cbn beta; intros b ? ? (-> & -> & Eb)].
  eapply spec_bind; [apply nth_ptr_ok; rewrite (tk_invB _ K); lia | cbn beta; intros ib ? ? (-> & -> & Eib)].
  assert (Hb := nth_incl _ _ _ _ Eb I1). assert (Hib := nth_incl _ _ _ _ Eib I2).
  apply neat_wrap; [|exact HB']. intros q [<-|[<-|[<-|[]]]]; auto. apply Hi. cbn. tauto.
Qed.

Definition green_layout : list (string * Z) :=
  [("Gtau0_u", dbl (N * L * N)); ("G0tau_u", dbl (N * N * L)); ("Geqlt_u", dbl (N * N * L));
   ("Gtau0_d", dbl (N * L * N)); ("G0tau_d", dbl (N * N * L)); ("Geqlt_d", dbl (N * N * L))].

Lemma neat_uneqlt B l tu td un : owns tu l -> owns td l -> incl (ptrs un) (map fst l) ->
  In "Hu" (map fst un) -> In "Hd" (map fst un) ->
  (sound orc -> total l + 6 * L * matrix N + 2 * (4 * matrix N + vector (N * nb)) <= B) ->
  neat B l (accumulate_uneqlt orc N L prodBlen tu td un).
Proof.
  intros Ou Od Hi Hu Hd HB n. pose proof nb_pos as Hn. unfold accumulate_uneqlt. fold green_layout.
  destruct (field_found _ _ Hu) as [hu Eu]. destruct (field_found _ _ Hd) as [hd Ed]. rewrite Eu, Ed.
  apply field_in in Eu. apply field_in in Ed.
  assert (P1 : 0 < N * N) by nia. assert (P2 : 0 < N * N * L) by nia. assert (P3 : 0 < N * nb) by nia.
  assert (F : Forall (fun f : string * Z => 0 <= snd f) green_layout).
  { unfold green_layout, dbl. repeat (apply Forall_cons; [cbn [snd]; nia|]). apply Forall_nil. }
  assert (ET : fold_right (fun (f : string * Z) s => snd f + s) 0 green_layout = 6 * L * matrix N).
  { cbn [green_layout fold_right snd]. unfold dbl, matrix. ring. }
  eapply spec_bind; [apply spec_alloc_fields; [exact F|] | cbn beta; intros s ? l0 (-> & Es & P0)].
  { rewrite ET. intros S. specialize (HB S). unfold matrix, vector in *. nia. }
  assert (Ef := blocks_fst _ _ Es).
  assert (Et : total l0 = total l + 6 * L * matrix N).
  { rewrite (total_perm _ _ P0), total_app, (blocks_total _ _ Es), ET. ring. }
  assert (Hs : incl (ptrs s) (map fst l0)).
  { intros q Hq. apply (Permutation_in _ (Permutation_map fst (Permutation_sym P0))). rewrite map_app, Ef, in_app_iff. tauto. }
  assert (Hl : incl l l0).
  { intros q Hq. apply (Permutation_in _ (Permutation_sym P0)). rewrite in_app_iff. tauto. }
  assert (Hlf := incl_map fst Hl).
  assert (Ou' := owns_weaken _ _ _ Hl Ou). assert (Od' := owns_weaken _ _ _ Hl Od).
  destruct s as [|[f1 a] [|[f2 b] [|[f3 cc] [|[f4 d] [|[f5 e] [|[f6 f] [|]]]]]]]; try discriminate. cbn [ptrs map snd].
  cbn [ptrs map snd] in Hs.
  apply spec_neat; [| intros _].
  { apply (neat_par orc c B l0 _ _ (4 * matrix N + vector (N * nb)) (4 * matrix N + vector (N * nb))).
    - unfold matrix, vector. lia.
    - unfold matrix, vector. lia.
    - apply neat_unequal; [exact Ou' | | intros _; lia].
      intros q [<-|Hq]; [apply Hlf, Hi, Eu|]. apply Hs. cbn in *. tauto.
    - apply neat_unequal; [exact Od' | | intros _; lia].
      intros q [<-|Hq]; [apply Hlf, Hi, Ed|]. apply Hs. cbn in *. tauto.
    - intros S. specialize (HB S). lia. }
  eapply spec_bind; [apply spec_touch | cbn beta; intros ? ? ? [-> ->]].
  { intros q Hq. rewrite in_app_iff in Hq. destruct Hq as [Hq|Hq]; [apply Hs, Hq | apply Hlf, Hi, Hq]. }
  eapply spec_perm; [exact P0|].
  apply spec_exactly. apply spec_free_fields; [exact Es | | | exact F].
  - rewrite Es. cbn. match goal with |- Permutation ?a ?b => change a with (rev b) end. apply Permutation_sym, Permutation_rev.
  - repeat (constructor; [cbn; intuition discriminate|]). constructor.
Qed.

End Functions.
