(** C31: pre-pivoting. *)
From Coq Require Import ZArith List Reals Lia Lra Permutation.
From Verif Require Import Base Prepivot PrepivotFacts.
Import ListNotations.
Local Open Scope Z_scope.

(** C31: whatever the comparisons return (NaN included), every access is in bounds and the result is a
    permutation of 0, ..., N-1... *)
Theorem C31_always_a_permutation : forall (A : Type) (lt : A -> A -> bool) N norms jpvt,
  0 < N -> Z.of_nat (length norms) = N -> Z.of_nat (length jpvt) = N ->
  exists r, prepivot lt N norms jpvt = Some r /\ Permutation r (map Z.of_nat (seq 0 (Z.to_nat N))).
Proof. exact prepivot_perm. Qed.
Print Assumptions C31_always_a_permutation.

(** ... and for real norms they are non-increasing along the permutation. *)
Theorem C31_sorted_by_norm : forall N norms jpvt,
  0 < N -> Z.of_nat (length norms) = N -> Z.of_nat (length jpvt) = N ->
  exists r, prepivot Rltb N norms jpvt = Some r /\ Permutation r (map Z.of_nat (seq 0 (Z.to_nat N))) /\
    forall a b, 0 <= a < b -> b < N ->
      (nth (Z.to_nat (nth (Z.to_nat b) r 0%Z)) norms 0 <= nth (Z.to_nat (nth (Z.to_nat a) r 0%Z)) norms 0)%R.
Proof.
  intros N norms jpvt H1 H2 H3. destruct (prepivot_sorted N norms jpvt H1 H2 H3) as (r & E & HP & HS).
  exists r. split; [exact E|]. split; [exact HP|]. intros a b Ha Hb.
  apply (nth_StronglySorted _ _ r 0 HS). rewrite (Permutation_length HP), zrange_len. lia.
Qed.
Print Assumptions C31_sorted_by_norm.

Example C31_case : prepivot Z.ltb 4 [3; 7; 5; 7] [9; 9; 9; 9] = Some [1; 3; 2; 0].
Proof. reflexivity. Qed.
(** a comparison that is always true, and one that is always false *)
Example C31_case_nan : prepivot (fun _ _ => true) 4 [3; 7; 5; 7] [9; 9; 9; 9] = Some [3; 2; 1; 0] /\
  prepivot (fun _ _ => false) 4 [3; 7; 5; 7] [9; 9; 9; 9] = Some [0; 1; 2; 3].
Proof. split; reflexivity. Qed.
