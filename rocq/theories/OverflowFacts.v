(** Facts about overflow. *)
From Coq Require Import ZArith List Bool Lia.
From Verif Require Import Base SimParams ParamParser Overflow OverflowSpec.
Import ListNotations.
Local Open Scope Z_scope.

Lemma in_int_ok z : 0 <= z <= MAX_INT -> in_int z = Some z.
Proof.
  intros H. unfold in_int, INT_MIN, INT_MAX, MAX_INT in *. destruct (Z.leb_spec (-2147483648) z); [|lia].
  destruct (Z.leb_spec z 2147483647); [auto|lia].
Qed.
Lemma in_int_inv z x : in_int z = Some x -> x = z /\ -2147483648 <= z <= MAX_INT.
Proof.
  unfold in_int, INT_MIN, INT_MAX, MAX_INT. destruct (Z.leb_spec (-2147483648) z); cbn; [|discriminate].
  destruct (Z.leb_spec z 2147483647); [|discriminate]. intros E. inversion E. lia.
Qed.

(** what is computed is the exact value *)
Lemma ieval_value env e v : ieval env e = Some v -> v = value env e.
Proof.
  revert v. induction e; cbn; intros r E; try congruence;
    destruct (ieval env e1) as [x|]; cbn in E; try discriminate; destruct (ieval env e2) as [y|]; cbn in E; try discriminate;
    rewrite <- (IHe1 x eq_refl), <- (IHe2 y eq_refl).
  - apply in_int_inv in E. lia.
  - apply in_int_inv in E. lia.
  - apply in_int_inv in E. lia.
  - unfold cdiv in E. destruct (y =? 0); cbn in E; [discriminate|]. apply in_int_inv in E. lia.
Qed.

Lemma validate_positive p : validate p = Some 0 ->
  0 < sp_Norb p /\ 0 < sp_Nx p /\ 0 < sp_Ny p /\ 0 < sp_L p /\ 0 < sp_prodBlen p /\ 0 < sp_L p / sp_prodBlen p /\
  sp_L p = sp_prodBlen p * (sp_L p / sp_prodBlen p).
Proof.
  unfold validate. destruct (Z.leb_spec (sp_Norb p) 0); [discriminate|].
  destruct (Z.leb_spec (sp_Nx p) 0); [discriminate|]. destruct (Z.leb_spec (sp_Ny p) 0); [discriminate|]. cbn [orb].
  destruct (check_taa _ _) as [[]|]; cbn [obind negb]; try discriminate.
  destruct (Z.leb_spec (sp_L p) 0); [discriminate|]. destruct (Z.leb_spec (sp_prodBlen p) 0); [discriminate|].
  unfold cmod, cdiv. destruct (Z.eqb_spec (sp_prodBlen p) 0); [lia|]. cbn [obind].
  rewrite Z.rem_mod_nonneg, Z.quot_div_nonneg by lia.
  destruct (Z.eqb_spec (sp_L p mod sp_prodBlen p) 0) as [Hm|]; [|discriminate]. cbn [negb orb].
  destruct (Z.leb_spec (sp_L p / sp_prodBlen p) 0); [discriminate|]. intros _.
  repeat split; auto. apply Z.div_exact; auto.
Qed.

(** a product of positive numbers is at least each factor *)
Lemma mul_ge_l a b : 0 <= a -> 1 <= b -> a <= a * b.
Proof. nia. Qed.

(** the index of row i, column j of an array with a rows and b columns *)
Lemma idx_lt i a j b : 0 <= i < a -> 0 <= j < b -> 0 <= a * j /\ 0 <= i + a * j < a * b.
Proof. nia. Qed.
Lemma mul_nn a b : 0 <= a -> 0 <= b -> 0 <= a * b.
Proof. nia. Qed.
Lemma mul_le a b a' b' : 0 <= a <= a' -> 0 <= b <= b' -> 0 <= a * b <= a' * b'.
Proof. nia. Qed.

Lemma grow a q : 0 <= a -> 1 <= q -> 0 <= a <= a * q.
Proof. nia. Qed.

Section Fit.
Variables (p : sim_params) (k : Z -> Z).
Hypothesis HV : validate p = Some 0.
Hypothesis HF : sizes_fit p.
Variables (env : ivar -> Z) (o x y c n l B b : Z).
Hypothesis Henv : env = env_of p k.
Hypothesis Ho : sp_Norb p = o.
Hypothesis Hx : sp_Nx p = x.
Hypothesis Hy : sp_Ny p = y.
Hypothesis Hc : c = x * y.
Hypothesis Hn : n = c * o.
Hypothesis Hl : sp_L p = l.
Hypothesis HB : sp_prodBlen p = B.
Hypothesis Hb : b = l / B.

Lemma pos : (1 <= o /\ 1 <= x /\ 1 <= y /\ 1 <= c /\ 1 <= n) /\ (1 <= l /\ 1 <= B /\ 1 <= b /\ l = B * b) /\
  (o <= n /\ c <= n /\ x <= c /\ y <= c).
Proof.
  destruct (validate_positive p HV) as (H1 & H2 & H3 & H4 & H5 & H6 & H7).
  rewrite Ho in H1. rewrite Hx in H2. rewrite Hy in H3. rewrite Hl in H4, H6, H7. rewrite HB in H5, H6, H7. rewrite <- Hb in H6, H7.
  clear - H1 H2 H3 H4 H5 H6 H7 Hc Hn.
  assert (1 <= c) by nia. assert (1 <= n) by nia. repeat split; try lia; nia.
Qed.
Lemma sites : num_sites p = n. Proof. unfold num_sites. rewrite Hn, Hc, Ho, Hx, Hy. ring. Qed.
Lemma fits : n * n <= MAX_INT /\ l * n <= MAX_INT.
Proof. rewrite <- sites, <- Hl. split; apply HF. Qed.

Definition ev (e : iexpr) (v : Z) : Prop := ieval env e = Some v.
Lemma ev_lit z : ev (Lit z) z. Proof. reflexivity. Qed.
Lemma ev_idx j : ev (Var (idx j)) (k j). Proof. unfold ev. rewrite Henv. reflexivity. Qed.
Lemma ev_add a a' u v : ev a u -> ev a' v -> 0 <= u + v <= MAX_INT -> ev (Add a a') (u + v).
Proof. unfold ev. cbn. intros -> ->. apply in_int_ok. Qed.
Lemma ev_sub a a' u v : ev a u -> ev a' v -> 0 <= u - v <= MAX_INT -> ev (Sub a a') (u - v).
Proof. unfold ev. cbn. intros -> ->. apply in_int_ok. Qed.
Lemma ev_mul a a' u v : ev a u -> ev a' v -> 0 <= u * v <= MAX_INT -> ev (Mul a a') (u * v).
Proof. unfold ev. cbn. intros -> ->. apply in_int_ok. Qed.
Lemma ev_quot a a' u v : ev a u -> ev a' v -> 0 <= u -> 0 < v -> u <= MAX_INT -> ev (Quot a a') (u / v).
Proof.
  unfold ev. cbn. intros -> -> Hu Hv Hm. cbn. unfold cdiv. destruct (Z.eqb_spec v 0); [lia|]. cbn.
  rewrite Z.quot_div_nonneg by lia. apply in_int_ok. split; [now apply Z.div_pos|]. apply Z.div_le_upper_bound; nia.
Qed.

Lemma ev_Norb : ev Norb o. Proof. unfold ev. rewrite Henv, <- Ho. reflexivity. Qed.
Lemma ev_Nx : ev Nx x. Proof. unfold ev. rewrite Henv, <- Hx. reflexivity. Qed.
Lemma ev_Ny : ev Ny y. Proof. unfold ev. rewrite Henv, <- Hy. reflexivity. Qed.
Lemma ev_L : ev L l. Proof. unfold ev. rewrite Henv, <- Hl. reflexivity. Qed.
Lemma ev_prodBlen : ev prodBlen B. Proof. unfold ev. rewrite Henv, <- HB. reflexivity. Qed.
Lemma n_le : n <= MAX_INT. Proof. destruct fits as [F _], pos as ((_ & _ & _ & _ & P) & _). clear - F P. nia. Qed.
Lemma l_le : l <= MAX_INT. Proof. destruct fits as [_ F], pos as ((_ & _ & _ & _ & P) & (Q & _) & _). clear - F P Q. nia. Qed.
Lemma ev_Ncell : ev Ncell c.
Proof. pose proof n_le. pose proof pos. rewrite Hc. apply ev_mul; auto using ev_Nx, ev_Ny. rewrite <- Hc. lia. Qed.
Lemma ev_N : ev N n.
Proof. pose proof n_le. pose proof pos. rewrite Hn. apply ev_mul; auto using ev_Ncell, ev_Norb. rewrite <- Hn. lia. Qed.
Lemma ev_N' : ev N' n.
Proof.
  pose proof n_le. pose proof pos. rewrite Hn, Z.mul_comm. apply ev_mul; auto using ev_Ncell, ev_Norb. rewrite Z.mul_comm, <- Hn. lia.
Qed.
Lemma ev_numBprod : ev numBprod b.
Proof. pose proof l_le. pose proof pos. rewrite Hb. apply ev_quot; auto using ev_L, ev_prodBlen; lia. Qed.
Lemma ev_LxN : ev LxN (l * n).
Proof.
  destruct fits. pose proof pos. apply ev_mul; auto using ev_L, ev_N'. split; [apply mul_nn|]; lia.
Qed.

Definition inside (m : maccess) : Prop := exists u v w,
  ev (ma_base m) u /\ ev (ma_inner m) v /\ ev (ma_size m) w /\ 0 <= u /\ 0 <= v /\ u + v < w.
Definition bounds (m : maccess) : Prop := Forall (fun je => 0 <= k (fst je) < value env (snd je)) (ma_bounds m).

Lemma value_of e v : ev e v -> value env e = v.
Proof. intros E. symmetry. now apply ieval_value. Qed.

Ltac leaf := first [exact (ev_lit _) | exact (ev_idx _) | exact ev_Norb | exact ev_Nx | exact ev_Ny | exact ev_L | exact ev_prodBlen |
  exact ev_Ncell | exact ev_N | exact ev_N' | exact ev_numBprod | exact ev_LxN].
Ltac evs := repeat first [leaf | eapply ev_add | eapply ev_mul | eapply ev_sub].
Ltac values := unfold bounds, block, np in *; cbn [ma_bounds block app] in *;
  repeat match goal with H : Forall _ (_ :: _) |- _ => apply Forall_cons_iff in H; destruct H as [? H] | H : Forall _ [] |- _ => clear H end;
  cbn [fst snd] in *;
  repeat match goal with
  | H : context [value env N] |- _ => rewrite (value_of N n ev_N) in H
  | H : context [value env N'] |- _ => rewrite (value_of N' n ev_N') in H
  | H : context [value env Ncell] |- _ => rewrite (value_of Ncell c ev_Ncell) in H
  | H : context [value env Norb] |- _ => rewrite (value_of Norb o ev_Norb) in H
  | H : context [value env Nx] |- _ => rewrite (value_of Nx x ev_Nx) in H
  | H : context [value env Ny] |- _ => rewrite (value_of Ny y ev_Ny) in H
  | H : context [value env L] |- _ => rewrite (value_of L l ev_L) in H
  | H : context [value env numBprod] |- _ => rewrite (value_of numBprod b ev_numBprod) in H
  | H : context [value env i0] |- _ => rewrite (value_of i0 (k 0) (ev_idx 0)) in H
  | H : context [value env (Mul _ _)] |- _ => cbn [value] in H
  | H : context [value env (Sub _ _)] |- _ => cbn [value] in H
  | H : context [value env (Lit _)] |- _ => cbn [value] in H
  end.

Lemma entry_ok i j r s : 0 <= i < r -> 0 <= j < s -> r * s <= MAX_INT ->
  (0 <= j * r <= MAX_INT) /\ 0 <= i + j * r <= MAX_INT /\ i + j * r < r * s.
Proof. intros. nia. Qed.

Lemma base_ok m : In m base_accesses -> bounds m -> inside m.
Proof.
  destruct pos as ((P1 & P2 & P3 & P4 & P5) & (P6 & P7 & P8 & P9) & (P10 & P11 & P12 & P13)). destruct fits as [F1 F2].
  pose proof n_le as NM. pose proof l_le as LM. cbn [In base_accesses]. intros Hm HM.
  assert (FC : c * c <= n * n) by (clear - P4 P11; nia).
  assert (FO : c * (o * o) <= n * n) by (clear - Hn P1 P4; rewrite Hn; nia).
  repeat (destruct Hm as [<-|Hm]; [unfold inside; cbn [ma_base ma_inner ma_size]; values|]); [..|destruct Hm].
  - destruct (entry_ok (k 0) (k 1) n n) as (E1 & E2 & E3); auto.
    exists 0, (k 0 + k 1 * n), (n * n). split; [leaf|]. split; [evs; auto|]. split; [evs; lia|]. lia.
  - destruct (entry_ok (k 1) (k 0) n n) as (E1 & E2 & E3); auto. rewrite Z.mul_comm in E1, E2, E3.
    exists (n * k 0), (k 1), (n * n). split; [evs; auto|]. split; [leaf|]. split; [evs; lia|]. lia.
  - destruct (entry_ok (k 0) (k 1) n l) as (E1 & E2 & E3); auto; [lia|].
    exists 0, (k 0 + k 1 * n), (l * n). split; [leaf|]. split; [evs; auto|]. split; [leaf|]. lia.
  - destruct (idx_lt (k 0) c (k 1) o) as (E1 & E2); auto. destruct (idx_lt (k 2) c (k 3) o) as (E3 & E4); auto. rewrite <- Hn in E2, E4.
    destruct (idx_lt (k 0 + c * k 1) n (k 2 + c * k 3) n) as (E5 & E6); auto. rewrite (Z.mul_comm c (k 3)) in *.
    exists 0, (k 0 + c * k 1 + n * (k 2 + k 3 * c)), (n * n). split; [leaf|]. split; [evs; lia|]. split; [evs; lia|]. lia.
  - destruct (idx_lt (k 1) o (k 2) o) as (E1 & E2); auto. destruct (idx_lt (k 0) c (k 1 + o * k 2) (o * o)) as (E3 & E4); auto.
    assert (o * o <= c * (o * o)) by (clear - P1 P4; nia).
    exists 0, (k 0 + c * (k 1 + o * k 2)), (c * o * o). rewrite Z.mul_assoc in *. split; [leaf|]. split; [evs; lia|]. split; [|lia].
    evs; lia.
  - destruct (idx_lt (k 0) x (k 1) y) as (E1 & E2); auto. destruct (idx_lt (k 2) x (k 3) y) as (E3 & E4); auto. rewrite <- Hc in E2, E4.
    destruct (idx_lt (k 0 + x * k 1) c (k 2 + x * k 3) c) as (E5 & E6); auto. assert (c <= c * c) by (clear - P4; nia).
    exists 0, (k 0 + x * k 1 + c * (k 2 + x * k 3)), (c * c). split; [leaf|]. split; [evs; lia|]. split; [evs; lia|]. lia.
  - destruct (idx_lt (k 0) c (k 1) c) as (E1 & E2); auto.
    exists 0, (k 0 + c * k 1), (c * c). split; [leaf|]. split; [evs; lia|]. split; [evs; lia|]. lia.
Qed.

Section Unequal.
Hypothesis HU : 0 < sp_nuneqlt p.
Lemma fits_unequal : (n * b) * (n * b) <= MAX_INT /\ 4 * (n * n) <= MAX_INT /\ n * n * l <= MAX_INT.
Proof. rewrite <- sites, Hb, <- Hl, <- HB. apply (fit_unequal _ HF HU). Qed.
Lemma chain : n * n <= n * n * b /\ n * n * b <= n * n * b * b /\ n * n * b * b <= MAX_INT /\ n * b <= n * b * (n * b) /\ 0 <= n * b /\ 0 <= n * n.
Proof.
  destruct pos as ((P1 & P2 & P3 & P4 & P5) & (P6 & P7 & P8 & P9) & _). destruct fits_unequal as (F1 & _). clear - P5 P8 F1.
  assert (0 <= n * n) by nia. assert (0 <= n * n * b) by nia. assert (0 <= n * b) by nia. repeat split; try nia.
Qed.
Lemma ev_Hsize : ev Hsize (n * n * b * b).
Proof. pose proof chain. unfold Hsize. evs; lia. Qed.

(** a block of the (numBprod*N) x (numBprod*N) matrix, with its top left entry at row r, column q *)
Lemma block_ok w r q i j : 0 <= r -> 0 <= q -> 0 <= i -> 0 <= j -> r + i < w -> q + j < w -> w * w <= MAX_INT ->
  0 <= w * q /\ 0 <= j * w <= MAX_INT /\ 0 <= r + w * q <= MAX_INT /\ 0 <= i + j * w <= MAX_INT /\ (r + w * q) + (i + j * w) < w * w.
Proof.
  intros. assert (0 <= w * q) by nia. assert (0 <= j * w) by nia. assert (w * (q + j) <= w * (w - 1)) by nia. lia.
Qed.

Ltac evu := repeat first [leaf | exact ev_Hsize | eapply ev_add | eapply ev_mul | eapply ev_sub | eapply ev_quot].

Ltac arith := clear HV HF Henv Ho Hx Hy Hc Hn Hl HB Hb HU; lia.

Lemma unequal_ok m : In m unequal_accesses -> bounds m -> inside m.
Proof.
  destruct pos as ((P1 & P2 & P3 & P4 & P5) & (P6 & P7 & P8 & P9) & (P10 & P11 & P12 & P13)). destruct fits as [F1 F2].
  pose proof n_le as NM. pose proof l_le as LM. destruct fits_unequal as (F3 & F4 & F5). destruct chain as (C1 & C2 & C3 & C4 & C5 & C6).
  cbn [In unequal_accesses]. intros Hm HM.
  assert (S : n * n * b * b = b * n * (b * n)) by ring.
  assert (bn : n * b = b * n) by ring. rewrite bn in *. 
  assert (bn1 : b <= b * n) by (clear - P5 P8; nia).
  assert (bn2 : n <= b * n) by (clear - P5 P8; nia).
  assert (W : b * n <= MAX_INT) by lia.
  assert (div : forall i, 0 <= i < l -> 0 <= i / B < b).
  { intros i Hi. split; [apply Z.div_pos; lia|]. apply Z.div_lt_upper_bound; lia. }
  assert (blk : forall i, 0 <= i < b -> 0 <= i * n /\ i * n + n <= b * n) by (clear - P5; intros; nia).
  repeat (destruct Hm as [<-|Hm]; [unfold inside, entry; cbn [ma_base ma_inner ma_size]; values|]); [..|destruct Hm].
  - clear bn C1 C2 C3 C4 C6 P9 P12 P13 P1 P2 P3 P4 P10 P11 F1 F2 F4 F5. destruct (block_ok (b * n) (k 0) (k 0) 0 0) as (E1 & E2 & E3 & E4 & E5); try lia.
    assert (0 <= k 0 * b <= k 0 * b * n) by (clear - H P5 P8; nia).
    exists 0, (k 0 + k 0 * b * n), (n * n * b * b). split; [leaf|]. split; [evu; arith|]. split; [evu|]. lia.
  - clear bn C1 C2 C3 C4 C6 P9 P12 P13 P1 P2 P3 P4 P10 P11 F1 F2 F4 F5. destruct (blk (k 0)); [lia|]. destruct (blk (k 0 + 1)); [lia|].
    destruct (block_ok (b * n) ((k 0 + 1) * n) (k 0 * n) (k 4) (k 5)) as (E1 & E2 & E3 & E4 & E5); try lia.
    assert (0 <= b * n * k 0) by (apply mul_nn; lia).
    assert (b * n * k 0 <= b * n * (k 0 * n)) by (apply Z.mul_le_mono_nonneg_l; [lia|]; clear - P5 H; nia).
    assert (k 0 + 1 <= (k 0 + 1) * n) by (clear - P5 H; nia).
    assert (U : (k 0 + 1 + b * n * k 0) * n = (k 0 + 1) * n + b * n * (k 0 * n)) by ring.
    exists ((k 0 + 1 + b * n * k 0) * n), (k 4 + k 5 * (b * n)), (n * n * b * b). repeat apply conj; [evu; arith|evu; arith|evu|..]; arith.
  - clear bn C1 C2 C3 C4 C6 P9 P12 P13 P1 P2 P3 P4 P10 P11 F1 F2 F4 F5. destruct (blk (b - 1)); [lia|].
    destruct (block_ok (b * n) 0 ((b - 1) * n) (k 4) (k 5)) as (E1 & E2 & E3 & E4 & E5); try lia.
    assert (U : b * n * (b - 1) * n = b * n * ((b - 1) * n)) by ring.
    destruct (grow (b * n * (b - 1)) n); [apply mul_nn; lia|lia|].
    exists (b * n * (b - 1) * n), (k 4 + k 5 * (b * n)), (n * n * b * b). repeat apply conj; [evu; arith|evu; arith|evu|..]; arith.
  - clear bn C1 C2 C3 C4 C6 P9 P12 P13 P1 P2 P3 P4 P10 P11 F1 F2 F4 F5. destruct (div (k 0)) as [D1 D2]; auto. destruct (blk (k 0 / B)); [lia|].
    destruct (block_ok (b * n) (k 0 / B * n) 0 (k 4) (k 5)) as (E1 & E2 & E3 & E4 & E5); try lia.
    exists (k 0 / B * n), (k 4 + k 5 * (b * n)), (n * n * b * b). repeat apply conj; [evu; arith|evu; arith|evu|..]; arith.
  - clear bn C1 C2 C3 C4 C6 P9 P12 P13 P1 P2 P3 P4 P10 P11 F1 F2 F4 F5. destruct (div (k 0)) as [D1 D2]; auto. destruct (blk (k 0 / B)); [lia|].
    destruct (block_ok (b * n) 0 (k 0 / B * n) (k 4) (k 5)) as (E1 & E2 & E3 & E4 & E5); try lia.
    assert (U : k 0 / B * b * n * n = b * n * (k 0 / B * n)) by ring.
    destruct (grow (k 0 / B * b) n); [apply mul_nn; lia|lia|]. destruct (grow (k 0 / B * b * n) n); [lia..|].
    exists (k 0 / B * b * n * n), (k 4 + k 5 * (b * n)), (n * n * b * b). repeat apply conj; [evu; arith|evu; arith|evu|..]; arith.
  - clear bn C1 C2 C3 C4 C6 P9 P12 P13 P1 P2 P3 P4 P10 P11 F1 F2 F4 F5. destruct (div (k 0)) as [D1 D2]; auto. destruct (blk (k 0 / B)); [lia|].
    destruct (block_ok (b * n) (k 0 / B * n) (k 0 / B * n) (k 4) (k 5)) as (E1 & E2 & E3 & E4 & E5); try lia.
    assert (U : (k 0 / B + k 0 / B * b * n) * n = k 0 / B * n + b * n * (k 0 / B * n)) by ring.
    destruct (grow (k 0 / B * b) n); [apply mul_nn; lia|lia|]. destruct (grow (k 0 / B + k 0 / B * b * n) n); [lia..|].
    exists ((k 0 / B + k 0 / B * b * n) * n), (k 4 + k 5 * (b * n)), (n * n * b * b). repeat apply conj; [evu; arith|evu; arith|evu|..]; arith.
  - clear bn C1 C2 C3 C4 C6 P9 P12 P13 P2 P3 P7 P8 F3 F4 C5 S bn1 bn2 W. (* k5 * (l*n) + k4 + k0*n < n*(l*n) *)
    destruct (idx_lt (k 4) n (k 0) l) as (E1 & E2); auto. destruct (idx_lt (k 4 + n * k 0) (n * l) (k 5) n) as (E3 & E4); auto.
    assert (U : n * l * n = n * n * l) by ring. rewrite !(Z.mul_comm n (k 0)), !(Z.mul_comm (n * l) (k 5)), !(Z.mul_comm n l) in *.
    exists (k 0 * n), (k 4 + k 5 * (l * n)), (n * l * n). rewrite (Z.mul_comm n l). repeat apply conj; [evu; arith|evu; arith| |..]; [|lia..].
    rewrite (Z.mul_comm l n). evu; arith.
  - clear bn C1 C2 C3 C4 C6 P9 P12 P13 P2 P3 P7 P8 F3 F4 C5 S bn1 bn2 W. destruct (idx_lt (k 4) n (k 5) n) as (E1 & E2); auto. destruct (idx_lt (k 4 + n * k 5) (n * n) (k 0) l) as (E3 & E4); auto.
    assert (U : k 0 * n * n = n * n * k 0) by ring. rewrite (Z.mul_comm n (k 5)) in *.
    destruct (grow (k 0 * n) n); [apply mul_nn; lia|lia|].
    exists (k 0 * n * n), (k 4 + k 5 * n), (n * n * l). repeat apply conj; [evu; arith|evu; arith|evu; arith|..]; arith.
  - clear bn C1 C2 C3 C4 C6 P9 P12 P13 P2 P3 P7 P8 F3 F4 C5 S bn1 bn2 W. destruct (idx_lt (k 1) o (k 2) o) as (E1 & E2); auto. destruct (idx_lt (k 1 + o * k 2) (o * o) (k 3) l) as (E3 & E4); auto.
    destruct (idx_lt (k 0) c (k 1 + o * k 2 + o * o * k 3) (o * o * l)) as (E5 & E6); auto.
    assert (U : c * o * o * l = c * (o * o * l)) by ring.
    assert (CO : 0 <= c * o <= MAX_INT) by (rewrite <- Hn; lia).
    assert (c * o * o <= n * n) by (rewrite <- Hn; apply Z.mul_le_mono_nonneg_l; lia).
    assert (c * o * o * l <= n * n * l) by (apply Z.mul_le_mono_nonneg_r; lia).
    destruct (grow (o * o) l); [apply mul_nn; lia|lia|]. destruct (grow (o * o * l) c); [lia..|]. rewrite (Z.mul_comm (o * o * l) c) in *.
    destruct (grow (c * o * o) l); [apply mul_nn; [apply mul_nn|]; lia|lia|].
    exists 0, (k 0 + c * (k 1 + o * k 2 + o * o * k 3)), (c * o * o * l). repeat apply conj; [leaf|evu; arith|evu; arith|..]; arith.
  - clear bn C1 C2 C3 C4 C6 P9 P12 P13 P2 P3 P7 P8 F3 F4 C5 S bn1 bn2 W. destruct (idx_lt (k 1) n (k 2) l) as (E1 & E2); auto. destruct (idx_lt (k 0) n (k 1 + n * k 2) (n * l)) as (E3 & E4); auto.
    assert (U : n * (n * l) = n * n * l) by ring.
    destruct (grow (n * l) n); [lia..|]. assert (U' : n * l * n = n * n * l) by ring.
    exists 0, (k 0 + n * (k 1 + n * k 2)), (n * n * l). repeat apply conj; [leaf|evu; arith|evu; arith|..]; arith.
  - clear bn C1 C2 C3 C4 C6 P9 P12 P13 P2 P3 P7 P8 F3 F4 C5 S bn1 bn2 W. destruct (idx_lt (k 2) l (k 1) n) as (E1 & E2); auto. destruct (idx_lt (k 0) n (k 2 + l * k 1) (l * n)) as (E3 & E4); auto.
    assert (U : n * (l * n) = n * n * l) by ring. assert (U' : n * l * n = n * n * l) by ring.
    exists 0, (k 0 + n * (k 2 + l * k 1)), (n * l * n). repeat apply conj; [leaf|evu; arith|evu; arith|..]; arith.
  - clear bn C1 C2 C3 C4 C6 P9 P12 P13 P2 P3 P7 P8 F3 F4 C5 S bn1 bn2 W. destruct (idx_lt (k 2) c (k 0) o) as (E1 & E2); auto. destruct (idx_lt (k 3) c (k 0) o) as (E3 & E4); auto. rewrite <- Hn in E2, E4.
    destruct (idx_lt (k 1) l (k 3 + c * k 0) n) as (E5 & E6); auto.
    destruct (idx_lt (k 2 + c * k 0) n (k 1 + l * (k 3 + c * k 0)) (l * n)) as (E7 & E8); auto.
    assert (U : n * (l * n) = n * n * l) by ring. assert (U' : n * l * n = n * n * l) by ring.
    assert (U'' : n * (k 1 + l * (k 3 + c * k 0)) = n * (k 1 + l * (c * k 0)) + n * l * k 3) by ring.
    assert (0 <= n * l * k 3) by (apply mul_nn; lia). assert (0 <= l * (c * k 0)) by (apply mul_nn; lia).
    assert (0 <= n * (k 1 + l * (c * k 0))) by (apply mul_nn; lia). assert (l * (c * k 0) <= l * (k 3 + c * k 0)) by (apply Z.mul_le_mono_nonneg_l; lia).
    exists (c * k 0 + n * (k 1 + l * (c * k 0))), (k 2 + n * l * k 3), (n * l * n). repeat apply conj; [evu; arith|evu; arith|evu; arith|..]; arith.
  - clear bn C1 C2 C3 C4 C6 P9 P12 P13 P2 P3 P7 P8 F3 F4 C5 S bn1 bn2 W. destruct (idx_lt (k 2) c (k 0) o) as (E1 & E2); auto. destruct (idx_lt (k 3) c (k 0) o) as (E3 & E4); auto. rewrite <- Hn in E2, E4.
    destruct (idx_lt (k 3 + c * k 0) n (k 1) l) as (E5 & E6); auto.
    destruct (idx_lt (k 2 + c * k 0) n (k 3 + c * k 0 + n * k 1) (n * l)) as (E7 & E8); auto.
    assert (U : n * (n * l) = n * n * l) by ring.
    assert (U'' : n * (k 3 + c * k 0 + n * k 1) = n * (c * k 0 + n * k 1) + n * k 3) by ring.
    assert (0 <= n * k 3) by (apply mul_nn; lia). assert (0 <= n * (c * k 0 + n * k 1)) by (apply mul_nn; lia).
    exists (c * k 0 + n * (c * k 0 + n * k 1)), (k 2 + n * k 3), (n * n * l). repeat apply conj; [evu; arith|evu; arith|evu; arith|..]; arith.
  - clear bn C1 C2 C3 C4 C6 P9 P12 P13 P2 P3 P7 P8 F3 F4 C5 S bn1 bn2 W. destruct (idx_lt (k 0) c (k 1) o) as (E1 & E2); auto. rewrite <- Hn in E2. destruct (idx_lt (k 0 + c * k 1) n (k 2) l) as (E3 & E4); auto.
    exists 0, (k 0 + (c * k 1 + n * k 2)), (n * l). repeat apply conj; [leaf|evu; arith|evu; arith|..]; arith.
Qed.

Lemma cyclic_ok m : 2 <= b -> In m cyclic_accesses -> bounds m -> inside m.
Proof.
  intros b2.
  destruct pos as ((P1 & P2 & P3 & P4 & P5) & (P6 & P7 & P8 & P9) & (P10 & P11 & P12 & P13)). destruct fits as [F1 F2].
  pose proof n_le as NM. pose proof l_le as LM. destruct fits_unequal as (F3 & F4 & F5). destruct chain as (C1 & C2 & C3 & C4 & C5 & C6).
  cbn [In cyclic_accesses]. intros Hm HM.
  assert (S : n * n * b * b = n * b * (n * b)) by ring.
  assert (bn1 : b <= n * b) by (clear - P5 P8; nia).
  assert (bn2 : n <= n * b) by (clear - P5 P8; nia).
  assert (W : n * b <= MAX_INT) by lia.
  assert (blk : forall i, 0 <= i <= b -> 0 <= i * n <= n * b) by (clear - P5; intros; nia).
  clear C1 C2 C3 C4 C6 P9 P12 P13 P1 P2 P3 P4 P6 P7 P10 P11 F1 F2 F5.
  repeat (destruct Hm as [<-|Hm]; [unfold inside, entry, np; cbn [ma_base ma_inner ma_size]; values|]); [..|destruct Hm].
  - destruct (blk (k 0)); [lia|]. destruct (blk (k 0 + 2)); [lia|].
    destruct (block_ok (n * b) (k 0 * n) (k 0 * n) (k 4) (k 5)) as (E1 & E2 & E3 & E4 & E5); try arith.
    destruct (grow ((1 + n * b) * k 0) n); [apply mul_nn; arith|arith|].
    assert (U : (1 + n * b) * k 0 * n = k 0 * n + n * b * (k 0 * n)) by ring.
    assert (n * b < MAX_INT) by (clear - F3 b2 bn1; nia).
    exists ((1 + n * b) * k 0 * n), (k 4 + k 5 * (n * b)), (n * n * b * b). repeat apply conj; [evu; arith|evu; arith|exact ev_Hsize|..]; arith.
  - destruct (blk (b - 2)); [lia|].
    destruct (block_ok (n * b) ((b - 2) * n) ((b - 2) * n) (k 4) (k 5)) as (E1 & E2 & E3 & E4 & E5); try arith.
    destruct (grow ((1 + n * b) * (b - 2)) n); [apply mul_nn; arith|arith|].
    assert (U : (1 + n * b) * (b - 2) * n = (b - 2) * n + n * b * ((b - 2) * n)) by ring.
    assert (n * b < MAX_INT) by (clear - F3 b2 bn1; nia).
    exists ((1 + n * b) * (b - 2) * n), (k 4 + k 5 * (n * b)), (n * n * b * b). repeat apply conj; [evu; arith|evu; arith|exact ev_Hsize|..]; arith.
  - destruct (blk (k 0)); [lia|]. destruct (blk (k 0 + 2)); [lia|].
    destruct (block_ok (n * b) (k 0 * n) ((k 0 + 1) * n) (k 4) (k 5)) as (E1 & E2 & E3 & E4 & E5); try arith.
    assert (0 <= n * b * (k 0 + 1)) by (apply mul_nn; arith).
    destruct (grow (k 0 + n * b * (k 0 + 1)) n); [arith..|].
    assert (U : (k 0 + n * b * (k 0 + 1)) * n = k 0 * n + n * b * ((k 0 + 1) * n)) by ring.
    exists ((k 0 + n * b * (k 0 + 1)) * n), (k 4 + k 5 * (n * b)), (n * n * b * b). repeat apply conj; [evu; arith|evu; arith|exact ev_Hsize|..]; arith.
  - destruct (blk (k 0)); [lia|]. destruct (blk (k 0 + 2)); [lia|]. destruct (blk (b - 1)); [lia|].
    destruct (block_ok (n * b) (k 0 * n) ((b - 1) * n) (k 4) (k 5)) as (E1 & E2 & E3 & E4 & E5); try arith.
    assert (0 <= n * b * (b - 1)) by (apply mul_nn; arith).
    destruct (grow (k 0 + n * b * (b - 1)) n); [arith..|].
    assert (U : (k 0 + n * b * (b - 1)) * n = k 0 * n + n * b * ((b - 1) * n)) by ring.
    exists ((k 0 + n * b * (b - 1)) * n), (k 4 + k 5 * (n * b)), (n * n * b * b). repeat apply conj; [evu; arith|evu; arith|exact ev_Hsize|..]; arith.
  - destruct (blk (b - 1)); [lia|].
    destruct (block_ok (n * b) 0 ((b - 1) * n) (k 4) (k 5)) as (E1 & E2 & E3 & E4 & E5); try arith.
    destruct (grow (n * b * (b - 1)) n); [apply mul_nn; arith|arith|].
    assert (U : n * b * (b - 1) * n = n * b * ((b - 1) * n)) by ring.
    exists (n * b * (b - 1) * n), (k 4 + k 5 * (n * b)), (n * n * b * b). repeat apply conj; [evu; arith|evu; arith|exact ev_Hsize|..]; arith.
  - destruct (blk (k 0)); [lia|]. destruct (blk (k 0 + 2)); [lia|].
    destruct (block_ok (n * b) (k 0 * n) ((k 0 + 2) * n) (k 4) (k 5)) as (E1 & E2 & E3 & E4 & E5); try arith.
    assert (0 <= n * b * (k 0 + 2)) by (apply mul_nn; arith).
    destruct (grow (k 0 + n * b * (k 0 + 2)) n); [arith..|].
    assert (U : (k 0 + n * b * (k 0 + 2)) * n = k 0 * n + n * b * ((k 0 + 2) * n)) by ring.
    exists ((k 0 + n * b * (k 0 + 2)) * n), (k 4 + k 5 * (n * b)), (n * n * b * b). repeat apply conj; [evu; arith|evu; arith|exact ev_Hsize|..]; arith.
  - destruct (blk (k 0 + 1)); [lia|]. destruct (blk (k 0 + 2)); [lia|].
    destruct (block_ok (n * b) ((k 0 + 1) * n) ((k 0 + 2) * n) (k 4) (k 5)) as (E1 & E2 & E3 & E4 & E5); try arith.
    assert (0 <= n * b * (k 0 + 2)) by (apply mul_nn; arith).
    destruct (grow (k 0 + 1 + n * b * (k 0 + 2)) n); [arith..|].
    assert (U : (k 0 + 1 + n * b * (k 0 + 2)) * n = (k 0 + 1) * n + n * b * ((k 0 + 2) * n)) by ring.
    exists ((k 0 + 1 + n * b * (k 0 + 2)) * n), (k 4 + k 5 * (n * b)), (n * n * b * b).
    repeat apply conj; [evu; arith|evu; arith|exact ev_Hsize|..]; arith.
  - destruct (blk (k 0)); [lia|]. destruct (blk (k 0 + 2)); [lia|].
    destruct (block_ok (n * b) 0 (k 0 * n) (k 4) (k 5)) as (E1 & E2 & E3 & E4 & E5); try arith.
    destruct (grow (n * b * k 0) n); [apply mul_nn; arith|arith|].
    assert (U : n * b * k 0 * n = n * b * (k 0 * n)) by ring.
    exists (n * b * k 0 * n), (k 4 + k 5 * (n * b)), (n * n * b * b). repeat apply conj; [evu; arith|evu; arith|exact ev_Hsize|..]; arith.
Qed.

Lemma unequal_requests_ok r : In r unequal_requests -> exists v, ev (rq_count r) v /\ 0 <= v <= MAX_INT.
Proof.
  destruct pos as ((P1 & P2 & P3 & P4 & P5) & (P6 & P7 & P8 & P9) & (P10 & P11 & P12 & P13)). destruct fits as [F1 F2].
  pose proof n_le as NM. pose proof l_le as LM. destruct fits_unequal as (F3 & F4 & F5). destruct chain as (C1 & C2 & C3 & C4 & C5 & C6).
  assert (C7 : 0 <= l * n) by (apply mul_nn; lia).
  cbn [In unequal_requests]. intros Hm.
  repeat (destruct Hm as [<-|Hm]; [cbn [rq_count]|]); [..|destruct Hm].
  - exists (n * n * b * b). split; [exact ev_Hsize|]. lia.
  - assert (CO : 0 <= c * o <= MAX_INT) by (rewrite <- Hn; lia).
    assert (c * o * o <= n * n) by (rewrite <- Hn; apply Z.mul_le_mono_nonneg_l; lia).
    assert (c * o * o * l <= n * n * l) by (apply Z.mul_le_mono_nonneg_r; lia).
    destruct (grow (c * o * o) l); [apply mul_nn; lia|lia|].
    exists (c * o * o * l). split; [evu; arith|arith].
  - exists (n * l). split; [evu; lia|lia].
  - exists (c * c). destruct (mul_le c c n n); [lia..|]. split; [evu; lia|lia].
  - exists c. split; [leaf|lia].
  - assert (U : n * l * n = n * n * l) by ring. destruct (grow (n * n) l); [lia..|].
    exists (n * l * n). split; [evu; lia|lia].
  - destruct (grow (n * n) l); [lia..|]. exists (n * n * l). split; [evu; lia|lia].
  - exists (4 * n * n). destruct (grow (4 * n) n); [lia..|]. rewrite <- Z.mul_assoc in *. 
    split; [|lia]. rewrite Z.mul_assoc. evu; lia.
  - exists (n * b). split; [evu; lia|lia].
Qed.
End Unequal.

Lemma base_requests_ok r : In r base_requests -> exists v, ev (rq_count r) v /\ 0 <= v <= MAX_INT.
Proof.
  destruct pos as ((P1 & P2 & P3 & P4 & P5) & (P6 & P7 & P8 & P9) & (P10 & P11 & P12 & P13)). destruct fits as [F1 F2].
  pose proof n_le as NM. pose proof l_le as LM. 
  assert (C1 : 0 <= l * n) by (apply mul_nn; lia). assert (C2 : 0 <= n * n) by (apply mul_nn; lia).
  destruct (mul_le c c n n); [lia..|]. destruct (mul_le o o n n); [lia..|].
  cbn [In base_requests]. intros Hm.
  repeat (destruct Hm as [<-|Hm]; [cbn [rq_count]|]); [..|destruct Hm].
  - exists (o * o). split; [evs; lia|lia].
  - exists o. split; [leaf|lia].
  - exists (n * n). split; [evs; lia|lia].
  - exists (n * n). split; [evs; lia|lia].
  - assert (CO : 0 <= c * o <= MAX_INT) by (rewrite <- Hn; lia).
    assert (c * o * o <= n * n) by (rewrite <- Hn; apply Z.mul_le_mono_nonneg_l; lia).
    assert (0 <= c * o * o) by (apply mul_nn; lia).
    exists (c * o * o). split; [evs; lia|lia].
  - exists n. split; [leaf|lia].
  - exists n. split; [leaf|lia].
  - exists n. split; [leaf|lia].
  - exists (c * c). split; [evs; lia|lia].
  - exists c. split; [leaf|lia].
  - exists (l * n). split; [leaf|lia].
  - exists l. split; [leaf|lia].
  - exists b. split; [leaf|]. split; [lia|]. apply Z.le_trans with l; [|lia]. rewrite P9. clear - P7 P8. nia.
Qed.

Section Phonon.
Hypothesis HP : sp_use_phonons p = true.
Definition hist : Z := Z.quot (sp_nsampl p * l) (sp_neqlt p).
Lemma fits_hist : 0 <= hist <= MAX_INT /\ 0 <= o * hist <= MAX_INT.
Proof.
  destruct (fit_phonon _ HF HP) as (A & C & D). rewrite Ho, Hl in D. fold hist in D. split; [|exact D].
  destruct pos as ((P1 & _) & _). clear - D P1. nia.
Qed.
Lemma ev_hist : ev (nsampl * L / neqlt)%int hist.
Proof.
  destruct (fit_phonon _ HF HP) as (A & C & D). rewrite Hl in C. destruct fits_hist as [E _].
  pose proof ev_L as EL. unfold ev in *. rewrite Henv in *. cbn [ieval nsampl neqlt env_of obind] in *. rewrite EL. cbn [obind].
  unfold in_int at 1, INT_MIN, INT_MAX. unfold MAX_INT in C.
  destruct (Z.leb_spec (-2147483648) (sp_nsampl p * l)); [|lia]. destruct (Z.leb_spec (sp_nsampl p * l) 2147483647); [|lia]. cbn [andb obind].
  unfold cdiv. destruct (Z.eqb_spec (sp_neqlt p) 0); [lia|]. cbn [obind]. now apply in_int_ok.
Qed.

Lemma phonon_ok m : In m phonon_accesses -> bounds m -> inside m.
Proof.
  destruct pos as ((P1 & P2 & P3 & P4 & P5) & (P6 & P7 & P8 & P9) & (P10 & P11 & P12 & P13)). destruct fits as [F1 F2].
  destruct fits_hist as [F3 F4]. pose proof n_le as NM. cbn [In phonon_accesses]. intros Hm HM.
  repeat (destruct Hm as [<-|Hm]; [unfold inside; cbn [ma_base ma_inner ma_size]; values|]); [..|destruct Hm].
  - destruct (idx_lt (k 0) c (k 1) o) as (E1 & E2); auto. rewrite <- Hn in E2. destruct (idx_lt (k 0 + c * k 1) n (k 2) l) as (E3 & E4); auto.
    rewrite (Z.mul_comm c (k 1)), (Z.mul_comm n (k 2)), (Z.mul_comm n l) in *.
    exists 0, (k 0 + k 1 * c + k 2 * n), (l * n). repeat apply conj; [leaf|evs; lia|leaf|..]; lia.
  - rewrite (value_of _ _ ev_hist) in H0. destruct (idx_lt (k 0) o (k 1) hist) as (E1 & E2); auto. rewrite (Z.mul_comm o (k 1)) in *.
    exists 0, (k 0 + k 1 * o), (o * hist). repeat apply conj; [leaf|evs; lia|eapply ev_mul; [leaf|exact ev_hist|exact F4]|..]; lia.
Qed.
Lemma phonon_requests_ok r : In r phonon_requests -> exists v, ev (rq_count r) v /\ 0 <= v <= MAX_INT.
Proof.
  destruct pos as ((P1 & P2 & P3 & P4 & P5) & (P6 & P7 & P8 & P9) & (P10 & P11 & P12 & P13)). destruct fits as [F1 F2].
  destruct fits_hist as [F3 F4]. pose proof n_le as NM. pose proof l_le as LM. assert (C1 : 0 <= l * n) by (apply mul_nn; lia).
  cbn [In phonon_requests]. intros Hm.
  repeat (destruct Hm as [<-|Hm]; [cbn [rq_count]|]); [..|destruct Hm].
  - exists (l * n). split; [leaf|lia].
  - exists o. split; [leaf|lia].
  - exists (o * hist). split; [eapply ev_mul; [leaf|exact ev_hist|exact F4]|lia].
  - exists l. split; [leaf|lia].
Qed.
End Phonon.
End Fit.

Lemma accesses_ok p k : validate p = Some 0 -> sizes_fit p -> forall m, In m (accesses p) ->
  Forall (fun je => 0 <= k (fst je) < value (env_of p k) (snd je)) (ma_bounds m) ->
  exists u v w, ieval (env_of p k) (ma_base m) = Some u /\ ieval (env_of p k) (ma_inner m) = Some v /\
    ieval (env_of p k) (ma_size m) = Some w /\ 0 <= u /\ 0 <= v /\ u + v < w.
Proof.
  intros HV HF m Hm HB. unfold accesses in Hm. rewrite !in_app_iff in Hm. destruct Hm as [Hm|[Hm|[Hm|Hm]]].
  - eapply base_ok; eauto.
  - destruct (Z.ltb_spec 0 (sp_nuneqlt p)); [|destruct Hm]. eapply unequal_ok; eauto.
  - destruct (sp_use_phonons p) eqn:E; [|destruct Hm]. eapply phonon_ok; eauto.
  - destruct (Z.ltb_spec 0 (sp_nuneqlt p)); [|destruct Hm]. destruct (Z.leb_spec 2 (Z.quot (sp_L p) (sp_prodBlen p))); [|destruct Hm].
    destruct (validate_positive p HV) as (_ & _ & _ & H4 & H5 & _). rewrite Z.quot_div_nonneg in * by lia. eapply cyclic_ok; eauto.
Qed.

Lemma requests_elem p r : In r (requests p) -> rq_elem r = 1 \/ rq_elem r = 4 \/ rq_elem r = 8.
Proof.
  unfold requests. rewrite !in_app_iff. destruct (0 <? sp_nuneqlt p), (sp_use_phonons p); cbn; intuition (subst; cbn; auto).
Qed.
Lemma size_t_exact n e : 0 <= n <= MAX_INT -> e = 1 \/ e = 4 \/ e = 8 -> size_t (size_t n * e) = n * e.
Proof. unfold size_t, MAX_INT. intros. rewrite (Z.mod_small n) by lia. apply Z.mod_small. lia. Qed.

Lemma requests_ok p k : validate p = Some 0 -> sizes_fit p -> forall r, In r (requests p) ->
  exists v, ieval (env_of p k) (rq_count r) = Some v /\ 0 <= v /\ bytes (env_of p k) r = Some (v * rq_elem r).
Proof.
  intros HV HF r Hr. assert (H : exists v, ieval (env_of p k) (rq_count r) = Some v /\ 0 <= v <= MAX_INT).
  { generalize Hr. unfold requests. rewrite !in_app_iff. intros [Hm|[Hm|Hm]].
    - eapply base_requests_ok; eauto.
    - destruct (Z.ltb_spec 0 (sp_nuneqlt p)); [|destruct Hm]. eapply unequal_requests_ok; eauto.
    - destruct (sp_use_phonons p) eqn:E; [|destruct Hm]. eapply phonon_requests_ok; eauto. }
  destruct H as (v & E & Hv). exists v. split; [exact E|]. split; [lia|]. unfold bytes. rewrite E. cbn [obind]. f_equal.
  apply size_t_exact; [lia|]. eapply requests_elem; eauto.
Qed.

(** the converse *)
Lemma ieval_mul env a b v : ieval env (Mul a b) = Some v -> exists x y, ieval env a = Some x /\ ieval env b = Some y /\ v = x * y /\ -2147483648 <= v <= MAX_INT.
Proof.
  cbn. destruct (ieval env a) as [x|]; cbn; [|discriminate]. destruct (ieval env b) as [y|]; cbn; [|discriminate].
  intros H. apply in_int_inv in H as [-> H]. eauto 6.
Qed.
Lemma ieval_quot env a b v : ieval env (Quot a b) = Some v -> exists x y, ieval env a = Some x /\ ieval env b = Some y /\ y <> 0.
Proof.
  cbn. destruct (ieval env a) as [x|]; cbn; [|discriminate]. destruct (ieval env b) as [y|]; cbn; [|discriminate].
  unfold cdiv. destruct (Z.eqb_spec y 0); [discriminate|]. eauto.
Qed.
Lemma requests_need p k : validate p = Some 0 ->
  (forall r, In r (requests p) -> exists v, ieval (env_of p k) (rq_count r) = Some v /\ 0 <= v) -> sizes_fit p.
Proof.
  intros HV H. destruct (validate_positive p HV) as (H1 & H2 & H3 & H4 & H5 & H6 & H7).
  assert (G : forall a b s, In (mk_request (Mul a b) s) (requests p) -> 0 <= value (env_of p k) (Mul a b) <= MAX_INT).
  { intros a b s Hr. destruct (H _ Hr) as (v & E & Hv). cbn [rq_count] in E. rewrite <- (ieval_value _ _ _ E).
    apply ieval_mul in E as (? & ? & _ & _ & _ & B). lia. }
  assert (NV : value (env_of p k) N = num_sites p) by (unfold num_sites; cbn; ring).
  assert (NV' : value (env_of p k) N' = num_sites p) by (unfold num_sites; cbn; ring).
  assert (BV : value (env_of p k) numBprod = num_blocks p) by (unfold num_blocks; cbn; apply Z.quot_div_nonneg; lia).
  assert (IB : forall r, In r base_requests -> In r (requests p)) by (intros; unfold requests; rewrite in_app_iff; auto).
  split.
  - destruct (G N' N' 8) as [_ G1]; [apply IB; cbn; tauto|]. cbn [value] in G1. rewrite NV' in G1. exact G1.
  - destruct (G L N' 1) as [_ G1]; [apply IB; cbn; tauto|]. cbn [value] in G1. rewrite NV' in G1. exact G1.
  - intros HU. assert (IU : forall r, In r unequal_requests -> In r (requests p)).
    { intros r Hr. unfold requests. rewrite !in_app_iff. destruct (Z.ltb_spec 0 (sp_nuneqlt p)); [auto|lia]. }
    repeat split.
    + destruct (G (N * N * numBprod)%int numBprod 8) as [_ G1]; [apply IU; cbn; tauto|]. cbn [value] in G1. rewrite NV, BV in G1. lia.
    + destruct (G (Lit 4 * N)%int N 8) as [_ G1]; [apply IU; cbn; tauto|]. cbn [value] in G1. rewrite NV in G1. lia.
    + destruct (G (N * N)%int L 8) as [_ G1]; [apply IU; cbn; tauto|]. cbn [value] in G1. rewrite NV in G1. exact G1.
  - intros HP. assert (IU : forall r, In r phonon_requests -> In r (requests p)).
    { intros r Hr. unfold requests. rewrite !in_app_iff, HP. auto. }
    set (r := mk_request (Norb * (nsampl * L / neqlt))%int 8). destruct (H r) as (v & E & Hv); [apply IU; cbn; tauto|].
    assert (G1 := G Norb (nsampl * L / neqlt)%int 8 ltac:(apply IU; cbn; tauto)). cbn in G1.
    apply ieval_mul in E as (u & w & _ & E & _ & _).
    apply ieval_quot in E as (m & q & Em & Eq & Hq). cbn in Eq. inversion Eq. subst q.
    apply ieval_mul in Em as (? & ? & Ex & Ey & -> & B). cbn in Ex, Ey. inversion Ex. inversion Ey. subst. repeat split; auto; lia.
Qed.
