(** Memory and file handles of the program, from the first to the last
    statement of [main].

    This model keeps of every function only what concerns the heap: which
    blocks are requested ([algn_malloc], [algn_calloc], include/util.h:15-45),
    which are released ([algn_free]) and which are read or written in between.
    Contents are not modelled.  Branches that depend on contents (acceptance of
    an update, a signal, a failing read, ...) are decided by an oracle, so a
    statement for all oracles covers all executions.  Profiling is switched off
    (include/profiler.h:17-22) and assertions and debug output are compiled out.
    Requests succeed, except for the two matrices whose result the code checks.
    Sizes are integers without overflow (C50).  An open file counts as a block of
    0 bytes. *)
From Coq Require Import ZArith List String Bool.
From Verif Require Import Base SimParams.
Import ListNotations.
Local Open Scope string_scope.
Local Open Scope Z_scope.

Notation ptr := nat (only parsing).

(** Blocks in use with their sizes, the next unused address, the largest total
    size so far and the number of decisions taken by the oracle. *)
Record heap := mk_heap { h_live : list (ptr * Z); h_next : ptr; h_peak : Z; h_step : nat }.

Definition total (l : list (ptr * Z)) : Z := fold_right (fun b s => snd b + s) 0 l.

(** What the oracle decides. *)
Inductive choice :=
  | NoInput | NoNorb | BadList | Invalid | NoLog | NoMemory | Checkpoint | NoFile | BadSize
  | Stop | Accept | Uncoupled | LapackFails | LateSignal.

(** A computation; [None] is undefined behaviour: releasing or accessing a block that is
    not in use, or dividing by zero. *)
Definition M (A : Type) := heap -> option (A * heap).

Definition ret {A} (a : A) : M A := fun h => Some (a, h).
Definition bind {A B} (m : M A) (k : A -> M B) : M B :=
  fun h => match m h with Some (a, h') => k a h' | None => None end.
Notation "x <- m ;; k" := (bind m (fun x => k)) (at level 61, m at next level, right associativity).
Notation "m ;; k" := (bind m (fun _ => k)) (at level 61, right associativity).

(** util.h:31, 35-44 *)
Definition alloc (size : Z) : M ptr := fun h =>
  let l := (h_next h, size) :: h_live h in
  Some (h_next h, mk_heap l (S (h_next h)) (Z.max (h_peak h) (total l)) (h_step h)).

Definition live (p : ptr) (l : list (ptr * Z)) : bool := existsb (fun b => Nat.eqb (fst b) p) l.

(** util.h:33 *)
Definition free (p : ptr) : M unit := fun h =>
  if live p (h_live h)
  then Some (tt, mk_heap (filter (fun b => negb (Nat.eqb (fst b) p)) (h_live h)) (h_next h) (h_peak h) (h_step h))
  else None.

(** A statement that reads or writes the given blocks. *)
Definition touch (ps : list ptr) : M unit := fun h =>
  if forallb (fun p => live p (h_live h)) ps then Some (tt, h) else None.

(** Two OpenMP sections.  The amount in use at any time of any interleaving is
    at most the sum of what each of them needs on its own. *)
Definition par (a b : M unit) : M unit := fun h =>
  match a (mk_heap (h_live h) (h_next h) (total (h_live h)) (h_step h)) with
  | None => None
  | Some (_, ha) =>
    match b (mk_heap (h_live ha) (h_next ha) (total (h_live ha)) (h_step ha)) with
    | None => None
    | Some (_, hb) =>
      Some (tt, mk_heap (h_live hb) (h_next hb)
                  (Z.max (h_peak h) (h_peak ha + (h_peak hb - total (h_live ha)))) (h_step hb))
    end
  end.

(** [for (i = 0; i < n; i++)] *)
Fixpoint loop_from {A} (n i : nat) (body : nat -> A -> M A) (a : A) : M A :=
  match n with
  | O => ret a
  | S n' => a' <- body i a ;; loop_from n' (S i) body a'
  end.
Definition loop {A} (n : Z) (body : nat -> A -> M A) (a : A) : M A := loop_from (Z.to_nat n) 0 body a.
Definition repeat_m (n : Z) (body : nat -> M unit) : M unit := loop n (fun i _ => body i) tt.
Definition when (b : bool) (m : M unit) : M unit := if b then m else ret tt.

(** Pointer members of a structure, by name. *)
Definition fields := list (string * ptr).
Fixpoint field (s : fields) (f : string) : option ptr :=
  match s with
  | [] => None
  | (g, p) :: s' => if String.eqb f g then Some p else field s' f
  end.
Definition ptrs (s : fields) : list ptr := map snd s.

Fixpoint alloc_fields (fs : list (string * Z)) : M fields :=
  match fs with
  | [] => ret []
  | (f, size) :: fs' => p <- alloc size ;; s <- alloc_fields fs' ;; ret ((f, p) :: s)
  end.

(** Undefined if the member has not been set. *)
Definition free_field (s : fields) (f : string) : M unit :=
  match field s f with Some p => free p | None => fun _ => None end.
Fixpoint free_fields (s : fields) (fs : list string) : M unit :=
  match fs with
  | [] => ret tt
  | f :: fs' => free_field s f ;; free_fields s fs'
  end.

(** Element of an array of pointers; undefined outside of the array. *)
Definition nth_ptr (l : list ptr) (i : nat) : M ptr :=
  match nth_error l i with Some p => ret p | None => fun _ => None end.

(** sizeof *)
Definition dbl (n : Z) : Z := 8 * n.
Definition int_ (n : Z) : Z := 4 * n.
Definition pointer (n : Z) : Z := 8 * n.

Section Program.

Variable orc : choice -> nat -> bool.

Definition decide (c : choice) : M bool := fun h =>
  Some (orc c (h_step h), mk_heap (h_live h) (h_next h) (h_peak h) (S (h_step h))).

(** ** util.c *)

(** util.c:13-43 [ReadData]; the handle stays open if the size is wrong or the read fails *)
Definition read_data (dst : list ptr) : M bool :=
  missing <- decide NoFile ;;
  if missing then ret false else
  fd <- alloc 0 ;;
  bad <- decide BadSize ;;
  if bad then ret false else
  touch (fd :: dst) ;; free fd ;; ret true.

(** util.c:50-71 [WriteData]; the handle stays open if the write fails *)
Definition write_data (src : list ptr) : M bool :=
  failed <- decide NoFile ;;
  if failed then ret false else
  fd <- alloc 0 ;;
  bad <- decide BadSize ;;
  if bad then ret false else
  touch (fd :: src) ;; free fd ;; ret true.

(** A list of [ReadData] (or [WriteData]) calls for members of a structure; the results are ignored. *)
Fixpoint read_fields (s : fields) (fs : list string) : M unit :=
  match fs with
  | [] => ret tt
  | f :: fs' => match field s f with Some q => read_data [q] ;; read_fields s fs' | None => fun _ => None end
  end.
Fixpoint write_fields (s : fields) (fs : list string) : M unit :=
  match fs with
  | [] => ret tt
  | f :: fs' => match field s f with Some q => write_data [q] ;; write_fields s fs' | None => fun _ => None end
  end.

(** A list of calls that stops at the first failure (checkpoint.c:41-89). *)
Fixpoint read_until (ds : list (list ptr)) : M bool :=
  match ds with [] => ret true | d :: ds' => ok <- read_data d ;; if ok then read_until ds' else ret false end.
Fixpoint write_until (ds : list (list ptr)) : M bool :=
  match ds with [] => ret true | d :: ds' => ok <- write_data d ;; if ok then write_until ds' else ret false end.

(** ** param_parser.c *)

(** param_parser.c:364-371, 15-22 [AllocateSimulationParameters], [AllocateBondHoppings] *)
Definition params_layout (Norb : Z) : list (string * Z) := [
  ("aa", dbl (Norb * Norb)); ("ab", dbl (Norb * Norb)); ("ac", dbl (Norb * Norb)); ("ad", dbl (Norb * Norb));
  ("bc", dbl (Norb * Norb)); ("U", dbl Norb); ("eps", dbl Norb); ("omega", dbl Norb); ("g", dbl Norb) ].

(** param_parser.c:378-386, 29-36 [DeleteSimulationParameters], [DeleteBondHoppings] *)
Definition delete_params (s : fields) : M unit :=
  free_fields s ["g"; "omega"; "eps"; "U"; "bc"; "ad"; "ac"; "ab"; "aa"].

(** Entry of the hash table of the parser: hash_table.h:11-17 and
    param_parser.c:43-48.  The entries are kept in one list in order of
    insertion instead of one list per bucket (C01, C02). *)
Record entry := mk_entry { te_entry : ptr; te_key : ptr; te_list : ptr; te_strs : list ptr }.
Definition table := list (string * entry).

Fixpoint lookup (k : string) (t : table) : option entry :=
  match t with [] => None | (k', e) :: t' => if String.eqb k k' then Some e else lookup k t' end.
Fixpoint replace (k : string) (e : entry) (t : table) : table :=
  match t with [] => [] | (k', e') :: t' => if String.eqb k k' then (k', e) :: t' else (k', e') :: replace k e t' end.

Definition strlen (s : string) : Z := Z.of_nat (String.length s).

(** param_parser.c:55-65 [AppendValues] *)
Fixpoint append_values (lp : ptr) (vs : list string) (strs : list ptr) : M (list ptr) :=
  match vs with
  | [] => ret strs
  | v :: vs' => q <- alloc (strlen v + 1) ;; touch [lp; q] ;; append_values lp vs' (strs ++ [q])%list
  end.

(** param_parser.c:199-212, hash_table.c:85-92 for one line with its name and values *)
Definition load_line (t : table) (line : string * list string) : M table :=
  let '(name, vs) := line in
  match vs with
  | [] => ret t
  | _ =>
    match lookup name t with
    | None =>
      v <- alloc 8200 ;;
      strs <- append_values v vs [] ;;
      e <- alloc 24 ;;
      k <- alloc (strlen name + 1) ;;
      touch [e; k] ;;
      ret (t ++ [(name, mk_entry e k v strs)])%list
    | Some e =>
      strs <- append_values (te_list e) vs (te_strs e) ;;
      ret (replace name (mk_entry (te_entry e) (te_key e) (te_list e) strs) t)
    end
  end.
Fixpoint load_lines (t : table) (ls : list (string * list string)) : M table :=
  match ls with [] => ret t | l :: ls' => t' <- load_line t l ;; load_lines t' ls' end.

(** hash_table.c:25-41 [DeleteHashTable] with param_parser.c:71-92 [FreeValueListMemory] *)
Fixpoint free_all (ps : list ptr) : M unit :=
  match ps with [] => ret tt | p :: ps' => free p ;; free_all ps' end.
Definition delete_entry (e : entry) : M unit :=
  touch [te_entry e] ;; free (te_key e) ;; touch [te_list e] ;; free_all (te_strs e) ;; free (te_list e) ;; touch [te_entry e] ;; free (te_entry e).
Fixpoint delete_entries (t : table) : M unit :=
  match t with [] => ret tt | (_, e) :: t' => delete_entry e ;; delete_entries t' end.

(** param_parser.c:152-355 [ParseParameterFile] for the lines of the file; the members of the
    parameters structure, or the status *)
Definition parse_file (Norb : Z) (lines : list (string * list string)) : M (Z + fields) :=
  missing <- decide NoFile ;;
  if missing then ret (inl (-1)) else
  fd <- alloc 0 ;;
  buckets <- alloc (pointer 64) ;;
  t <- load_lines [] lines ;;
  touch [fd; buckets] ;;
  free fd ;;
  bad <- decide NoNorb ;;
  if bad then ret (inl (-2)) else
  s <- alloc_fields (params_layout Norb) ;;
  bad <- decide BadList ;;
  if bad then ret (inl (-3)) else
  touch (buckets :: ptrs s) ;;
  delete_entries t ;;
  free buckets ;;
  ret (inr s).

(** ** measurement.c *)

(** measurement.c:79-130 [AllocateMeasurementData] *)
Definition eqlt_layout (Norb Ncell : Z) : list (string * Z) :=
  let N := Ncell * Norb in [
  ("density_u", dbl Norb); ("density_d", dbl Norb); ("doubleocc", dbl Norb);
  ("grfun_u", dbl (N * N)); ("grfun_d", dbl (N * N));
  ("uu_corr", dbl (Ncell * Norb * Norb)); ("dd_corr", dbl (Ncell * Norb * Norb));
  ("ud_corr", dbl (Ncell * Norb * Norb)); ("ff_corr", dbl (Ncell * Norb * Norb));
  ("zz_corr", dbl (Ncell * Norb * Norb)); ("xx_corr", dbl (Ncell * Norb * Norb));
  ("sc_c_sw", dbl N); ("sc_c_dw", dbl N); ("sc_c_sx", dbl N);
  ("latt_sum_map", int_ (Ncell * Ncell));
  ("latt_xp1_map", int_ Ncell); ("latt_xm1_map", int_ Ncell);
  ("latt_yp1_map", int_ Ncell); ("latt_ym1_map", int_ Ncell) ].

(** measurement.c:137-163 [DeleteMeasurementData] *)
Definition delete_eqlt (s : fields) : M unit := free_fields s [
  "latt_ym1_map"; "latt_yp1_map"; "latt_xm1_map"; "latt_xp1_map"; "latt_sum_map";
  "sc_c_sw"; "sc_c_dw"; "sc_c_sx"; "xx_corr"; "zz_corr"; "ff_corr"; "ud_corr"; "dd_corr"; "uu_corr";
  "grfun_d"; "grfun_u"; "doubleocc"; "density_d"; "density_u" ].

(** measurement.c:462-495: the members after the two temporary matrices *)
Definition uneqlt_layout (Norb Ncell L : Z) : list (string * Z) :=
  let N := Ncell * Norb in let C := dbl (Ncell * Norb * Norb * L) in let V := dbl (N * L) in [
  ("Gtau0_u", C); ("G0tau_u", C); ("Geqlt_u", C); ("Gtau0_d", C); ("G0tau_d", C); ("Geqlt_d", C);
  ("nn_corr", C); ("zz_corr", C); ("xx_corr", C);
  ("sc_c_sw", V); ("sc_c_dw", V); ("sc_c_sx", V); ("Jcorr_x", V); ("Jcorr_y", V); ("ram_b1g", V); ("ram_b2g", V);
  ("latt_sum_map", int_ (Ncell * Ncell));
  ("latt_xp1_map", int_ Ncell); ("latt_xm1_map", int_ Ncell);
  ("latt_yp1_map", int_ Ncell); ("latt_ym1_map", int_ Ncell) ].

(** measurement.c:444-504 [AllocateUnequalTimeMeasurementData] *)
Definition alloc_uneqlt (Norb Ncell L numBprod : Z) : M (option fields) :=
  let N := Ncell * Norb in
  fails <- decide NoMemory ;;
  if fails then ret None else
  hu <- alloc (dbl (N * N * numBprod * numBprod)) ;;
  fails <- decide NoMemory ;;
  if fails then ret None else
  hd <- alloc (dbl (N * N * numBprod * numBprod)) ;;
  s <- alloc_fields (uneqlt_layout Norb Ncell L) ;;
  ret (Some (("Hu", hu) :: ("Hd", hd) :: s)).

(** measurement.c:511-543 [DeleteUnequalTimeMeasurementData] *)
Definition delete_uneqlt (s : fields) : M unit := free_fields s [
  "latt_ym1_map"; "latt_yp1_map"; "latt_xm1_map"; "latt_xp1_map"; "latt_sum_map"; "Hd"; "Hu";
  "ram_b2g"; "ram_b1g"; "Jcorr_y"; "Jcorr_x"; "sc_c_sw"; "sc_c_dw"; "sc_c_sx"; "xx_corr"; "zz_corr"; "nn_corr";
  "Geqlt_d"; "G0tau_d"; "Gtau0_d"; "Geqlt_u"; "G0tau_u"; "Gtau0_u" ].

(** measurement.c:938-966 [AllocatePhononData] *)
Definition phonon_layout (Norb max_nsampl : Z) : list (string * Z) := [
  ("X_avg", dbl Norb); ("X_avg_sq", dbl Norb); ("X_sq_avg", dbl Norb); ("V_avg", dbl Norb); ("V_sq_avg", dbl Norb);
  ("PE", dbl Norb); ("KE", dbl Norb); ("nX", dbl Norb);
  ("iteration_X_avg", dbl (Norb * max_nsampl)); ("iteration_X0", dbl (Norb * max_nsampl)) ].

(** measurement.c:973-985 [DeletePhononData] *)
Definition delete_phonon (s : fields) : M unit := free_fields s [
  "iteration_X0"; "iteration_X_avg"; "nX"; "KE"; "PE"; "V_sq_avg"; "V_avg"; "X_sq_avg"; "X_avg_sq"; "X_avg" ].

(** measurement.c:992-1061 [AccumulatePhononData]; the array [cur_X_avg] is not released *)
Definition accumulate_phonon (Norb : Z) (Gu Gd X omega : ptr) (ph : fields) : M unit :=
  cur <- alloc (dbl Norb) ;;
  touch (cur :: Gu :: Gd :: X :: omega :: ptrs ph).

(** ** time_flow.c, linalg.c, greens_func.c *)

(** time_flow.h [time_step_matrices_t]: the arrays of pointers and the matrices *)
Record tsm := mk_tsm { ts_arr : fields; ts_B : list ptr; ts_invB : list ptr; ts_Bprod : list ptr }.

Definition tsm_ptrs (t : tsm) : list ptr := (ptrs (ts_arr t) ++ ts_B t ++ ts_invB t ++ ts_Bprod t)%list.

(** time_flow.c:117-143 [AllocateTimeStepMatrices] *)
Definition alloc_tsm (N L prodBlen : Z) : M tsm :=
  arr <- alloc_fields [("B", pointer L); ("invB", pointer L); ("Bprod", pointer (L / prodBlen))] ;;
  bs <- loop L (fun _ (bs : list ptr * list ptr) =>
          b <- alloc (dbl (N * N)) ;; ib <- alloc (dbl (N * N)) ;; touch (ptrs arr) ;;
          ret (fst bs ++ [b], snd bs ++ [ib])%list) ([], []) ;;
  ps <- loop (L / prodBlen) (fun _ ps => b <- alloc (dbl (N * N)) ;; touch (ptrs arr) ;; ret (ps ++ [b])%list) [] ;;
  ret (mk_tsm arr (fst bs) (snd bs) ps).

(** time_flow.c:150-168 [DeleteTimeStepMatrices] *)
Definition delete_tsm (L prodBlen : Z) (t : tsm) : M unit :=
  repeat_m (L / prodBlen) (fun l => touch (ptrs (ts_arr t)) ;; p <- nth_ptr (ts_Bprod t) l ;; free p) ;;
  repeat_m L (fun l => touch (ptrs (ts_arr t)) ;; p <- nth_ptr (ts_invB t) l ;; free p ;;
                       q <- nth_ptr (ts_B t) l ;; free q) ;;
  free_fields (ts_arr t) ["Bprod"; "invB"; "B"].

(** time_flow.c:175-213 [CopyTimeStepMatrices] *)
Definition copy_tsm (src dst : tsm) : M unit := touch (tsm_ptrs src ++ tsm_ptrs dst)%list.

(** linalg.c:97-143 [MatrixProductSequence] *)
Definition product_sequence (N : Z) (A : list ptr) (dst : ptr) : M unit :=
  w <- alloc (dbl (N * N)) ;; touch (w :: dst :: A) ;; free w.

(** time_flow.c:220-263 [InitTimeStepMatrices], [InitPhononTimeStepMatrices]; [src] are the arrays read *)
Definition init_tsm (N L prodBlen : Z) (src : list ptr) (t : tsm) : M unit :=
  touch (src ++ ptrs (ts_arr t) ++ ts_B t ++ ts_invB t)%list ;;
  repeat_m (L / prodBlen) (fun l => p <- nth_ptr (ts_Bprod t) l ;; product_sequence N (ts_B t) p).

(** time_flow.c:270-306 [UpdateTimeStepMatrices], [UpdatePhononTimeStepMatrices] *)
Definition update_tsm (N prodBlen : Z) (src : list ptr) (l : nat) (t : tsm) : M unit :=
  b <- nth_ptr (ts_B t) l ;; ib <- nth_ptr (ts_invB t) l ;;
  touch (src ++ [b; ib] ++ ptrs (ts_arr t))%list ;;
  when (Z.of_nat l mod prodBlen =? prodBlen - 1)
    (p <- nth_ptr (ts_Bprod t) (Z.to_nat ((Z.of_nat l - (prodBlen - 1)) / prodBlen)) ;;
     product_sequence N (ts_B t) p).

(** time_flow.c:329-495 [TimeFlowMap] *)
Definition time_flow (N : Z) (t : tsm) (out : list ptr) : M unit :=
  w <- alloc (dbl (N * N)) ;;
  norms <- alloc (dbl N) ;;
  jpvt <- alloc (int_ N) ;;
  v <- alloc (dbl N) ;;
  touch (w :: norms :: jpvt :: v :: out ++ ptrs (ts_arr t) ++ ts_Bprod t)%list ;;
  free v ;; free norms ;; free jpvt ;; free w.

(** greens_func.c:62-162 [GreenConstruct] *)
Definition green_construct (N : Z) (t : tsm) (G : ptr) : M unit :=
  q <- alloc (dbl (N * N)) ;;
  tau <- alloc (dbl N) ;;
  d <- alloc (dbl N) ;;
  tt_ <- alloc (dbl (N * N)) ;;
  time_flow N t [q; tau; d; tt_] ;;
  touch [G; q; tau; d; tt_] ;;
  ipiv <- alloc (int_ N) ;;
  touch [G; q; tau; d; tt_; ipiv] ;;
  free ipiv ;; free tt_ ;; free d ;; free tau ;; free q.

(** greens_func.c:169-195 [GreenShermanMorrisonUpdate] *)
Definition sherman_morrison (N : Z) (G : ptr) : M unit :=
  c <- alloc (dbl N) ;;
  touch [G; c] ;;
  d <- alloc (dbl N) ;;
  touch [G; c; d] ;;
  free d ;; free c.

(** greens_func.c:202-215 [GreenTimeSliceWrap] *)
Definition green_wrap (N : Z) (B invB G : ptr) : M unit :=
  w <- alloc (dbl (N * N)) ;;
  touch [w; B; invB; G] ;;
  free w.

(** linalg.c:47-90 [MatrixExp]; early return if the eigenvalue routine fails *)
Definition matrix_exp (N : Z) (A dst : ptr) : M unit :=
  w <- alloc (dbl N) ;;
  u <- alloc (dbl (N * N)) ;;
  touch [A; u; w] ;;
  fails <- decide LapackFails ;;
  if fails then ret tt else
  ud <- alloc (dbl (N * N)) ;;
  touch [u; w; ud; dst] ;;
  free ud ;; free u ;; free w.

(** linalg.c:361-376, 312-344 [BlockCyclicInverse], [BlockCyclicInverseRotation]; early return if a
    factorisation or a triangular inversion fails *)
Definition block_cyclic_inverse (N numBprod : Z) (H : ptr) : M unit :=
  tau <- alloc (dbl (N * numBprod)) ;;
  touch [H; tau] ;;
  fails <- decide LapackFails ;;
  if fails then ret tt else
  q <- alloc (dbl (4 * N * N)) ;;
  touch [H; tau; q] ;;
  free q ;;
  free tau.

(** greens_func.c:238-327 [ComputeUnequalTimeGreensFunction] *)
Definition unequal_green (N L prodBlen : Z) (t : tsm) (H g1 g2 g3 : ptr) : M unit :=
  touch (H :: tsm_ptrs t) ;;
  block_cyclic_inverse N (L / prodBlen) H ;;
  touch (H :: g1 :: tsm_ptrs t) ;;
  repeat_m L (fun i =>
    if Z.of_nat i mod prodBlen =? 0 then touch [H; g2]
    else if Nat.eqb i 1 then
      w <- alloc (dbl (N * N)) ;; touch (w :: H :: g2 :: tsm_ptrs t) ;; free w
    else touch (g2 :: tsm_ptrs t)) ;;
  repeat_m L (fun i =>
    if Z.of_nat i mod prodBlen =? 0 then touch [H; g3]
    else b <- nth_ptr (ts_B t) (i - 1) ;; ib <- nth_ptr (ts_invB t) (i - 1) ;; green_wrap N b ib g3).

(** measurement.c:549-805 [AccumulateUnequalTimeMeasurement] *)
Definition accumulate_uneqlt (N L prodBlen : Z) (tu td : tsm) (un : fields) : M unit :=
  match field un "Hu", field un "Hd" with
  | Some hu, Some hd =>
    s <- alloc_fields [("Gtau0_u", dbl (N * L * N)); ("G0tau_u", dbl (N * N * L)); ("Geqlt_u", dbl (N * N * L));
                       ("Gtau0_d", dbl (N * L * N)); ("G0tau_d", dbl (N * N * L)); ("Geqlt_d", dbl (N * N * L))] ;;
    match ptrs s with
    | [a; b; c; d; e; f] =>
      par (unequal_green N L prodBlen tu hu a b c) (unequal_green N L prodBlen td hd d e f) ;;
      touch (ptrs s ++ ptrs un)%list ;;
      free_fields s ["Geqlt_d"; "G0tau_d"; "Gtau0_d"; "Geqlt_u"; "G0tau_u"; "Gtau0_u"]
    | _ => fun _ => None
    end
  | _, _ => fun _ => None
  end.

(** ** monte_carlo.c *)

Variable p : sim_params.
Let Norb := sp_Norb p.
Let Ncell := sp_Nx p * sp_Ny p.
Let N := Norb * Ncell.
Let L := sp_L p.
Let prodBlen := sp_prodBlen p.

(** kinetic_t, stratonovich_params_t and the state of a run, as far as allocated *)
Record state := mk_state {
  st_kin : fields; st_strat : fields; st_tu : tsm; st_td : tsm; st_Gu : ptr; st_Gd : ptr;
  st_s : ptr; st_X : fields; st_par : fields; st_eq : fields; st_un : fields; st_ph : fields }.

(** the arrays from which the time step matrices are computed *)
Definition sources (st : state) : list ptr := (ptrs (st_kin st) ++ ptrs (st_strat st) ++ st_s st :: ptrs (st_X st))%list.

(** kinetic.c:11-105 [RectangularKineticExponential] *)
Definition kinetic_exponential (par_ : fields) : M fields :=
  t <- alloc (dbl (N * N)) ;;
  touch (t :: ptrs par_) ;;
  k <- alloc_fields [("expK", dbl (N * N)); ("inv_expK", dbl (N * N))] ;;
  match ptrs k with
  | [a; b] => matrix_exp N t a ;; matrix_exp N t b ;; free t ;; ret k
  | _ => fun _ => None
  end.

(** kinetic.c:112-116 [DeleteKineticExponential] *)
Definition delete_kinetic (k : fields) : M unit := free_fields k ["inv_expK"; "expK"].

(** stratonovich.c:10-45 [FillStratonovichParameters] *)
Definition strat_layout : list (string * Z) := [
  ("expVu0", dbl Norb); ("expVu1", dbl Norb); ("expVd0", dbl Norb); ("expVd1", dbl Norb);
  ("delta0", dbl Norb); ("delta1", dbl Norb) ].

(** stratonovich.c:52-60 [DeleteStratonovichParameters] *)
Definition delete_strat (s : fields) : M unit :=
  free_fields s ["delta1"; "delta0"; "expVd1"; "expVd0"; "expVu1"; "expVu0"].

(** monte_carlo.c:66-74: both wraps of slice [l] *)
Definition wraps (st : state) (l : nat) : M unit :=
  bu <- nth_ptr (ts_B (st_tu st)) l ;; ibu <- nth_ptr (ts_invB (st_tu st)) l ;;
  bd <- nth_ptr (ts_B (st_td st)) l ;; ibd <- nth_ptr (ts_invB (st_td st)) l ;;
  par (green_wrap N bu ibu (st_Gu st)) (green_wrap N bd ibd (st_Gd st)).

(** monte_carlo.c:80-110, 552-582: a proposed flip at every site *)
Definition site_updates (st : state) : M unit :=
  repeat_m N (fun _ =>
    touch [st_Gu st; st_Gd st; st_s st] ;;
    acc <- decide Accept ;;
    when acc (par (sherman_morrison N (st_Gu st)) (sherman_morrison N (st_Gd st)) ;; touch [st_s st])).

(** monte_carlo.c:115-121, 645-651 *)
Definition updates (st : state) (l : nat) : M unit :=
  par (update_tsm N prodBlen (sources st) l (st_tu st)) (update_tsm N prodBlen (sources st) l (st_td st)).

(** monte_carlo.c:124-160, 654-690 *)
Definition reconstruct (st : state) (l : nat) : M unit :=
  when ((Z.of_nat l + 1) mod sp_nwraps p =? 0)
    (par (green_construct N (st_tu st) (st_Gu st)) (green_construct N (st_td st) (st_Gd st))).

(** [neqlt > 0 && (l + 1) % neqlt == 0] *)
Definition measured (neqlt : Z) (l : nat) : bool := (0 <? neqlt) && ((Z.of_nat l + 1) mod neqlt =? 0).

(** monte_carlo.c:31-178 [DQMCIteration] *)
Definition dqmc_iteration (st : state) (neqlt : Z) : M unit :=
  order <- alloc (int_ N) ;;
  repeat_m L (fun l =>
    wraps st l ;;
    touch [order] ;;
    site_updates st ;;
    updates st l ;;
    reconstruct st l ;;
    when (measured neqlt l) (touch (st_Gu st :: st_Gd st :: ptrs (st_eq st)))) ;;
  free order.

(** monte_carlo.c:201-325, 349-468 [PhononBlockUpdates], [PhononFlipUpdates]: as far as the heap is
    concerned they are the same *)
Definition block_updates (st : state) : M unit :=
  if ph_n_block_updates (sp_phonon p) <=? 0 then ret tt else
  xi <- alloc (dbl L) ;;
  exi <- alloc (dbl L) ;;
  gu <- alloc (dbl (N * N)) ;;
  gd <- alloc (dbl (N * N)) ;;
  tu <- alloc_tsm N L prodBlen ;;
  td <- alloc_tsm N L prodBlen ;;
  repeat_m (ph_n_block_updates (sp_phonon p)) (fun _ =>
    skip <- decide Uncoupled ;;
    if skip then ret tt else
    touch (xi :: exi :: ptrs (st_X st)) ;;
    par (init_tsm N L prodBlen (sources st) tu) (init_tsm N L prodBlen (sources st) td) ;;
    par (green_construct N tu gu) (green_construct N td gd) ;;
    acc <- decide Accept ;;
    if acc then
      touch [gu; gd; st_Gu st; st_Gd st] ;; copy_tsm tu (st_tu st) ;; copy_tsm td (st_td st)
    else touch (xi :: exi :: ptrs (st_X st))) ;;
  delete_tsm L prodBlen td ;;
  delete_tsm L prodBlen tu ;;
  free gd ;;
  free gu ;;
  free exi ;;
  free xi.

(** monte_carlo.c:586-640: local updates of the phonon field on one slice *)
Definition local_updates (st : state) (order : ptr) : M unit :=
  repeat_m (ph_n_local_updates (sp_phonon p)) (fun _ =>
    touch [order] ;;
    skip <- decide Uncoupled ;;
    if skip then ret tt else
    touch (st_Gu st :: st_Gd st :: ptrs (st_X st)) ;;
    acc <- decide Accept ;;
    when acc (par (sherman_morrison N (st_Gu st)) (sherman_morrison N (st_Gd st)) ;; touch (ptrs (st_X st)))).

(** monte_carlo.c:495-724 [DQMCPhononIteration]; the Hubbard-Stratonovich field is skipped if all
    on-site interactions vanish (oracle) *)
Definition phonon_iteration (st : state) (neqlt : Z) : M unit :=
  match ptrs (st_X st), field (st_par st) "omega" with
  | [X; expX], Some omega =>
    order <- alloc (int_ N) ;;
    repeat_m L (fun l =>
      wraps st l ;;
      noHS <- decide Uncoupled ;;
      when (negb noHS) (touch [order] ;; site_updates st) ;;
      touch [order] ;;
      local_updates st order ;;
      updates st l ;;
      reconstruct st l ;;
      when (measured neqlt l)
        (touch (st_Gu st :: st_Gd st :: ptrs (st_eq st)) ;;
         accumulate_phonon Norb (st_Gu st) (st_Gd st) X omega (st_ph st))) ;;
    block_updates st ;;
    block_updates st ;;
    free order
  | _, _ => fun _ => None
  end.

(** monte_carlo.c:818-853: the sweeps from iteration [i] on, [n] of them left; returns the iteration
    counter and whether the run was stopped *)
Fixpoint sweeps (n : nat) (st : state) (i : Z) : M (Z * bool) :=
  match n with
  | O => ret (i, false)
  | S n' =>
    stop <- decide Stop ;;
    if stop then ret (i, true) else
    let neqlt := if sp_nequil p <=? i then sp_neqlt p else 0 in
    (if sp_use_phonons p then phonon_iteration st neqlt else dqmc_iteration st neqlt) ;;
    when ((sp_nequil p <=? i) && (0 <? sp_nuneqlt p) && (Z.rem i (sp_nuneqlt p) =? 0))
      (accumulate_uneqlt N L prodBlen (st_tu st) (st_td st) (st_un st)) ;;
    sweeps n' st (i + 1)
  end.

(** monte_carlo.c:741-862 [DQMCSimulation] *)
Definition simulation (par_ eq un ph : fields) (s : ptr) (xs : fields) (i : Z) : M (Z * bool) :=
  kin <- kinetic_exponential par_ ;;
  touch (ptrs par_) ;;
  strat <- alloc_fields strat_layout ;;
  tu <- alloc_tsm N L prodBlen ;;
  td <- alloc_tsm N L prodBlen ;;
  let src := (ptrs kin ++ ptrs strat ++ s :: ptrs xs)%list in
  par (init_tsm N L prodBlen src tu) (init_tsm N L prodBlen src td) ;;
  gu <- alloc (dbl (N * N)) ;;
  gd <- alloc (dbl (N * N)) ;;
  par (green_construct N tu gu) (green_construct N td gd) ;;
  r <- sweeps (Z.to_nat (sp_nequil p + sp_nsampl p - i))
         (mk_state kin strat tu td gu gd s xs par_ eq un ph) i ;;
  free gd ;;
  free gu ;;
  delete_tsm L prodBlen td ;;
  delete_tsm L prodBlen tu ;;
  delete_strat strat ;;
  delete_kinetic kin ;;
  ret r.

(** ** main.c *)

(** Result of [main]: exit status, iteration counter before and after the sweeps. *)
Record outcome := mk_outcome { o_status : Z; o_from : Z; o_to : Z }.

Definition exit_with (code : Z) : M outcome := ret (mk_outcome code 0 0).

(** arrays that are loaded and saved (measurement.c:383-430, 858-931, 1118-1145): the members that
    are not maps of the lattice; scalars are not on the heap *)
Definition eqlt_files : list string := [
  "density_u"; "density_d"; "doubleocc"; "grfun_u"; "grfun_d"; "uu_corr"; "dd_corr"; "ud_corr"; "ff_corr";
  "zz_corr"; "xx_corr"; "sc_c_sw"; "sc_c_dw"; "sc_c_sx" ].
Definition uneqlt_files : list string := [
  "Gtau0_u"; "G0tau_u"; "Geqlt_u"; "Gtau0_d"; "G0tau_d"; "Geqlt_d"; "nn_corr"; "zz_corr"; "xx_corr";
  "sc_c_sw"; "sc_c_dw"; "sc_c_sx"; "Jcorr_x"; "Jcorr_y"; "ram_b1g"; "ram_b2g" ].
Definition phonon_files : list string := [
  "X_avg"; "X_avg_sq"; "X_sq_avg"; "V_sq_avg"; "KE"; "PE"; "nX"; "iteration_X_avg"; "iteration_X0" ].

Definition unequal : bool := 0 <? sp_nuneqlt p.
Definition phonons : bool := sp_use_phonons p.

(** main.c:158-189: start from scratch or load a checkpoint with iteration counter [i0]; the
    counter or the exit status *)
Definition start (i0 : Z) (s : ptr) (eq un : fields) : M (Z + Z) :=
  found <- decide Checkpoint ;;
  if negb found then touch [s] ;; ret (inr 0) else
  ok <- read_until [[]; []; [s]] ;;
  if negb ok then ret (inl (-5)) else
  if i0 =? sp_nequil p + sp_nsampl p then ret (inl (-6)) else
  read_data [] ;; read_data [] ;; read_fields eq eqlt_files ;;
  when unequal (read_data [] ;; read_data [] ;; read_fields un uneqlt_files) ;;
  ret (inr i0).

(** main.c:43-310; [lines] are the lines of the parameter file, [p] the parameters read from them,
    [i0] the iteration counter in the checkpoint file *)
Definition main (lines : list (string * list string)) (i0 : Z) : M outcome :=
  none <- decide NoInput ;;
  if none then exit_with (-1) else
  r <- parse_file Norb lines ;;
  match r with
  | inl _ => exit_with (-1)
  | inr par_ =>
  touch (ptrs par_) ;;
  invalid <- decide Invalid ;;
  if invalid then exit_with (-2) else
  nolog <- decide NoLog ;;
  if nolog then exit_with (-3) else
  fd_log <- alloc 0 ;;
  eq <- alloc_fields (eqlt_layout Norb Ncell) ;;
  un <- (if unequal then alloc_uneqlt Norb Ncell L (L / prodBlen) else ret (Some [])) ;;
  match un with
  | None => touch [fd_log] ;; exit_with (-4)
  | Some un =>
  ph <- (if phonons then
           if sp_neqlt p =? 0 then fun _ => None    (* division by zero *)
           else alloc_fields (phonon_layout Norb (Z.quot (sp_nsampl p * L) (sp_neqlt p)))
         else ret []) ;;
  s <- alloc (L * N) ;;
  from <- start i0 s eq un ;;
  match from with
  | inl code => touch [fd_log] ;; exit_with code
  | inr i =>
  xs <- (if phonons then alloc_fields [("X", dbl (L * N)); ("expX", dbl (L * N))] else ret []) ;;
  touch (fd_log :: ptrs xs) ;;
  r <- simulation par_ eq un ph s xs i ;;
  let '(i', stopped) := r in
  touch (fd_log :: ptrs eq ++ ptrs un ++ ptrs ph)%list ;;
  ok <- write_until [[]; []; [s]] ;;
  if negb ok then touch [fd_log] ;; exit_with (-7) else
  write_data [] ;; write_data [] ;; write_fields eq eqlt_files ;;
  when unequal (write_data [] ;; write_data [] ;; write_fields un uneqlt_files) ;;
  when phonons (write_data [] ;; write_data [] ;; write_fields ph phonon_files ;;
                write_data [] ;; write_data [] ;; write_data [] ;; write_data [] ;; ret tt) ;;
  touch [fd_log] ;;
  free fd_log ;;
  late <- decide LateSignal ;;
  when late (touch [fd_log]) ;;
  when phonons (free_fields xs ["expX"; "X"] ;; delete_phonon ph) ;;
  free s ;;
  when unequal (delete_uneqlt un) ;;
  delete_eqlt eq ;;
  delete_params par_ ;;
  ret (mk_outcome (if stopped then 1 else 0) i i')
  end end end.

End Program.

(** Start of the process: nothing allocated. *)
Definition empty_heap : heap := mk_heap [] 0%nat 0 0%nat.
