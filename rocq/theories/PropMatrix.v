(** Properties C19-C25, C35, C36 and the matrix parts of C03, C09, C10, C12: the container part of
    matrices.  Only theorems, each group followed by concrete instances; assumptions at the end. *)
From Coq Require Import String ZArith.
From Verif Require Import MatProofs.
Set Implicit Arguments.
Local Open Scope nat_scope.
Local Open Scope list_scope.

(* ------------------------------------------------------------------------- *)
(** * C19: construction, conversion, row-major layout                          *)

Theorem C19_round_trip : forall T (a : list (list T)),
  m_into_vector_of_vectors (m_from_vector_of_vectors a) = a /\
  m_into_array_of_vectors (m_from_array_of_vectors a) = a /\
  bind (m_from_array_of_arrays a) (@m_into_array_of_arrays T) = Ok a /\
  (forall m, m_from_vector_of_vectors (m_into_vector_of_vectors m) = (m : list (list T)) /\
     m_from_array_of_vectors (m_into_array_of_vectors m) = m /\
     bind (m_into_array_of_arrays m) (@m_from_array_of_arrays T) = Ok m /\
     m_as_array_of_arrays m = m).
Proof. exact m_round_trip. Qed.

(** [init] makes M*N calls; their values fill the matrix row by row ([concat m] is the matrix read row
    by row).  It fails exactly when one of these calls fails. *)
Theorem C19_init : forall C T M N (f : C -> res (C * T)) c,
  (forall c' m, m_init M N f c = Ok (c', m) <-> rect M N m /\ drawn f (M * N) c c' (concat m)) /\
  (~ returns (m_init M N f c) ->
     exists k c1 l, k < M * N /\ drawn f k c c1 l /\ fails_like (m_init M N f c) (f c1)).
Proof. exact m_init_spec. Qed.

(** Reading row by row: element (i, j) is number i*N+j. *)
Theorem C19_row_major : forall T M N (m : list (list T)) i j, rect M N m -> j < N ->
  nth_error (concat m) (i * N + j) = elt m i j.
Proof. intros. eapply nth_error_concat; eauto. Qed.

Theorem C19_fill : forall T M N (x : T), exists m,
  m_fill M N x = Ok m /\ m_default M N x = Ok m /\ rect M N m /\
  forall i j, i < M -> j < N -> elt m i j = Some x.
Proof. exact m_fill_spec. Qed.

Theorem C19_try_from_iter : forall S A M N (next : next_fn S A) s,
  (forall s' m, m_try_from_iter M N next s = Ok (s', Some m) <->
      rect M N m /\ yields next s s' (concat m)) /\
  (forall s', m_try_from_iter M N next s = Ok (s', None) <->
      exists s1 l, length l < M * N /\ yields next s s1 l /\ next s1 = Ok (s', None)) /\
  (~ returns (m_try_from_iter M N next s) ->
      exists s1 l, length l < M * N /\ yields next s s1 l /\
        fails_like (m_try_from_iter M N next s) (next s1)).
Proof. exact m_try_from_iter_spec. Qed.

Theorem C19_try_from_slice : forall T M N (s : list T),
  (length s = M * N -> exists m, m_try_from_slice M N s = Ok (Some m) /\ rect M N m /\ concat m = s) /\
  (length s <> M * N -> m_try_from_slice M N s = Ok None).
Proof. exact m_slice_spec. Qed.

Theorem C19_try_from_slice_of_vectors : forall T M (s : list (list T)),
  (length s = M -> m_try_from_slice_of_vectors M s = Ok (Some s)) /\
  (length s <> M -> m_try_from_slice_of_vectors M s = Ok None).
Proof. exact m_slice_vec_spec. Qed.

Theorem C19_indices : forall M N, exists m, m_indices M N = Ok m /\ rect M N m /\
  forall i j, i < M -> j < N -> elt m i j = Some (i, j).
Proof. exact m_indices_spec. Qed.

Example C19_example :
  m_init 2 3 (fun c => Ok (S c, c)) 10 = Ok (16, [[10; 11; 12]; [13; 14; 15]]) /\
  m_try_from_iter 2 2 list_next [1; 2; 3; 4; 5] = Ok ([5], Some [[1; 2]; [3; 4]]) /\
  m_try_from_iter 2 2 list_next [1; 2; 3] = Ok ([], None) /\
  m_indices 2 2 = Ok [[(0, 0); (0, 1)]; [(1, 0); (1, 1)]] /\
  m_try_from_slice 2 2 [1; 2; 3] = Ok None.
Proof. repeat split. Qed.

(* ------------------------------------------------------------------------- *)
(** * C20: row-major iteration                                                 *)

Theorem C20_iter : forall T M N (m : list (list T)), rect M N m ->
  (M = 0 -> m_iter m = Panic) /\
  (0 < M -> exists it, m_iter m = Ok it /\ behaves_like m_iter_next it (concat m)).
Proof. exact m_iter_spec. Qed.

Theorem C20_any_all : forall M N m, rect M N m ->
  (M = 0 -> m_any M N m = Panic /\ m_all M N m = Panic) /\
  (0 < M -> exists a e, m_all M N m = Ok a /\ m_any M N m = Ok e /\
     (a = true <-> forall i j b, elt m i j = Some b -> b = true) /\
     (e = true <-> exists i j, elt m i j = Some true)).
Proof. exact m_any_all_spec. Qed.

Theorem C20_is_zero : forall T (o : Ops T) M N m, rect M N m ->
  (M = 0 -> m_is_zero o M N m = Panic) /\
  (0 < M -> exists b, m_is_zero o M N m = Ok b /\
     (b = true <-> forall i j x, elt m i j = Some x -> o_is_zero o x = true)).
Proof. exact m_is_zero_spec. Qed.

Example C20_example :
  bind (m_iter [[1; 2]; [3; 4]]) (fun it => Ok (map (fun k => kth_call m_iter_next k it) [0; 1; 2; 3; 4; 5]))
  = Ok [Ok (Some 1); Ok (Some 2); Ok (Some 3); Ok (Some 4); Ok None; Ok None] /\
  m_all 2 1 [[true]; [false]] = Ok false /\ m_any 2 1 [[true]; [false]] = Ok true /\
  m_any 0 5 [] = Panic.
Proof. repeat split. Qed.

(* ------------------------------------------------------------------------- *)
(** * C21: FlatIter                                                            *)

(** For any outer iterator and any inner iterators: the flattening behaves like the concatenation,
    provided no inner sequence other than the first is empty. *)
Theorem C21_flatten : forall SI IT II A (n : next_fn SI IT) (into : IT -> II) (ni : next_fn II A) s its ls,
  behaves_like n s its ->
  Forall2 (fun it r => behaves_like ni (into it) r) its ls ->
  (its = [] -> flat_new n into s = Ok None) /\
  (its <> [] -> Forall (fun r => r <> []) (tl ls) ->
     exists st, flat_new n into s = Ok (Some st) /\
       behaves_like (flat_next n into ni) st (concat ls)).
Proof. intros SI IT II A n into ni. exact (@flat_spec SI IT II A n into ni). Qed.

(** Without the proviso it is false: at the first empty inner sequence the iterator reports the end,
    whatever follows. *)
Theorem C21_stops_at_empty : forall A (l1 l2 : list (list A)),
  l1 <> [] -> Forall (fun r => r <> []) (tl l1) ->
  exists st, flat_new list_next (fun r : list A => r) (l1 ++ [] :: l2) = Ok (Some st) /\
    kth_call (flat_next list_next (fun r : list A => r) list_next) (length (concat l1)) st = Ok None /\
    forall k, k < length (concat l1) ->
      kth_call (flat_next list_next (fun r : list A => r) list_next) k st = Ok (nth_error (concat l1) k).
Proof. exact flat_stops. Qed.

Theorem C21_concatenation_refuted : exists ls : list (list nat),
  exists st, flat_new list_next (fun r : list nat => r) ls = Ok (Some st) /\
  ~ behaves_like (flat_next list_next (fun r : list nat => r) list_next) st (concat ls).
Proof.
  exists [[1]; []; [2]]. eexists. split; [reflexivity|]. intros H. specialize (H 1). discriminate H.
Qed.

Example C21_example :
  behaves_like list_next [[1; 2]; [3]] [[1; 2]; [3]] /\
  bind (flat_new list_next (fun r : list nat => r) [[]; [1; 2]; [3]]) (fun o =>
    Ok (option_map (fun st => map (fun k => kth_call m_iter_next k st) [0; 1; 2; 3]) o))
  = Ok (Some [Ok (Some 1); Ok (Some 2); Ok (Some 3); Ok None]).
Proof. split; [apply behaves_list|reflexivity]. Qed.

(* ------------------------------------------------------------------------- *)
(** * C22: map, zip, unzip, fold, scan, for_each                               *)

Theorem C22_map : forall C A B (f : C -> A -> res (C * B)) M N m c, rect M N m ->
  (forall c' w, m_map_st f c m = Ok (c', w) <-> rect M N w /\ called f c (concat m) c' (concat w)) /\
  (~ returns (m_map_st f c m) -> exists l1 a l2 c1 bs, concat m = l1 ++ a :: l2 /\
     called f c l1 c1 bs /\ fails_like (m_map_st f c m) (f c1 a)).
Proof. exact m_map_st_spec. Qed.

Theorem C22_scan : forall C A B (f : C -> A -> res (C * B)) M N m c, rect M N m ->
  (forall c' w, m_scan_st M N f c m = Ok (c', w) <->
     rect M N w /\ called f c (concat m) c' (concat w)) /\
  (~ returns (m_scan_st M N f c m) -> exists l1 a l2 c1 bs, concat m = l1 ++ a :: l2 /\
     called f c l1 c1 bs /\ fails_like (m_scan_st M N f c m) (f c1 a)).
Proof. exact m_scan_spec. Qed.

Theorem C22_fold_for_each : forall C T (f : C -> T -> res C) c m,
  m_for_each_st f c m = m_fold f c m /\
  (forall c', m_fold f c m = Ok c' <->
     called (fun c a => let! c1 := f c a in Ok (c1, tt)) c (concat m) c' (map (fun _ => tt) (concat m))) /\
  (~ returns (m_fold f c m) -> exists l1 a l2 c1 us, concat m = l1 ++ a :: l2 /\
     called (fun c a => let! c1 := f c a in Ok (c1, tt)) c l1 c1 us /\
     fails_like (m_fold f c m) (f c1 a)).
Proof. exact m_fold_spec. Qed.

Theorem C22_fold_first : forall T (f : T -> T -> res T) M N m, rect M N m ->
  (M = 0 \/ N = 0 -> m_fold_first f m = Panic) /\
  (forall x l, concat m = x :: l -> m_fold_first f m = fold_res f x l).
Proof. exact m_fold_first_spec. Qed.

Theorem C22_zip : forall T U M N (a : list (list T)) (b : list (list U)), rect M N a -> rect M N b ->
  exists z, m_zip M N a b = Ok z /\ rect M N z /\
    forall i j x y, elt z i j = Some (x, y) <-> elt a i j = Some x /\ elt b i j = Some y.
Proof. exact m_zip_spec. Qed.

Theorem C22_unzip_zip : forall T U M N (a : list (list T)) (b : list (list U)),
  rect M N a -> rect M N b -> bind (m_zip M N a b) (m_unzip M N) = Ok (a, b).
Proof. exact m_unzip_zip. Qed.

Theorem C22_zip_unzip : forall T U M N (l : list (list (T * U))), rect M N l ->
  exists a b, m_unzip M N l = Ok (a, b) /\ rect M N a /\ rect M N b /\ m_zip M N a b = Ok l.
Proof. exact m_zip_unzip. Qed.

Example C22_example :
  rect 2 2 [[1; 2]; [3; 4]] /\
  m_map_st (fun c a => Ok (c + a, c * 10 + a)) 0 [[1; 2]; [3; 4]] = Ok (10, [[1; 12]; [33; 64]]) /\
  m_fold_first (ok2 Nat.sub) [[9; 2]; [3; 1]] = Ok 3.
Proof. repeat split. repeat constructor. Qed.

(* ------------------------------------------------------------------------- *)
(** * C23: element, row and column access                                      *)

Theorem C23_index : forall T M N (m : list (list T)) i j, rect M N m ->
  (i < M /\ j < N -> exists x, elt m i j = Some x /\ m_index m (i, j) = Ok x /\
     m_get_unchecked m i j = Ok x) /\
  (~ (i < M /\ j < N) -> m_index m (i, j) = Panic).
Proof. exact m_index_spec. Qed.

Theorem C23_index_write : forall T M N (m : list (list T)) i j x, rect M N m ->
  (i < M /\ j < N -> exists w, m_index_set m (i, j) x = Ok w /\ rect M N w /\
     elt w i j = Some x /\ forall a b, (a, b) <> (i, j) -> elt w a b = elt m a b) /\
  (~ (i < M /\ j < N) -> m_index_set m (i, j) x = Panic).
Proof. exact m_index_set_spec. Qed.

Theorem C23_row : forall T M N (m : list (list T)) i, rect M N m ->
  (i < M -> exists r, m_row m i = Ok r /\ length r = N /\ forall j, nth_error r j = elt m i j) /\
  (M <= i -> m_row m i = Panic).
Proof. exact m_row_spec. Qed.

Theorem C23_col : forall T M N (m : list (list T)) j, rect M N m ->
  (j < N -> exists c, m_col M m j = Ok c /\ length c = M /\ forall i, nth_error c i = elt m i j) /\
  (N <= j -> 0 < M -> m_col M m j = Panic).
Proof. exact m_col_spec. Qed.

Example C23_example :
  m_index [[1; 2; 3]; [4; 5; 6]] (1, 0) = Ok 4 /\ m_index [[1; 2; 3]; [4; 5; 6]] (0, 3) = Panic /\
  m_col 2 [[1; 2; 3]; [4; 5; 6]] 2 = Ok [3; 6] /\
  m_index_set [[1; 2; 3]; [4; 5; 6]] (0, 2) 9 = Ok [[1; 2; 9]; [4; 5; 6]].
Proof. repeat split. Qed.

(* ------------------------------------------------------------------------- *)
(** * C24 (and the transpose part of C03)                                      *)

(** No undefined behaviour, no panic; afterwards every cell of the forgotten source is uninitialised
    (each element was moved out exactly once: nothing is leaked or duplicated). *)
Theorem C24_transpose : forall T M N (m : list (list T)), rect M N m ->
  exists s r, m_transpose_full M N m = Ok (s, r) /\ m_transpose M N m = Ok r /\
    (forall i j, i < M -> j < N -> elt s i j = Some None) /\ rect M N s /\
    rect N M r /\ forall i j, elt r j i = elt m i j.
Proof. exact m_transpose_drops. Qed.

Theorem C03_transpose : forall T M N (m : list (list T)), rect M N m ->
  exists s r, m_transpose_full M N m = Ok (s, r) /\
    (forall i j, i < M -> j < N -> elt s i j = Some None) /\ rect N M r.
Proof.
  intros T M N m R. destruct (m_transpose_drops R) as (s & r & E & _ & H & _ & Rr & _). eauto.
Qed.

Theorem C24_involutive : forall T M N (m : list (list T)), rect M N m ->
  bind (m_transpose M N m) (m_transpose N M) = Ok m.
Proof. exact m_transpose_invol. Qed.

(** Transposition commutes with every element-wise binary operator, in particular with [+]. *)
Theorem C24_elementwise : forall A B C (op : A -> B -> res C) M N a b w, rect M N a -> rect M N b ->
  m_zip_map M N op a b = Ok w ->
  exists a' b' w', m_transpose M N a = Ok a' /\ m_transpose M N b = Ok b' /\ m_transpose M N w = Ok w' /\
    m_zip_map N M op a' b' = Ok w'.
Proof. exact m_transpose_zip. Qed.

Theorem C24_add : forall T (o : Ops T) M N a b w, rect M N a -> rect M N b ->
  m_add o M N a b = Ok w ->
  exists a' b' w', m_transpose M N a = Ok a' /\ m_transpose M N b = Ok b' /\ m_transpose M N w = Ok w' /\
    m_add o N M a' b' = Ok w'.
Proof. intros T o. exact (@m_transpose_zip T T T (o_add o)). Qed.

Example C24_example :
  m_transpose_full 2 3 [[1; 2; 3]; [4; 5; 6]] =
    Ok ([[None; None; None]; [None; None; None]], [[1; 4]; [2; 5]; [3; 6]]).
Proof. reflexivity. Qed.

(* ------------------------------------------------------------------------- *)
(** * C09 for matrices                                                         *)

(** For M > 0 compound assignment agrees with the operator; when a scalar operation fails, the elements
    before it (row-major) have their new values and the others are untouched.  For M = 0 the assignment
    panics although the operator does not. *)
Theorem C09_matrix : forall T U (op opa : T -> U -> res T) M N a b,
  (forall x y, opa x y = op x y) -> rect M N a -> rect M N b ->
  (M = 0 -> m_assign M N opa a b = (a, Panic)) /\
  (0 < M ->
   (forall w, m_zip_map M N op a b = Ok w <-> m_assign M N opa a b = (w, Ok tt)) /\
   (~ returns (m_zip_map M N op a b) ->
     exists i j w, i < M /\ j < N /\ m_assign M N opa a b = (w, refail (m_zip_map M N op a b)) /\
       rect M N w /\
       (forall i' j', j' < N -> i' < i \/ (i' = i /\ j' < j) ->
          exists z, at2m op a b i' j' = Ok z /\ elt w i' j' = Some z) /\
       (forall i' j', i < i' \/ (i' = i /\ j <= j') -> elt w i' j' = elt a i' j') /\
       fails_like (m_zip_map M N op a b) (at2m op a b i j))).
Proof. exact m_assign_spec. Qed.

Theorem C09_matrix_scalar : forall T U (op opa : T -> U -> res T) M N a x,
  (forall s y, opa s y = op s y) -> rect M N a ->
  (M = 0 -> m_assign_scalar M N opa a x = (a, Panic)) /\
  (0 < M ->
   (forall w, m_map (fun s => op s x) a = Ok w <-> m_assign_scalar M N opa a x = (w, Ok tt)) /\
   (~ returns (m_map (fun s => op s x) a) ->
     exists i j w, i < M /\ j < N /\
       m_assign_scalar M N opa a x = (w, refail (m_map (fun s => op s x) a)) /\ rect M N w /\
       (forall i' j', j' < N -> i' < i \/ (i' = i /\ j' < j) ->
          exists z, at1m (fun s => op s x) a i' j' = Ok z /\ elt w i' j' = Some z) /\
       (forall i' j', i < i' \/ (i' = i /\ j <= j') -> elt w i' j' = elt a i' j') /\
       fails_like (m_map (fun s => op s x) a) (at1m (fun s => op s x) a i j))).
Proof. exact m_assign_scalar_spec. Qed.

(** The unconditional claim is false: a matrix without rows. *)
Theorem C09_matrix_no_rows_refuted : forall T U (op : T -> U -> res T) N,
  m_zip_map 0 N op [] [] = Ok [] /\ m_assign 0 N op [] [] = ([], Panic).
Proof. intros. split; reflexivity. Qed.

Example C09_matrix_example :
  m_assign 2 2 (ok2 Nat.add) [[1; 2]; [3; 4]] [[10; 20]; [30; 40]] = ([[11; 22]; [33; 44]], Ok tt) /\
  m_assign 2 2 (fun x y => if x <? y then Panic else Ok (x - y)) [[5; 6]; [7; 8]] [[1; 9]; [3; 4]]
    = ([[4; 6]; [7; 8]], Panic).
Proof. split; reflexivity. Qed.

(* ------------------------------------------------------------------------- *)
(** * C10, C12 for matrices                                                    *)

Theorem C10_matrix_zero : forall T (o : Ops T) M N, exists z, m_zero o M N = Ok z /\ rect M N z /\
  forall i j, i < M -> j < N -> elt z i j = Some (o_zero o).
Proof. exact m_zero_spec. Qed.

Theorem C10_matrix_sum_product : forall T (o : Ops T) M N ms r, Forall (rect M N) ms ->
  (m_iter_sum o M N ms = Ok r <-> rect M N r /\
     forall i j x, elt r i j = Some x ->
       fold_res (fun s m => bind (m_index m (i, j)) (o_add o s)) (o_zero o) ms = Ok x) /\
  (m_iter_product o M N ms = Ok r <-> rect M N r /\
     forall i j x, elt r i j = Some x ->
       fold_res (fun s m => bind (m_index m (i, j)) (o_mul o s)) (o_one o) ms = Ok x).
Proof. exact m_iter_sum_product_spec. Qed.

Theorem C12_matrix_floor : forall M N a b, rect M N a -> rect M N b ->
  (forall i j, elt b i j <> Some 0%Z) ->
  exists d r, m_div_floor M N z_div_floor a b = Ok d /\ m_mod_floor M N z_mod_floor a b = Ok r /\
    m_div_mod_floor M N z_div_mod_floor a b = Ok (d, r) /\ rect M N d /\ rect M N r /\
    forall i j x y, elt a i j = Some x -> elt b i j = Some y -> exists q m,
      elt d i j = Some q /\ elt r i j = Some m /\ (x = q * y + m)%Z /\
      ((0 <= m < y)%Z \/ (y < m <= 0)%Z).
Proof. exact m_floor_spec. Qed.

Example C12_matrix_example :
  m_div_mod_floor 1 2 z_div_mod_floor [[-7; 7]]%Z [[2; -2]]%Z = Ok ([[-4; -4]], [[1; -1]])%Z.
Proof. reflexivity. Qed.

(* ------------------------------------------------------------------------- *)
(** * C25: element-wise operators and reductions                               *)

Theorem C25_binary : forall T (o : Ops T) M N a b, rect M N a -> rect M N b ->
  in_order2 M N (at2m (o_add o) a b) (m_add o M N a b) /\
  in_order2 M N (at2m (o_sub o) a b) (m_sub o M N a b) /\
  in_order2 M N (at2m (o_mul o) a b) (m_mul o M N a b) /\
  in_order2 M N (at2m (o_div o) a b) (m_div o M N a b) /\
  in_order2 M N (at2m (o_rem o) a b) (m_rem o M N a b).
Proof. exact m_binary_spec. Qed.

Theorem C25_unary_and_scalar : forall T (o : Ops T) M N m s, rect M N m ->
  in_order2 M N (at1m (o_neg o) m) (m_neg o m) /\
  in_order2 M N (at1m (fun x => o_mul o x s) m) (m_smul o m s) /\
  in_order2 M N (at1m (fun x => o_div o x s) m) (m_sdiv o m s) /\
  in_order2 M N (at1m (fun x => o_rem o x s) m) (m_srem o m s).
Proof. exact m_unary_spec. Qed.

Theorem C25_bitwise : forall T (op : T -> T -> res T) (bnot : T -> res T) M N a b,
  rect M N a -> rect M N b ->
  in_order2 M N (at2m op a b) (m_bitop M N op a b) /\ in_order2 M N (at1m bnot a) (m_not bnot a).
Proof. exact m_bit_spec. Qed.

(** [in_order2] determines the outcome completely. *)
Theorem C25_determined : forall A M N (step : nat -> nat -> res A) r1 r2,
  in_order2 M N step r1 -> in_order2 M N step r2 -> r1 = r2.
Proof. exact in_order2_unique. Qed.

Theorem C25_compare : forall T (o : Ops T) M N a b, rect M N a -> rect M N b ->
  exists e n l le g ge,
    m_veq o M N a b = Ok e /\ m_vne o M N a b = Ok n /\ m_vlt o M N a b = Ok l /\
    m_vle o M N a b = Ok le /\ m_vgt o M N a b = Ok g /\ m_vge o M N a b = Ok ge /\
    rect M N e /\ rect M N n /\ rect M N l /\ rect M N le /\ rect M N g /\ rect M N ge /\
    forall i j x y, elt a i j = Some x -> elt b i j = Some y ->
      elt e i j = Some (o_eq o x y) /\ elt n i j = Some (negb (o_eq o x y)) /\
      elt l i j = Some (o_lt o x y) /\ elt le i j = Some (o_le o x y) /\
      elt g i j = Some (o_lt o y x) /\ elt ge i j = Some (o_le o y x).
Proof. exact m_compare_spec. Qed.

Theorem C25_eq : forall T (o : Ops T) M N a b, rect M N a -> rect M N b ->
  (m_eq o a b = true <->
   forall i j x y, elt a i j = Some x -> elt b i j = Some y -> o_eq o x y = true).
Proof. exact m_eq_spec. Qed.

Theorem C25_sum_max_min : forall T (o : Ops T) M N m, rect M N m ->
  (0 < M -> 0 < N -> m_sum o m = v_sum o (concat m) /\ m_max o m = v_max o (concat m) /\
                     m_min o m = v_min o (concat m)) /\
  (M = 0 \/ N = 0 -> m_sum o m = Panic /\ m_max o m = Panic /\ m_min o m = Panic).
Proof. exact m_reduce_spec. Qed.

Theorem C25_max_min_bounds : forall T (o : Ops T) M N m, rect M N m -> strict_weak_order (o_lt o) ->
  0 < M -> 0 < N ->
  (exists x i j, m_max o m = Ok x /\ elt m i j = Some x /\
     forall i' j' y, elt m i' j' = Some y -> o_lt o x y = false) /\
  (exists x i j, m_min o m = Ok x /\ elt m i j = Some x /\
     forall i' j' y, elt m i' j' = Some y -> o_lt o y x = false).
Proof. exact m_max_min_spec. Qed.

Example C25_example :
  let o := {| o_zero := 0; o_one := 1; o_add := ok2 Nat.add;
              o_sub := fun x y => if x <? y then Panic else Ok (x - y);
              o_mul := ok2 Nat.mul; o_div := ok2 Nat.div; o_rem := ok2 Nat.modulo; o_neg := ok1 (fun x => x);
              o_is_zero := Nat.eqb 0; o_eq := Nat.eqb; o_lt := Nat.ltb; o_le := Nat.leb |} in
  m_sub o 2 2 [[5; 6]; [7; 8]] [[1; 2]; [3; 4]] = Ok [[4; 4]; [4; 4]] /\
  m_sub o 2 2 [[5; 6]; [7; 8]] [[1; 2]; [9; 4]] = Panic /\
  m_max o [[5; 6]; [9; 8]] = Ok 9 /\ m_sum o [[5; 6]; [9; 8]] = Ok 28.
Proof. repeat split. Qed.

(* ------------------------------------------------------------------------- *)
(** * C35: text output                                                         *)

Theorem C35_format : forall T (fmt : T -> string) (m : list (list T)) M N, rect M N m ->
  m_fmt M N fmt m = Ok (nl ++ "Matrix" ++ nat_str M ++ "x" ++ nat_str N ++ "(" ++ nl ++
    String.concat "" (map (fun r => "  " ++ String.concat "" (map (fun x => fmt x ++ ", ") r) ++ nl) m) ++
    ")" ++ nl)%string.
Proof. exact m_fmt_spec. Qed.

Example C35_example :
  m_fmt 2 2 nat_str [[1; 2]; [3; 14]] =
  Ok "
Matrix2x2(
  1, 2, 
  3, 14, 
)
"%string.
Proof. reflexivity. Qed.

(* ------------------------------------------------------------------------- *)
(** * C36: broadcasting and element-wise functions                             *)

Theorem C36_broadcast : forall T M N (s : T) (v : list T) (m : list (list T)),
  length v = N -> rect M N m ->
  v_bc_self v = Ok v /\ m_bc_self m = Ok m /\
  (exists w, v_bc_scalar N s = Ok w /\ length w = N /\ forall i, i < N -> nth_error w i = Some s) /\
  (exists w, m_bc_scalar M N s = Ok w /\ rect M N w /\
     forall i j, i < M -> j < N -> elt w i j = Some s) /\
  (exists w, m_bc_vector M v = Ok w /\ rect M N w /\
     forall i j, i < M -> elt w i j = nth_error v j).
Proof. exact broadcast_spec. Qed.

Theorem C36_vector_functions : forall T N (f1 : T -> T) (f2 : T -> T -> T) (f3 : T -> T -> T -> T) v a b,
  length v = N -> length a = N -> length b = N ->
  exists r1 r2 r3,
    v_fun1 f1 v = Ok r1 /\ v_fun2 N f2 v (Ok a) = Ok r2 /\ v_fun3 N f3 v (Ok a) (Ok b) = Ok r3 /\
    length r1 = N /\ length r2 = N /\ length r3 = N /\
    forall i s x y, nth_error v i = Some s -> nth_error a i = Some x -> nth_error b i = Some y ->
      nth_error r1 i = Some (f1 s) /\ nth_error r2 i = Some (f2 s x) /\
      nth_error r3 i = Some (f3 s x y).
Proof. exact v_fun_spec. Qed.

Theorem C36_matrix_functions : forall T M N (f1 : T -> T) (f2 : T -> T -> T) (f3 : T -> T -> T -> T) m a b,
  rect M N m -> rect M N a -> rect M N b ->
  exists r1 r2 r3,
    m_fun1 f1 m = Ok r1 /\ m_fun2 M N f2 m (Ok a) = Ok r2 /\ m_fun3 M N f3 m (Ok a) (Ok b) = Ok r3 /\
    rect M N r1 /\ rect M N r2 /\ rect M N r3 /\
    forall i j s x y, elt m i j = Some s -> elt a i j = Some x -> elt b i j = Some y ->
      elt r1 i j = Some (f1 s) /\ elt r2 i j = Some (f2 s x) /\ elt r3 i j = Some (f3 s x y).
Proof. exact m_fun_spec. Qed.

Theorem C36_sin_cos : forall T M N (sc : T -> T * T) v m, length v = N -> rect M N m ->
  (v_sin_cos N sc v = Ok (map (fun x => fst (sc x)) v, map (fun x => snd (sc x)) v)) /\
  (m_sin_cos M N sc m = Ok (map (map (fun x => fst (sc x))) m, map (map (fun x => snd (sc x))) m)).
Proof. exact sin_cos_spec. Qed.

(** [clamp] component by component, for integer-like scalars where [min]/[max] are the lattice operations
    of a total order: the result lies in [a, b] whenever a <= b. *)
Theorem C36_clamp : forall N (v a b : list Z), length v = N -> length a = N -> length b = N ->
  (forall i x y, nth_error a i = Some x -> nth_error b i = Some y -> (x <= y)%Z) ->
  exists r, v_clamp N Z.min Z.max v (Ok a) (Ok b) = Ok r /\ length r = N /\
    forall i s x y, nth_error v i = Some s -> nth_error a i = Some x -> nth_error b i = Some y ->
      exists z, nth_error r i = Some z /\ (x <= z <= y)%Z /\ ((x <= s <= y)%Z -> z = s).
Proof. exact v_clamp_spec. Qed.

Theorem C36_clamp_matrix : forall M N (m a b : list (list Z)), rect M N m -> rect M N a -> rect M N b ->
  (forall i j x y, elt a i j = Some x -> elt b i j = Some y -> (x <= y)%Z) ->
  exists r, m_clamp M N Z.min Z.max m (Ok a) (Ok b) = Ok r /\ rect M N r /\
    forall i j s x y, elt m i j = Some s -> elt a i j = Some x -> elt b i j = Some y ->
      exists z, elt r i j = Some z /\ (x <= z <= y)%Z /\ ((x <= s <= y)%Z -> z = s).
Proof. exact m_clamp_spec. Qed.

Example C36_example :
  v_clamp 3 Z.min Z.max [-5; 0; 9]%Z (v_bc_scalar 3 (-1)%Z) (v_bc_scalar 3 4%Z) = Ok [-1; 0; 4]%Z /\
  m_fun2 2 2 Nat.max [[1; 2]; [3; 4]] (m_bc_vector 2 [2; 3]) = Ok [[2; 3]; [3; 4]].
Proof. split; reflexivity. Qed.

Print Assumptions C19_round_trip.
Print Assumptions C19_init.
Print Assumptions C19_row_major.
Print Assumptions C19_fill.
Print Assumptions C19_try_from_iter.
Print Assumptions C19_try_from_slice.
Print Assumptions C19_try_from_slice_of_vectors.
Print Assumptions C19_indices.
Print Assumptions C20_iter.
Print Assumptions C20_any_all.
Print Assumptions C20_is_zero.
Print Assumptions C21_flatten.
Print Assumptions C21_stops_at_empty.
Print Assumptions C21_concatenation_refuted.
Print Assumptions C22_map.
Print Assumptions C22_scan.
Print Assumptions C22_fold_for_each.
Print Assumptions C22_fold_first.
Print Assumptions C22_zip.
Print Assumptions C22_unzip_zip.
Print Assumptions C22_zip_unzip.
Print Assumptions C23_index.
Print Assumptions C23_index_write.
Print Assumptions C23_row.
Print Assumptions C23_col.
Print Assumptions C24_transpose.
Print Assumptions C03_transpose.
Print Assumptions C24_involutive.
Print Assumptions C24_elementwise.
Print Assumptions C24_add.
Print Assumptions C09_matrix.
Print Assumptions C09_matrix_scalar.
Print Assumptions C09_matrix_no_rows_refuted.
Print Assumptions C10_matrix_zero.
Print Assumptions C10_matrix_sum_product.
Print Assumptions C12_matrix_floor.
Print Assumptions C25_binary.
Print Assumptions C25_unary_and_scalar.
Print Assumptions C25_bitwise.
Print Assumptions C25_determined.
Print Assumptions C25_compare.
Print Assumptions C25_eq.
Print Assumptions C25_sum_max_min.
Print Assumptions C25_max_min_bounds.
Print Assumptions C35_format.
Print Assumptions C36_broadcast.
Print Assumptions C36_vector_functions.
Print Assumptions C36_matrix_functions.
Print Assumptions C36_sin_cos.
Print Assumptions C36_clamp.
Print Assumptions C36_clamp_matrix.
