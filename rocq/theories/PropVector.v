(** Properties C01-C06, C08-C12, C17, C18: the container part of vectors.  Only theorems, each followed
    by a concrete instance and by the list of assumptions. *)
From Coq Require Import String ZArith.
From Verif Require Import SpecFacts VecProofs.
Set Implicit Arguments.
Local Open Scope nat_scope.
Local Open Scope list_scope.

(* ------------------------------------------------------------------------- *)
(** * C01: construction and indexed access                                     *)

Theorem C01_array_round_trip : forall T (a : list T),
  v_into_array (v_from_array a) = a /\ v_as_array (v_from_array a) = a /\
  forall v, v_from_array (v_into_array v) = (v : list T).
Proof. repeat split. Qed.

(** [init] succeeds exactly when N calls in sequence succeed, with their values in order; otherwise it
    fails like the first failing call, after which no further call is made. *)
Theorem C01_init_calls : forall C T N (f : C -> res (C * T)) c,
  (forall c' l, v_init N f c = Ok (c', l) <-> drawn f N c c' l) /\
  (forall c' l, v_init N f c = Ok (c', l) -> length l = N) /\
  (~ returns (v_init N f c) ->
     exists k c1 l, k < N /\ drawn f k c c1 l /\ fails_like (v_init N f c) (f c1)).
Proof. exact v_init_spec. Qed.

Theorem C01_fill_default : forall T N (x : T),
  v_fill N x = Ok (repeat x N) /\ v_default N x = Ok (repeat x N) /\ v_new N x = Ok (repeat x N) /\
  length (repeat x N) = N /\ forall i, i < N -> nth_error (repeat x N) i = Some x.
Proof. exact v_fill_spec. Qed.

Theorem C01_index : forall T (v : list T) i,
  (i < length v -> exists x, nth_error v i = Some x /\ v_index v i = Ok x) /\
  (length v <= i -> v_index v i = Panic).
Proof. exact v_index_spec. Qed.

Theorem C01_index_write : forall T (v : list T) i x,
  (i < length v -> exists w, v_index_set v i x = Ok w /\ length w = length v /\
     nth_error w i = Some x /\ forall j, j <> i -> nth_error w j = nth_error v j) /\
  (length v <= i -> v_index_set v i x = Panic).
Proof. exact v_index_set_spec. Qed.

Theorem C01_get_unchecked_in_bounds : forall T (v : list T) i,
  i < length v -> v_get_unchecked v i = v_index v i /\
  forall x, v_set_unchecked v i x = v_index_set v i x.
Proof. exact v_get_unchecked_spec. Qed.

Theorem C01_try_from_slice : forall T N (s : list T),
  (length s = N -> v_try_from_slice N s = Some s) /\ (length s <> N -> v_try_from_slice N s = None).
Proof. exact v_try_from_slice_spec. Qed.

Example C01_example :
  v_init 3 (fun c => if c <? 7 then Ok (S c, c * c) else Panic) 2 = Ok (5, [4; 9; 16]) /\
  v_init 3 (fun c => if c <? 7 then Ok (S c, c * c) else Panic) 5 = Panic /\
  v_index_set [1; 2; 3] 1 9 = Ok [1; 9; 3].
Proof. repeat split. Qed.

(* ------------------------------------------------------------------------- *)
(** * C02: try_from_iter                                                       *)

(** The three possible outcomes, each with the exact sequence of [next] calls that leads to it.  The
    iterator's state is arbitrary, so it may count the calls. *)
Theorem C02_try_from_iter : forall S A N (next : next_fn S A) s,
  (forall s' l, v_try_from_iter N next s = Ok (s', Some l) <->
      length l = N /\ yields next s s' l) /\
  (forall s', v_try_from_iter N next s = Ok (s', None) <->
      exists s1 l, length l < N /\ yields next s s1 l /\ next s1 = Ok (s', None)) /\
  (~ returns (v_try_from_iter N next s) ->
      exists s1 l, length l < N /\ yields next s s1 l /\
        fails_like (v_try_from_iter N next s) (next s1)).
Proof. exact v_try_from_iter_spec. Qed.

(** An iterator that counts its calls: at most N of them are made, exactly N on success. *)
Theorem C02_next_call_count : forall S A N (next : next_fn S A) s k s' k' o,
  v_try_from_iter N (fun '(s, k) => let! (s1, o) := next s in Ok ((s1, k + 1), o)) (s, k)
    = Ok ((s', k'), o) ->
  k' <= k + N /\ (o <> None -> k' = k + N).
Proof. exact v_try_from_iter_count. Qed.

Example C02_example :
  v_try_from_iter 3 list_next [5; 6; 7; 8] = Ok ([8], Some [5; 6; 7]) /\
  v_try_from_iter 3 list_next [5; 6] = Ok ([], None).
Proof. repeat split. Qed.

(* ------------------------------------------------------------------------- *)
(** * C03: drops and initialisation                                            *)

(** The drop log: nothing is dropped on success, exactly the items taken (once each) on failure, and
    nothing when the iterator panics. *)
Theorem C03_drops : forall S A N (next : next_fn S A) s dropped r,
  tfi N next s = (dropped, r) ->
  (forall s' l, r = Ok (s', Some l) -> dropped = [] /\ yields next s s' l) /\
  (forall s', r = Ok (s', None) ->
     exists s1, yields next s s1 dropped /\ length dropped < N /\ next s1 = Ok (s', None)) /\
  (~ returns r -> dropped = []).
Proof. exact tfi_drops. Qed.

(** No uninitialised cell is assumed initialised: undefined behaviour cannot originate here. *)
Theorem C03_no_ub_try_from_iter : forall S A N (next : next_fn S A) s,
  (forall s', next s' <> UB) -> v_try_from_iter N next s <> UB.
Proof. exact tfi_no_ub. Qed.

Theorem C03_no_ub_init : forall C T N (f : C -> res (C * T)) c,
  (forall c', f c' <> UB) -> v_init N f c <> UB.
Proof. exact v_init_no_ub. Qed.

Theorem C03_unzip_initialised : forall T U N (l : list (T * U)),
  length l = N -> returns (v_unzip N l).
Proof. intros; eexists; apply v_unzip_ok; assumption. Qed.

Example C03_example :
  tfi 3 list_next [5; 6] = ([5; 6], Ok ([], None)) /\
  tfi 2 list_next [5; 6] = ([], Ok ([], Some [5; 6])) /\
  tfi 3 (fun s => match s with [] => Panic | a :: t => Ok (t, Some a) end) [5; 6] = ([], Panic).
Proof. repeat split. Qed.

(* ------------------------------------------------------------------------- *)
(** * C04: map, for_each, fold, scan, zip, unzip, enumerate                    *)

Theorem C04_map : forall C A B (f : C -> A -> res (C * B)) c v,
  (forall c' w, v_map_st f c v = Ok (c', w) <-> called f c v c' w) /\
  (~ returns (v_map_st f c v) -> exists v1 a v2 c1 bs, v = v1 ++ a :: v2 /\
     called f c v1 c1 bs /\ fails_like (v_map_st f c v) (f c1 a)).
Proof. exact v_map_st_spec. Qed.

(** With a stateless closure: component by component. *)
Theorem C04_map_components : forall A B (f : A -> res B) v,
  in_order (length v) (at1 f v) (v_map f v).
Proof. exact v_map_in_order. Qed.

Theorem C04_scan : forall C A B N (f : C -> A -> res (C * B)) c v,
  length v = N ->
  (forall c' w, v_scan_st N f c v = Ok (c', w) <-> called f c v c' w) /\
  (~ returns (v_scan_st N f c v) -> exists v1 a v2 c1 bs, v = v1 ++ a :: v2 /\
     called f c v1 c1 bs /\ fails_like (v_scan_st N f c v) (f c1 a)).
Proof. exact v_scan_spec. Qed.
(** Dropping the closure's last state: the results in order. *)
Theorem C04_scan_values : forall C A B N (f : C -> A -> res (C * B)) c v w,
  length v = N -> (v_scan N f c v = Ok w <-> exists c', called f c v c' w).
Proof.
  intros C A B N f c v w L. unfold v_scan. destruct (@C04_scan C A B N f c v L) as (E & _). split.
  - intros H. destruct (v_scan_st N f c v) as [[c' l]| | |] eqn:X; cbn [bind] in H; try discriminate. exists c'. apply E. congruence.
  - intros (c' & H). apply E in H. rewrite H. reflexivity.
Qed.

(** [fold] and [for_each] thread the accumulator through the elements in order. *)
Theorem C04_fold_for_each : forall C T (f : C -> T -> res C) c v,
  v_for_each_st f c v = v_fold f c v /\
  (forall c', v_fold f c v = Ok c' <->
     called (fun c a => let! c1 := f c a in Ok (c1, tt)) c v c' (map (fun _ => tt) v)) /\
  (~ returns (v_fold f c v) -> exists v1 a v2 c1 us, v = v1 ++ a :: v2 /\
     called (fun c a => let! c1 := f c a in Ok (c1, tt)) c v1 c1 us /\
     fails_like (v_fold f c v) (f c1 a)).
Proof. exact v_fold_spec. Qed.

Theorem C04_zip : forall T U N (u : list T) (v : list U),
  length u = N -> length v = N ->
  exists z, v_zip N u v = Ok z /\ length z = N /\
    forall i x y, nth_error z i = Some (x, y) <-> nth_error u i = Some x /\ nth_error v i = Some y.
Proof. exact v_zip_spec. Qed.

Theorem C04_unzip_zip : forall T U N (u : list T) (v : list U),
  length u = N -> length v = N ->
  bind (v_zip N u v) (v_unzip N) = Ok (u, v).
Proof. exact v_unzip_zip. Qed.

Theorem C04_zip_unzip : forall T U N (l : list (T * U)),
  length l = N -> bind (v_unzip N l) (fun '(u, v) => v_zip N u v) = Ok l.
Proof. exact v_zip_unzip. Qed.

Theorem C04_enumerate : forall T N (v : list T),
  length v = N ->
  exists z, v_enumerate N v = Ok z /\ length z = N /\
    forall i x, nth_error v i = Some x -> nth_error z i = Some (i, x).
Proof. exact v_enumerate_spec. Qed.

Theorem C04_indices : forall N,
  exists z, v_indices N = Ok z /\ length z = N /\ forall i, i < N -> nth_error z i = Some i.
Proof. exact v_indices_spec. Qed.

Example C04_example :
  v_map_st (fun c a => Ok (c + a, c * a)) 1 [2; 3; 4] = Ok (10, [2; 9; 24]) /\
  v_enumerate 2 [7; 8] = Ok [(0, 7); (1, 8)].
Proof. repeat split. Qed.

(* ------------------------------------------------------------------------- *)
(** * C05: GroupIter                                                           *)

Theorem C05_group : forall A N (l : list A) k, 0 < N ->
  kth_call (group_next N list_next) k l =
    Ok (if (k + 1) * N <=? length l then Some (firstn N (skipn (k * N) l)) else None).
Proof. exact group_kth. Qed.

Theorem C05_group_elements : forall A N (l : list A) k g, 0 < N ->
  kth_call (group_next N list_next) k l = Ok (Some g) ->
  k < length l / N /\ length g = N /\
  forall i, i < N -> nth_error g i = nth_error l (k * N + i).
Proof. exact group_kth_elements. Qed.

Theorem C05_group_count : forall A N (l : list A) k, 0 < N ->
  (k < length l / N -> exists g, kth_call (group_next N list_next) k l = Ok (Some g)) /\
  (length l / N <= k -> kth_call (group_next N list_next) k l = Ok None /\
     state_after (group_next N list_next) (S k) l = Ok []).
Proof. exact group_count. Qed.

Theorem C05_group_zero : forall S A (next : next_fn S A) s k,
  kth_call (group_next 0 next) k s = Ok (Some []) /\ state_after (group_next 0 next) k s = Ok s.
Proof. exact group_zero. Qed.

Example C05_example :
  map (fun k => kth_call (group_next 2 list_next) k [1; 2; 3; 4; 5]) [0; 1; 2; 3] =
  [Ok (Some [1; 2]); Ok (Some [3; 4]); Ok None; Ok None].
Proof. reflexivity. Qed.

(* ------------------------------------------------------------------------- *)
(** * C06: sum, max, min                                                       *)

Theorem C06_sum : forall T (o : Ops T) (v : list T),
  (v = [] -> v_sum o v = Panic) /\
  (forall x t, v = x :: t -> v_sum o v = fold_res (o_add o) x t).
Proof. exact v_sum_spec. Qed.

Theorem C06_max : forall T (o : Ops T) (v : list T), strict_weak_order (o_lt o) ->
  (v = [] -> v_max o v = Panic) /\
  (v <> [] -> exists m, v_max o v = Ok m /\ In m v /\ forall y, In y v -> o_lt o m y = false).
Proof. exact v_max_spec. Qed.

Theorem C06_min : forall T (o : Ops T) (v : list T), strict_weak_order (o_lt o) ->
  (v = [] -> v_min o v = Panic) /\
  (v <> [] -> exists m, v_min o v = Ok m /\ In m v /\ forall y, In y v -> o_lt o y m = false).
Proof. exact v_min_spec. Qed.

(** Among equivalent elements, max keeps the first and min the last one. *)
Theorem C06_ties : forall T (o : Ops T) (v : list T), strict_weak_order (o_lt o) -> v <> [] ->
  (exists m l1 l2, v_max o v = Ok m /\ v = l1 ++ m :: l2 /\
     (forall y, In y l1 -> o_lt o y m = true)) /\
  (exists m l1 l2, v_min o v = Ok m /\ v = l1 ++ m :: l2 /\
     (forall y, In y l2 -> o_lt o m y = true)).
Proof. exact v_ties_spec. Qed.

Example C06_example :
  strict_weak_order Nat.ltb /\
  v_max (pure_ops 0 1 Nat.add Nat.sub Nat.mul Nat.div Nat.modulo (fun x => x) (Nat.eqb 0)
           Nat.eqb Nat.ltb Nat.leb) [3; 7; 5] = Ok 7.
Proof. split; [exact swo_nat|reflexivity]. Qed.

(* ------------------------------------------------------------------------- *)
(** * C08: element-wise arithmetic                                             *)

Theorem C08_binary : forall T (o : Ops T) N u v, length u = N -> length v = N ->
  in_order N (at2 (o_add o) u v) (v_add o N u v) /\
  in_order N (at2 (o_sub o) u v) (v_sub o N u v) /\
  in_order N (at2 (o_mul o) u v) (v_mul o N u v) /\
  in_order N (at2 (o_div o) u v) (v_div o N u v) /\
  in_order N (at2 (o_rem o) u v) (v_rem o N u v).
Proof. exact v_binary_spec. Qed.

Theorem C08_unary_and_scalar : forall T (o : Ops T) v a,
  in_order (length v) (at1 (o_neg o) v) (v_neg o v) /\
  in_order (length v) (at1 (fun x => o_mul o x a) v) (v_smul o v a) /\
  in_order (length v) (at1 (fun x => o_div o x a) v) (v_sdiv o v a) /\
  in_order (length v) (at1 (fun x => o_rem o x a) v) (v_srem o v a) /\
  v_rsmul o a v = v_smul o v a.
Proof. exact v_unary_spec. Qed.

(** [in_order] determines the outcome completely. *)
Theorem C08_determined : forall A n (step : nat -> res A) r1 r2,
  in_order n step r1 -> in_order n step r2 -> r1 = r2.
Proof. exact in_order_unique. Qed.

Example C08_example :
  let o := {| o_zero := 0; o_one := 1; o_add := ok2 Nat.add;
              o_sub := fun x y => if x <? y then Panic else Ok (x - y);
              o_mul := ok2 Nat.mul; o_div := ok2 Nat.div; o_rem := ok2 Nat.modulo; o_neg := ok1 (fun x => x);
              o_is_zero := Nat.eqb 0; o_eq := Nat.eqb; o_lt := Nat.ltb; o_le := Nat.leb |} in
  v_sub o 3 [5; 6; 7] [1; 2; 3] = Ok [4; 4; 4] /\ v_sub o 3 [5; 6; 7] [1; 9; 3] = Panic.
Proof. repeat split. Qed.

(* ------------------------------------------------------------------------- *)
(** * C09: compound assignment of vectors                                      *)

(** [opa] is the scalar compound assignment, [op] the scalar binary operator. *)
Theorem C09_vector : forall T U (op opa : T -> U -> res T) N u v,
  (forall x y, opa x y = op x y) -> length u = N -> length v = N ->
  (forall w, v_zip_map N op u v = Ok w <-> v_assign opa u v = (w, Ok tt)) /\
  (~ returns (v_zip_map N op u v) ->
     exists i w, i < N /\ v_assign opa u v = (w, refail (v_zip_map N op u v)) /\ length w = N /\
       (forall j, j < i -> exists z, at2 op u v j = Ok z /\ nth_error w j = Some z) /\
       (forall j, i <= j -> nth_error w j = nth_error u j) /\
       fails_like (v_zip_map N op u v) (at2 op u v i)).
Proof. exact v_assign_spec. Qed.

Theorem C09_vector_scalar : forall T U (op opa : T -> U -> res T) u a,
  (forall x y, opa x y = op x y) ->
  (forall w, v_map (fun x => op x a) u = Ok w <-> v_assign_scalar opa u a = (w, Ok tt)) /\
  (~ returns (v_map (fun x => op x a) u) ->
     exists i w, i < length u /\
       v_assign_scalar opa u a = (w, refail (v_map (fun x => op x a) u)) /\ length w = length u /\
       (forall j, j < i -> exists z, at1 (fun x => op x a) u j = Ok z /\ nth_error w j = Some z) /\
       (forall j, i <= j -> nth_error w j = nth_error u j) /\
       fails_like (v_map (fun x => op x a) u) (at1 (fun x => op x a) u i)).
Proof. exact v_assign_scalar_spec. Qed.

Example C09_example :
  v_assign (ok2 Nat.add) [1; 2; 3] [10; 20; 30] = ([11; 22; 33], Ok tt) /\
  v_assign (fun x y => if x <? y then Panic else Ok (x - y)) [5; 6; 7] [1; 9; 3] = ([4; 6; 7], Panic).
Proof. repeat split. Qed.

(* ------------------------------------------------------------------------- *)
(** * C10: zero, is_zero, Sum, Product                                         *)

Theorem C10_zero : forall T (o : Ops T) N,
  exists z, v_zero o N = Ok z /\ length z = N /\ forall i, i < N -> nth_error z i = Some (o_zero o).
Proof. exact v_zero_spec. Qed.

Theorem C10_is_zero : forall T (o : Ops T) v,
  v_is_zero o v = true <-> forall i x, nth_error v i = Some x -> o_is_zero o x = true.
Proof. exact v_is_zero_spec. Qed.

(** Component [i] of the sum / product of a sequence of vectors is the sum / product of the
    components [i], starting from zero / one, whenever these succeed. *)
Theorem C10_sum_product : forall T (o : Ops T) N vs r, Forall (fun v => length v = N) vs ->
  (v_iter_sum o N vs = Ok r <-> length r = N /\
     forall i x, nth_error r i = Some x ->
       fold_res (fun s v => bind (index v i) (o_add o s)) (o_zero o) vs = Ok x) /\
  (v_iter_product o N vs = Ok r <-> length r = N /\
     forall i x, nth_error r i = Some x ->
       fold_res (fun s v => bind (index v i) (o_mul o s)) (o_one o) vs = Ok x).
Proof. exact v_iter_sum_product_spec. Qed.

Theorem C10_sum_product_empty : forall T (o : Ops T) N,
  v_iter_sum o N [] = Ok (repeat (o_zero o) N) /\ v_iter_product o N [] = Ok (repeat (o_one o) N).
Proof. exact v_iter_empty. Qed.

(* ------------------------------------------------------------------------- *)
(** * C11: bitwise operators, any, all, comparison                             *)

Theorem C11_bitwise : forall T (op : T -> T -> res T) (bnot : T -> res T) N u v,
  length u = N -> length v = N ->
  in_order N (at2 op u v) (v_bitop N op u v) /\ in_order N (at1 bnot u) (v_not bnot u).
Proof. exact v_bit_spec. Qed.

Theorem C11_any_all : forall v : list bool,
  (v_all v = true <-> forall i b, nth_error v i = Some b -> b = true) /\
  (v_any v = true <-> exists i, nth_error v i = Some true) /\
  v_all [] = true /\ v_any [] = false.
Proof. exact v_any_all_spec. Qed.

Theorem C11_compare : forall T (o : Ops T) N u v, length u = N -> length v = N ->
  exists eqs nes lts les gts ges,
    v_veq o N u v = Ok eqs /\ v_vne o N u v = Ok nes /\ v_vlt o N u v = Ok lts /\
    v_vle o N u v = Ok les /\ v_vgt o N u v = Ok gts /\ v_vge o N u v = Ok ges /\
    length eqs = N /\ length nes = N /\ length lts = N /\ length les = N /\
    length gts = N /\ length ges = N /\
    forall i x y, nth_error u i = Some x -> nth_error v i = Some y ->
      nth_error eqs i = Some (o_eq o x y) /\ nth_error nes i = Some (negb (o_eq o x y)) /\
      nth_error lts i = Some (o_lt o x y) /\ nth_error les i = Some (o_le o x y) /\
      nth_error gts i = Some (o_lt o y x) /\ nth_error ges i = Some (o_le o y x).
Proof. exact v_compare_spec. Qed.

Theorem C11_eq_veq_all : forall T (o : Ops T) N u v, length u = N -> length v = N ->
  rmap v_all (v_veq o N u v) = Ok (v_eq o u v) /\
  rmap v_any (v_vne o N u v) = Ok (negb (v_eq o u v)) /\
  (v_eq o u v = true <->
     forall i x y, nth_error u i = Some x -> nth_error v i = Some y -> o_eq o x y = true).
Proof. exact v_eq_spec. Qed.

Theorem C11_de_morgan : forall v : list bool,
  rmap v_all (v_not (ok1 negb) v) = Ok (negb (v_any v)) /\
  rmap v_any (v_not (ok1 negb) v) = Ok (negb (v_all v)).
Proof. exact v_de_morgan. Qed.

(* ------------------------------------------------------------------------- *)
(** * C12: floor division (scalars: integers with floor division, panicking on a zero divisor) *)

Theorem C12_floor : forall N u v, length u = N -> length v = N -> ~ In 0%Z v ->
  exists d m, v_div_floor N z_div_floor u v = Ok d /\ v_mod_floor N z_mod_floor u v = Ok m /\
    v_div_mod_floor N z_div_mod_floor u v = Ok (d, m) /\ length d = N /\ length m = N /\
    forall i x y, nth_error u i = Some x -> nth_error v i = Some y ->
      exists q r, nth_error d i = Some q /\ nth_error m i = Some r /\
        (x = q * y + r /\ (r = 0 \/ Z.sgn r = Z.sgn y) /\ Z.abs r < Z.abs y)%Z.
Proof. exact v_floor_spec. Qed.

Theorem C12_floor_zero : forall N u v, length u = N -> length v = N -> In 0%Z v ->
  v_div_floor N z_div_floor u v = Panic /\ v_mod_floor N z_mod_floor u v = Panic /\
  v_div_mod_floor N z_div_mod_floor u v = Panic.
Proof. exact v_floor_zero. Qed.

Example C12_example :
  v_div_mod_floor 2 z_div_mod_floor [7; -7]%Z [-2; 2]%Z = Ok ([-4; -4]%Z, [-1; 1]%Z).
Proof. reflexivity. Qed.

(* ------------------------------------------------------------------------- *)
(** * C17: component accessors and tuples                                      *)

Theorem C17_accessors : forall T (v : list T),
  (2 <= length v -> v_x v = v_index v 0 /\ v_y v = v_index v 1 /\
     forall a, v_x_set v a = v_index_set v 0 a /\ v_y_set v a = v_index_set v 1 a) /\
  (3 <= length v -> v_z v = v_index v 2 /\ forall a, v_z_set v a = v_index_set v 2 a) /\
  (4 <= length v -> v_w v = v_index v 3 /\ forall a, v_w_set v a = v_index_set v 3 a).
Proof. exact v_accessors. Qed.

Theorem C17_tuples : forall T,
  (forall x y : T, v_from_tuple2 (x, y) = [x; y] /\ v_into_tuple2 [x; y] = Ok (x, y)) /\
  (forall x y z : T, v_from_tuple3 (x, y, z) = [x; y; z] /\ v_into_tuple3 [x; y; z] = Ok (x, y, z)) /\
  (forall x y z w : T, v_from_tuple4 (x, y, z, w) = [x; y; z; w] /\
     v_into_tuple4 [x; y; z; w] = Ok (x, y, z, w)).
Proof. repeat split. Qed.

Theorem C17_tuple_round_trip : forall T (v : list T),
  (length v = 2 -> rmap (@v_from_tuple2 T) (v_into_tuple2 v) = Ok v) /\
  (length v = 3 -> rmap (@v_from_tuple3 T) (v_into_tuple3 v) = Ok v) /\
  (length v = 4 -> rmap (@v_from_tuple4 T) (v_into_tuple4 v) = Ok v).
Proof. exact v_tuple_round_trip. Qed.

(* ------------------------------------------------------------------------- *)
(** * C18: text output                                                         *)

Theorem C18_format : forall T N (fmt : T -> string) (v : list T), length v = N ->
  (0 < N -> v_fmt N fmt v =
     Ok (String.append "Vector" (String.append (nat_str N)
          (String.append "(" (String.append (String.concat ", " (map fmt v)) ")"))))) /\
  (N = 0 -> v_fmt N fmt v = Panic).
Proof. exact v_fmt_spec. Qed.

Example C18_example : v_fmt 3 nat_str [10; 2; 33] = Ok "Vector3(10, 2, 33)"%string.
Proof. reflexivity. Qed.

Print Assumptions C01_array_round_trip.
Print Assumptions C01_init_calls.
Print Assumptions C01_fill_default.
Print Assumptions C01_index.
Print Assumptions C01_index_write.
Print Assumptions C01_get_unchecked_in_bounds.
Print Assumptions C01_try_from_slice.
Print Assumptions C02_try_from_iter.
Print Assumptions C02_next_call_count.
Print Assumptions C03_drops.
Print Assumptions C03_no_ub_try_from_iter.
Print Assumptions C03_no_ub_init.
Print Assumptions C03_unzip_initialised.
Print Assumptions C04_map.
Print Assumptions C04_map_components.
Print Assumptions C04_scan.
Print Assumptions C04_scan_values.
Print Assumptions C04_fold_for_each.
Print Assumptions C04_zip.
Print Assumptions C04_unzip_zip.
Print Assumptions C04_zip_unzip.
Print Assumptions C04_enumerate.
Print Assumptions C04_indices.
Print Assumptions C05_group.
Print Assumptions C05_group_elements.
Print Assumptions C05_group_count.
Print Assumptions C05_group_zero.
Print Assumptions C06_sum.
Print Assumptions C06_max.
Print Assumptions C06_min.
Print Assumptions C06_ties.
Print Assumptions C08_binary.
Print Assumptions C08_unary_and_scalar.
Print Assumptions C08_determined.
Print Assumptions C09_vector.
Print Assumptions C09_vector_scalar.
Print Assumptions C10_zero.
Print Assumptions C10_is_zero.
Print Assumptions C10_sum_product.
Print Assumptions C10_sum_product_empty.
Print Assumptions C11_bitwise.
Print Assumptions C11_any_all.
Print Assumptions C11_compare.
Print Assumptions C11_eq_veq_all.
Print Assumptions C11_de_morgan.
Print Assumptions C12_floor.
Print Assumptions C12_floor_zero.
Print Assumptions C17_accessors.
Print Assumptions C17_tuples.
Print Assumptions C17_tuple_round_trip.
Print Assumptions C18_format.
