(** Model of [src/matrix] (except determinants, see [SquareModel.v]).  A [Matrix<T, M, N>] is the list
    of its [M] rows, each a list of [N] elements ([data: Vector<Vector<T, N>, M>], base/mod.rs:12-14).
    [usize] is modelled by [nat]: the product [M * N] is not reduced modulo the word size. *)
From Verif Require Export VectorModel.
Set Implicit Arguments.

(* ------------------------------------------------------------------------- *)
(** * matrix/base/iter.rs: [FlatIter]                                          *)

(** iter.rs:22-27 [FlatIter::new].  State of a [FlatIter]: (outer iterator, current inner iterator). *)
Definition flat_new {SI IT II : Type} (n : next_fn SI IT) (into : IT -> II) (s : SI)
  : res (option (SI * II)) :=
  let! (s1, oa) := n s in
  match oa with
  | None => Ok None
  | Some a => Ok (Some (s1, into a))
  end.

(** iter.rs:37-44 [FlatIter::next]. *)
Definition flat_next {SI IT II A : Type} (n : next_fn SI IT) (into : IT -> II) (ni : next_fn II A)
  : next_fn (SI * II) A :=
  fun '(s, sub) =>
    let! (sub1, ox) := ni sub in
    match ox with
    | Some x => Ok ((s, sub1), Some x)
    | None =>
        let! (s1, oa) := n s in
        match oa with
        | None => Ok ((s1, sub1), None)
        | Some a =>
            let! (sub2, oy) := ni (into a) in
            Ok ((s1, sub2), oy)
        end
    end.

(** iter.rs:49-55 [iter], [iter_mut]; 68-70, 75-77, 83-85 [into_iter].  The state afterwards: remaining
    rows and the rest of the current row.  For [iter_mut] the rows are rows of references. *)
Definition m_iter {T : Type} (m : list (list T)) : res (list (list T) * list T) :=
  let! o := flat_new list_next (fun r : list T => r) m in unwrap o.
(** [next] of these iterators. *)
Definition m_iter_next {T : Type} : next_fn (list (list T) * list T) T :=
  flat_next list_next (fun r : list T => r) list_next.

(** [Iterator::for_each]: call [next] until it returns [None].  [fuel] bounds the number of calls. *)
Fixpoint iter_for_each {S C A : Type} (fuel : nat) (n : next_fn S A) (f : C -> A -> C * res unit)
  (s : S) (c : C) : C * res unit :=
  match fuel with
  | O => (c, Fuel)
  | Datatypes.S k =>
      match n s with
      | Ok (s1, Some a) =>
          match f c a with
          | (c1, Ok tt) => iter_for_each k n f s1 c1
          | (c1, r) => (c1, r)
          end
      | Ok (s1, None) => (c, Ok tt)
      | Panic => (c, Panic) | UB => (c, UB) | Fuel => (c, Fuel)
      end
  end.

(** [Iterator::any] / [Iterator::all] with a pure predicate: stop at the first hit / miss. *)
Fixpoint iter_any {S A : Type} (fuel : nat) (n : next_fn S A) (p : A -> bool) (s : S) : res bool :=
  match fuel with
  | O => Fuel
  | Datatypes.S k =>
      let! (s1, o) := n s in
      match o with
      | None => Ok false
      | Some a => if p a then Ok true else iter_any k n p s1
      end
  end.
(** [Iterator::all] (core) with a pure predicate: stops at the first miss. *)
Fixpoint iter_all {S A : Type} (fuel : nat) (n : next_fn S A) (p : A -> bool) (s : S) : res bool :=
  match fuel with
  | O => Fuel
  | Datatypes.S k =>
      let! (s1, o) := n s in
      match o with
      | None => Ok true
      | Some a => if p a then iter_all k n p s1 else Ok false
      end
  end.

(* ------------------------------------------------------------------------- *)
(** * matrix/base/init.rs                                                      *)

(** init.rs:24-26 [Matrix::uninit]; init.rs:30-32 [assume_init]. *)
Definition m_uninit {T : Type} (M N : nat) : list (cells T) := repeat (v_uninit N) M.
(** matrix/base/init.rs:30-32 [assume_init]. *)
Definition m_assume_init {T : Type} (c : list (cells T)) : res (list (list T)) :=
  seq_res (map v_assume_init c).

(** init.rs:37-41 [init]: [Vector::init(|| Vector::init(&mut f))]. *)
Definition m_init {C T : Type} (M N : nat) (f : C -> res (C * T)) (c : C)
  : res (C * list (list T)) := v_init M (fun c => v_init N f c) c.
(** [init] with a closure without state. *)
Definition m_init_const {T : Type} (M N : nat) (f : res T) : res (list (list T)) :=
  let! (_, l) := m_init M N (fun _ : unit => let! y := f in Ok (tt, y)) tt in Ok l.
(** init.rs:48-50 [default], 57-59 [new], 66-72 [fill], [fill_ref]. *)
Definition m_default {T : Type} (M N : nat) (dflt : T) : res (list (list T)) :=
  m_init_const M N (Ok dflt).
(** matrix/base/init.rs:66-72 [fill], [fill_ref]. *)
Definition m_fill {T : Type} (M N : nat) (v : T) : res (list (list T)) := m_init_const M N (Ok v).

(** init.rs:77-79 [Index<(usize, usize)>], init.rs:82-84 [IndexMut] followed by a write. *)
Definition m_index {T : Type} (m : list (list T)) (ji : nat * nat) : res T :=
  let! r := v_index m (fst ji) in v_index r (snd ji).
(** matrix/base/init.rs:82-84 [IndexMut] followed by a write. *)
Definition m_index_set {T : Type} (m : list (list T)) (ji : nat * nat) (x : T)
  : res (list (list T)) :=
  let! r := v_index m (fst ji) in
  let! r1 := v_index_set r (snd ji) x in
  v_index_set m (fst ji) r1.

(** init.rs:88-93 [row_ref], [row_mut]; 99-104 [row], [col]. *)
Definition m_row {T : Type} (m : list (list T)) (i : nat) : res (list T) := v_index m i.
(** matrix/base/init.rs:91-93 [row_mut] followed by a write. *)
Definition m_row_set {T : Type} (m : list (list T)) (i : nat) (r : list T) : res (list (list T)) :=
  v_index_set m i r.
(** matrix/base/init.rs:102-104 [col]. *)
Definition m_col {T : Type} (M : nat) (m : list (list T)) (j : nat) : res (list T) :=
  let! is := v_indices M in v_map (fun i => m_index m (i, j)) is.

(** init.rs:116-125 [get_unchecked], [get_unchecked_mut] followed by a write. *)
Definition m_get_unchecked {T : Type} (m : list (list T)) (i j : nat) : res T :=
  let! r := v_get_unchecked m i in v_get_unchecked r j.
(** matrix/base/init.rs:121-125 [get_unchecked_mut] followed by a write. *)
Definition m_set_unchecked {T : Type} (m : list (list T)) (i j : nat) (x : T)
  : res (list (list T)) :=
  let! r := v_get_unchecked m i in
  let! r1 := v_set_unchecked r j x in
  v_set_unchecked m i r1.

(* ------------------------------------------------------------------------- *)
(** * matrix/base/iter.rs: whole-matrix functions                              *)

(** iter.rs:97-99 [for_each]. *)
Definition m_for_each_st {C T : Type} (f : C -> T -> res C) (c : C) (m : list (list T)) : res C :=
  v_for_each_st (fun c r => v_for_each_st f c r) c m.
(** iter.rs:101-103 [map]. *)
Definition m_map_st {C A B : Type} (f : C -> A -> res (C * B)) (c : C) (m : list (list A))
  : res (C * list (list B)) := v_map_st (fun c r => v_map_st f c r) c m.
(** matrix/base/iter.rs:101-103 [map], with a closure that has no state of its own. *)
Definition m_map {A B : Type} (f : A -> res B) (m : list (list A)) : res (list (list B)) :=
  let! (_, l) := m_map_st (fun (_ : unit) a => let! b := f a in Ok (tt, b)) tt m in Ok l.
(** iter.rs:105-107 [zip]. *)
Definition m_zip {T U : Type} (M N : nat) (a : list (list T)) (b : list (list U))
  : res (list (list (T * U))) :=
  let! z := v_zip M a b in v_map (fun '(x, y) => v_zip N x y) z.
(** iter.rs:111-114 [unzip]. *)
Definition m_unzip {T U : Type} (M N : nat) (m : list (list (T * U)))
  : res (list (list T) * list (list U)) :=
  let! z := v_map (fun r => v_unzip N r) m in v_unzip M z.
(** iter.rs:117-119 [fold]. *)
Definition m_fold {S T : Type} (f : S -> T -> res S) (s : S) (m : list (list T)) : res S :=
  v_fold (fun t r => v_fold f t r) s m.
(** iter.rs:120-124 [fold_first]. *)
Definition m_fold_first {T : Type} (f : T -> T -> res T) (m : list (list T)) : res T :=
  let! (t, o) := list_next m in
  let! r := unwrap o in
  let! s := v_fold_first f r in
  fold_res (fun t r => v_fold f t r) s t.
(** iter.rs:125-129 [scan]. *)
Definition m_scan_st {S T U : Type} (M N : nat) (f : S -> T -> res (S * U)) (s : S)
  (m : list (list T)) : res (S * list (list U)) :=
  v_scan_st M (fun r a => v_scan_st N f r a) s m.

(* ------------------------------------------------------------------------- *)
(** * matrix/base/convert.rs                                                   *)

(** convert.rs:5-13, 26-40, 57-80: constructors from vectors / arrays of vectors / arrays of arrays. *)
Definition m_from_vector_of_vectors {T : Type} (a : list (list T)) : list (list T) := a.
(** matrix/base/convert.rs:8-10 [from_array_of_vectors]; 33-35, 70-72 [From]. *)
Definition m_from_array_of_vectors {T : Type} (a : list (list T)) : list (list T) :=
  m_from_vector_of_vectors (v_from_array a).
(** matrix/base/convert.rs:11-13 [from_array_of_arrays]; 38-40, 78-80 [From]. *)
Definition m_from_array_of_arrays {T : Type} (a : list (list T)) : res (list (list T)) :=
  let! v := v_map (fun r => Ok (v_from_array r)) (v_from_array a) in
  Ok (m_from_vector_of_vectors v).
(** convert.rs:14-16 [into_vector_of_vectors]; 43-45 [From]. *)
Definition m_into_vector_of_vectors {T : Type} (m : list (list T)) : list (list T) := m.
(** matrix/base/convert.rs:17-19 [into_array_of_vectors]; 48-50 [From]. *)
Definition m_into_array_of_vectors {T : Type} (m : list (list T)) : list (list T) :=
  v_into_array (m_into_vector_of_vectors m).
(** matrix/base/convert.rs:20-24 [into_array_of_arrays]; 53-55 [From]. *)
Definition m_into_array_of_arrays {T : Type} (m : list (list T)) : res (list (list T)) :=
  let! v := v_map (fun r => Ok (v_into_array r)) (m_into_vector_of_vectors m) in
  Ok (v_into_array v).
(** convert.rs:82-101 the [as_*] views, 103-110 [AsRef], [AsMut], 138-157 [From] for references;
    (112-133 is commented out); [as_array_of_arrays] casts a pointer between types with the
    same layout ([#[repr(transparent)]]). *)
Definition m_as_array_of_arrays {T : Type} (m : list (list T)) : list (list T) := m.

(** convert.rs:161-166 [try_from_iter_of_vectors]; result with the iterator state left behind. *)
Definition m_try_from_iter_of_vectors {S T : Type} (M : nat) (n : next_fn S (list T)) (s : S)
  : res (S * option (list (list T))) :=
  let! (s1, o) := v_try_from_iter M n s in
  Ok (s1, option_map (@m_from_vector_of_vectors T) o).
(** convert.rs:167-172 [try_from_iter]. *)
Definition m_try_from_iter {S T : Type} (M N : nat) (n : next_fn S T) (s : S)
  : res (S * option (list (list T))) :=
  m_try_from_iter_of_vectors M (group_next N n) s.
(** convert.rs:179-185 [TryFrom<&[Vector<T, N>]>], 192-198 [TryFrom<&[T]>]; [None] is [Err(())]. *)
Definition m_try_from_slice_of_vectors {T : Type} (M : nat) (s : list (list T))
  : res (option (list (list T))) :=
  if length s =? M then
    let! (_, o) := m_try_from_iter_of_vectors M list_next s in
    let! m := unwrap o in Ok (Some m)
  else Ok None.
(** matrix/base/convert.rs:192-198 [TryFrom<&[T]>]. *)
Definition m_try_from_slice {T : Type} (M N : nat) (s : list T) : res (option (list (list T))) :=
  if length s =? M * N then
    let! (_, o) := m_try_from_iter M N list_next s in
    let! m := unwrap o in Ok (Some m)
  else Ok None.

(** base/iter.rs:90-92 [Matrix::indices]; [x / N] panics for [N = 0]. *)
Definition m_indices (M N : nat) : res (list (list (nat * nat))) :=
  let! (_, o) :=
    m_try_from_iter M N
      (map_next (fun x => if N =? 0 then Panic else Ok (x / N, x mod N)) range_next)
      (0, M * N) in
  unwrap o.

(* ------------------------------------------------------------------------- *)
(** * matrix/transpose.rs                                                      *)

(** transpose.rs:15-19, the inner loop: [mem::swap(d.get_unchecked_mut(j, i), s.get_unchecked_mut(i, j))]
    for the [left] columns from [j] on. *)
Fixpoint tr_row {T : Type} (left i j : nat) (s d : list (cells T)) : res (list (cells T) * list (cells T)) :=
  match left with
  | O => Ok (s, d)
  | S l =>
      let! x := m_get_unchecked d j i in
      let! y := m_get_unchecked s i j in
      let! d1 := m_set_unchecked d j i y in
      let! s1 := m_set_unchecked s i j x in
      tr_row l i (S j) s1 d1
  end.
(** transpose.rs:14-20, the outer loop. *)
Fixpoint tr_rows {T : Type} (left N i : nat) (s d : list (cells T)) : res (list (cells T) * list (cells T)) :=
  match left with
  | O => Ok (s, d)
  | S l => let! (s1, d1) := tr_row N i 0 s d in tr_rows l N (S i) s1 d1
  end.
(** transpose.rs:8-23 [transpose].  [m_transpose_full] also returns the cells of the source after the
    loop: the source is forgotten (line 10), so its contents are never dropped. *)
Definition m_transpose_full {T : Type} (M N : nat) (m : list (list T))
  : res (list (cells T) * list (list T)) :=
  let! (s, d) := tr_rows M N 0 (map (map (@Some T)) m) (m_uninit N M) in
  let! r := m_assume_init d in
  Ok (s, r).
(** matrix/transpose.rs:8-23 [transpose]. *)
Definition m_transpose {T : Type} (M N : nat) (m : list (list T)) : res (list (list T)) :=
  let! (_, r) := m_transpose_full M N m in Ok r.

(* ------------------------------------------------------------------------- *)
(** * matrix/ops                                                               *)

(** The idiom [self.zip(other).map(|(x, y)| op(x, y))]. *)
Definition m_zip_map {A B C : Type} (M N : nat) (op : A -> B -> res C) (a : list (list A))
  (b : list (list B)) : res (list (list C)) :=
  let! z := m_zip M N a b in m_map (fun '(x, y) => op x y) z.

(** The references yielded by [iter_mut] of an [M]x[N] matrix: positions, row by row. *)
Definition m_refs (M N : nat) : list (list (nat * nat)) :=
  map (fun i => map (fun j => (i, j)) (seq 0 N)) (seq 0 M).

(** [*s op= x] through the reference [p]: writes the new value, or panics leaving it unchanged.
    References from [iter_mut] are always in bounds; here that is checked. *)
Definition m_ref_update {T : Type} (upd : T -> res T) (m : list (list T)) (p : nat * nat)
  : list (list T) * res unit :=
  match m_get_unchecked m (fst p) (snd p) with
  | Ok x =>
      match upd x with
      | Ok y => match m_set_unchecked m (fst p) (snd p) y with
                | Ok m1 => (m1, Ok tt)
                | Panic => (m, Panic) | UB => (m, UB) | Fuel => (m, Fuel)
                end
      | Panic => (m, Panic) | UB => (m, UB) | Fuel => (m, Fuel)
      end
  | Panic => (m, Panic) | UB => (m, UB) | Fuel => (m, Fuel)
  end.

(** ops/base.rs:100-104, 110-114, 120-124, 130-134, 140-144 and ops/bit.rs:49-53, 59-63, 69-73:
    [self.iter_mut().zip(vec.into_iter()).for_each(|(s, x)| *s op= x)].
    Result: contents of [self] afterwards, and the outcome. *)
Definition m_assign {T U : Type} (M N : nat) (opa : T -> U -> res T) (self : list (list T))
  (vec : list (list U)) : list (list T) * res unit :=
  match m_iter (m_refs M N), m_iter vec with
  | Ok it, Ok iv =>
      iter_for_each (S (M * N)) (zip_next m_iter_next m_iter_next)
        (fun m '(p, x) => m_ref_update (fun s => opa s x) m p) (it, iv) self
  | Ok _, Panic => (self, Panic) | Ok _, UB => (self, UB) | Ok _, Fuel => (self, Fuel)
  | Panic, _ => (self, Panic) | UB, _ => (self, UB) | Fuel, _ => (self, Fuel)
  end.
(** ops/base.rs:151-155, 161-165, 171-175: compound assignment by a scalar. *)
Definition m_assign_scalar {T U : Type} (M N : nat) (opa : T -> U -> res T) (self : list (list T))
  (a : U) : list (list T) * res unit :=
  match m_iter (m_refs M N) with
  | Ok it =>
      iter_for_each (S (M * N)) m_iter_next
        (fun m p => m_ref_update (fun s => opa s a) m p) it self
  | Panic => (self, Panic) | UB => (self, UB) | Fuel => (self, Fuel)
  end.

Section MArith.
  Context {T : Type} (o : Ops T).

  (** ops/base.rs:17-19 [Neg]. *)
  Definition m_neg (m : list (list T)) : res (list (list T)) := m_map (o_neg o) m.
  (** ops/base.rs:27-29, 36-38, 45-47, 54-56, 63-65 [Add], [Sub], [Mul], [Div], [Rem]. *)
  Definition m_add (M N : nat) (a b : list (list T)) := m_zip_map M N (o_add o) a b.
  (** matrix/ops/base.rs:36-38 [Sub]. *)
  Definition m_sub (M N : nat) (a b : list (list T)) := m_zip_map M N (o_sub o) a b.
  (** matrix/ops/base.rs:45-47 [Mul]. *)
  Definition m_mul (M N : nat) (a b : list (list T)) := m_zip_map M N (o_mul o) a b.
  (** matrix/ops/base.rs:54-56 [Div]. *)
  Definition m_div (M N : nat) (a b : list (list T)) := m_zip_map M N (o_div o) a b.
  (** matrix/ops/base.rs:63-65 [Rem]. *)
  Definition m_rem (M N : nat) (a b : list (list T)) := m_zip_map M N (o_rem o) a b.
  (** ops/base.rs:73-75, 82-84, 91-93: by a scalar. *)
  Definition m_smul (m : list (list T)) (a : T) := m_map (fun x => o_mul o x a) m.
  (** matrix/ops/base.rs:82-84 [Div] by a scalar. *)
  Definition m_sdiv (m : list (list T)) (a : T) := m_map (fun x => o_div o x a) m.
  (** matrix/ops/base.rs:91-93 [Rem] by a scalar. *)
  Definition m_srem (m : list (list T)) (a : T) := m_map (fun x => o_rem o x a) m.

  (** ops/base.rs:182-187 [Zero]. *)
  Definition m_zero (M N : nat) : res (list (list T)) := m_init_const M N (Ok (o_zero o)).
  (** matrix/ops/base.rs:185-187 [is_zero]. *)
  Definition m_is_zero (M N : nat) (m : list (list T)) : res bool :=
    let! it := m_iter m in iter_all (S (M * N)) m_iter_next (o_is_zero o) it.

  (** ops/base.rs:191-208 [sum], [max], [min]. *)
  Definition m_sum (m : list (list T)) : res T := m_fold_first (o_add o) m.
  (** matrix/ops/base.rs:197-202 [max]. *)
  Definition m_max (m : list (list T)) : res T :=
    m_fold_first (fun x y => Ok (if o_lt o x y then y else x)) m.
  (** matrix/ops/base.rs:203-208 [min]. *)
  Definition m_min (m : list (list T)) : res T :=
    m_fold_first (fun x y => Ok (if o_lt o x y then x else y)) m.

  (** ops/iter.rs:9-11 [Sum], 15-17 [Product]. *)
  Definition m_iter_sum (M N : nat) (ms : list (list (list T))) : res (list (list T)) :=
    let! z := m_zero M N in fold_res (m_add M N) z ms.
  (** matrix/ops/iter.rs:15-17 [Product]. *)
  Definition m_iter_product (M N : nat) (ms : list (list (list T))) : res (list (list T)) :=
    let! z := m_init_const M N (Ok (o_one o)) in fold_res (m_mul M N) z ms.

  (** ops/base.rs:216-218 [norm_l1], 225-230 [norm_l2_sqr], [norm_l2], 237-239 [norm_l_inf]. *)
  Definition m_norm_l1 (n1 : T -> res T) (m : list (list T)) : res T :=
    let! a := m_map n1 m in m_sum a.
  (** matrix/ops/base.rs:225-227 [norm_l2_sqr]. *)
  Definition m_norm_l2_sqr (m : list (list T)) : res T :=
    let! p := m_map (fun x => o_mul o x x) m in m_sum p.
  (** matrix/ops/base.rs:228-230 [norm_l2]. *)
  Definition m_norm_l2 (sqrt : T -> T) (m : list (list T)) : res T :=
    let! s := m_norm_l2_sqr m in Ok (sqrt s).
  (** matrix/ops/base.rs:237-239 [norm_l_inf]. *)
  Definition m_norm_l_inf (ninf : T -> res T) (m : list (list T)) : res T :=
    let! a := m_map ninf m in m_max a.

  (** ops/vcmp.rs:8-13, 19-30. *)
  Definition m_veq (M N : nat) (a b : list (list T)) := m_zip_map M N (ok2 (o_eq o)) a b.
  (** matrix/ops/vcmp.rs:11-13 [vne]. *)
  Definition m_vne (M N : nat) (a b : list (list T)) :=
    m_zip_map M N (ok2 (fun x y => negb (o_eq o x y))) a b.
  (** matrix/ops/vcmp.rs:19-21 [vlt]. *)
  Definition m_vlt (M N : nat) (a b : list (list T)) := m_zip_map M N (ok2 (o_lt o)) a b.
  (** matrix/ops/vcmp.rs:22-24 [vle]. *)
  Definition m_vle (M N : nat) (a b : list (list T)) := m_zip_map M N (ok2 (o_le o)) a b.
  (** matrix/ops/vcmp.rs:25-27 [vgt]; [x > y] is [y < x]. *)
  Definition m_vgt (M N : nat) (a b : list (list T)) :=
    m_zip_map M N (ok2 (fun x y => o_lt o y x)) a b.
  (** matrix/ops/vcmp.rs:28-30 [vge]; [x >= y] is [y <= x]. *)
  Definition m_vge (M N : nat) (a b : list (list T)) :=
    m_zip_map M N (ok2 (fun x y => o_le o y x)) a b.

  (** base/mod.rs:11 [#[derive(PartialEq)]]. *)
  Fixpoint m_eq (a b : list (list T)) : bool :=
    match a, b with
    | [], [] => true
    | x :: a', y :: b' => v_eq o x y && m_eq a' b'
    | _, _ => false
    end.

  (* ----------------------------------------------------------------------- *)
  (** * matrix/product.rs                                                      *)

  (** product.rs:12-14 [outer]: [self : Vector<T, M>], [other : Vector<T, N>]. *)
  Definition m_outer (M N : nat) (u v : list T) : res (list (list T)) :=
    let! ix := m_indices M N in
    m_map (fun '(i, j) => lift2 (o_mul o) (v_index u i) (v_index v j)) ix.
  (** product.rs:22-24 matrix by vector: [Matrix<T, M, N>] by [Vector<T, N>]. *)
  Definition m_dot_v (M N : nat) (m : list (list T)) (v : list T) : res (list T) :=
    let! is := v_indices M in
    v_map (fun i => let! r := m_row m i in v_dot o N r v) is.
  (** product.rs:32-34 vector by matrix: [Vector<T, M>] by [Matrix<T, M, N>]. *)
  Definition v_dot_m (M N : nat) (v : list T) (m : list (list T)) : res (list T) :=
    let! js := v_indices N in
    v_map (fun j => let! c := m_col M m j in v_dot o M v c) js.
  (** product.rs:42-44 matrix by matrix: [Matrix<T, L, M>] by [Matrix<T, M, N>]. *)
  Definition m_dot (L M N : nat) (a b : list (list T)) : res (list (list T)) :=
    let! ix := m_indices L N in
    m_map (fun '(i, j) => let! r := m_row a i in let! c := m_col M b j in v_dot o M r c) ix.
End MArith.

(** ops/bit.rs:12-14 [Not]; 22-24, 31-33, 40-42 [BitAnd], [BitOr], [BitXor]. *)
Definition m_not {T : Type} (bnot : T -> res T) (m : list (list T)) := m_map bnot m.
(** matrix/ops/bit.rs:22-24, 31-33, 40-42 [BitAnd], [BitOr], [BitXor]. *)
Definition m_bitop {T : Type} (M N : nat) (op : T -> T -> res T) (a b : list (list T)) :=
  m_zip_map M N op a b.
(** ops/bit.rs:77-79 [any], 82-84 [all]. *)
Definition m_any (M N : nat) (m : list (list bool)) : res bool :=
  let! it := m_iter m in iter_any (S (M * N)) m_iter_next (fun x => x) it.
(** matrix/ops/bit.rs:82-84 [all]. *)
Definition m_all (M N : nat) (m : list (list bool)) : res bool :=
  let! it := m_iter m in iter_all (S (M * N)) m_iter_next (fun x => x) it.

(** ops/int.rs:8-18. *)
Definition m_div_floor {T : Type} (M N : nat) (df : T -> T -> res T) (a b : list (list T)) :=
  m_zip_map M N df a b.
(** matrix/ops/int.rs:11-13 [mod_floor]. *)
Definition m_mod_floor {T : Type} (M N : nat) (mf : T -> T -> res T) (a b : list (list T)) :=
  m_zip_map M N mf a b.
(** matrix/ops/int.rs:14-18 [div_mod_floor]. *)
Definition m_div_mod_floor {T : Type} (M N : nat) (dmf : T -> T -> res (T * T))
  (a b : list (list T)) : res (list (list T) * list (list T)) :=
  let! l := m_zip_map M N dmf a b in m_unzip M N l.
