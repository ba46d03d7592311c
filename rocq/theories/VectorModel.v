(** Model of [src/vector]: containers, iteration, element-wise operators, dot, norms, special
    accessors.  A [Vector<T, N>] is a [list T]; the type-level length [N] is an explicit argument
    wherever the code uses it.  Line numbers refer to the files in /repo. *)
From Verif Require Export Res.
Set Implicit Arguments.

(* ------------------------------------------------------------------------- *)
(** * Iterators: [Iterator::next] as a state machine                           *)

(** The type of [next] of an iterator with items [A] and state [S]. *)
Definition next_fn (S A : Type) : Type := S -> res (S * option A).

(** [core::array::IntoIter] / [slice::Iter] / [slice::IterMut] over the remaining elements; iter.rs:12-18, 24-42 [iter],
    [iter_mut], [into_iter] give out these. *)
Definition list_next {A : Type} : next_fn (list A) A :=
  fun l => match l with [] => Ok ([], None) | a :: t => Ok (t, Some a) end.

(** [core::ops::Range<usize>]: [lo..hi]. *)
Definition range_next : next_fn (nat * nat) nat :=
  fun '(lo, hi) => if lo <? hi then Ok ((S lo, hi), Some lo) else Ok ((lo, hi), None).

(** [Iterator::zip]: asks the first iterator, and only if it yields, the second. *)
Definition zip_next {SA SB A B : Type} (na : next_fn SA A) (nb : next_fn SB B)
  : next_fn (SA * SB) (A * B) :=
  fun '(sa, sb) =>
    let! (sa1, oa) := na sa in
    match oa with
    | None => Ok ((sa1, sb), None)
    | Some a =>
        let! (sb1, ob) := nb sb in
        match ob with
        | None => Ok ((sa1, sb1), None)
        | Some b => Ok ((sa1, sb1), Some (a, b))
        end
    end.

(** [Iterator::map] with a closure. *)
Definition map_next {S A B : Type} (f : A -> res B) (n : next_fn S A) : next_fn S B :=
  fun s =>
    let! (s1, oa) := n s in
    match oa with
    | None => Ok (s1, None)
    | Some a => let! b := f a in Ok (s1, Some b)
    end.

(** [Iterator::scan] with the closure [|s, x| Some(f(s, x))], [f : FnMut(&mut St, A) -> B]. *)
Definition scan_next {S St A B : Type} (f : St -> A -> res (St * B)) (n : next_fn S A)
  : next_fn (S * St) B :=
  fun '(s, st) =>
    let! (s1, oa) := n s in
    match oa with
    | None => Ok ((s1, st), None)
    | Some a => let! (st1, b) := f st a in Ok ((s1, st1), Some b)
    end.

(* ------------------------------------------------------------------------- *)
(** * vector/base/init.rs                                                      *)

(** [MaybeUninit<T>] cells: [None] is uninitialised. *)
Definition cells (T : Type) : Type := list (option T).

(** init.rs:24-26 [Vector::uninit]. *)
Definition v_uninit {T : Type} (N : nat) : cells T := repeat None N.

(** init.rs:30-32 [assume_init]: undefined behaviour if some cell is uninitialised. *)
Fixpoint v_assume_init {T : Type} (c : cells T) : res (list T) :=
  match c with
  | [] => Ok []
  | None :: _ => UB
  | Some x :: t => let! l := v_assume_init t in Ok (x :: l)
  end.

(** init.rs:40-42, the loop of [init]: [for x in a.data.iter_mut() { *x = MaybeUninit::new(f()); }].
    [left] cells remain to be visited, the next one is number [pos]. *)
Fixpoint v_init_loop {C T : Type} (f : C -> res (C * T)) (left pos : nat) (c : C) (a : cells T)
  : res (C * cells T) :=
  match left with
  | O => Ok (c, a)
  | S l => let! (c1, y) := f c in v_init_loop f l (S pos) c1 (list_set a pos (Some y))
  end.

(** init.rs:37-45 [Vector::init]; the [FnMut() -> T] closure is [f] with captured state [c]. *)
Definition v_init {C T : Type} (N : nat) (f : C -> res (C * T)) (c : C) : res (C * list T) :=
  let! (c1, a) := v_init_loop f N 0 c (v_uninit N) in
  let! l := v_assume_init a in
  Ok (c1, l).

(** [init] with a closure without state. *)
Definition v_init_const {T : Type} (N : nat) (f : res T) : res (list T) :=
  let! (_, l) := v_init N (fun _ : unit => let! y := f in Ok (tt, y)) tt in Ok l.

(** init.rs:53-55 [Default::default] ([dflt] is [T::default()]); init.rs:63-65 [new]. *)
Definition v_default {T : Type} (N : nat) (dflt : T) : res (list T) := v_init_const N (Ok dflt).
(** vector/base/init.rs:63-65 [new]. *)
Definition v_new {T : Type} (N : nat) (dflt : T) : res (list T) := v_default N dflt.
(** init.rs:73-75 [fill]. *)
Definition v_fill {T : Type} (N : nat) (v : T) : res (list T) := v_init_const N (Ok v).

(** init.rs:80-94 [from_array], [into_array], [as_array], [as_mut_array]; init.rs:97-135 the [From],
    [AsRef], [AsMut] impls call them. *)
Definition v_from_array {T : Type} (a : list T) : list T := a.
(** vector/base/init.rs:84-86 [into_array]; 111-113 [From]. *)
Definition v_into_array {T : Type} (v : list T) : list T := v.
(** vector/base/init.rs:88-94 [as_array], [as_mut_array]; 116-134 [From], [AsRef], [AsMut]: the same elements, viewed. *)
Definition v_as_array {T : Type} (v : list T) : list T := v.

(** init.rs:139-141 [Index], init.rs:145-147 [IndexMut] followed by a write. *)
Definition v_index {T : Type} (v : list T) (i : nat) : res T := index v i.
(** vector/base/init.rs:145-147 [IndexMut] followed by a write. *)
Definition v_index_set {T : Type} (v : list T) (i : nat) (x : T) : res (list T) := index_set v i x.
(** init.rs:160-166 [get_unchecked], [get_unchecked_mut] followed by a write. *)
Definition v_get_unchecked {T : Type} (v : list T) (i : nat) : res T := index_unchecked v i.
(** vector/base/init.rs:164-166 [get_unchecked_mut] followed by a write. *)
Definition v_set_unchecked {T : Type} (v : list T) (i : nat) (x : T) : res (list T) :=
  index_set_unchecked v i x.

(* ------------------------------------------------------------------------- *)
(** * vector/base/iter.rs                                                      *)

(** iter.rs:50-52 [TryFrom<&[T]>]: the standard library's slice-to-array conversion succeeds exactly
    for slices of length [N]. *)
Definition v_try_from_slice {T : Type} (N : nat) (s : list T) : option (list T) :=
  if length s =? N then Some (v_from_array s) else None.

(** iter.rs:65-69, the loop of [try_from_iter]:
    [for (x, y) in a.iter_mut().zip(iter) { replace(x, new(y)); pos += 1; }].
    [iter_mut()] is asked first, so [next] is not called when no cell is left. *)
Fixpoint tfi_loop {S A : Type} (next : next_fn S A) (left pos : nat) (a : cells A) (s : S)
  : res (S * cells A * nat) :=
  match left with
  | O => Ok (s, a, pos)
  | Datatypes.S l =>
      let! (s1, oy) := next s in
      match oy with
      | None => Ok (s1, a, pos)
      | Some y => tfi_loop next l (Datatypes.S pos) (list_set a pos (Some y)) s1
      end
  end.

(** iter.rs:79-83: [for x in a.as_mut().get_unchecked_mut(0..pos) { replace(x, uninit()).assume_init(); }].
    The taken value is dropped; returns the values dropped, in order.  Undefined behaviour if the
    range is out of bounds or a cell is uninitialised.  (A panicking destructor is not modelled.) *)
Fixpoint tfi_drop {A : Type} (a : cells A) (pos : nat) : res (list A) :=
  match pos, a with
  | O, _ => Ok []
  | S _, [] => UB
  | S _, None :: _ => UB
  | S p, Some x :: t => let! d := tfi_drop t p in Ok (x :: d)
  end.

(** iter.rs:59-86 [Vector::try_from_iter].  Result: the list of element values that were dropped
    during the call (also when it panics: unwinding drops the [MaybeUninit] cells without dropping
    their content), and the outcome with the iterator state it leaves behind. *)
Definition tfi {S A : Type} (N : nat) (next : next_fn S A) (s : S)
  : list A * res (S * option (list A)) :=
  match tfi_loop next N 0 (v_uninit N) s with
  | Ok (s1, a, pos) =>
      if N <? pos then ([], Panic)                             (* unreachable!() *)
      else if pos =? N then
        ([], let! l := v_assume_init a in Ok (s1, Some l))
      else
        match tfi_drop a pos with
        | Ok d => (d, Ok (s1, None))
        | Panic => ([], Panic) | UB => ([], UB) | Fuel => ([], Fuel)
        end
  | Panic => ([], Panic)
  | UB => ([], UB)
  | Fuel => ([], Fuel)
  end.

(** The outcome of [try_from_iter], without the drop log. *)
Definition v_try_from_iter {S A : Type} (N : nat) (next : next_fn S A) (s : S)
  : res (S * option (list A)) := snd (tfi N next s).

(** [Vector::try_from_iter(it).unwrap()], forgetting the iterator. *)
Definition v_from_iter_unwrap {S A : Type} (N : nat) (next : next_fn S A) (s : S) : res (list A) :=
  let! (_, o) := v_try_from_iter N next s in unwrap o.

(** iter.rs:91-93 [Vector::indices]. *)
Definition v_indices (N : nat) : res (list nat) := v_from_iter_unwrap N range_next (0, N).

(** iter.rs:98-100 [for_each]: [into_iter().for_each(f)], [f] a closure with state. *)
Definition v_for_each_st {C T : Type} (f : C -> T -> res C) (c : C) (v : list T) : res C :=
  fold_res f c v.

(** iter.rs:102-104 [map]: [into_array().map(f).into()]; [core::array::map] calls [f] in index order. *)
Definition v_map_st {C A B : Type} (f : C -> A -> res (C * B)) (c : C) (v : list A)
  : res (C * list B) := map_st f c v.
(** The same with a closure that has no state of its own. *)
Definition v_map {A B : Type} (f : A -> res B) (v : list A) : res (list B) :=
  let! (_, l) := v_map_st (fun (_ : unit) a => let! b := f a in Ok (tt, b)) tt v in Ok l.

(** iter.rs:106-108 [zip]. *)
Definition v_zip {T U : Type} (N : nat) (v : list T) (w : list U) : res (list (T * U)) :=
  v_from_iter_unwrap N (zip_next list_next list_next) (v, w).

(** iter.rs:110-112 [enumerate]. *)
Definition v_enumerate {T : Type} (N : nat) (v : list T) : res (list (nat * T)) :=
  let! i := v_indices N in v_zip N i v.

(** iter.rs:121-124, the loop of [unzip]:
    [for ((x, y), (u, v)) in self.into_iter().zip(a.iter_mut().zip(b.iter_mut()))]. *)
Fixpoint v_unzip_loop {T U : Type} (left pos : nat) (v : list (T * U)) (a : cells T) (b : cells U)
  : cells T * cells U :=
  match v, left with
  | (x, y) :: t, S l => v_unzip_loop l (S pos) t (list_set a pos (Some x)) (list_set b pos (Some y))
  | _, _ => (a, b)
  end.

(** iter.rs:117-127 [unzip]. *)
Definition v_unzip {T U : Type} (N : nat) (v : list (T * U)) : res (list T * list U) :=
  let (a, b) := v_unzip_loop N 0 v (v_uninit N) (v_uninit N) in
  let! x := v_assume_init a in
  let! y := v_assume_init b in
  Ok (x, y).

(** iter.rs:131-133 [fold].  Captured state of the [FnMut] closure is part of the accumulator. *)
Definition v_fold {S T : Type} (f : S -> T -> res S) (s : S) (v : list T) : res S := fold_res f s v.

(** iter.rs:134-138 [fold_first]. *)
Definition v_fold_first {T : Type} (f : T -> T -> res T) (v : list T) : res T :=
  let! (t, o) := list_next v in
  let! x := unwrap o in
  fold_res f x t.

(** iter.rs:139-141 [scan].  Captured state of the closure is part of the scan state. *)
Definition v_scan_st {S T U : Type} (N : nat) (f : S -> T -> res (S * U)) (s : S) (v : list T)
  : res (S * list U) :=
  let! (st, o) := v_try_from_iter N (scan_next f list_next) (v, s) in
  let! l := unwrap o in
  Ok (snd st, l).
(** vector/base/iter.rs:139-141 [scan], forgetting the final state. *)
Definition v_scan {S T U : Type} (N : nat) (f : S -> T -> res (S * U)) (s : S) (v : list T)
  : res (list U) := let! (_, l) := v_scan_st N f s v in Ok l.

(** iter.rs:164-166 [GroupIter::next]; 154-156 [new] wraps the iterator. *)
Definition group_next {S A : Type} (N : nat) (n : next_fn S A) : next_fn S (list A) :=
  fun s => v_try_from_iter N n s.

(* ------------------------------------------------------------------------- *)
(** * vector/ops                                                               *)

(** The idiom [self.zip(other).map(|(x, y)| op(x, y))] used by all binary operators. *)
Definition v_zip_map {A B C : Type} (N : nat) (op : A -> B -> res C) (u : list A) (v : list B)
  : res (list C) :=
  let! z := v_zip N u v in v_map (fun '(x, y) => op x y) z.

Section Arith.
  Context {T : Type} (o : Ops T).

  (** base.rs:17-19 [Neg]. *)
  Definition v_neg (v : list T) : res (list T) := v_map (o_neg o) v.
  (** base.rs:27-29, 36-38, 45-47, 54-56, 63-65 [Add], [Sub], [Mul], [Div], [Rem] by a vector. *)
  Definition v_add (N : nat) (u v : list T) : res (list T) := v_zip_map N (o_add o) u v.
  (** vector/ops/base.rs:36-38 [Sub]. *)
  Definition v_sub (N : nat) (u v : list T) : res (list T) := v_zip_map N (o_sub o) u v.
  (** vector/ops/base.rs:45-47 [Mul]. *)
  Definition v_mul (N : nat) (u v : list T) : res (list T) := v_zip_map N (o_mul o) u v.
  (** vector/ops/base.rs:54-56 [Div]. *)
  Definition v_div (N : nat) (u v : list T) : res (list T) := v_zip_map N (o_div o) u v.
  (** vector/ops/base.rs:63-65 [Rem]. *)
  Definition v_rem (N : nat) (u v : list T) : res (list T) := v_zip_map N (o_rem o) u v.
  (** base.rs:73-75, 82-84, 91-93 [Mul], [Div], [Rem] by a scalar. *)
  Definition v_smul (v : list T) (a : T) : res (list T) := v_map (fun x => o_mul o x a) v.
  (** vector/ops/base.rs:82-84 [Div] by a scalar. *)
  Definition v_sdiv (v : list T) (a : T) : res (list T) := v_map (fun x => o_div o x a) v.
  (** vector/ops/base.rs:91-93 [Rem] by a scalar. *)
  Definition v_srem (v : list T) (a : T) : res (list T) := v_map (fun x => o_rem o x a) v.
  (** base.rs:177-190 [reverse_mul!]: scalar * vector for the primitive types. *)
  Definition v_rsmul (a : T) (v : list T) : res (list T) := v_smul v a.

  (** base.rs:205-210 [Zero]. *)
  Definition v_zero (N : nat) : res (list T) := v_init_const N (Ok (o_zero o)).
  (** vector/ops/base.rs:208-210 [is_zero]. *)
  Definition v_is_zero (v : list T) : bool := forallb (o_is_zero o) v.

  (** base.rs:214-231 [sum], [max], [min]. *)
  Definition v_sum (v : list T) : res T := v_fold_first (o_add o) v.
  (** vector/ops/base.rs:220-225 [max]. *)
  Definition v_max (v : list T) : res T :=
    v_fold_first (fun x y => Ok (if o_lt o x y then y else x)) v.
  (** vector/ops/base.rs:226-231 [min]. *)
  Definition v_min (v : list T) : res T :=
    v_fold_first (fun x y => Ok (if o_lt o x y then x else y)) v.

  (** ops/iter.rs:9-11 [Sum], ops/iter.rs:15-17 [Product]; the iterator yields the given vectors. *)
  Definition v_iter_sum (N : nat) (vs : list (list T)) : res (list T) :=
    let! z := v_zero N in fold_res (v_add N) z vs.
  (** vector/ops/iter.rs:15-17 [Product]. *)
  Definition v_iter_product (N : nat) (vs : list (list T)) : res (list T) :=
    let! z := v_init_const N (Ok (o_one o)) in fold_res (v_mul N) z vs.

  (** dot.rs:10-12 [Dot for Vector]. *)
  Definition v_dot (N : nat) (u v : list T) : res T :=
    let! p := v_zip_map N (o_mul o) u v in v_sum p.
  (** dot.rs:19-21 [square_length]. *)
  Definition v_square_length (v : list T) : res T :=
    let! p := v_map (fun x => o_mul o x x) v in v_sum p.
  (** dot.rs:28-30 [length] and dot.rs:31-33 [normalize]; [sqrt] is [Float::sqrt]. *)
  Definition v_length (sqrt : T -> T) (v : list T) : res T :=
    let! s := v_square_length v in Ok (sqrt s).
  (** vector/dot.rs:31-33 [normalize]; 40-42 [Normalize]. *)
  Definition v_normalize (sqrt : T -> T) (v : list T) : res (list T) :=
    let! l := v_length sqrt v in v_sdiv v l.

  (** base.rs:239-241 [norm_l1], 248-253 [norm_l2_sqr]/[norm_l2], 260-262 [norm_l_inf];
      [n1]/[ninf] are the scalar's [norm_l1]/[norm_l_inf]. *)
  Definition v_norm_l1 (n1 : T -> res T) (v : list T) : res T :=
    let! a := v_map n1 v in v_sum a.
  (** vector/ops/base.rs:248-250 [norm_l2_sqr]. *)
  Definition v_norm_l2_sqr (v : list T) : res T :=
    let! p := v_map (fun x => o_mul o x x) v in v_sum p.
  (** vector/ops/base.rs:251-253 [norm_l2]. *)
  Definition v_norm_l2 (sqrt : T -> T) (v : list T) : res T :=
    let! s := v_norm_l2_sqr v in Ok (sqrt s).
  (** vector/ops/base.rs:260-262 [norm_l_inf]. *)
  Definition v_norm_l_inf (ninf : T -> res T) (v : list T) : res T :=
    let! a := v_map ninf v in v_max a.

  (** vcmp.rs:8-13, 19-30. *)
  Definition v_veq (N : nat) (u v : list T) : res (list bool) := v_zip_map N (ok2 (o_eq o)) u v.
  (** vector/ops/vcmp.rs:11-13 [vne]. *)
  Definition v_vne (N : nat) (u v : list T) : res (list bool) :=
    v_zip_map N (ok2 (fun x y => negb (o_eq o x y))) u v.
  (** vector/ops/vcmp.rs:19-21 [vlt]. *)
  Definition v_vlt (N : nat) (u v : list T) : res (list bool) := v_zip_map N (ok2 (o_lt o)) u v.
  (** vector/ops/vcmp.rs:22-24 [vle]. *)
  Definition v_vle (N : nat) (u v : list T) : res (list bool) := v_zip_map N (ok2 (o_le o)) u v.
  (** vector/ops/vcmp.rs:25-27 [vgt]; [x > y] is [y < x]. *)
  Definition v_vgt (N : nat) (u v : list T) : res (list bool) :=
    v_zip_map N (ok2 (fun x y => o_lt o y x)) u v.
  (** vector/ops/vcmp.rs:28-30 [vge]; [x >= y] is [y <= x]. *)
  Definition v_vge (N : nat) (u v : list T) : res (list bool) :=
    v_zip_map N (ok2 (fun x y => o_le o y x)) u v.

  (** base/mod.rs:12 [#[derive(PartialEq)]]: equality of the underlying arrays. *)
  Fixpoint v_eq (u v : list T) : bool :=
    match u, v with
    | [], [] => true
    | x :: u', y :: v' => o_eq o x y && v_eq u' v'
    | _, _ => false
    end.
End Arith.

(** bit.rs:9-11 [Not]; 19-21, 28-30, 37-39 [BitAnd], [BitOr], [BitXor]: the scalar operation [op] is
    [&], [|] or [^]. *)
Definition v_not {T : Type} (bnot : T -> res T) (v : list T) : res (list T) := v_map bnot v.
(** vector/ops/bit.rs:19-21, 28-30, 37-39 [BitAnd], [BitOr], [BitXor]. *)
Definition v_bitop {T : Type} (N : nat) (op : T -> T -> res T) (u v : list T) : res (list T) :=
  v_zip_map N op u v.
(** bit.rs:74-76 [any], bit.rs:79-81 [all]: short-circuiting searches; closures are pure. *)
Definition v_any (v : list bool) : bool := existsb (fun x => x) v.
(** vector/ops/bit.rs:79-81 [all]. *)
Definition v_all (v : list bool) : bool := forallb (fun x => x) v.

(** int.rs:8-18; [df], [mf] are [num_integer::div_floor], [mod_floor] and [dmf] [div_mod_floor]. *)
Definition v_div_floor {T : Type} (N : nat) (df : T -> T -> res T) (u v : list T) : res (list T) :=
  v_zip_map N df u v.
(** vector/ops/int.rs:11-13 [mod_floor]. *)
Definition v_mod_floor {T : Type} (N : nat) (mf : T -> T -> res T) (u v : list T) : res (list T) :=
  v_zip_map N mf u v.
(** vector/ops/int.rs:14-18 [div_mod_floor]. *)
Definition v_div_mod_floor {T : Type} (N : nat) (dmf : T -> T -> res (T * T)) (u v : list T)
  : res (list T * list T) :=
  let! l := v_zip_map N dmf u v in v_unzip N l.

(** base.rs:100-104, 110-114, 120-124, 130-134, 140-144 and bit.rs:46-50, 56-60, 66-70: compound
    assignment by a vector, [self.iter_mut().zip(vec.into_iter()).for_each(|(s, x)| *s op= x)].
    [opa s x] is the new value of [*s] (or a failure, which leaves [*s] as it was).
    Result: the contents of [self] afterwards, and the outcome; when a scalar operation panics the
    elements already visited keep their new values. *)
Fixpoint v_assign {T U : Type} (opa : T -> U -> res T) (self : list T) (vec : list U)
  : list T * res unit :=
  match self, vec with
  | s :: self', x :: vec' =>
      match opa s x with
      | Ok s1 => let (l, r) := v_assign opa self' vec' in (s1 :: l, r)
      | Panic => (self, Panic) | UB => (self, UB) | Fuel => (self, Fuel)
      end
  | _, _ => (self, Ok tt)
  end.
(** base.rs:151-155, 161-165, 171-175: compound assignment by a scalar. *)
Fixpoint v_assign_scalar {T U : Type} (opa : T -> U -> res T) (self : list T) (a : U)
  : list T * res unit :=
  match self with
  | s :: self' =>
      match opa s a with
      | Ok s1 => let (l, r) := v_assign_scalar opa self' a in (s1 :: l, r)
      | Panic => (self, Panic) | UB => (self, UB) | Fuel => (self, Fuel)
      end
  | [] => ([], Ok tt)
  end.

(* ------------------------------------------------------------------------- *)
(** * vector/spec.rs                                                           *)

(** spec.rs:9-14, 20-28, 34-45 [x], [y], [z], [w] and 49-54, 63-71, 83-94 [*_ref] (N = 2, 3, 4). *)
Definition v_x {T : Type} (v : list T) : res T := v_get_unchecked v 0.
(** vector/spec.rs:12-14, 23-25, 37-39 [y]; 52-54, 66-68, 86-88 [y_ref]. *)
Definition v_y {T : Type} (v : list T) : res T := v_get_unchecked v 1.
(** vector/spec.rs:26-28, 40-42 [z]; 69-71, 89-91 [z_ref]. *)
Definition v_z {T : Type} (v : list T) : res T := v_get_unchecked v 2.
(** vector/spec.rs:43-45 [w]; 92-94 [w_ref]. *)
Definition v_w {T : Type} (v : list T) : res T := v_get_unchecked v 3.
(** spec.rs:55-60, 72-80, 95-106 [*_mut] followed by a write. *)
Definition v_x_set {T : Type} (v : list T) (a : T) : res (list T) := v_set_unchecked v 0 a.
(** vector/spec.rs:58-60, 75-77, 98-100 [y_mut] followed by a write. *)
Definition v_y_set {T : Type} (v : list T) (a : T) : res (list T) := v_set_unchecked v 1 a.
(** vector/spec.rs:78-80, 101-103 [z_mut] followed by a write. *)
Definition v_z_set {T : Type} (v : list T) (a : T) : res (list T) := v_set_unchecked v 2 a.
(** vector/spec.rs:104-106 [w_mut] followed by a write. *)
Definition v_w_set {T : Type} (v : list T) (a : T) : res (list T) := v_set_unchecked v 3 a.

Section Cross.
  Context {T : Type} (o : Ops T).
  Local Notation "a *! b" := (lift2 (o_mul o) a b) (at level 40, left associativity).
  Local Notation "a -! b" := (lift2 (o_sub o) a b) (at level 50, left associativity).

  (** spec.rs:114-116 2D pseudo-cross product. *)
  Definition v_cross2 (a b : list T) : res T := v_x a *! v_y b -! v_y a *! v_x b.
  (** spec.rs:123-130 3D cross product. *)
  Definition v_cross3 (a b : list T) : res (list T) :=
    let! c0 := v_y a *! v_z b -! v_z a *! v_y b in
    let! c1 := v_z a *! v_x b -! v_x a *! v_z b in
    let! c2 := v_x a *! v_y b -! v_y a *! v_x b in
    Ok (v_from_array [c0; c1; c2]).
  (** spec.rs:137-145 4D cross product. *)
  Definition v_cross4 (a b : list T) : res (list T) :=
    let! c0 := v_y a *! v_z b -! v_z a *! v_y b in
    let! c1 := v_z a *! v_x b -! v_x a *! v_z b in
    let! c2 := v_x a *! v_y b -! v_y a *! v_x b in
    Ok (v_from_array [c0; c1; c2; o_zero o]).
End Cross.

(** spec.rs:149-151, 158-160, 167-169 [from_tuple]; 152-155, 161-164, 170-178 [into_tuple];
    181-210 the [From] impls call them. *)
Definition v_from_tuple2 {T : Type} (t : T * T) : list T := let '(x, y) := t in v_from_array [x; y].
(** vector/spec.rs:158-160 [from_tuple], N = 3; 192-194 [From]. *)
Definition v_from_tuple3 {T : Type} (t : T * T * T) : list T :=
  let '(x, y, z) := t in v_from_array [x; y; z].
(** vector/spec.rs:167-169 [from_tuple], N = 4; 202-204 [From]. *)
Definition v_from_tuple4 {T : Type} (t : T * T * T * T) : list T :=
  let '(x, y, z, w) := t in v_from_array [x; y; z; w].
(** vector/spec.rs:152-155 [into_tuple], N = 2; 187-189 [From]. *)
Definition v_into_tuple2 {T : Type} (v : list T) : res (T * T) :=
  let! (i1, a) := list_next v in let! a := unwrap a in
  let! (i2, b) := list_next i1 in let! b := unwrap b in Ok (a, b).
(** vector/spec.rs:161-164 [into_tuple], N = 3; 197-199 [From]. *)
Definition v_into_tuple3 {T : Type} (v : list T) : res (T * T * T) :=
  let! (i1, a) := list_next v in let! a := unwrap a in
  let! (i2, b) := list_next i1 in let! b := unwrap b in
  let! (i3, c) := list_next i2 in let! c := unwrap c in Ok (a, b, c).
(** vector/spec.rs:170-178 [into_tuple], N = 4; 207-209 [From]. *)
Definition v_into_tuple4 {T : Type} (v : list T) : res (T * T * T * T) :=
  let! (i1, a) := list_next v in let! a := unwrap a in
  let! (i2, b) := list_next i1 in let! b := unwrap b in
  let! (i3, c) := list_next i2 in let! c := unwrap c in
  let! (i4, d) := list_next i3 in let! d := unwrap d in Ok (a, b, c, d).
