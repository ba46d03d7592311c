(** Model of who owns each element when a closure or a scalar operation fails half-way:
    [src/vector/base/{init,iter}.rs], [src/matrix/base/{init,iter}.rs], [src/vector/ops/base.rs], [src/matrix/ops/base.rs].
    A computation is the list of the values it dropped, in order (also when it panics), and its outcome.
    Standard library behaviour used (trusted): a closure that takes an argument by value owns it from then on; an
    [array::IntoIter] that goes out of scope, also by unwinding, drops the elements it has not yielded, in order; [array::map]
    drops the results it has so far and then the elements not yet passed on; [MaybeUninit] drops nothing; the fields of a
    struct are dropped in the order of their declaration.  Destructors do not panic, except in [tfi_p]. *)
From Verif Require Export MatrixModel.
Set Implicit Arguments.

(** A computation: the values it dropped, in order, and its outcome. *)
Definition ow (D A : Type) : Type := list D * res A.

Section Own.
  (** [glue x]: the values dropped when [x] is dropped. *)
  Context {D : Type}.

  (** [into_iter().fold(s, f)] ([array::IntoIter]); [for_each] is the fold over the state of the closure. *)
  Fixpoint own_fold {S X : Type} (glue : X -> list D) (f : S -> X -> ow D S) (s : S) (v : list X) : ow D S :=
    match v with
    | [] => ([], Ok s)
    | x :: t =>
        let (d, r) := f s x in
        match r with
        | Ok s1 => let (d1, r1) := own_fold glue f s1 t in (d ++ d1, r1)
        | e => (d ++ flat_map glue t, refail e)
        end
    end.
  (** [array::map]; [acc]: the results so far. *)
  Fixpoint own_map {C X Y : Type} (glue : X -> list D) (glueY : Y -> list D) (f : C -> X -> ow D (C * Y)) (c : C) (v : list X) (acc : list Y)
    : ow D (C * list Y) :=
    match v with
    | [] => ([], Ok (c, acc))
    | x :: t =>
        let (d, r) := f c x in
        match r with
        | Ok (c1, y) => let (d1, r1) := own_map glue glueY f c1 t (acc ++ [y]) in (d ++ d1, r1)
        | e => (d ++ flat_map glueY acc ++ flat_map glue t, refail e)
        end
    end.
  (** iter.rs:65-69 over [self.into_iter().scan(s, |s, x| Some(f(s, x)))]: what is left in the source, and the cells. *)
  Fixpoint own_scan_loop {S X Y : Type} (glue : X -> list D) (f : S -> X -> ow D (S * Y)) (left pos : nat) (a : cells Y) (s : S) (v : list X)
    : ow D (S * list X * cells Y * nat) :=
    match left, v with
    | O, _ => ([], Ok (s, v, a, pos))
    | Datatypes.S _, [] => ([], Ok (s, [], a, pos))
    | Datatypes.S l, x :: t =>
        let (d, r) := f s x in
        match r with
        | Ok (s1, y) => let (d1, r1) := own_scan_loop glue f l (Datatypes.S pos) (list_set a pos (Some y)) s1 t in (d ++ d1, r1)
        | e => (d ++ flat_map glue t, refail e)                (* the cells are dropped without their contents *)
        end
    end.
  (** vector/base/iter.rs:139-141 [scan]: [try_from_iter] (59-86), [unwrap], then the temporary iterator is dropped. *)
  Definition own_scan {S X Y : Type} (glue : X -> list D) (glueY : Y -> list D) (N : nat) (f : S -> X -> ow D (S * Y)) (s : S) (v : list X)
    : ow D (S * list Y) :=
    let (d, r) := own_scan_loop glue f N 0 (v_uninit N) s v in
    match r with
    | Ok (s1, rest, a, pos) =>
        if N <? pos then (d ++ flat_map glue rest, Panic)
        else if pos =? N then (d ++ flat_map glue rest, let! l := v_assume_init a in Ok (s1, l))
        else match tfi_drop a pos with
             | Ok ys => (d ++ flat_map glueY ys ++ flat_map glue rest, Panic)   (* unwrap of None *)
             | e => (d, refail e)
             end
    | e => (d, refail e)
    end.
  (** vector/base/init.rs:37-45 [init], with a closure that may itself drop values. *)
  Fixpoint own_init_loop {C Y : Type} (f : C -> ow D (C * Y)) (left pos : nat) (c : C) (a : cells Y) : ow D (C * cells Y) :=
    match left with
    | O => ([], Ok (c, a))
    | S l =>
        let (d, r) := f c in
        match r with
        | Ok (c1, y) => let (d1, r1) := own_init_loop f l (S pos) c1 (list_set a pos (Some y)) in (d ++ d1, r1)
        | e => (d, refail e)
        end
    end.
  (** vector/base/init.rs:37-45 [init]. *)
  Definition own_init {C Y : Type} (N : nat) (f : C -> ow D (C * Y)) (c : C) : ow D (C * list Y) :=
    let (d, r) := own_init_loop f N 0 c (v_uninit N) in
    (d, let! (c1, a) := r in let! l := v_assume_init a in Ok (c1, l)).
End Own.

(** A user closure: what it owns is its own affair. *)
Definition user {D A : Type} (r : res A) : ow D A := ([], r).

(** In the logs below [inl x] is an element of an operand, [inr y] a result. *)
(** vector/base/iter.rs:98-100, 131-133 [for_each], [fold]; 134-138 [fold_first]. *)
Definition v_fold_own {S T : Type} (f : S -> T -> res S) (s : S) (v : list T) : ow T S :=
  own_fold (fun x => [x]) (fun s x => user (f s x)) s v.
(** vector/base/iter.rs:98-100 [for_each]. *)
Definition v_for_each_own {C T : Type} (f : C -> T -> res C) (c : C) (v : list T) : ow T C := v_fold_own f c v.
(** vector/base/iter.rs:134-138 [fold_first]. *)
Definition v_fold_first_own {T : Type} (f : T -> T -> res T) (v : list T) : ow T T :=
  match v with
  | [] => ([], Panic)
  | x :: t => v_fold_own f x t
  end.
(** vector/base/iter.rs:102-104 [map]. *)
Definition v_map_own {C A B : Type} (f : C -> A -> res (C * B)) (c : C) (v : list A) : ow (A + B) (C * list B) :=
  own_map (fun x => [inl x]) (fun y => [inr y]) (fun c x => user (f c x)) c v [].
(** vector/base/iter.rs:139-141 [scan]. *)
Definition v_scan_own {S A B : Type} (N : nat) (f : S -> A -> res (S * B)) (s : S) (v : list A) : ow (A + B) (S * list B) :=
  own_scan (fun x => [inl x]) (fun y => [inr y]) N (fun s x => user (f s x)) s v.
(** vector/base/init.rs:37-45 [init]. *)
Definition v_init_own {C T : Type} (N : nat) (f : C -> res (C * T)) (c : C) : ow T (C * list T) :=
  own_init N (fun c => user (f c)) c.
(** vector/base/iter.rs:106-108 [zip]: [try_from_iter(..).unwrap()], then the temporary iterator is dropped. *)
Definition v_zip_own {A B : Type} (N : nat) (v : list A) (w : list B) : ow (A + B) (list (A * B)) :=
  let (d, r) := tfi N (zip_next list_next list_next) (v, w) in
  let pairs := flat_map (fun '(x, y) => [inl x; inr y]) d in
  match r with
  | Ok ((v1, w1), Some l) => (pairs ++ map inl v1 ++ map inr w1, Ok l)
  | Ok ((v1, w1), None) => (pairs ++ map inl v1 ++ map inr w1, Panic)
  | e => (pairs, refail e)
  end.
(** vector/ops/base.rs:22-68: [self.zip(vec).map(|(x, y)| x op y)], [op] taking both by value.  A pair that is dropped drops
    both its components. *)
Definition op_pair {T : Type} (op : T -> T -> res T) (_ : unit) (p : T * T) : res (unit * T) :=
  let '(x, y) := p in let! z := op x y in Ok (tt, z).
(** What dropping the remaining pairs of vector/ops/base.rs:22-68 drops. *)
Definition drop_pairs {T : Type} (log : list (T * T + T)) : list (T + T) :=
  flat_map (fun e => match e with inl (x, y) => [inl x; inl y] | inr z => [inr z] end) log.
(** vector/ops/base.rs:22-68 the operators by value. *)
Definition v_op_own {T : Type} (N : nat) (op : T -> T -> res T) (u v : list T) : ow (T + T) (list T) :=
  let (d, r) := v_zip_own N u v in
  let d0 := map (fun e : T + T => match e with inl x => inl x | inr y => inl y end) d in
  match r with
  | Ok z => let (d1, r1) := v_map_own (op_pair op) tt z in (d0 ++ drop_pairs d1, let! (_, l) := r1 in Ok l)
  | e => (d0, refail e)
  end.
(** vector/ops/base.rs:96-145: [self.iter_mut().zip(vec.into_iter()).for_each(|(s, x)| *s op= x)]: the contents of [self]
    afterwards, the elements of [vec] dropped, the outcome.  ([iter_mut()] is asked first.) *)
Fixpoint v_assign_own {T U : Type} (opa : T -> U -> res T) (self : list T) (vec : list U) : list T * ow U unit :=
  match self, vec with
  | [], _ => ([], (vec, Ok tt))
  | _, [] => (self, ([], Ok tt))
  | s :: self', x :: vec' =>
      match opa s x with
      | Ok s1 => let (l, r) := v_assign_own opa self' vec' in (s1 :: l, r)
      | e => (self, (vec', refail e))
      end
  end.

(** matrix/base/iter.rs:97-99, 117-119 [for_each], [fold]; 120-124 [fold_first]. *)
Definition m_fold_own {S T : Type} (f : S -> T -> res S) (s : S) (m : list (list T)) : ow T S :=
  own_fold (fun r => r) (fun s r => v_fold_own f s r) s m.
(** matrix/base/iter.rs:97-99 [for_each]. *)
Definition m_for_each_own {C T : Type} (f : C -> T -> res C) (c : C) (m : list (list T)) : ow T C :=
  own_fold (fun r => r) (fun c r => v_for_each_own f c r) c m.
(** matrix/base/iter.rs:120-124 [fold_first]. *)
Definition m_fold_first_own {T : Type} (f : T -> T -> res T) (m : list (list T)) : ow T T :=
  match m with
  | [] => ([], Panic)
  | r :: t =>
      let (d, s) := v_fold_first_own f r in
      match s with
      | Ok s0 => let (d1, r1) := own_fold (fun r => r) (fun s r => v_fold_own f s r) s0 t in (d ++ d1, r1)
      | e => (d ++ concat t, refail e)
      end
  end.
(** matrix/base/iter.rs:101-103 [map]. *)
Definition m_map_own {C A B : Type} (f : C -> A -> res (C * B)) (c : C) (m : list (list A)) : ow (A + B) (C * list (list B)) :=
  own_map (map inl) (map inr) (fun c r => v_map_own f c r) c m [].
(** matrix/ops/base.rs:22-66: [self.zip(mat).map(|(x, y)| x op y)].  ([zip] calls no user code: its failures drop nothing
    here, and a theorem shows it has none.) *)
Definition m_op_own {T : Type} (M N : nat) (op : T -> T -> res T) (a b : list (list T)) : ow (T + T) (list (list T)) :=
  match m_zip M N a b with
  | Ok z => let (d1, r1) := m_map_own (op_pair op) tt z in (drop_pairs d1, let! (_, l) := r1 in Ok l)
  | e => ([], refail e)
  end.
(** matrix/base/iter.rs:125-129 [scan]. *)
Definition m_scan_own {S A B : Type} (M N : nat) (f : S -> A -> res (S * B)) (s : S) (m : list (list A)) : ow (A + B) (S * list (list B)) :=
  own_scan (map inl) (map inr) M (fun s r => v_scan_own N f s r) s m.
(** matrix/base/init.rs:37-41 [init]. *)
Definition m_init_own {C T : Type} (M N : nat) (f : C -> res (C * T)) (c : C) : ow T (C * list (list T)) :=
  own_init M (fun c => v_init_own N f c) c.

(** matrix/base/iter.rs:5-13, 58-71: what dropping the [into_iter()] of a matrix drops: the rows not yet started (field
    [iter]), then the rest of the current row (field [subiter]). *)
Definition m_iter_drop {T : Type} (s : list (list T) * list T) : list T := concat (fst s) ++ snd s.

(** vector/base/iter.rs:59-86 [try_from_iter] for elements whose destructor may panic ([bad x]): the loop 79-83 then stops. *)
Fixpoint tfi_drop_p {A : Type} (bad : A -> bool) (a : cells A) (pos : nat) : ow A unit :=
  match pos, a with
  | O, _ => ([], Ok tt)
  | S _, [] => ([], UB)
  | S _, None :: _ => ([], UB)
  | S p, Some x :: t => if bad x then ([x], Panic) else let (d, r) := tfi_drop_p bad t p in (x :: d, r)
  end.
(** vector/base/iter.rs:59-86 [try_from_iter]. *)
Definition tfi_p {S A : Type} (bad : A -> bool) (N : nat) (next : next_fn S A) (s : S) : ow A (option (list A)) :=
  match tfi_loop next N 0 (v_uninit N) s with
  | Ok (s1, a, pos) =>
      if N <? pos then ([], Panic)
      else if pos =? N then ([], let! l := v_assume_init a in Ok (Some l))
      else let (d, r) := tfi_drop_p bad a pos in (d, let! _ := r in Ok None)
  | e => ([], refail e)
  end.
