(** Model of the derived traits: [Clone], [PartialEq], [Default], [Debug] of
    [src/vector/base/mod.rs:12], [src/matrix/base/mod.rs:11], [src/complex/complex_.rs:15], [src/complex/quaternion.rs:15],
    [src/complex/moebius.rs:9], [src/transform/{chain.rs:9, linear.rs:17, scale.rs:15, shift.rs:13, rotation.rs:20, rotation.rs:139}].
    The scalar's [clone], [eq], [default] are functions with state that may panic.
    Trusted: a derived method acts on the fields in the order of their declaration; [eq] stops at the first difference;
    [<[T; N]>::clone] clones the elements in order and, when one of them panics, drops the clones made so far in order
    (for a [Copy] scalar it copies instead); [<[T; N]>::eq] compares the elements in order; [Formatter::debug_struct]
    without the alternate flag writes [Name { field: value, field: value }] and stops at the first failed write. *)
From Coq Require Import String.
From Verif Require Export OwnModel FmtModel ComplexModel.
Set Implicit Arguments.
Local Open Scope list_scope.

Section Clone.
  Context {C T : Type} (cl : C -> T -> res (C * T)).
  (** [<[X; N]>::clone]; [one] clones an element, [glue x] are the values dropped with [x], [acc] the clones so far. *)
  Fixpoint clone_loop {X : Type} (one : C -> X -> ow T (C * X)) (glue : X -> list T) (c : C) (v acc : list X) : ow T (C * list X) :=
    match v with
    | [] => ([], Ok (c, acc))
    | x :: t =>
        let (d, r) := one c x in
        match r with
        | Ok (c1, y) => let (d1, r1) := clone_loop one glue c1 t (acc ++ [y]) in (d ++ d1, r1)
        | e => (d ++ flat_map glue acc, refail e)
        end
    end.
  (** vector/base/mod.rs:12 [derive(Clone)]; shift.rs:13 wraps it. *)
  Definition v_clone (c : C) (v : list T) : ow T (C * list T) := clone_loop (fun c x => ([], cl c x)) (fun x => [x]) c v [].
  (** matrix/base/mod.rs:11 [derive(Clone)]; linear.rs:17 and moebius.rs:9 wrap it. *)
  Definition m_clone (c : C) (m : list (list T)) : ow T (C * list (list T)) := clone_loop v_clone (fun r => r) c m [].
  (** complex_.rs:15 [derive(Clone)]; rotation.rs:20 wraps it. *)
  Definition c_clone (c : C) (z : complex T) : ow T (C * complex T) :=
    let (d, r) := v_clone c (c_into_vector z) in
    (d, let! (c1, v) := r in let! z1 := c_from_vector v in Ok (c1, z1)).
  (** quaternion.rs:15 [derive(Clone)]; rotation.rs:139 wraps it. *)
  Definition q_clone (c : C) (z : quat T) : ow T (C * quat T) :=
    let (d, r) := v_clone c (q_into_vector z) in
    (d, let! (c1, v) := r in let! z1 := q_from_vector v in Ok (c1, z1)).
  (** chain.rs:9 [derive(Clone)]: the outer part, then the inner part; if the latter panics the new outer part is dropped. *)
  Definition chain_clone {A B : Type} (ca : C -> A -> ow T (C * A)) (glue : A -> list T) (cb : C -> B -> ow T (C * B)) (c : C) (t : A * B)
    : ow T (C * (A * B)) :=
    let (d, r) := ca c (fst t) in
    match r with
    | Ok (c1, a) =>
        let (d1, r1) := cb c1 (snd t) in
        match r1 with
        | Ok (c2, b) => (d ++ d1, Ok (c2, (a, b)))
        | e => (d ++ d1 ++ glue a, refail e)
        end
    | e => (d, refail e)
    end.
End Clone.

Section Equal.
  Context {C : Type}.
  (** [<[X; N]>::eq], also the derived [eq] of vector/base/mod.rs:12; shift.rs:13, complex_.rs:15, quaternion.rs:15 wrap it. *)
  Fixpoint v_eq_st {X : Type} (e : C -> X -> X -> res (C * bool)) (c : C) (u v : list X) : res (C * bool) :=
    match u, v with
    | x :: u', y :: v' => let! (c1, b) := e c x y in if b then v_eq_st e c1 u' v' else Ok (c1, false)
    | [], [] => Ok (c, true)
    | _, _ => Ok (c, false)
    end.
  (** matrix/base/mod.rs:11; linear.rs:17 and moebius.rs:9 wrap it. *)
  Definition m_eq_st {X : Type} (e : C -> X -> X -> res (C * bool)) (c : C) (a b : list (list X)) : res (C * bool) := v_eq_st (v_eq_st e) c a b.
  (** complex_.rs:15; rotation.rs:20 wraps it. *)
  Definition c_eq_st {X : Type} (e : C -> X -> X -> res (C * bool)) (c : C) (a b : complex X) : res (C * bool) :=
    v_eq_st e c (c_into_vector a) (c_into_vector b).
  (** quaternion.rs:15; rotation.rs:139 wraps it. *)
  Definition q_eq_st {X : Type} (e : C -> X -> X -> res (C * bool)) (c : C) (a b : quat X) : res (C * bool) :=
    v_eq_st e c (q_into_vector a) (q_into_vector b).
  (** chain.rs:9: the outer parts, then the inner parts. *)
  Definition chain_eq_st {A B : Type} (ea : C -> A -> A -> res (C * bool)) (eb : C -> B -> B -> res (C * bool)) (c : C) (s t : A * B)
    : res (C * bool) :=
    let! (c1, b) := ea c (fst s) (fst t) in if b then eb c1 (snd s) (snd t) else Ok (c1, false).
End Equal.

(** complex_.rs:15 [derive(Default)]: [Vector2::default()] (vector/base/init.rs:53-55 calls [T::default] for each element). *)
Definition c_default {C T : Type} (d : C -> res (C * T)) (c : C) : res (C * complex T) :=
  let! (c1, v) := v_init 2 d c in let! z := c_from_vector v in Ok (c1, z).
(** quaternion.rs:15 [derive(Default)]. *)
Definition q_default {C T : Type} (d : C -> res (C * T)) (c : C) : res (C * quat T) :=
  let! (c1, v) := v_init 4 d c in let! z := q_from_vector v in Ok (c1, z).

Section Debug.
  Context {W : Type} (lit : string -> W -> res (W * bool)).
  (** [debug_struct(name).field(field, value).finish()]. *)
  Definition debug1 (name field : string) (value : W -> res (W * bool)) : W -> res (W * bool) :=
    and_then (lit name) (and_then (lit " { ") (and_then (lit field) (and_then (lit ": ") (and_then value (lit " }"))))).
  (** shift.rs:13; the value is written by vector/base/format.rs:22-29. *)
  Definition shift_debug (pos : W -> res (W * bool)) := debug1 "Shift" "pos" pos.
  (** linear.rs:17; matrix/format.rs:27-39. *)
  Definition linear_debug (lin : W -> res (W * bool)) := debug1 "Linear" "lin" lin.
  (** scale.rs:15. *)
  Definition scale_debug (mag : W -> res (W * bool)) := debug1 "Scale" "mag" mag.
  (** rotation.rs:20; complex/format.rs:10-12. *)
  Definition rotation2_debug (comp : W -> res (W * bool)) := debug1 "Rotation2" "comp" comp.
  (** rotation.rs:139; complex/format.rs:28-37. *)
  Definition rotation3_debug (quat : W -> res (W * bool)) := debug1 "Rotation3" "quat" quat.
  (** complex/moebius.rs:9; matrix/format.rs:27-39. *)
  Definition moebius_debug (mat : W -> res (W * bool)) := debug1 "Moebius" "mat" mat.
  (** chain.rs:9; [phantom] is what [PhantomData] prints. *)
  Definition chain_debug (outer inner phantom : W -> res (W * bool)) : W -> res (W * bool) :=
    and_then (lit "Chain")
    (and_then (and_then (lit " { ") (and_then (lit "outer") (and_then (lit ": ") outer)))
    (and_then (and_then (lit ", ") (and_then (lit "inner") (and_then (lit ": ") inner)))
    (and_then (and_then (lit ", ") (and_then (lit "phantom") (and_then (lit ": ") phantom)))
              (lit " }")))).
End Debug.
