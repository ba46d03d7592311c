(** Specification vocabulary: the notions in which the property theorems are stated.  Nothing here
    refers to the model of the crate; only lists, outcomes ([res]) and plain functions occur. *)
From Coq Require Import ZArith.
From Verif Require Export Res.
Set Implicit Arguments.

(** [r] is a failure of the same kind as the failure [s]. *)
Definition fails_like {A B : Type} (r : res A) (s : res B) : Prop :=
  match r, s with
  | Panic, Panic => True
  | UB, UB => True
  | Fuel, Fuel => True
  | _, _ => False
  end.

(** [r] is a normal return. *)
Definition returns {A : Type} (r : res A) : Prop := exists a, r = Ok a.

(** [r] is what one gets by performing [step 0], ..., [step (n-1)] in this order, collecting the
    values: either all succeed and [r] holds exactly their values, or the first one to fail is [i] and
    [r] is that failure. *)
Definition in_order {A : Type} (n : nat) (step : nat -> res A) (r : res (list A)) : Prop :=
  (exists l, r = Ok l /\ length l = n /\
     forall i, i < n -> exists a, nth_error l i = Some a /\ step i = Ok a)
  \/
  (exists i, i < n /\ (forall j, j < i -> returns (step j)) /\ fails_like r (step i)).

(** The scalar operation applied to components [i]. *)
Definition at1 {A B : Type} (f : A -> res B) (u : list A) (i : nat) : res B :=
  match nth_error u i with Some x => f x | None => UB end.
Definition at2 {A B C : Type} (f : A -> B -> res C) (u : list A) (v : list B) (i : nat) : res C :=
  match nth_error u i, nth_error v i with Some x, Some y => f x y | _, _ => UB end.

(** A sequence of successful calls of a closure with state, one per element of a list:
    from state [c] on arguments [l], ending in state [c'] with results [r]. *)
Inductive called {C A B : Type} (f : C -> A -> res (C * B)) : C -> list A -> C -> list B -> Prop :=
| called_nil : forall c, called f c [] c []
| called_cons : forall c a l c1 b c2 bs,
    f c a = Ok (c1, b) -> called f c1 l c2 bs -> called f c (a :: l) c2 (b :: bs).

(** [n] successful calls of a closure without argument. *)
Inductive drawn {C B : Type} (f : C -> res (C * B)) : nat -> C -> C -> list B -> Prop :=
| drawn_O : forall c, drawn f 0 c c []
| drawn_S : forall n c c1 b c2 bs,
    f c = Ok (c1, b) -> drawn f n c1 c2 bs -> drawn f (S n) c c2 (b :: bs).

(** Successive calls of an iterator's [next] that all yield an item: from state [s] to state [s'],
    yielding [l] in order. *)
Inductive yields {S A : Type} (next : S -> res (S * option A)) : S -> S -> list A -> Prop :=
| yields_nil : forall s, yields next s s []
| yields_cons : forall s s1 a s2 l,
    next s = Ok (s1, Some a) -> yields next s1 s2 l -> yields next s s2 (a :: l).

(** The state after [k] calls of [next], and what the [k]-th call (counted from 0) returns. *)
Fixpoint state_after {S A : Type} (next : S -> res (S * option A)) (k : nat) (s : S) : res S :=
  match k with
  | O => Ok s
  | Datatypes.S j => let! (s1, _) := next s in state_after next j s1
  end.
Definition kth_call {S A : Type} (next : S -> res (S * option A)) (k : nat) (s : S)
  : res (option A) :=
  let! s1 := state_after next k s in let! (_, o) := next s1 in Ok o.

(** An iterator in state [s] behaves like the sequence [l]: its calls yield the elements of [l] in
    order and then [None] for ever. *)
Definition behaves_like {S A : Type} (next : S -> res (S * option A)) (s : S) (l : list A) : Prop :=
  forall k, kth_call next k s = Ok (nth_error l k).

(** A rectangular list of rows: an [M] x [N] matrix. *)
Definition rect {A : Type} (M N : nat) (m : list (list A)) : Prop :=
  length m = M /\ Forall (fun r => length r = N) m.

(** Element [(i, j)] of a list of rows. *)
Definition elt {A : Type} (m : list (list A)) (i j : nat) : option A :=
  match nth_error m i with Some r => nth_error r j | None => None end.

(** Row-major version of [in_order]: step number [i * N + j] computes element [(i, j)]. *)
Definition in_order2 {A : Type} (M N : nat) (step : nat -> nat -> res A) (r : res (list (list A)))
  : Prop :=
  (exists m, r = Ok m /\ rect M N m /\
     forall i j, i < M -> j < N -> exists a, elt m i j = Some a /\ step i j = Ok a)
  \/
  (exists i j, i < M /\ j < N /\
     (forall i' j', i' < M -> j' < N -> i' < i \/ (i' = i /\ j' < j) -> returns (step i' j')) /\
     fails_like r (step i j)).

(** The scalar operation applied to elements [(i, j)]. *)
Definition at1m {A B : Type} (f : A -> res B) (m : list (list A)) (i j : nat) : res B :=
  match elt m i j with Some x => f x | None => UB end.
Definition at2m {A B C : Type} (f : A -> B -> res C) (a : list (list A)) (b : list (list B))
  (i j : nat) : res C :=
  match elt a i j, elt b i j with Some x, Some y => f x y | _, _ => UB end.

(** A strict weak order given by a boolean test, as [<] is on integers, on floats without NaN, ... *)
Definition strict_weak_order {A : Type} (lt : A -> A -> bool) : Prop :=
  (forall x, lt x x = false) /\
  (forall x y z, lt x y = true -> lt y z = true -> lt x z = true) /\
  (forall x y z, lt x y = false -> lt y z = false -> lt x z = false).

(** Integer scalars with floor division, panicking on a zero divisor. *)
Definition z_div_floor (x y : Z) : res Z := if Z.eqb y 0 then Panic else Ok (Z.div x y).
Definition z_mod_floor (x y : Z) : res Z := if Z.eqb y 0 then Panic else Ok (Z.modulo x y).
Definition z_div_mod_floor (x y : Z) : res (Z * Z) :=
  if Z.eqb y 0 then Panic else Ok (Z.div x y, Z.modulo x y).
