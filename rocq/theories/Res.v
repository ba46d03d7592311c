(** Outcome of running a piece of Rust code, and the record of scalar operations the crate's
    generic code receives through trait bounds.  No definition here models crate code; this is the
    vocabulary in which the model (files [*Model.v]) is written. *)
From Coq Require Export List Arith Bool Lia.
Export ListNotations.
Set Implicit Arguments.

(** [Ok a]  : the call returned [a].
    [Panic] : the call panicked (failed unwrap, index check, integer overflow check, explicit panic).
    [UB]    : the call executed undefined behaviour (uninitialised read, unchecked access out of bounds).
    [Fuel]  : the model's recursion fuel ran out (a loop that has not terminated yet). *)
Inductive res (A : Type) : Type :=
| Ok (a : A)
| Panic
| UB
| Fuel.
Arguments Ok {A} a.
Arguments Panic {A}.
Arguments UB {A}.
Arguments Fuel {A}.

Definition bind {A B : Type} (r : res A) (f : A -> res B) : res B :=
  match r with
  | Ok a => f a
  | Panic => Panic
  | UB => UB
  | Fuel => Fuel
  end.

(** The failure of [r], seen at another result type. *)
Definition refail {A B : Type} (r : res A) : res B :=
  match r with Ok _ => Panic | Panic => Panic | UB => UB | Fuel => Fuel end.

Definition rmap {A B : Type} (f : A -> B) (r : res A) : res B := bind r (fun a => Ok (f a)).

Notation "'let!' x ':=' r 'in' k" := (bind r (fun x => k))
  (at level 200, x pattern, r at level 100, k at level 200, right associativity).

(** [Option::unwrap]: panics on [None]. *)
Definition unwrap {A : Type} (o : option A) : res A :=
  match o with Some a => Ok a | None => Panic end.

(** Checked slice/array indexing [a[i]]: panics out of bounds. *)
Definition index {A : Type} (l : list A) (i : nat) : res A :=
  match nth_error l i with Some a => Ok a | None => Panic end.

(** [get_unchecked(i)]: undefined behaviour out of bounds. *)
Definition index_unchecked {A : Type} (l : list A) (i : nat) : res A :=
  match nth_error l i with Some a => Ok a | None => UB end.

(** Replace the [i]-th element, if there is one. *)
Fixpoint list_set {A : Type} (l : list A) (i : nat) (x : A) : list A :=
  match l, i with
  | [], _ => []
  | _ :: t, O => x :: t
  | h :: t, S k => h :: list_set t k x
  end.

(** [a[i] = x]: panics out of bounds. *)
Definition index_set {A : Type} (l : list A) (i : nat) (x : A) : res (list A) :=
  if i <? length l then Ok (list_set l i x) else Panic.

(** [*a.get_unchecked_mut(i) = x]: undefined behaviour out of bounds. *)
Definition index_set_unchecked {A : Type} (l : list A) (i : nat) (x : A) : res (list A) :=
  if i <? length l then Ok (list_set l i x) else UB.

(** The scalar operations available to the crate through its trait bounds
    ([Zero], [One], [Add], [Sub], [Mul], [Div], [Rem], [Neg], [PartialEq], [PartialOrd]).
    Arithmetic may panic (overflow checks, division by zero), hence the [res] results. *)
Record Ops (T : Type) : Type := mkOps {
  o_zero : T;
  o_one : T;
  o_add : T -> T -> res T;
  o_sub : T -> T -> res T;
  o_mul : T -> T -> res T;
  o_div : T -> T -> res T;
  o_rem : T -> T -> res T;
  o_neg : T -> res T;
  o_is_zero : T -> bool;
  o_eq : T -> T -> bool;
  o_lt : T -> T -> bool;
  o_le : T -> T -> bool
}.

(** Operations that never panic: lift ordinary functions. *)
Definition ok1 {A B : Type} (f : A -> B) : A -> res B := fun a => Ok (f a).
Definition ok2 {A B C : Type} (f : A -> B -> C) : A -> B -> res C := fun a b => Ok (f a b).

Definition pure_ops {T : Type} (zero one : T) (add sub mul div rem : T -> T -> T) (neg : T -> T)
  (is_zero : T -> bool) (eqb ltb leb : T -> T -> bool) : Ops T :=
  {| o_zero := zero; o_one := one; o_add := ok2 add; o_sub := ok2 sub; o_mul := ok2 mul;
     o_div := ok2 div; o_rem := ok2 rem; o_neg := ok1 neg; o_is_zero := is_zero;
     o_eq := eqb; o_lt := ltb; o_le := leb |}.

(** Rust expressions evaluate their operands from left to right: [e1 op e2]. *)
Definition lift1 {A B : Type} (f : A -> res B) (a : res A) : res B := bind a f.
Definition lift2 {A B C : Type} (f : A -> B -> res C) (a : res A) (b : res B) : res C :=
  bind a (fun x => bind b (fun y => f x y)).

(** Sequencing a list of outcomes: the first failure wins. *)
Fixpoint seq_res {A : Type} (l : list (res A)) : res (list A) :=
  match l with
  | [] => Ok []
  | r :: t => let! a := r in let! l' := seq_res t in Ok (a :: l')
  end.

(** Left fold with a step that may fail. *)
Fixpoint fold_res {S A : Type} (f : S -> A -> res S) (s : S) (l : list A) : res S :=
  match l with
  | [] => Ok s
  | a :: t => let! s' := f s a in fold_res f s' t
  end.

(** Map with a stateful closure that may fail (left to right). *)
Fixpoint map_st {C A B : Type} (f : C -> A -> res (C * B)) (c : C) (l : list A) : res (C * list B) :=
  match l with
  | [] => Ok (c, [])
  | a :: t => let! (c1, b) := f c a in
              let! (c2, bs) := map_st f c1 t in Ok (c2, b :: bs)
  end.

(** Map with a stateless closure that may fail. *)
Fixpoint map_res {A B : Type} (f : A -> res B) (l : list A) : res (list B) :=
  match l with
  | [] => Ok []
  | a :: t => let! b := f a in let! bs := map_res f t in Ok (b :: bs)
  end.
