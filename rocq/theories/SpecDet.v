(** Specification vocabulary: the Leibniz determinant and minors. *)
From Verif Require Export SpecRing.
Set Implicit Arguments.
Local Open Scope nat_scope.
Local Open Scope list_scope.

(** All sequences of [k] numbers drawn from [c], and those without repetition drawn from 0..n-1: the
    permutations of 0..n-1 (theorem [C30_permutations] says that [perms n] lists each exactly once). *)
Fixpoint tuples (k : nat) (c : list nat) : list (list nat) :=
  match k with
  | O => [[]]
  | S k => flat_map (fun j => map (cons j) (tuples k c)) c
  end.
Fixpoint nodupb (l : list nat) : bool :=
  match l with
  | [] => true
  | a :: t => negb (existsb (Nat.eqb a) t) && nodupb t
  end.
Definition perms (n : nat) : list (list nat) := filter nodupb (tuples n (seq 0 n)).

(** Number of pairs of positions [i < j] with [l_i > l_j]. *)
Fixpoint inversions (l : list nat) : nat :=
  match l with
  | [] => 0
  | a :: t => length (filter (fun b => b <? a) t) + inversions t
  end.

Section Leibniz.
  Context {T : Type} {o : Ops T} (R : Ring o).
  (** Sum and product of [f] over a list. *)
  Definition lsum {A : Type} (f : A -> T) (l : list A) : T :=
    fold_right (fun x s => r_add R (f x) s) (o_zero o) l.
  Definition lprod {A : Type} (f : A -> T) (l : list A) : T :=
    fold_right (fun x s => r_mul R (f x) s) (o_one o) l.
  (** [x] or [-x] according to the parity of [k]. *)
  Definition signed (k : nat) (x : T) : T := if Nat.even k then x else r_opp R x.
  (** Sum over the permutations [s] of sign(s) * A(0,s_0) * ... * A(n-1,s_{n-1}). *)
  Definition leibniz (n : nat) (A : nat -> nat -> T) : T :=
    lsum (fun s => signed (inversions s) (lprod (fun i => A i (nth i s 0)) (seq 0 n))) (perms n).
End Leibniz.

(** The matrix without row [i] and column [j], as a function of indices. *)
Definition skip (k a : nat) : nat := if a <? k then a else S a.
Definition minor {T : Type} (i j : nat) (A : nat -> nat -> T) : nat -> nat -> T :=
  fun a b => A (skip i a) (skip j b).
