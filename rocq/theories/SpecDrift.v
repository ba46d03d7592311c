(** Specification vocabulary for C122: doing something over and over. *)
From Verif Require Import Res.
Set Implicit Arguments.

(** [f] applied [n] times, each time to the last result. *)
Fixpoint again (A : Type) (f : A -> res A) (n : nat) (x : A) : res A :=
  match n with O => Ok x | S k => let! y := f x in again f k y end.
