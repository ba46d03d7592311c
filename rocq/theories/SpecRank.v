(** Specification vocabulary for C119: choices of rows and columns. *)
From Coq Require Import Sorted.
From Verif Require Export SpecDet.
Set Implicit Arguments.
Local Open Scope nat_scope.
Local Open Scope list_scope.

Fixpoint increasing (l : list nat) : bool :=
  match l with
  | [] => true
  | a :: t => forallb (fun b => a <? b) t && increasing t
  end.
(** All strictly increasing sequences of [k] numbers below [n] (theorem [C119_choices] says so): the ways to choose [k] of [n]. *)
Definition choices (k n : nat) : list (list nat) := filter increasing (tuples k (seq 0 n)).
(** The rows, the columns with the numbers [c] of a matrix. *)
Definition pick_rows {T : Type} (c : list nat) (m : list (list T)) : list (list T) := map (fun k => nth k m []) c.
Definition pick_columns {T : Type} (d : T) (c : list nat) (m : list (list T)) : list (list T) := map (fun r => map (fun k => nth k r d) c) m.
