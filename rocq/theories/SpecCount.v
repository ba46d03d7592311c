(** Specification vocabulary for C106: a random source that delivers words of a finite alphabet, every word equally
    likely and independent of the others; probabilities are proportions of tapes.  Nothing here refers to the model of
    the crate. *)
From Coq Require Import Reals List.
From Coquelicot Require Import Coquelicot.
From Verif Require Export Spec.
Import ListNotations.
Set Implicit Arguments.
Local Open Scope R_scope.

(** All tapes of [n] words. *)
Fixpoint tapes {W : Type} (words : list W) (n : nat) : list (list W) :=
  match n with
  | O => [[]]
  | S k => flat_map (fun w => map (cons w) (tapes words k)) words
  end.
(** The proportion of tapes of [n] words with [E]. *)
Definition prob {W : Type} (words : list W) (n : nat) (E : list W -> bool) : R :=
  INR (length (filter E (tapes words n))) / INR (length (tapes words n)).
(** A sampler that takes [k] words from the front of the tape and returns the value [h] of them. *)
Definition reads {W A : Type} (k : nat) (d : list W -> res (list W * A)) (h : list W -> A) : Prop :=
  forall g, (k <= length g)%nat -> d g = Ok (skipn k g, h (firstn k g)).
(** A sampler returns a value with [P]; a sampler is still at work. *)
Definition gives {G A : Type} (P : A -> bool) (d : G -> res (G * A)) (g : G) : bool :=
  match d g with Ok (_, x) => P x | _ => false end.
Definition at_work {G A : Type} (d : G -> res (G * A)) (g : G) : bool :=
  match d g with Fuel => true | _ => false end.
(** The values of consecutive pieces of [k] words: [n] of them; [m] rows of [n]. *)
Definition pieces {W A : Type} (k : nat) (h : list W -> A) (n : nat) (b : list W) : list A :=
  map (fun i => h (firstn k (skipn (i * k) b))) (seq 0 n).
Definition grid {W A : Type} (k : nat) (h : list W -> A) (m n : nat) (b : list W) : list (list A) :=
  map (fun i => map (fun j => h (firstn k (skipn ((i * n + j) * k) b))) (seq 0 n)) (seq 0 m).

(** The law of a sampler [d] that goes through up to [n] rounds of [k] words, and [k2] words after the last: as [n]
    grows, the probability that it has returned a value with [P] tends to the conditional probability of [P (val t)]
    given [good t], for the words [t] of one round and the [k2] words. *)
Definition law_given {W A : Type} (words : list W) (k k2 : nat) (good : list W -> bool) (val : list W -> A)
  (d : nat -> list W -> res (list W * A)) : Prop :=
  0 < prob words (k + k2) good ->
  forall P : A -> bool, is_lim_seq (fun n => prob words (n * k + k2) (gives P (d n)))
    (prob words (k + k2) (fun t => good t && P (val t)) / prob words (k + k2) good).
