(** Specification vocabulary for C75 - C77: what a sampler draws from a generator, rejection, closeness.
    Nothing here refers to the model of the crate. *)
From Coq Require Import Reals.
From Verif Require Export Spec.
Set Implicit Arguments.

(** A source of samples: [src g g' x] says that from generator state [g] the value [x] is drawn, leaving [g']. *)
(** Draw until [good] holds: the first good value, after [n] values that are not. *)
Inductive first_good {G A : Type} (src : G -> G -> A -> Prop) (good : A -> Prop) : nat -> G -> G -> A -> Prop :=
| fg_now : forall g g' x, src g g' x -> good x -> first_good src good 0 g g' x
| fg_later : forall n g g1 y g' x, src g g1 y -> ~ good y -> first_good src good n g1 g' x -> first_good src good (S n) g g' x.

(** [n] draws, none of them good. *)
Inductive all_bad {G A : Type} (src : G -> G -> A -> Prop) (good : A -> Prop) : nat -> G -> G -> Prop :=
| ab_0 : forall g, all_bad src good 0 g g
| ab_S : forall n g g1 y g', src g g1 y -> ~ good y -> all_bad src good n g1 g' -> all_bad src good (S n) g g'.

(** Two reals at most [eps] apart, as a test. *)
Definition within (eps x y : R) : bool := if Rle_dec (Rabs (x - y)) eps then true else false.

(** What a comparison with tolerance should satisfy. *)
Definition tolerance {A : Type} (ok : A -> Prop) (near : R -> A -> A -> Prop) : Prop :=
  (forall e x, ok x -> (0 <= e)%R -> near e x x) /\
  (forall e x y, ok x -> ok y -> near e x y -> near e y x) /\
  (forall e e' x y, ok x -> ok y -> (e <= e')%R -> near e x y -> near e' x y) /\
  (forall e e' x y z, ok x -> ok y -> ok z -> near e x y -> near e' y z -> near (e + e')%R x z) /\
  (forall x y, ok x -> ok y -> near 0%R x y -> x = y).
