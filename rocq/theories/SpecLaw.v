(** Specification vocabulary for C94 - C97: the probability of an event, the standard normal law, averages over a
    turn.  Nothing here refers to the model of the crate. *)
From Coq Require Import Reals.
From Coquelicot Require Import Coquelicot.
From Verif Require Export Spec.
Set Implicit Arguments.
Local Open Scope R_scope.

(** The part of [a, b) where [P] holds is, up to end points, an interval of length [len]. *)
Definition fills (P : R -> Prop) (a b len : R) : Prop :=
  exists c d, a <= c /\ c <= d /\ d <= b /\ len = d - c /\
    (forall u, c < u < d -> P u) /\ (forall u, a <= u < b -> u < c \/ d < u -> ~ P u).

(** [u] uniform on [0, 1) and [y] uniform on [0, b), independent: the event [P u y] has probability [p].  For every
    [y] the event holds on a set of [u] of length [L y], and [L] averages to [p]. *)
Definition probability (P : R -> R -> Prop) (b p : R) : Prop :=
  exists L : R -> R, (forall y, 0 < y < b -> fills (fun u => P u y) 0 1 (L y)) /\ is_RInt L 0 b (p * b).

(** [p] is the value at [t] of the distribution function of the standard normal law: the integral of its density
    from minus infinity to [t]. *)
Definition normal_density (s : R) : R := exp (- (s * s) / 2) / sqrt (2 * PI).
Definition normal_cdf (t p : R) : Prop :=
  is_RInt_gen normal_density (Rbar_locally m_infty) (at_point t) p.

(** The average of [f] over a full turn. *)
Definition mean_turn (f : R -> R) (m : R) : Prop := is_RInt f 0 (2 * PI) (m * (2 * PI)).
