(** Specification vocabulary for C74 and C78: the real value of a floating point number and the sizes of its
    rounding errors.  Nothing here refers to the model of the crate. *)
From Coq Require Import ZArith Reals SpecFloat List.
Set Implicit Arguments.
Local Open Scope R_scope.

(** The real number a finite float denotes (infinities and NaN: 0, and not [finite]). *)
Definition value (x : spec_float) : R :=
  match x with S754_finite s m e => (if s then -1 else 1) * IZR (Z.pos m) * powerRZ 2 e | _ => 0 end.
Definition finite (x : spec_float) : bool := match x with S754_zero _ | S754_finite _ _ _ => true | _ => false end.

(** Unit roundoff, half the smallest positive float, the smallest normal float. *)
Definition roundoff (prec : Z) : R := powerRZ 2 (- prec).
Definition half_tiny (prec emax : Z) : R := powerRZ 2 (2 - emax - prec).
Definition min_normal (emax : Z) : R := powerRZ 2 (2 - emax).

Fixpoint rsum (n : nat) (f : nat -> R) : R := match n with O => 0 | S k => rsum k f + f k end.
(** Component [i] of a vector / element [(i, j)] of a matrix of floats, as a real. *)
Definition vval (v : list spec_float) (i : nat) : R := value (nth i v (S754_zero false)).
Definition mval (m : list (list spec_float)) (i j : nat) : R := vval (nth i m nil) j.

(** A well formed finite float that denotes the integer [n]. *)
Definition is_int (prec emax : Z) (x : spec_float) (n : Z) : Prop :=
  valid_binary prec emax x = true /\ finite x = true /\ value x = IZR n.
Fixpoint zsum (n : nat) (f : nat -> Z) : Z := match n with O => 0%Z | S k => (zsum k f + f k)%Z end.
