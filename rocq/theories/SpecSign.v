(** Specification vocabulary for C115: changes of signs in floating point. *)
From Coq Require Import ZArith SpecFloat List.
From Verif Require Export Res ComplexModel SpecScale.
Set Implicit Arguments.

(** Equal, or both zero: [+0] and [-0] are not told apart, every other float and NaN is. *)
Definition alike (x y : spec_float) : Prop := x = y \/ (zero_float x = true /\ zero_float y = true).
Definition v_alike := Forall2 alike.
Definition m_alike := Forall2 v_alike.
Definition c_alike (x y : complex spec_float) : Prop := alike (re x) (re y) /\ alike (im x) (im y).
Definition q_alike (x y : quat spec_float) : Prop := alike (qw x) (qw y) /\ alike (qx x) (qx y) /\ alike (qy x) (qy y) /\ alike (qz x) (qz y).
(** The float with its sign changed if [b]. *)
Definition mirror (b : bool) (x : spec_float) : spec_float := if b then SFopp x else x.
(** The units are signs: [true] marks the numbers whose sign is to change. *)
Definition sign_units : units bool := Units false xorb (fun b => b) Bool.eqb.
(** [y] is the number of the quantity [q] after the change of signs; what is left of the constant zero is a zero or NaN. *)
Definition signed (q : quantity spec_float bool) (y : spec_float) : Prop :=
  match snd q with
  | Some b => alike (mirror b (fst q)) y
  | None => (zero_float (fst q) = true /\ zero_float y = true) \/ (fst q = S754_nan /\ y = S754_nan)
  end.
Definition v_signed := Forall2 signed.
Definition m_signed := Forall2 v_signed.
Definition c_signed (q : complex (quantity spec_float bool)) (y : complex spec_float) : Prop := signed (re q) (re y) /\ signed (im q) (im y).
Definition q_signed (q : quat (quantity spec_float bool)) (y : quat spec_float) : Prop :=
  signed (qw q) (qw y) /\ signed (qx q) (qx y) /\ signed (qy q) (qy y) /\ signed (qz q) (qz y).
