(** Specification vocabulary for C70 - C72: homomorphisms of scalar types, and machine integers. *)
From Coq Require Import ZArith.
From Verif Require Export Instances ComplexModel.
Set Implicit Arguments.

(** [h] applied to every component. *)
Definition c_map {T U : Type} (h : T -> U) (z : complex T) : complex U := Cx (h (re z)) (h (im z)).
Definition q_map {T U : Type} (h : T -> U) (q : quat T) : quat U := Qt (h (qw q)) (h (qx q)) (h (qy q)) (h (qz q)).
Definition c_all {T : Type} (P : T -> Prop) (z : complex T) : Prop := P (re z) /\ P (im z).
Definition q_all {T : Type} (P : T -> Prop) (q : quat T) : Prop := P (qw q) /\ P (qx q) /\ P (qy q) /\ P (qz q).

(** [h] commutes with the scalar operations: the operation on images is the image of the operation, and fails
    exactly when (and as) the operation does. *)
Record hom {T U : Type} (h : T -> U) (o : Ops T) (o' : Ops U) : Prop := mkHom {
  hom_zero : o_zero o' = h (o_zero o);
  hom_one : o_one o' = h (o_one o);
  hom_add : forall x y, o_add o' (h x) (h y) = rmap h (o_add o x y);
  hom_sub : forall x y, o_sub o' (h x) (h y) = rmap h (o_sub o x y);
  hom_mul : forall x y, o_mul o' (h x) (h y) = rmap h (o_mul o x y);
  hom_neg : forall x, o_neg o' (h x) = rmap h (o_neg o x)
}.
Definition hom_div {T U : Type} (h : T -> U) (o : Ops T) (o' : Ops U) : Prop :=
  forall x y, o_div o' (h x) (h y) = rmap h (o_div o x y).
Definition hom_rem {T U : Type} (h : T -> U) (o : Ops T) (o' : Ops U) : Prop :=
  forall x y, o_rem o' (h x) (h y) = rmap h (o_rem o x y).

(** Machine integers of [w] bits ([signed]: two's complement), as the integers they denote. *)
Local Open Scope Z_scope.
Definition int_min (signed : bool) (w : Z) : Z := if signed then - 2 ^ (w - 1) else 0.
Definition int_max (signed : bool) (w : Z) : Z := if signed then 2 ^ (w - 1) - 1 else 2 ^ w - 1.
Definition in_word (signed : bool) (w : Z) (x : Z) : Prop := int_min signed w <= x <= int_max signed w.
Definition in_wordb (signed : bool) (w : Z) (x : Z) : bool := (int_min signed w <=? x) && (x <=? int_max signed w).
(** At least 0 and 1 are representable. *)
Definition width (signed : bool) (w : Z) : Prop := if signed then 2 <= w else 1 <= w.
(** The representable integer congruent to [x] modulo 2^w. *)
Definition wrap (signed : bool) (w : Z) (x : Z) : Z :=
  if signed then (x + 2 ^ (w - 1)) mod 2 ^ w - 2 ^ (w - 1) else x mod 2 ^ w.

(** Rust's operators in debug builds: [+ - * /] and unary [-] panic when the exact result is not representable,
    [/] and [%] also when the divisor is zero, [%] also when the quotient is not representable. *)
Definition check (signed : bool) (w : Z) (x : Z) : res Z := if in_wordb signed w x then Ok x else Panic.
Definition checked_ops (signed : bool) (w : Z) : Ops Z :=
  {| o_zero := 0; o_one := 1;
     o_add := fun x y => check signed w (x + y);
     o_sub := fun x y => check signed w (x - y);
     o_mul := fun x y => check signed w (x * y);
     o_div := fun x y => if Z.eqb y 0 then Panic else check signed w (Z.quot x y);
     o_rem := fun x y => if Z.eqb y 0 then Panic else if in_wordb signed w (Z.quot x y) then Ok (Z.rem x y) else Panic;
     o_neg := fun x => check signed w (- x);
     o_is_zero := Z.eqb 0; o_eq := Z.eqb; o_lt := Z.ltb; o_le := Z.leb |}.
(** Release builds: [+ - *] and unary [-] wrap around; [/] and [%] panic as before. *)
Definition wrapping_ops (signed : bool) (w : Z) : Ops Z :=
  {| o_zero := 0; o_one := 1;
     o_add := fun x y => Ok (wrap signed w (x + y));
     o_sub := fun x y => Ok (wrap signed w (x - y));
     o_mul := fun x y => Ok (wrap signed w (x * y));
     o_div := o_div (checked_ops signed w);
     o_rem := o_rem (checked_ops signed w);
     o_neg := fun x => Ok (wrap signed w (- x));
     o_is_zero := Z.eqb 0; o_eq := Z.eqb; o_lt := Z.ltb; o_le := Z.leb |}.
