(** Specification vocabulary for C114: quantities with units of measurement. *)
From Coq Require Import ZArith Reals SpecFloat List.
From Verif Require Export Res ComplexModel SpecRound SpecRing SpecFRange.
Set Implicit Arguments.

(** Units of measurement and their products, inverses and comparison. *)
Record units (G : Type) : Type := Units { u_one : G; u_mul : G -> G -> G; u_inv : G -> G; u_same : G -> G -> bool }.
(** A quantity is a number with a unit; [None] is the unit of the constant zero, which fits every unit. *)
Definition quantity (T G : Type) : Type := (T * option G)%type.
Definition common {G : Type} (u : units G) (a b : option G) : res (option G) :=
  match a, b with
  | None, _ => Ok b
  | _, None => Ok a
  | Some g, Some h => if u_same u g h then Ok a else Panic
  end.
Definition times {G : Type} (u : units G) (a b : option G) : option G :=
  match a, b with Some g, Some h => Some (u_mul u g h) | _, _ => None end.
(** Arithmetic that fails when unequal units are added, or the divisor is zero. *)
Definition unit_ops {T G : Type} (o : Ops T) (u : units G) : Ops (quantity T G) :=
  {| o_zero := (o_zero o, None); o_one := (o_one o, Some (u_one u));
     o_add := fun x y => let! g := common u (snd x) (snd y) in let! z := o_add o (fst x) (fst y) in Ok (z, g);
     o_sub := fun x y => let! g := common u (snd x) (snd y) in let! z := o_sub o (fst x) (fst y) in Ok (z, g);
     o_mul := fun x y => let! z := o_mul o (fst x) (fst y) in Ok (z, times u (snd x) (snd y));
     o_div := fun x y =>
       match snd y with
       | Some h => if o_is_zero o (fst y) then Panic else let! z := o_div o (fst x) (fst y) in Ok (z, times u (snd x) (Some (u_inv u h)))
       | None => Panic
       end;
     o_rem := fun _ _ => Panic; o_neg := fun x => let! z := o_neg o (fst x) in Ok (z, snd x);
     o_is_zero := fun _ => false; o_eq := fun _ _ => false; o_lt := fun _ _ => false; o_le := fun _ _ => false |}.

(** [y] is the number of the quantity [q] in the old units. *)
Definition bare {T G : Type} (q : quantity T G) (y : T) : Prop := fst q = y.
Definition v_bare {T G : Type} := Forall2 (@bare T G).
Definition m_bare {T G : Type} := Forall2 (@v_bare T G).
Definition c_bare {T G : Type} (q : complex (quantity T G)) (y : complex T) : Prop := bare (re q) (re y) /\ bare (im q) (im y).
Definition q_bare {T G : Type} (q : quat (quantity T G)) (y : quat T) : Prop :=
  bare (qw q) (qw y) /\ bare (qx q) (qx y) /\ bare (qy q) (qy y) /\ bare (qz q) (qz y).

(** A change of units over a field: numbers of unit [g] are multiplied by [k g]. *)
Record change {T G : Type} {o : Ops T} (F : Field o) (u : units G) (k : G -> T) : Prop := {
  ch_one : k (u_one u) = o_one o;
  ch_mul : forall g h, k (u_mul u g h) = r_mul F (k g) (k h);
  ch_inv : forall g, r_mul F (k (u_inv u g)) (k g) = o_one o;
  ch_same : forall g h, u_same u g h = true -> k g = k h
}.
(** [y] is the number of the quantity [q] in the new units. *)
Definition scaled {T G : Type} {o : Ops T} (F : Field o) (k : G -> T) (q : quantity T G) (y : T) : Prop :=
  match snd q with Some g => y = r_mul F (k g) (fst q) | None => fst q = o_zero o /\ y = o_zero o end.
Definition v_scaled {T G : Type} {o : Ops T} (F : Field o) (k : G -> T) := Forall2 (scaled F k).
Definition m_scaled {T G : Type} {o : Ops T} (F : Field o) (k : G -> T) := Forall2 (v_scaled F k).
Definition c_scaled {T G : Type} {o : Ops T} (F : Field o) (k : G -> T) (q : complex (quantity T G)) (y : complex T) : Prop :=
  scaled F k (re q) (re y) /\ scaled F k (im q) (im y).
Definition q_scaled {T G : Type} {o : Ops T} (F : Field o) (k : G -> T) (q : quat (quantity T G)) (y : quat T) : Prop :=
  scaled F k (qw q) (qw y) /\ scaled F k (qx q) (qx y) /\ scaled F k (qy q) (qy y) /\ scaled F k (qz q) (qz y).

(** * Floating point numbers; the units are powers of two *)
Local Open Scope Z_scope.
(** Multiplied by [2^e] the float is still below the overflow threshold. *)
Definition no_overflow (emax : Z) (e : Z) (z : spec_float) : bool :=
  match z with S754_zero _ => true | S754_finite _ m x => Z.pos (digits2_pos m) + x + e <=? emax | _ => false end.
(** Neither the float nor the float multiplied by [2^e] is near the subnormal numbers. *)
Definition no_underflow (prec emax : Z) (e : Z) (z : spec_float) : bool :=
  match z with S754_finite _ m x => (3 - emax - prec <? x) && (3 - emax - prec <? x + e) | _ => false end%bool.
Definition zero_float (x : spec_float) : bool := match x with S754_zero _ => true | _ => false end.
Definition expo (a : option Z) : Z := match a with Some e => e | None => 0 end.
Definition z_units : units Z := Units 0 Z.add Z.opp Z.eqb.
Definition keep (b : bool) (z : spec_float) (a : option Z) : res (quantity spec_float Z) := if b then Ok (z, a) else Panic.
(** Floating point arithmetic that fails when unequal units are added, when a product or quotient gets near the subnormal
    numbers and when anything overflows, before or after the change of units. *)
Definition scale_ops (prec emax : Z) : Ops (quantity spec_float Z) :=
  let product x y z a := keep (zero_float x || zero_float y || (no_overflow emax (expo a) z && no_underflow prec emax (expo a) z))%bool z a in
  {| o_zero := (S754_zero false, None); o_one := (SFone prec emax, Some 0);
     o_add := fun x y => let! a := common z_units (snd x) (snd y) in let z := SFadd prec emax (fst x) (fst y) in keep (finite z && no_overflow emax (expo a) z)%bool z a;
     o_sub := fun x y => let! a := common z_units (snd x) (snd y) in let z := SFsub prec emax (fst x) (fst y) in keep (finite z && no_overflow emax (expo a) z)%bool z a;
     o_mul := fun x y => product (fst x) (fst y) (SFmul prec emax (fst x) (fst y)) (times z_units (snd x) (snd y));
     o_div := fun x y =>
       match snd y with
       | Some h => if zero_float (fst y) then Panic else product (fst x) (fst y) (SFdiv prec emax (fst x) (fst y)) (times z_units (snd x) (Some (- h)))
       | None => Panic
       end;
     o_rem := fun _ _ => Panic; o_neg := fun x => Ok (SFopp (fst x), snd x);
     o_is_zero := fun _ => false; o_eq := fun _ _ => false; o_lt := fun _ _ => false; o_le := fun _ _ => false |}.
(** [y] is [x] multiplied by [2^e]. *)
Definition shifted (prec emax : Z) (e : Z) (x y : spec_float) : Prop :=
  number_of prec emax x /\ number_of prec emax y /\ (value y = powerRZ 2 e * value x)%R.
(** [y] is the float of the quantity [q] in the new units. *)
Definition rescaled (prec emax : Z) (q : quantity spec_float Z) (y : spec_float) : Prop :=
  match snd q with
  | Some e => shifted prec emax e (fst q) y
  | None => number_of prec emax (fst q) /\ number_of prec emax y /\ value (fst q) = 0%R /\ value y = 0%R
  end.
Definition v_rescaled prec emax := Forall2 (rescaled prec emax).
Definition m_rescaled prec emax := Forall2 (v_rescaled prec emax).
Definition c_rescaled prec emax (q : complex (quantity spec_float Z)) (y : complex spec_float) : Prop :=
  rescaled prec emax (re q) (re y) /\ rescaled prec emax (im q) (im y).
Definition q_rescaled prec emax (q : quat (quantity spec_float Z)) (y : quat spec_float) : Prop :=
  rescaled prec emax (qw q) (qw y) /\ rescaled prec emax (qx q) (qx y) /\ rescaled prec emax (qy q) (qy y) /\ rescaled prec emax (qz q) (qz y).

(** Units that form a commutative group and equal themselves. *)
Record abelian {G : Type} (u : units G) : Prop := {
  ab_comm : forall a b, u_mul u a b = u_mul u b a;
  ab_assoc : forall a b c, u_mul u a (u_mul u b c) = u_mul u (u_mul u a b) c;
  ab_one : forall a, u_mul u (u_one u) a = a;
  ab_inv : forall a, u_mul u (u_inv u a) a = u_one u;
  ab_same : forall a, u_same u a a = true
}.
Definition of_unit {T G : Type} (g : G) (q : quantity T G) : Prop := snd q = Some g.
Definition c_of_unit {T G : Type} (g : G) (z : complex (quantity T G)) : Prop := of_unit g (re z) /\ of_unit g (im z).
Definition q_of_unit {T G : Type} (g : G) (z : quat (quantity T G)) : Prop := of_unit g (qw z) /\ of_unit g (qx z) /\ of_unit g (qy z) /\ of_unit g (qz z).
(** The product of the units a 0, ..., a (n-1). *)
Fixpoint unit_product {G : Type} (u : units G) (n : nat) (a : nat -> G) : G :=
  match n with O => u_one u | S n => u_mul u (unit_product u n a) (a n) end.
