(** Specification vocabulary for C110: ranges of floating point numbers. *)
From Coq Require Import ZArith Reals SpecFloat List.
From Verif Require Export Res ComplexModel SpecRound.
Set Implicit Arguments.
Local Open Scope R_scope.

(** A well formed float that is neither infinite nor NaN. *)
Definition number_of (prec emax : Z) (x : spec_float) : Prop := valid_binary prec emax x = true /\ finite x = true.
(** A range (lo, hi) of floats, and the floats between its ends. *)
Definition frange : Type := (spec_float * spec_float)%type.
Definition fin (prec emax : Z) (r : frange) (x : spec_float) : Prop :=
  number_of prec emax (fst r) /\ number_of prec emax (snd r) /\ number_of prec emax x /\ value (fst r) <= value x <= value (snd r).
Definition v_fin prec emax (u : list frange) (x : list spec_float) : Prop := Forall2 (fin prec emax) u x.
Definition m_fin prec emax (u : list (list frange)) (x : list (list spec_float)) : Prop := Forall2 (v_fin prec emax) u x.
Definition c_fin prec emax (u : complex frange) (x : complex spec_float) : Prop := fin prec emax (re u) (re x) /\ fin prec emax (im u) (im x).
Definition q_fin prec emax (u : quat frange) (x : quat spec_float) : Prop :=
  fin prec emax (qw u) (qw x) /\ fin prec emax (qx u) (qx x) /\ fin prec emax (qy u) (qy x) /\ fin prec emax (qz u) (qz x).

(** Interval arithmetic with the floats' own rounding (to nearest): an operation fails if an end of the result overflows, or a
    divisor may be zero.  No rounding outwards. *)
Definition f_least (x y : spec_float) : spec_float := if SFltb y x then y else x.
Definition f_most (x y : spec_float) : spec_float := if SFltb x y then y else x.
Definition f_clip (lo hi : spec_float) : res frange := if (finite lo && finite hi)%bool then Ok (lo, hi) else Panic.
Definition f_corners (f : spec_float -> spec_float -> spec_float) (x y : frange) : res frange :=
  let a := f (fst x) (fst y) in let b := f (fst x) (snd y) in let c := f (snd x) (fst y) in let d := f (snd x) (snd y) in
  if (finite a && finite b && finite c && finite d)%bool then Ok (f_least (f_least a b) (f_least c d), f_most (f_most a b) (f_most c d)) else Panic.
Definition frange_ops (prec emax : Z) : Ops frange :=
  let zero := S754_zero false in
  {| o_zero := (zero, zero); o_one := (SFone prec emax, SFone prec emax);
     o_add := fun x y => f_clip (SFadd prec emax (fst x) (fst y)) (SFadd prec emax (snd x) (snd y));
     o_sub := fun x y => f_clip (SFsub prec emax (fst x) (snd y)) (SFsub prec emax (snd x) (fst y));
     o_mul := f_corners (SFmul prec emax);
     o_div := fun x y => if (SFltb zero (fst y) || SFltb (snd y) zero)%bool then f_corners (SFdiv prec emax) x y else Panic;
     o_rem := fun _ _ => Panic; o_neg := fun x => Ok (SFopp (snd x), SFopp (fst x));
     o_is_zero := fun _ => false; o_eq := fun _ _ => false; o_lt := fun _ _ => false; o_le := fun _ _ => false |}.

(** A number of absolute value at most [B]. *)
Definition upto (prec emax : Z) (B : R) (x : spec_float) : Prop := number_of prec emax x /\ Rabs (value x) <= B.
