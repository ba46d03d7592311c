(** Specification vocabulary for C109: ranges of machine integers. *)
From Coq Require Import ZArith.
From Verif Require Export SpecMachine.
Set Implicit Arguments.
Local Open Scope Z_scope.

(** A range (lo, hi), and the integers in it. *)
Definition range : Type := (Z * Z)%type.
Definition inside (r : range) (x : Z) : Prop := fst r <= x <= snd r.
Definition v_inside (u : list range) (x : list Z) : Prop := Forall2 inside u x.
Definition m_inside (u : list (list range)) (x : list (list Z)) : Prop := Forall2 v_inside u x.
Definition c_inside (u : complex range) (x : complex Z) : Prop := inside (re u) (re x) /\ inside (im u) (im x).
Definition q_inside (u : quat range) (x : quat Z) : Prop :=
  inside (qw u) (qw x) /\ inside (qx u) (qx x) /\ inside (qy u) (qy x) /\ inside (qz u) (qz x).

Definition min4 (a b c d : Z) : Z := Z.min (Z.min a b) (Z.min c d).
Definition max4 (a b c d : Z) : Z := Z.max (Z.max a b) (Z.max c d).
(** Interval arithmetic for words: an operation on ranges fails if its result may not be representable, or a divisor may be zero. *)
Definition clip (signed : bool) (w lo hi : Z) : res range :=
  if (int_min signed w <=? lo) && (hi <=? int_max signed w) then Ok (lo, hi) else Panic.
Definition range_ops (signed : bool) (w : Z) : Ops range :=
  let corners f x y := clip signed w
    (min4 (f (fst x) (fst y)) (f (fst x) (snd y)) (f (snd x) (fst y)) (f (snd x) (snd y)))
    (max4 (f (fst x) (fst y)) (f (fst x) (snd y)) (f (snd x) (fst y)) (f (snd x) (snd y))) in
  let has_zero y := (fst y <=? 0) && (0 <=? snd y) in
  let size y := Z.max (Z.abs (fst y)) (Z.abs (snd y)) in
  {| o_zero := (0, 0); o_one := (1, 1);
     o_add := fun x y => clip signed w (fst x + fst y) (snd x + snd y);
     o_sub := fun x y => clip signed w (fst x - snd y) (snd x - fst y);
     o_mul := corners Z.mul;
     o_div := fun x y => if has_zero y then Panic else corners Z.quot x y;
     o_rem := fun x y => if has_zero y then Panic else
       let! _ := corners Z.quot x y in Ok (if fst x <? 0 then Z.max (fst x) (1 - size y) else 0, if 0 <? snd x then Z.min (snd x) (size y - 1) else 0);
     o_neg := fun x => clip signed w (- snd x) (- fst x);
     o_is_zero := fun _ => false; o_eq := fun _ _ => false; o_lt := fun _ _ => false; o_le := fun _ _ => false |}.

(** The computation [f] neither panics in debug builds nor wraps around in release builds: both return the exact result, which satisfies [P]. *)
Definition exact_in (signed : bool) (w : Z) {X : Type} (f : Ops Z -> res X) (P : X -> Prop) : Prop :=
  exists s, f z_ops = Ok s /\ f (checked_ops signed w) = Ok s /\ f (wrapping_ops signed w) = Ok s /\ P s.
(** Of absolute value at most [B]; for unsigned types, at most [B]. *)
Definition small (signed : bool) (B x : Z) : Prop := (if signed then - B else 0) <= x <= B.
