(** Model of [src/traits.rs]: the impls for the primitive number types, and of the primitive [abs] they call. *)
From Coq Require Import ZArith SpecFloat.
From Verif Require Export MathModel SpecMachine.
Set Implicit Arguments.

(** traits.rs:69-78 [Dot] for every primitive. *)
Definition p_dot {T : Type} (o : Ops T) (x y : T) : res T := o_mul o x y.

(** traits.rs:84-104 the unsigned types. *)
Definition uint_norm_l1 {T : Type} (x : T) : res T := Ok x.
(** traits.rs:92-94 [norm_l2]. *)
Definition uint_norm_l2 {T : Type} (x : T) : res T := Ok x.
(** traits.rs:95-97 [norm_l2_sqr]. *)
Definition uint_norm_l2_sqr {T : Type} (o : Ops T) (x : T) : res T := o_mul o x x.
(** traits.rs:101-103 [norm_l_inf]. *)
Definition uint_norm_l_inf {T : Type} (x : T) : res T := Ok x.

(** traits.rs:112-132 the signed types; [abs] is the primitive's [abs]. *)
Definition sint_norm_l1 {T : Type} (abs : T -> res T) (x : T) : res T := abs x.
(** traits.rs:120-122 [norm_l2]. *)
Definition sint_norm_l2 {T : Type} (abs : T -> res T) (x : T) : res T := abs x.
(** traits.rs:123-125 [norm_l2_sqr]. *)
Definition sint_norm_l2_sqr {T : Type} (o : Ops T) (x : T) : res T := o_mul o x x.
(** traits.rs:129-131 [norm_l_inf]. *)
Definition sint_norm_l_inf {T : Type} (abs : T -> res T) (x : T) : res T := abs x.

(** [i32::abs] etc. (core): overflow on the least value panics in debug builds and wraps in release builds. *)
Definition checked_abs (w : Z) (x : Z) : res Z := check true w (Z.abs x).
(** [i32::abs] etc. (core) in release builds. *)
Definition wrapping_abs (w : Z) (x : Z) : res Z := Ok (wrap true w (Z.abs x)).

(** The norms a vector of [w]-bit integers uses, by signedness. *)
Definition int_norm_l1 (signed : bool) (w : Z) (x : Z) : res Z :=
  if signed then sint_norm_l1 (checked_abs w) x else uint_norm_l1 x.
(** traits.rs:101-103, 129-131 [norm_l_inf] of an integer, by signedness. *)
Definition int_norm_l_inf (signed : bool) (w : Z) (x : Z) : res Z :=
  if signed then sint_norm_l_inf (checked_abs w) x else uint_norm_l_inf x.
(** traits.rs:95-97, 123-125 [norm_l2_sqr] of an integer, by signedness. *)
Definition int_norm_l2_sqr (signed : bool) (w : Z) (x : Z) : res Z :=
  if signed then sint_norm_l2_sqr (checked_ops true w) x else uint_norm_l2_sqr (checked_ops false w) x.
(** traits.rs:86-88, 114-116 [norm_l1] in release builds. *)
Definition release_norm_l1 (signed : bool) (w : Z) (x : Z) : res Z :=
  if signed then sint_norm_l1 (wrapping_abs w) x else uint_norm_l1 x.
(** traits.rs:101-103, 129-131 [norm_l_inf] in release builds. *)
Definition release_norm_l_inf (signed : bool) (w : Z) (x : Z) : res Z :=
  if signed then sint_norm_l_inf (wrapping_abs w) x else uint_norm_l_inf x.

(** traits.rs:140-170 the float types; [FloatCore::abs] clears the sign (and leaves NaN alone). *)
Definition float_norm_l1 (x : spec_float) : res spec_float := Ok (SFabs x).
(** traits.rs:148-150 [norm_l2]. *)
Definition float_norm_l2 (x : spec_float) : res spec_float := Ok (SFabs x).
(** traits.rs:151-153 [norm_l2_sqr]. *)
Definition float_norm_l2_sqr (o : Ops spec_float) (x : spec_float) : res spec_float := o_mul o x x.
(** traits.rs:157-159 [norm_l_inf]. *)
Definition float_norm_l_inf (x : spec_float) : res spec_float := Ok (SFabs x).
(** traits.rs:162-164 [conj]. *)
Definition float_conj (x : spec_float) : spec_float := x.
(** [f32::EPSILON], [f64::EPSILON]: 2 ^ (1 - prec), as a normalised float. *)
Definition float_epsilon (prec : Z) : spec_float := S754_finite false (2 ^ Z.to_pos (prec - 1)) (2 - 2 * prec).
(** traits.rs:167-169 [is_epsilon]. *)
Definition float_is_epsilon (prec : Z) (x : spec_float) : bool := SFleb (SFabs x) (float_epsilon prec).
