(** Model of the part of [src/complex/complex_.rs] that delegates to the crate [num_complex] (version 0.4).
    [num_complex] itself is not modelled: its functions are the fields of [num_complex], and may fail. *)
From Coq Require Import ZArith.
From Verif Require Export TransformModel.
Set Implicit Arguments.

(** A [num_complex::Complex { re, im }] is a pair; [Str] stands for [&str], exponents [u32]/[i32] are in nat/Z. *)
Record num_complex (T Str : Type) : Type := mkNum {
  n_powu : T * T -> nat -> res (T * T);
  n_powi : T * T -> Z -> res (T * T);
  n_exp : T * T -> res (T * T);
  n_ln : T * T -> res (T * T);
  n_sqrt : T * T -> res (T * T);
  n_cbrt : T * T -> res (T * T);
  n_powf : T * T -> T -> res (T * T);
  n_log : T * T -> T -> res (T * T);
  n_powc : T * T -> T * T -> res (T * T);
  n_expf : T * T -> T -> res (T * T);
  n_sin : T * T -> res (T * T);
  n_cos : T * T -> res (T * T);
  n_tan : T * T -> res (T * T);
  n_asin : T * T -> res (T * T);
  n_acos : T * T -> res (T * T);
  n_atan : T * T -> res (T * T);
  n_sinh : T * T -> res (T * T);
  n_cosh : T * T -> res (T * T);
  n_tanh : T * T -> res (T * T);
  n_asinh : T * T -> res (T * T);
  n_acosh : T * T -> res (T * T);
  n_atanh : T * T -> res (T * T);
  n_finv : T * T -> res (T * T);
  n_fdiv : T * T -> T * T -> res (T * T);
  n_rem : T * T -> T * T -> res (T * T);
  n_from_str_radix : Str -> nat -> option (T * T)
}.

(** complex_.rs:33-35 [from_num] (and 82-84 [From]); 45-48 [into_num] (and 87-89 [From]). *)
Definition c_from_num {T : Type} (nc : T * T) : res (complex T) := c_new (fst nc) (snd nc).
(** complex_.rs:45-48 [into_num]; 87-89 [From]. *)
Definition c_into_num {T : Type} (z : complex T) : res (T * T) :=
  let! (r, i) := c_into_tuple z in Ok (r, i).

Section Delegate.
  Context {T Str : Type} (N : num_complex T Str).

  (** complex_.rs:480-482 [powu]; 485-487 [powi]. *)
  Definition c_powu (z : complex T) (e : nat) : res (complex T) :=
    let! n := c_into_num z in let! r := n_powu N n e in c_from_num r.
  (** complex_.rs:485-487 [powi]. *)
  Definition c_powi (z : complex T) (e : Z) : res (complex T) :=
    let! n := c_into_num z in let! r := n_powi N n e in c_from_num r.
  (** complex_.rs:491-502 [exp], [ln], [sqrt], [cbrt]. *)
  Definition c_exp (z : complex T) : res (complex T) := let! n := c_into_num z in let! r := n_exp N n in c_from_num r.
  (** complex_.rs:494-496 [ln]. *)
  Definition c_ln (z : complex T) : res (complex T) := let! n := c_into_num z in let! r := n_ln N n in c_from_num r.
  (** complex_.rs:497-499 [sqrt]. *)
  Definition c_sqrt (z : complex T) : res (complex T) := let! n := c_into_num z in let! r := n_sqrt N n in c_from_num r.
  (** complex_.rs:500-502 [cbrt]. *)
  Definition c_cbrt (z : complex T) : res (complex T) := let! n := c_into_num z in let! r := n_cbrt N n in c_from_num r.
  (** complex_.rs:503-514 [powf], [log], [powc], [expf]. *)
  Definition c_powf (z : complex T) (e : T) : res (complex T) := let! n := c_into_num z in let! r := n_powf N n e in c_from_num r.
  (** complex_.rs:506-508 [log]. *)
  Definition c_log (z : complex T) (b : T) : res (complex T) := let! n := c_into_num z in let! r := n_log N n b in c_from_num r.
  (** complex_.rs:509-511 [powc]. *)
  Definition c_powc (z e : complex T) : res (complex T) :=
    let! n := c_into_num z in let! k := c_into_num e in let! r := n_powc N n k in c_from_num r.
  (** complex_.rs:512-514 [expf]. *)
  Definition c_expf (z : complex T) (b : T) : res (complex T) := let! n := c_into_num z in let! r := n_expf N n b in c_from_num r.
  (** complex_.rs:515-532 trigonometric functions and their inverses. *)
  Definition c_sin (z : complex T) : res (complex T) := let! n := c_into_num z in let! r := n_sin N n in c_from_num r.
  (** complex_.rs:518-520 [cos]. *)
  Definition c_cos (z : complex T) : res (complex T) := let! n := c_into_num z in let! r := n_cos N n in c_from_num r.
  (** complex_.rs:521-523 [tan]. *)
  Definition c_tan (z : complex T) : res (complex T) := let! n := c_into_num z in let! r := n_tan N n in c_from_num r.
  (** complex_.rs:524-526 [asin]. *)
  Definition c_asin (z : complex T) : res (complex T) := let! n := c_into_num z in let! r := n_asin N n in c_from_num r.
  (** complex_.rs:527-529 [acos]. *)
  Definition c_acos (z : complex T) : res (complex T) := let! n := c_into_num z in let! r := n_acos N n in c_from_num r.
  (** complex_.rs:530-532 [atan]. *)
  Definition c_atan (z : complex T) : res (complex T) := let! n := c_into_num z in let! r := n_atan N n in c_from_num r.
  (** complex_.rs:533-550 hyperbolic functions and their inverses. *)
  Definition c_sinh (z : complex T) : res (complex T) := let! n := c_into_num z in let! r := n_sinh N n in c_from_num r.
  (** complex_.rs:536-538 [cosh]. *)
  Definition c_cosh (z : complex T) : res (complex T) := let! n := c_into_num z in let! r := n_cosh N n in c_from_num r.
  (** complex_.rs:539-541 [tanh]. *)
  Definition c_tanh (z : complex T) : res (complex T) := let! n := c_into_num z in let! r := n_tanh N n in c_from_num r.
  (** complex_.rs:542-544 [asinh]. *)
  Definition c_asinh (z : complex T) : res (complex T) := let! n := c_into_num z in let! r := n_asinh N n in c_from_num r.
  (** complex_.rs:545-547 [acosh]. *)
  Definition c_acosh (z : complex T) : res (complex T) := let! n := c_into_num z in let! r := n_acosh N n in c_from_num r.
  (** complex_.rs:548-550 [atanh]. *)
  Definition c_atanh (z : complex T) : res (complex T) := let! n := c_into_num z in let! r := n_atanh N n in c_from_num r.
  (** complex_.rs:551-556 [finv], [fdiv]. *)
  Definition c_finv (z : complex T) : res (complex T) := let! n := c_into_num z in let! r := n_finv N n in c_from_num r.
  (** complex_.rs:554-556 [fdiv]. *)
  Definition c_fdiv (z w : complex T) : res (complex T) :=
    let! n := c_into_num z in let! k := c_into_num w in let! r := n_fdiv N n k in c_from_num r.
  (** complex_.rs:434-436 [Rem]; 441-443 [from_str_radix] ([None] for [Err]). *)
  Definition c_rem (z w : complex T) : res (complex T) :=
    let! n := c_into_num z in let! k := c_into_num w in let! r := n_rem N n k in c_from_num r.
  (** complex_.rs:441-443 [from_str_radix] ([None] for [Err]). *)
  Definition c_from_str_radix (s : Str) (radix : nat) : res (option (complex T)) :=
    match n_from_str_radix N s radix with
    | Some t => let! z := c_from_num t in Ok (Some z)
    | None => Ok None
    end.
End Delegate.
