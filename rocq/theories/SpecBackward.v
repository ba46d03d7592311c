(** Specification vocabulary for C118: relative distance between a float and a real number. *)
From Coq Require Import Reals SpecFloat List.
From Verif Require Import SpecRound.
Set Implicit Arguments.
Local Open Scope R_scope.

(** [r] differs from the number [x] denotes by at most the fraction [eps] of it. *)
Definition close (eps : R) (x : spec_float) (r : R) : Prop := Rabs (r - value x) <= eps * Rabs (value x).
Definition v_close (eps : R) : list spec_float -> list R -> Prop := Forall2 (close eps).
Definition m_close (eps : R) : list (list spec_float) -> list (list R) -> Prop := Forall2 (v_close eps).
(** The numbers denoted. *)
Definition v_values : list spec_float -> list R := map value.
Definition m_values : list (list spec_float) -> list (list R) := map v_values.
(** All components are finite. *)
Definition v_finite (v : list spec_float) : Prop := Forall (fun x => finite x = true) v.
Definition m_finite (m : list (list spec_float)) : Prop := Forall v_finite m.
(** A result that does not underflow: zero or at least the smallest normal float. *)
Definition no_underflow (emax : Z) (r : R) : Prop := r = 0 \/ min_normal emax <= Rabs r.
