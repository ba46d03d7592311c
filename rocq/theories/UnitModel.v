(** Model of what the [Zero] and [One] impls inherit from [num_traits] (the crate overrides neither method):
    [One::is_one] is [*self == Self::one()] with the derived [==]; [set_zero] and [set_one] assign [zero()] and [one()]. *)
From Verif Require Export MathModel.
Set Implicit Arguments.

(** vector/ops/base.rs:201-210 [Zero for Vector]: [set_zero]; the old contents are overwritten. *)
Definition v_set_zero {T : Type} (o : Ops T) (N : nat) (self : list T) : res (list T) :=
  let! z := v_zero o N in Ok z.
(** matrix/ops/base.rs:178-188 [Zero for Matrix]: [set_zero]. *)
Definition m_set_zero {T : Type} (o : Ops T) (M N : nat) (self : list (list T)) : res (list (list T)) :=
  let! z := m_zero o M N in Ok z.
(** complex_.rs:249-259 [Zero for Complex]: [set_zero]. *)
Definition c_set_zero {T : Type} (o : Ops T) (self : complex T) : res (complex T) := let! z := c_zero o in Ok z.
(** quaternion.rs:332-342 [Zero for Quaternion]: [set_zero]. *)
Definition q_set_zero {T : Type} (o : Ops T) (self : quat T) : res (quat T) := let! z := q_zero o in Ok z.
(** matrix/square.rs:21-29 [One for Matrix]: [set_one]. *)
Definition m_set_one {T : Type} (o : Ops T) (N : nat) (self : list (list T)) : res (list (list T)) :=
  let! u := m_one o N in Ok u.
(** complex_.rs:300-307 [One for Complex]: [set_one]. *)
Definition c_set_one {T : Type} (o : Ops T) (self : complex T) : res (complex T) := let! u := c_one o in Ok u.
(** quaternion.rs:428-435 [One for Quaternion]: [set_one]. *)
Definition q_set_one {T : Type} (o : Ops T) (self : quat T) : res (quat T) := let! u := q_one o in Ok u.
(** matrix/square.rs:21-29 [One for Matrix]: [is_one]. *)
Definition m_is_one {T : Type} (o : Ops T) (N : nat) (m : list (list T)) : res bool :=
  let! u := m_one o N in Ok (m_eq o m u).
(** complex_.rs:300-307 [One for Complex]: [is_one]. *)
Definition c_is_one {T : Type} (o : Ops T) (z : complex T) : res bool := let! u := c_one o in Ok (c_eq o z u).
(** quaternion.rs:428-435 [One for Quaternion]: [is_one]. *)
Definition q_is_one {T : Type} (o : Ops T) (z : quat T) : res bool := let! u := q_one o in Ok (q_eq o z u).
