(** Model of the two products of lengths in [src/matrix/base] with machine arithmetic: [usize] has [w] bits, and an
    overflow of [M * N] panics if overflow checks are on ([checks], debug builds) and wraps otherwise. *)
From Verif Require Export MatrixModel.
Set Implicit Arguments.

(** [a * b] on [usize] (the language, not crate code). *)
Definition usize_mul (w : nat) (checks : bool) (a b : nat) : res nat :=
  if a * b <? 2 ^ w then Ok (a * b) else if checks then Panic else Ok ((a * b) mod 2 ^ w).
(** matrix/base/convert.rs:192-198 [TryFrom<&[T]>]. *)
Definition m_try_from_slice_w {T : Type} (w : nat) (checks : bool) (M N : nat) (s : list T) : res (option (list (list T))) :=
  let! k := usize_mul w checks M N in
  if length s =? k then
    let! (_, o) := m_try_from_iter M N list_next s in
    let! m := unwrap o in Ok (Some m)
  else Ok None.
(** matrix/base/iter.rs:90-92 [Matrix::indices]. *)
Definition m_indices_w (w : nat) (checks : bool) (M N : nat) : res (list (list (nat * nat))) :=
  let! k := usize_mul w checks M N in
  let! (_, o) :=
    m_try_from_iter M N
      (map_next (fun x => if N =? 0 then Panic else Ok (x / N, x mod N)) range_next)
      (0, k) in
  unwrap o.
