(** Model of what [Matrix::try_from_iter] drops: [src/matrix/base/convert.rs] over [src/vector/base/iter.rs].
    A call is modelled by the element values dropped while it runs (in order, also when it panics) and its outcome. *)
From Verif Require Export MatrixModel.
Set Implicit Arguments.

(** vector/base/iter.rs:164-166 [GroupIter::next] with its drop log. *)
Definition group_next_drops {S A : Type} (N : nat) (n : next_fn S A) (s : S) : list A * res (S * option (list A)) := tfi N n s.

(** vector/base/iter.rs:65-69, the loop of [try_from_iter] at the element type [Vector<A, N>], where [next] itself may
    drop elements: [for (x, y) in a.iter_mut().zip(iter) { replace(x, new(y)); pos += 1; }]. *)
Fixpoint rows_loop {S A : Type} (next : S -> list A * res (S * option (list A))) (left pos : nat) (a : cells (list A)) (s : S)
  : list A * res (S * cells (list A) * nat) :=
  match left with
  | O => ([], Ok (s, a, pos))
  | Datatypes.S l =>
      let (d, r) := next s in
      match r with
      | Ok (s1, None) => (d, Ok (s1, a, pos))
      | Ok (s1, Some y) => let (d', r') := rows_loop next l (Datatypes.S pos) (list_set a pos (Some y)) s1 in (d ++ d', r')
      | Panic => (d, Panic) | UB => (d, UB) | Fuel => (d, Fuel)
      end
  end.

(** convert.rs:161-172 [Matrix::try_from_iter] = [Vector::<Vector<A, N>, M>::try_from_iter(GroupIter::new(i))]
    (vector/base/iter.rs:59-86).  Dropping a row drops its elements in order. *)
Definition m_tfi {S A : Type} (M N : nat) (n : next_fn S A) (s : S) : list A * res (S * option (list (list A))) :=
  let (d, r) := rows_loop (group_next_drops N n) M 0 (v_uninit M) s in
  match r with
  | Ok (s1, a, pos) =>
      if M <? pos then (d, Panic)                              (* unreachable!() *)
      else if pos =? M then (d, let! l := v_assume_init a in Ok (s1, option_map (@m_from_vector_of_vectors A) (Some l)))
      else
        match tfi_drop a pos with
        | Ok rows => (d ++ concat rows, Ok (s1, None))
        | Panic => (d, Panic) | UB => (d, UB) | Fuel => (d, Fuel)
        end
  | Panic => (d, Panic) | UB => (d, UB) | Fuel => (d, Fuel)
  end.
