(** Model of [Display] and [Debug] writing to a [Formatter] that can fail at any write:
    [src/vector/base/format.rs], [src/matrix/format.rs], [src/complex/format.rs].
    [W] is the state of the writer; a write returns the new state and whether it succeeded ([false] is [Err]), or panics.
    [lit] writes one literal piece (or the decimal digits of a [usize]), [elem] formats one element.
    [write!] with several pieces and arguments writes them from left to right and stops at the first [Err]
    (core::fmt::write, trusted). *)
From Coq Require Import String.
From Verif Require Export MathModel.
Set Implicit Arguments.
Local Open Scope list_scope.

Section Fmt.
  Context {W T : Type} (lit : string -> W -> res (W * bool)) (elem : T -> W -> res (W * bool)).

  (** [a?; b]. *)
  Definition and_then (a b : W -> res (W * bool)) : W -> res (W * bool) :=
    fun w => let! (w1, ok) := a w in if ok then b w1 else Ok (w1, false).
  (** [Ok(())]. *)
  Definition done : W -> res (W * bool) := fun w => Ok (w, true).
  (** Evaluating an expression that may panic before the next write. *)
  Definition eval {A : Type} (x : res A) (k : A -> W -> res (W * bool)) : W -> res (W * bool) :=
    fun w => let! a := x in k a w.

  (** vector/base/format.rs:10-12, 24-26 the loop. *)
  Fixpoint v_write_loop (v : list T) (left i : nat) (k : W -> res (W * bool)) : W -> res (W * bool) :=
    match left with
    | O => k
    | S l => and_then (eval (v_index v i) (fun x => and_then (elem x) (lit ", "))) (v_write_loop v l (S i) k)
    end.
  (** vector/base/format.rs:8-15, 22-29.  For [N = 0], [N - 1] panics after the first [write!]. *)
  Definition v_write (N : nat) (v : list T) : W -> res (W * bool) :=
    and_then (and_then (lit "Vector") (and_then (lit (nat_str N)) (lit "(")))
      (match N with
       | O => fun _ => Panic
       | S N1 => v_write_loop v N1 0 (and_then (eval (v_index v N1) (fun x => and_then (elem x) (lit ")"))) done)
       end).

  (** matrix/format.rs:13-15, 32-34 the inner loop; 11-17, 30-36 the outer loop; 8-20, 27-39. *)
  Fixpoint m_write_row (m : list (list T)) (left j i : nat) (k : W -> res (W * bool)) : W -> res (W * bool) :=
    match left with
    | O => k
    | S l => and_then (eval (m_index m (j, i)) (fun x => and_then (elem x) (lit ", "))) (m_write_row m l j (S i) k)
    end.
  (** matrix/format.rs:11-17, 30-36 the outer loop. *)
  Fixpoint m_write_rows (m : list (list T)) (N left j : nat) (k : W -> res (W * bool)) : W -> res (W * bool) :=
    match left with
    | O => k
    | S l => and_then (lit "  ") (m_write_row m N j 0 (and_then (lit nl) (m_write_rows m N l (S j) k)))
    end.
  (** matrix/format.rs:8-20, 27-39 [fmt]. *)
  Definition m_write (M N : nat) (m : list (list T)) : W -> res (W * bool) :=
    and_then (lit nl)
    (and_then (and_then (lit "Matrix") (and_then (lit (nat_str M)) (and_then (lit "x") (and_then (lit (nat_str N)) (lit ("(" ++ nl)%string)))))
    (m_write_rows m N M 0 (and_then (lit (")" ++ nl)%string) done))).

  (** complex/format.rs:5-7, 10-12. *)
  Definition c_write (z : complex T) : W -> res (W * bool) :=
    eval (c_re z) (fun a => eval (c_im z) (fun b =>
      and_then (lit "Complex(") (and_then (elem a) (and_then (lit ", ") (and_then (elem b) (lit ")")))))).
  (** complex/format.rs:16-25, 28-37. *)
  Definition q_write (q : quat T) : W -> res (W * bool) :=
    eval (q_w q) (fun a => eval (q_x q) (fun b => eval (q_y q) (fun c => eval (q_z q) (fun d =>
      and_then (lit "Quaternion(") (and_then (elem a) (and_then (lit ", ") (and_then (elem b)
      (and_then (lit ", ") (and_then (elem c) (and_then (lit ", ") (and_then (elem d) (lit ")"))))))))))))
    .
End Fmt.
