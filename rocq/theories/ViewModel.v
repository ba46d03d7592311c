(** Model of the accessors that give out references, and of the conversions between wrappers and what they wrap:
    [src/complex/moebius.rs], [src/transform/*.rs], [src/matrix/base/convert.rs].
    A mutable reference is modelled by the write through it: [f_set x v] is [*x.f_mut() = v]. *)
From Verif Require Export TransformModel.
Set Implicit Arguments.

(** moebius.rs:32-37 [from_array], [into_array]; 25-30, 38-43 the views; 172-211 the [From] impls call them. *)
Definition mo_from_array {T : Type} (a : list (list T)) : res (list (list T)) := m_from_array_of_arrays a.
(** moebius.rs:35-37 [into_array]; 198-200 [From]. *)
Definition mo_into_array {T : Type} (m : list (list T)) : res (list (list T)) := m_into_array_of_arrays m.
(** moebius.rs:25-30 [as_matrix], [as_mut_matrix]; 183-190 [From]. *)
Definition mo_as_matrix {T : Type} (m : list (list T)) : list (list T) := m.
(** moebius.rs:38-43 [as_array_of_arrays], [as_mut_array_of_arrays]; 203-210 [From]. *)
Definition mo_as_array_of_arrays {T : Type} (m : list (list T)) : list (list T) := m_as_array_of_arrays (mo_as_matrix m).
(** moebius.rs:72-83 [a_ref] .. [d_ref]. *)
Definition mo_a_ref {T : Type} (m : list (list T)) : res T := m_index m (0, 0).
(** moebius.rs:75-77 [b_ref]. *)
Definition mo_b_ref {T : Type} (m : list (list T)) : res T := m_index m (0, 1).
(** moebius.rs:78-80 [c_ref]. *)
Definition mo_c_ref {T : Type} (m : list (list T)) : res T := m_index m (1, 0).
(** moebius.rs:81-83 [d_ref]. *)
Definition mo_d_ref {T : Type} (m : list (list T)) : res T := m_index m (1, 1).
(** moebius.rs:85-96 [a_mut] .. [d_mut] followed by a write. *)
Definition mo_a_set {T : Type} (m : list (list T)) (x : T) : res (list (list T)) := m_index_set m (0, 0) x.
(** moebius.rs:88-90 [b_mut] followed by a write. *)
Definition mo_b_set {T : Type} (m : list (list T)) (x : T) : res (list (list T)) := m_index_set m (0, 1) x.
(** moebius.rs:91-93 [c_mut] followed by a write. *)
Definition mo_c_set {T : Type} (m : list (list T)) (x : T) : res (list (list T)) := m_index_set m (1, 0) x.
(** moebius.rs:94-96 [d_mut] followed by a write. *)
Definition mo_d_set {T : Type} (m : list (list T)) (x : T) : res (list (list T)) := m_index_set m (1, 1) x.

(** chain.rs:32-34 [outer], 41-43 [inner]; 36-38 [outer_mut], 45-47 [inner_mut] followed by a write; 51-53, 56-58 [From]. *)
Definition chain_outer {A B : Type} (c : A * B) : A := fst c.
(** chain.rs:41-43 [inner]. *)
Definition chain_inner {A B : Type} (c : A * B) : B := snd c.
(** chain.rs:36-38 [outer_mut] followed by a write. *)
Definition chain_outer_set {A B : Type} (c : A * B) (a : A) : A * B := (a, snd c).
(** chain.rs:45-47 [inner_mut] followed by a write. *)
Definition chain_inner_set {A B : Type} (c : A * B) (b : B) : A * B := (fst c, b).
(** chain.rs:51-53 [From<(A, B)>]. *)
Definition chain_from_tuple {A B : Type} (t : A * B) : A * B := chain_new (fst t) (snd t).
(** chain.rs:56-58 [From<Chain>]. *)
Definition chain_into_tuple {A B : Type} (c : A * B) : A * B := chain_split c.

(** shift.rs:23-38, scale.rs:21-37, linear.rs:27-42, rotation.rs:26-42, 145-161: the constructor from, and the
    conversion to, the wrapped vector, magnitude, matrix, complex number, quaternion.  The model represents each
    transformation by what it wraps. *)
Definition shift_from_vector {T : Type} (v : list T) : list T := v.
(** shift.rs:26-28 [into_vector]; 36-38 [From]. *)
Definition shift_into_vector {T : Type} (s : list T) : list T := s.
(** scale.rs:21-23 [from_mag]; 29-31 [From]. *)
Definition scale_from_mag {T : Type} (m : T) : T := m.
(** scale.rs:24-26 [into_mag]; 35-37 is commented out. *)
Definition scale_into_mag {T : Type} (s : T) : T := s.
(** linear.rs:27-29 [from_matrix]; 35-37 [From]. *)
Definition linear_from_matrix {T : Type} (m : list (list T)) : list (list T) := m.
(** linear.rs:30-32 [into_matrix]; 40-42 [From]. *)
Definition linear_into_matrix {T : Type} (l : list (list T)) : list (list T) := l.
(** rotation.rs:26-28 [from_complex]; 35-37 [From]. *)
Definition rot2_from_complex {T : Type} (z : complex T) : complex T := z.
(** rotation.rs:29-31 [into_complex]; 40-42 [From]. *)
Definition rot2_into_complex {T : Type} (r : complex T) : complex T := r.
(** rotation.rs:145-147 [from_quaternion]; 154-156 [From]. *)
Definition rot3_from_quaternion {T : Type} (q : quat T) : quat T := q.
(** rotation.rs:148-150 [into_quaternion]; 159-161 [From]. *)
Definition rot3_into_quaternion {T : Type} (r : quat T) : quat T := r.

(** quaternion.rs:291-295, 317-321 [+=], [-=] of a quaternion by a complex number, with the contents of [self] after a
    panic of the scalar operation: [w] is updated before [x]. *)
Definition q_assign_c_full {T : Type} (opa : T -> T -> res T) (a : quat T) (b : complex T) : quat T * res unit :=
  match opa (qw a) (re b) with
  | Ok w1 =>
      let a1 := Qt w1 (qx a) (qy a) (qz a) in
      match opa (qx a1) (im b) with
      | Ok x1 => (Qt (qw a1) x1 (qy a1) (qz a1), Ok tt)
      | Panic => (a1, Panic) | UB => (a1, UB) | Fuel => (a1, Fuel)
      end
  | Panic => (a, Panic) | UB => (a, UB) | Fuel => (a, Fuel)
  end.
(** complex_.rs:228-230, 244-246; quaternion.rs:301-303, 327-329: by a scalar. *)
Definition c_assign_s_full {T : Type} (opa : T -> T -> res T) (a : complex T) (s : T) : complex T * res unit :=
  match opa (re a) s with
  | Ok w1 => (Cx w1 (im a), Ok tt)
  | Panic => (a, Panic) | UB => (a, UB) | Fuel => (a, Fuel)
  end.
(** quaternion.rs:301-303, 327-329: a quaternion by a scalar. *)
Definition q_assign_s_full {T : Type} (opa : T -> T -> res T) (a : quat T) (s : T) : quat T * res unit :=
  match opa (qw a) s with
  | Ok w1 => (Qt w1 (qx a) (qy a) (qz a), Ok tt)
  | Panic => (a, Panic) | UB => (a, UB) | Fuel => (a, Fuel)
  end.
