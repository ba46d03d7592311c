(** Model of [src/complex/moebius.rs].  A [Moebius<T>] is its 2x2 matrix (moebius.rs:10-12), a list of
    two rows. *)
From Verif Require Export ComplexModel.
Set Implicit Arguments.

(** moebius.rs:15-17 [new], 19-24 [from_matrix], [into_matrix]; 45-48 [from_tuple]; 32-37 arrays. *)
Definition mo_new {T : Type} (a b c d : T) : res (list (list T)) :=
  m_from_array_of_arrays [[a; b]; [c; d]].
(** moebius.rs:45-48 [from_tuple]. *)
Definition mo_from_tuple {T : Type} (t : T * T * T * T) : res (list (list T)) :=
  let '(a, b, c, d) := t in mo_new a b c d.
(** moebius.rs:49-53 [into_tuple]. *)
Definition mo_into_tuple {T : Type} (m : list (list T)) : res (T * T * T * T) :=
  let! (ab, cd) := v_into_tuple2 (m_into_vector_of_vectors m) in
  let! (a, b) := v_into_tuple2 ab in
  let! (c, d) := v_into_tuple2 cd in
  Ok (a, b, c, d).
(** moebius.rs:57-68 [a], [b], [c], [d]. *)
Definition mo_a {T : Type} (m : list (list T)) : res T := m_index m (0, 0).
(** moebius.rs:60-62 [b]. *)
Definition mo_b {T : Type} (m : list (list T)) : res T := m_index m (0, 1).
(** moebius.rs:63-65 [c]. *)
Definition mo_c {T : Type} (m : list (list T)) : res T := m_index m (1, 0).
(** moebius.rs:66-68 [d]. *)
Definition mo_d {T : Type} (m : list (list T)) : res T := m_index m (1, 1).

(** moebius.rs:100-102 [identity]. *)
Definition mo_identity {T : Type} (o : Ops T) : res (list (list T)) := m_one o 2.
(** moebius.rs:109-111 [chain]. *)
Definition mo_chain {T : Type} (o : Ops T) (a b : list (list T)) : res (list (list T)) :=
  m_dot o 2 2 2 a b.

(** moebius.rs:115-121 [apply]: [T: Mul<U, Output = U>], [U: Add<T, Output = U> + Div<Output = U>]. *)
Definition mo_apply {T U : Type} (mul : T -> U -> res U) (add : U -> T -> res U) (div : U -> U -> res U)
  (m : list (list T)) (x : U) : res U :=
  let! num := (let! ax := (let! a := mo_a m in mul a x) in let! b := mo_b m in add ax b) in
  let! den := (let! cx := (let! c := mo_c m in mul c x) in let! d := mo_d m in add cx d) in
  div num den.
(** [apply] on scalars of the coefficient type, and of a complex transformation on quaternions. *)
Definition mo_apply_self {T : Type} (o : Ops T) : list (list T) -> T -> res T :=
  mo_apply (o_mul o) (o_add o) (o_div o).
(** moebius.rs:115-121 [apply] with [U = Quaternion<T>]. *)
Definition mo_apply_q {T : Type} (o : Ops T) : list (list (complex T)) -> quat T -> res (quat T) :=
  mo_apply (c_mul_q o) (q_add_c o) (q_div o).

(** moebius.rs:125-127 [det]; 130-133 [normalize]; 167-169 [inv]. *)
Definition mo_det {T : Type} (o : Ops T) (m : list (list T)) : res T := m_det o 2 m.
(** moebius.rs:130-133 [normalize]. *)
Definition mo_normalize {T : Type} (o : Ops T) (m : list (list T)) : res (list (list T)) :=
  let! d := mo_det o m in m_sdiv o m d.
(** moebius.rs:167-169 [inv]. *)
Definition mo_inv {T : Type} (o : Ops T) (m : list (list T)) : res (list (list T)) := m_inv o 2 m.

Section Deriv.
  Context {T : Type} (o : Ops T) (crem : complex T -> complex T -> res (complex T)) (two : T).
  Let co := c_ops o crem.

  (** moebius.rs:140-144 [deriv]. *)
  Definition mo_deriv (m : list (list (complex T))) (p : complex T) : res (complex T) :=
    let! a := mo_a m in let! b := mo_b m in let! c := mo_c m in let! d' := mo_d m in
    let! u := lift2 (c_add o) (c_mul o a p) (Ok b) in
    let! d := lift2 (c_add o) (c_mul o c p) (Ok d') in
    lift2 (c_div o) (lift2 (c_sub o) (c_mul o a d) (c_mul o u c)) (c_mul o d d).

  (** moebius.rs:151-160 [deriv_dir]; [two] is [T::from(2.0).unwrap()]. *)
  Definition mo_deriv_dir (m : list (list (complex T))) (p v : quat T) : res (quat T) :=
    let! a := mo_a m in let! b := mo_b m in let! c := mo_c m in let! d' := mo_d m in
    let! u := lift2 (q_add_c o) (c_mul_q o a p) (Ok b) in
    let! d := lift2 (q_add_c o) (c_mul_q o c p) (Ok d') in
    let! d2 := q_norm_sqr o d in
    let! g1 := lift2 (q_div o) (c_mul_q o a v) (Ok d) in
    let! g21 := lift1 (q_conj o) (c_mul_q o c v) in
    let! g22 :=
      lift2 (q_mul_s o) (q_conj o d)
        (lift2 (o_div o) (lift2 (o_mul o) (lift2 (q_dot o) (Ok d) (c_mul_q o c v)) (Ok two)) (Ok d2)) in
    let! g2 := lift2 (q_mul o) (Ok u) (lift2 (q_div_s o) (q_sub o g21 g22) (Ok d2)) in
    q_add o g1 g2.
End Deriv.
