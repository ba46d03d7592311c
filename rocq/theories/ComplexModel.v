(** Model of [src/complex/complex_.rs] and [src/complex/quaternion.rs].
    A [Complex<T>] wraps a [Vector2<T>], a [Quaternion<T>] a [Vector4<T>].  They are modelled as
    records of the two / four components; [*_into_vector] and [*_from_vector] convert to and from the
    list model of vectors (a list of any other length cannot occur, and is mapped to [UB]). *)
From Verif Require Export SquareModel.
Set Implicit Arguments.

(** The functions the crate takes from [num_traits::Float] / [FloatConst] / [NumCast]. *)
Record FloatOps (T : Type) : Type := mkFloatOps {
  f_sqrt : T -> T;
  f_sin : T -> T;
  f_cos : T -> T;
  f_atan2 : T -> T -> T;   (* [f_atan2 y x] is [y.atan2(x)] *)
  f_abs : T -> T;
  f_pi : T;
  f_two : T;               (* [T::from(2.0).unwrap()], [T::from(2).unwrap()] *)
  f_half : T;              (* [T::from(0.5).unwrap()] *)
  f_epsilon : T            (* [T::epsilon()], [Self::EPSILON] *)
}.

(** complex_.rs:16-18 [Complex]. *)
Record complex (T : Type) : Type := Cx { re : T; im : T }.
Arguments Cx {T} re im.

(** complex_.rs:24-26 [from_vector]; 52-54 [From]. *)
Definition c_from_vector {T : Type} (v : list T) : res (complex T) :=
  match v with [a; b] => Ok (Cx a b) | _ => UB end.
(** complex_.rs:36-38 [into_vector]; 57-59 [From]. *)
Definition c_into_vector {T : Type} (z : complex T) : list T := [re z; im z].
(** complex_.rs:27-29 [from_array]; 62-64 [From]. *)
Definition c_from_array {T : Type} (v : list T) : res (complex T) := c_from_vector (v_from_array v).
(** complex_.rs:39-41 [into_array]; 67-69 [From]. *)
Definition c_into_array {T : Type} (z : complex T) : list T := v_into_array (c_into_vector z).
(** complex_.rs:30-32 [from_tuple]; 72-74 [From]. *)
Definition c_from_tuple {T : Type} (t : T * T) : res (complex T) := c_from_vector (v_from_tuple2 t).
(** complex_.rs:42-44 [into_tuple]; 77-79 [From]. *)
Definition c_into_tuple {T : Type} (z : complex T) : res (T * T) := v_into_tuple2 (c_into_vector z).
(** complex_.rs:21-23 [new]. *)
Definition c_new {T : Type} (w x : T) : res (complex T) := c_from_vector (v_from_array [w; x]).
(** complex_.rs:93-98, 102-107 [re], [im]; 108-113 [re_mut], [im_mut] followed by a write. *)
Definition c_re {T : Type} (z : complex T) : res T := v_x (c_into_vector z).
(** complex_.rs:96-98 [im]; 105-107 [im_ref]. *)
Definition c_im {T : Type} (z : complex T) : res T := v_y (c_into_vector z).
(** complex_.rs:108-110 [re_mut] followed by a write. *)
Definition c_re_set {T : Type} (z : complex T) (a : T) : res (complex T) :=
  let! v := v_x_set (c_into_vector z) a in c_from_vector v.
(** complex_.rs:111-113 [im_mut] followed by a write. *)
Definition c_im_set {T : Type} (z : complex T) (a : T) : res (complex T) :=
  let! v := v_y_set (c_into_vector z) a in c_from_vector v.

Section Complex.
  Context {T : Type} (o : Ops T).
  Local Notation "a *! b" := (lift2 (o_mul o) a b) (at level 40, left associativity).
  Local Notation "a -! b" := (lift2 (o_sub o) a b) (at level 50, left associativity).
  Local Notation "a +! b" := (lift2 (o_add o) a b) (at level 50, left associativity).

  (** complex_.rs:120-123 [into_matrix]. *)
  Definition c_into_matrix (z : complex T) : res (list (list T)) :=
    let! (r, i) := c_into_tuple z in
    let! ni := o_neg o i in
    m_from_array_of_arrays [[r; ni]; [i; r]].
  (** complex_.rs:131-133 [Neg]. *)
  Definition c_neg (z : complex T) : res (complex T) :=
    let! v := v_neg o (c_into_vector z) in c_from_vector v.
  (** complex_.rs:140-143 [conj]; 150-152 [Conj::conj]. *)
  Definition c_conj (z : complex T) : res (complex T) :=
    let! (w, x) := c_into_tuple z in let! nx := o_neg o x in c_new w nx.
  (** complex_.rs:160-162, 179-181 [Add], [Sub]. *)
  Definition c_add (a b : complex T) : res (complex T) :=
    let! v := v_add o 2 (c_into_vector a) (c_into_vector b) in c_from_vector v.
  (** complex_.rs:179-181 [Sub]. *)
  Definition c_sub (a b : complex T) : res (complex T) :=
    let! v := v_sub o 2 (c_into_vector a) (c_into_vector b) in c_from_vector v.
  (** complex_.rs:169-172, 188-191: by a scalar. *)
  Definition c_add_s (a : complex T) (s : T) : res (complex T) :=
    let! (w, x) := c_into_tuple a in let! w1 := o_add o w s in c_new w1 x.
  (** complex_.rs:188-191 [Sub] of a scalar. *)
  Definition c_sub_s (a : complex T) (s : T) : res (complex T) :=
    let! (w, x) := c_into_tuple a in let! w1 := o_sub o w s in c_new w1 x.
  (** complex_.rs:199-201, 206-208 scalar + complex, scalar - complex. *)
  Definition s_add_c (s : T) (a : complex T) : res (complex T) := c_add_s a s.
  (** complex_.rs:206-208 scalar - complex. *)
  Definition s_sub_c (s : T) (a : complex T) : res (complex T) :=
    let! n := c_neg a in c_add_s n s.
  (** complex_.rs:253-258 [Zero]. *)
  Definition c_zero : res (complex T) := c_new (o_zero o) (o_zero o).
  (** complex_.rs:256-258 [is_zero]. *)
  Definition c_is_zero (z : complex T) : bool := v_is_zero o (c_into_vector z).
  (** complex_.rs:266-271 [Mul]. *)
  Definition c_mul (a b : complex T) : res (complex T) :=
    let! x := c_re a *! c_re b -! c_im a *! c_im b in
    let! y := c_re a *! c_im b +! c_im a *! c_re b in
    c_new x y.
  (** complex_.rs:278-280 by a scalar; 451-453 scalar * complex. *)
  Definition c_mul_s (a : complex T) (s : T) : res (complex T) :=
    let! v := v_smul o (c_into_vector a) s in c_from_vector v.
  (** complex_.rs:451-453 scalar * complex. *)
  Definition s_mul_c (s : T) (a : complex T) : res (complex T) := c_mul_s a s.
  (** complex_.rs:304-306 [One]; 313-315 [i]. *)
  Definition c_one : res (complex T) := c_new (o_one o) (o_zero o).
  (** complex_.rs:313-315 [i]. *)
  Definition c_i : res (complex T) := c_new (o_zero o) (o_one o).
  (** complex_.rs:322-324 [norm_sqr]; 354-356 [norm_l2_sqr]. *)
  Definition c_norm_sqr (z : complex T) : res T := v_square_length o (c_into_vector z).
  (** complex_.rs:364-366 division by a scalar. *)
  Definition c_div_s (a : complex T) (s : T) : res (complex T) :=
    let! v := v_sdiv o (c_into_vector a) s in c_from_vector v.
  (** complex_.rs:390-392 [inv]; 399-401 [Inv::inv]. *)
  Definition c_inv (z : complex T) : res (complex T) :=
    let! c := c_conj z in let! n := c_norm_sqr z in c_div_s c n.
  (** complex_.rs:410-412 [Div]; 459-461 scalar / complex. *)
  Definition c_div (a b : complex T) : res (complex T) :=
    let! i := c_inv b in c_mul a i.
  (** complex_.rs:459-461 scalar / complex. *)
  Definition s_div_c (s : T) (a : complex T) : res (complex T) :=
    let! i := c_inv a in s_mul_c s i.
  (** complex_.rs:474-476 [Dot]. *)
  Definition c_dot (a b : complex T) : res T := v_dot o 2 (c_into_vector a) (c_into_vector b).
  (** complex_.rs:345-347 [norm_l1]. *)
  Definition c_norm_l1 (n1 : T -> res T) (z : complex T) : res T := v_norm_l1 o n1 (c_into_vector z).
  (** complex_.rs:563-565 [Sum], 572-574 [Product]. *)
  Definition c_sum (l : list (complex T)) : res (complex T) :=
    let! z := c_zero in fold_res c_add z l.
  (** complex_.rs:572-574 [Product]. *)
  Definition c_product (l : list (complex T)) : res (complex T) :=
    let! z := c_one in fold_res c_mul z l.
  (** complex_.rs:15 [derive(PartialEq)]. *)
  Definition c_eq (a b : complex T) : bool := v_eq o (c_into_vector a) (c_into_vector b).

  (** complex_.rs:220-222, 236-238 [AddAssign], [SubAssign] by a complex number: contents, outcome.
      ([from_vector] cannot fail here; the fallback is never used.) *)
  Definition c_assign (opa : T -> T -> res T) (a b : complex T) : complex T * res unit :=
    let (v, r) := v_assign opa (c_into_vector a) (c_into_vector b) in
    (match c_from_vector v with Ok z => z | _ => a end, r).
  (** complex_.rs:228-230, 244-246 by a scalar: updates the real part in place. *)
  Definition c_assign_s (opa : T -> T -> res T) (a : complex T) (s : T) : res (complex T) :=
    let! x := c_re a in let! y := opa x s in c_re_set a y.
  (** complex_.rs:287-289, 295-297, 419-421, 427-429 [*=], [/=] store the result of [*], [/]. *)
  Definition c_mul_assign (a b : complex T) : res (complex T) := c_mul a b.
  (** complex_.rs:295-297 [MulAssign] by a scalar. *)
  Definition c_mul_assign_s (a : complex T) (s : T) : res (complex T) := c_mul_s a s.
  (** complex_.rs:419-421 [DivAssign]. *)
  Definition c_div_assign (a b : complex T) : res (complex T) := c_div a b.
  (** complex_.rs:427-429 [DivAssign] by a scalar. *)
  Definition c_div_assign_s (a : complex T) (s : T) : res (complex T) := c_div_s a s.

  Context (F : FloatOps T).
  (** complex_.rs:327-329 [norm]; 351-353 [norm_l2]. *)
  Definition c_norm (z : complex T) : res T := v_length o (f_sqrt F) (c_into_vector z).
  (** complex_.rs:330-332 [arg]. *)
  Definition c_arg (z : complex T) : res T :=
    let! y := c_im z in let! x := c_re z in Ok (f_atan2 F y x).
  (** complex_.rs:333-335 [to_polar]. *)
  Definition c_to_polar (z : complex T) : res (T * T) :=
    let! n := c_norm z in let! a := c_arg z in Ok (n, a).
  (** complex_.rs:336-338 [from_polar]. *)
  Definition c_from_polar (r theta : T) : res (complex T) :=
    let! x := o_mul o r (f_cos F theta) in
    let! y := o_mul o r (f_sin F theta) in
    c_new x y.
  (** complex_.rs:373-375 [normalize]; 381-383 [Normalize]. *)
  Definition c_normalize (z : complex T) : res (complex T) :=
    let! n := c_norm z in c_div_s z n.
End Complex.

(** complex_.rs:432-444: [Complex<T>] is itself a [Num] type, so matrices and Moebius transformations
    can have complex coefficients.  [rem] goes through num_complex and is a parameter here; complex
    numbers have no order. *)
Definition c_ops {T : Type} (o : Ops T) (rem : complex T -> complex T -> res (complex T))
  : Ops (complex T) :=
  {| o_zero := Cx (o_zero o) (o_zero o);          (* value of c_zero *)
     o_one := Cx (o_one o) (o_zero o);            (* value of c_one *)
     o_add := c_add o; o_sub := c_sub o; o_mul := c_mul o; o_div := c_div o; o_rem := rem;
     o_neg := c_neg o; o_is_zero := c_is_zero o; o_eq := c_eq o;
     o_lt := fun _ _ => false; o_le := fun _ _ => false |}.

(* ------------------------------------------------------------------------- *)
(** * Quaternions                                                              *)

(** quaternion.rs:16-18 [Quaternion]. *)
Record quat (T : Type) : Type := Qt { qw : T; qx : T; qy : T; qz : T }.
Arguments Qt {T} qw qx qy qz.

(** quaternion.rs:26-28 [from_vector]; 55-57 [From]. *)
Definition q_from_vector {T : Type} (v : list T) : res (quat T) :=
  match v with [a; b; c; d] => Ok (Qt a b c d) | _ => UB end.
(** quaternion.rs:39-41 [into_vector]; 60-62 [From]. *)
Definition q_into_vector {T : Type} (q : quat T) : list T := [qw q; qx q; qy q; qz q].
(** quaternion.rs:29-31 [from_array]; 75-77 [From]. *)
Definition q_from_array {T : Type} (v : list T) : res (quat T) := q_from_vector (v_from_array v).
(** quaternion.rs:42-44 [into_array]; 80-82 [From]. *)
Definition q_into_array {T : Type} (q : quat T) : list T := v_into_array (q_into_vector q).
(** quaternion.rs:32-34 [from_tuple]; 85-87 [From]. *)
Definition q_from_tuple {T : Type} (t : T * T * T * T) : res (quat T) :=
  q_from_vector (v_from_tuple4 t).
(** quaternion.rs:45-47 [into_tuple]; 90-92 [From]. *)
Definition q_into_tuple {T : Type} (q : quat T) : res (T * T * T * T) :=
  v_into_tuple4 (q_into_vector q).
(** quaternion.rs:21-25 [new]. *)
Definition q_new {T : Type} (w x y z : T) : res (quat T) := q_from_vector (v_from_array [w; x; y; z]).
(** quaternion.rs:35-38 [from_scalar_and_vector3]; 65-67 [From]. *)
Definition q_from_scalar_and_vector3 {T : Type} (w : T) (v : list T) : res (quat T) :=
  let! (x, y, z) := v_into_tuple3 v in q_new w x y z.
(** quaternion.rs:48-51 [into_scalar_and_vector3]; 70-72 [From]. *)
Definition q_into_scalar_and_vector3 {T : Type} (q : quat T) : res (T * list T) :=
  let! (w, x, y, z) := v_into_tuple4 (q_into_vector q) in Ok (w, v_from_array [x; y; z]).
(** quaternion.rs:99-110, 117-128 [w], [x], [y], [z]; 129-140 [*_mut] followed by a write. *)
Definition q_w {T : Type} (q : quat T) : res T := v_x (q_into_vector q).
(** quaternion.rs:102-104 [x]; 120-122 [x_ref]. *)
Definition q_x {T : Type} (q : quat T) : res T := v_y (q_into_vector q).
(** quaternion.rs:105-107 [y]; 123-125 [y_ref]. *)
Definition q_y {T : Type} (q : quat T) : res T := v_z (q_into_vector q).
(** quaternion.rs:108-110 [z]; 126-128 [z_ref]. *)
Definition q_z {T : Type} (q : quat T) : res T := v_w (q_into_vector q).
(** quaternion.rs:129-131 [w_mut] followed by a write. *)
Definition q_w_set {T : Type} (q : quat T) (a : T) : res (quat T) :=
  let! v := v_x_set (q_into_vector q) a in q_from_vector v.
(** quaternion.rs:132-134 [x_mut] followed by a write. *)
Definition q_x_set {T : Type} (q : quat T) (a : T) : res (quat T) :=
  let! v := v_y_set (q_into_vector q) a in q_from_vector v.
(** quaternion.rs:135-137 [y_mut] followed by a write. *)
Definition q_y_set {T : Type} (q : quat T) (a : T) : res (quat T) :=
  let! v := v_z_set (q_into_vector q) a in q_from_vector v.
(** quaternion.rs:138-140 [z_mut] followed by a write. *)
Definition q_z_set {T : Type} (q : quat T) (a : T) : res (quat T) :=
  let! v := v_w_set (q_into_vector q) a in q_from_vector v.
(** quaternion.rs:111-113 [xyz]. *)
Definition q_xyz {T : Type} (q : quat T) : res (list T) :=
  let! (_, v) := q_into_scalar_and_vector3 q in Ok v.

Section Quat.
  Context {T : Type} (o : Ops T).
  Local Notation "a *! b" := (lift2 (o_mul o) a b) (at level 40, left associativity).
  Local Notation "a -! b" := (lift2 (o_sub o) a b) (at level 50, left associativity).
  Local Notation "a +! b" := (lift2 (o_add o) a b) (at level 50, left associativity).

  (** quaternion.rs:147-150 [into_matrix]; the array literal is evaluated left to right. *)
  Definition q_into_matrix (q : quat T) : res (list (list T)) :=
    let! (w, x, y, z) := q_into_tuple q in
    let! nx := o_neg o x in let! ny := o_neg o y in let! nz := o_neg o z in
    let! nz' := o_neg o z in
    let! nx' := o_neg o x in
    let! ny' := o_neg o y in
    m_from_array_of_arrays
      [[w; nx; ny; nz]; [x; w; nz'; y]; [y; z; w; nx']; [z; ny'; x; w]].
  (** quaternion.rs:158-160 [Neg]. *)
  Definition q_neg (q : quat T) : res (quat T) :=
    let! v := v_neg o (q_into_vector q) in q_from_vector v.
  (** quaternion.rs:167-170 [conj]; 177-179 [Conj]. *)
  Definition q_conj (q : quat T) : res (quat T) :=
    let! (w, x, y, z) := q_into_tuple q in
    let! nx := o_neg o x in let! ny := o_neg o y in let! nz := o_neg o z in
    q_new w nx ny nz.
  (** quaternion.rs:187-189, 217-219 [Add], [Sub]. *)
  Definition q_add (a b : quat T) : res (quat T) :=
    let! v := v_add o 4 (q_into_vector a) (q_into_vector b) in q_from_vector v.
  (** quaternion.rs:217-219 [Sub]. *)
  Definition q_sub (a b : quat T) : res (quat T) :=
    let! v := v_sub o 4 (q_into_vector a) (q_into_vector b) in q_from_vector v.
  (** quaternion.rs:196-200, 226-230: quaternion +/- complex. *)
  Definition q_add_c (a : quat T) (b : complex T) : res (quat T) :=
    let! (w, x, y, z) := q_into_tuple a in
    let! (r, i) := c_into_tuple b in
    let! w1 := o_add o w r in let! x1 := o_add o x i in q_new w1 x1 y z.
  (** quaternion.rs:226-230 quaternion - complex. *)
  Definition q_sub_c (a : quat T) (b : complex T) : res (quat T) :=
    let! (w, x, y, z) := q_into_tuple a in
    let! (r, i) := c_into_tuple b in
    let! w1 := o_sub o w r in let! x1 := o_sub o x i in q_new w1 x1 y z.
  (** quaternion.rs:207-210, 237-240: quaternion +/- scalar. *)
  Definition q_add_s (a : quat T) (s : T) : res (quat T) :=
    let! (w, x, y, z) := q_into_tuple a in
    let! w1 := o_add o w s in q_new w1 x y z.
  (** quaternion.rs:237-240 quaternion - scalar. *)
  Definition q_sub_s (a : quat T) (s : T) : res (quat T) :=
    let! (w, x, y, z) := q_into_tuple a in
    let! w1 := o_sub o w s in q_new w1 x y z.
  (** quaternion.rs:248-250, 255-257, 262-264, 269-271: scalar or complex on the left. *)
  Definition s_add_q (s : T) (a : quat T) : res (quat T) := q_add_s a s.
  (** quaternion.rs:255-257 complex + quaternion. *)
  Definition c_add_q (s : complex T) (a : quat T) : res (quat T) := q_add_c a s.
  (** quaternion.rs:262-264 scalar - quaternion. *)
  Definition s_sub_q (s : T) (a : quat T) : res (quat T) := let! n := q_neg a in q_add_s n s.
  (** quaternion.rs:269-271 complex - quaternion. *)
  Definition c_sub_q (s : complex T) (a : quat T) : res (quat T) := let! n := q_neg a in q_add_c n s.
  (** quaternion.rs:336-341 [Zero]. *)
  Definition q_zero : res (quat T) := q_new (o_zero o) (o_zero o) (o_zero o) (o_zero o).
  (** quaternion.rs:339-341 [is_zero]. *)
  Definition q_is_zero (q : quat T) : bool := v_is_zero o (q_into_vector q).
  (** quaternion.rs:349-363 [Mul]. *)
  Definition q_mul (a b : quat T) : res (quat T) :=
    let! w := q_w a *! q_w b -! q_x a *! q_x b -! q_y a *! q_y b -! q_z a *! q_z b in
    let! x := q_w a *! q_x b +! q_x a *! q_w b +! q_y a *! q_z b -! q_z a *! q_y b in
    let! y := q_w a *! q_y b -! q_x a *! q_z b +! q_y a *! q_w b +! q_z a *! q_x b in
    let! z := q_w a *! q_z b +! q_x a *! q_y b -! q_y a *! q_x b +! q_z a *! q_w b in
    q_new w x y z.
  (** quaternion.rs:370-377 quaternion * complex. *)
  Definition q_mul_c (a : quat T) (b : complex T) : res (quat T) :=
    let! w := q_w a *! c_re b -! q_x a *! c_im b in
    let! x := q_w a *! c_im b +! q_x a *! c_re b in
    let! y := q_z a *! c_im b +! q_y a *! c_re b in
    let! z := q_z a *! c_re b -! q_y a *! c_im b in
    q_new w x y z.
  (** quaternion.rs:384-391 complex * quaternion. *)
  Definition c_mul_q (a : complex T) (b : quat T) : res (quat T) :=
    let! w := c_re a *! q_w b -! c_im a *! q_x b in
    let! x := c_re a *! q_x b +! c_im a *! q_w b in
    let! y := c_re a *! q_y b -! c_im a *! q_z b in
    let! z := c_re a *! q_z b +! c_im a *! q_y b in
    q_new w x y z.
  (** quaternion.rs:398-400 quaternion * scalar; 606-608 scalar * quaternion. *)
  Definition q_mul_s (a : quat T) (s : T) : res (quat T) :=
    let! v := v_smul o (q_into_vector a) s in q_from_vector v.
  (** quaternion.rs:606-608 scalar * quaternion. *)
  Definition s_mul_q (s : T) (a : quat T) : res (quat T) := q_mul_s a s.
  (** quaternion.rs:432-434 [One]; 441-449 [i], [j], [k]. *)
  Definition q_one : res (quat T) := q_new (o_one o) (o_zero o) (o_zero o) (o_zero o).
  (** quaternion.rs:441-443 [i]. *)
  Definition q_i : res (quat T) := q_new (o_zero o) (o_one o) (o_zero o) (o_zero o).
  (** quaternion.rs:444-446 [j]. *)
  Definition q_j : res (quat T) := q_new (o_zero o) (o_zero o) (o_one o) (o_zero o).
  (** quaternion.rs:447-449 [k]. *)
  Definition q_k : res (quat T) := q_new (o_zero o) (o_zero o) (o_zero o) (o_one o).
  (** quaternion.rs:456-458 [norm_sqr]; 479-481 [norm_l2_sqr]. *)
  Definition q_norm_sqr (q : quat T) : res T := v_square_length o (q_into_vector q).
  (** quaternion.rs:470-472 [norm_l1]. *)
  Definition q_norm_l1 (n1 : T -> res T) (q : quat T) : res T := v_norm_l1 o n1 (q_into_vector q).
  (** quaternion.rs:489-491 division by a scalar. *)
  Definition q_div_s (a : quat T) (s : T) : res (quat T) :=
    let! v := v_sdiv o (q_into_vector a) s in q_from_vector v.
  (** quaternion.rs:516-518 [inv]; 526-528 [Inv]. *)
  Definition q_inv (q : quat T) : res (quat T) :=
    let! c := q_conj q in let! n := q_norm_sqr q in q_div_s c n.
  (** quaternion.rs:537-539 [Div]; 547-549 by complex; 557-559 complex / quaternion;
      614-616 scalar / quaternion. *)
  Definition q_div (a b : quat T) : res (quat T) := let! i := q_inv b in q_mul a i.
  (** quaternion.rs:547-549 quaternion / complex. *)
  Definition q_div_c (a : quat T) (b : complex T) : res (quat T) :=
    let! i := c_inv o b in q_mul_c a i.
  (** quaternion.rs:557-559 complex / quaternion. *)
  Definition c_div_q (a : complex T) (b : quat T) : res (quat T) :=
    let! i := q_inv b in c_mul_q a i.
  (** quaternion.rs:614-616 scalar / quaternion. *)
  Definition s_div_q (s : T) (b : quat T) : res (quat T) := let! i := q_inv b in s_mul_q s i.
  (** quaternion.rs:587-592 [Rem]: [unimplemented!()]; 594-599 [from_str_radix]: [unimplemented!()]. *)
  Definition q_rem (a b : quat T) : res (quat T) := Panic.
  (** quaternion.rs:596-598 [from_str_radix]: [unimplemented!()]. *)
  Definition q_from_str_radix {Str : Type} (s : Str) (radix : nat) : res (option (quat T)) := Panic.
  (** quaternion.rs:629-631 [Dot]. *)
  Definition q_dot (a b : quat T) : res T := v_dot o 4 (q_into_vector a) (q_into_vector b).
  (** quaternion.rs:638-640 [Sum], 647-649 [Product]. *)
  Definition q_sum (l : list (quat T)) : res (quat T) := let! z := q_zero in fold_res q_add z l.
  (** quaternion.rs:647-649 [Product]. *)
  Definition q_product (l : list (quat T)) : res (quat T) := let! z := q_one in fold_res q_mul z l.
  (** quaternion.rs:15 [derive(PartialEq)]. *)
  Definition q_eq (a b : quat T) : bool := v_eq o (q_into_vector a) (q_into_vector b).

  (** quaternion.rs:283-285, 309-311 compound assignment by a quaternion: contents, outcome. *)
  Definition q_assign (opa : T -> T -> res T) (a b : quat T) : quat T * res unit :=
    let (v, r) := v_assign opa (q_into_vector a) (q_into_vector b) in
    (match q_from_vector v with Ok z => z | _ => a end, r).
  (** quaternion.rs:291-295, 317-321 by a complex number: [w], then [x] are updated in place
      (contents after a panic are not tracked); 301-303, 327-329 by a scalar. *)
  Definition q_assign_c (opa : T -> T -> res T) (a : quat T) (b : complex T) : res (quat T) :=
    let! (r, i) := c_into_tuple b in
    let! w := q_w a in let! w1 := opa w r in let! a1 := q_w_set a w1 in
    let! x := q_x a1 in let! x1 := opa x i in q_x_set a1 x1.
  (** quaternion.rs:301-303, 327-329 [AddAssign], [SubAssign] by a scalar (contents after a panic: ViewModel.v). *)
  Definition q_assign_s (opa : T -> T -> res T) (a : quat T) (s : T) : res (quat T) :=
    let! w := q_w a in let! w1 := opa w s in q_w_set a w1.
  (** quaternion.rs:407-409, 415-417, 423-425, 566-568, 574-576, 582-584 [*=], [/=]. *)
  Definition q_mul_assign (a b : quat T) : res (quat T) := q_mul a b.
  (** quaternion.rs:415-417 [MulAssign] by a complex number. *)
  Definition q_mul_assign_c (a : quat T) (b : complex T) : res (quat T) := q_mul_c a b.
  (** quaternion.rs:423-425 [MulAssign] by a scalar. *)
  Definition q_mul_assign_s (a : quat T) (s : T) : res (quat T) := q_mul_s a s.
  (** quaternion.rs:566-568 [DivAssign]. *)
  Definition q_div_assign (a b : quat T) : res (quat T) := q_div a b.
  (** quaternion.rs:574-576 [DivAssign] by a complex number. *)
  Definition q_div_assign_c (a : quat T) (b : complex T) : res (quat T) := q_div_c a b.
  (** quaternion.rs:582-584 [DivAssign] by a scalar. *)
  Definition q_div_assign_s (a : quat T) (s : T) : res (quat T) := q_div_s a s.

  Context (F : FloatOps T).
  (** quaternion.rs:461-463 [norm]; 476-478 [norm_l2]. *)
  Definition q_norm (q : quat T) : res T := v_length o (f_sqrt F) (q_into_vector q).
  (** quaternion.rs:498-500 [normalize]; 507-509 [Normalize]. *)
  Definition q_normalize (q : quat T) : res (quat T) := let! n := q_norm q in q_div_s q n.
End Quat.

(** quaternion.rs:587-599: [Quaternion<T>] is a [Num] type too. *)
Definition q_ops {T : Type} (o : Ops T) : Ops (quat T) :=
  {| o_zero := Qt (o_zero o) (o_zero o) (o_zero o) (o_zero o);
     o_one := Qt (o_one o) (o_zero o) (o_zero o) (o_zero o);
     o_add := q_add o; o_sub := q_sub o; o_mul := q_mul o; o_div := q_div o; o_rem := @q_rem T;
     o_neg := q_neg o; o_is_zero := q_is_zero o; o_eq := q_eq o;
     o_lt := fun _ _ => false; o_le := fun _ _ => false |}.
