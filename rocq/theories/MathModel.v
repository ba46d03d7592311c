(** Model of [src/vector/math.rs], [src/matrix/math.rs], [*/approx.rs], [*/format.rs], [*/distr.rs]. *)
From Coq Require Import String DecimalString.
From Verif Require Export TransformModel.
Set Implicit Arguments.

(* ------------------------------------------------------------------------- *)
(** * Broadcasting and element-wise float functions                            *)

(** vector/math.rs:4-6 and matrix/math.rs:4-6: a container broadcasts to itself. *)
Definition v_bc_self {T : Type} (v : list T) : res (list T) := Ok v.
(** matrix/math.rs:4-6: a matrix broadcasts to itself. *)
Definition m_bc_self {T : Type} (m : list (list T)) : res (list (list T)) := Ok m.
(** vector/math.rs:7-9: a scalar to a vector. *)
Definition v_bc_scalar {T : Type} (N : nat) (s : T) : res (list T) := v_fill N s.
(** matrix/math.rs:7-9: a vector to a matrix with equal rows; 10-12: a scalar to a matrix. *)
Definition m_bc_vector {T : Type} (M : nat) (v : list T) : res (list (list T)) :=
  let! a := v_fill M v in Ok (m_from_vector_of_vectors a).
(** matrix/math.rs:10-12: a scalar to a matrix. *)
Definition m_bc_scalar {T : Type} (M N : nat) (s : T) : res (list (list T)) := m_fill M N s.

(** vector/math.rs:12, 14-16, 20-22, 24, 26-29, 31, 33, 36-48, 50-51 and matrix/math.rs:15, 17-19,
    23-25, 27, 29-32, 34, 36, 39-51, 53-54: [self.map(T::f)] for a unary float function [f]. *)
Definition v_fun1 {T : Type} (f : T -> T) (v : list T) : res (list T) := v_map (ok1 f) v.
(** matrix/math.rs:15, 17-19, 23-25, 27, 29-32, 34, 36, 39-51, 53-54. *)
Definition m_fun1 {T : Type} (f : T -> T) (m : list (list T)) : res (list (list T)) := m_map (ok1 f) m.
(** vector/math.rs:13, 17-18, 23, 25, 32, 34-35 and matrix/math.rs:16, 20-21, 26, 28, 35, 37-38:
    [self.zip(other.broadcast()).map(|(s, o)| T::f(s, o))]; [other] is the broadcast argument. *)
Definition v_fun2 {T U : Type} (N : nat) (f : T -> U -> T) (v : list T) (other : res (list U))
  : res (list T) := let! w := other in v_zip_map N (ok2 f) v w.
(** matrix/math.rs:16, 20-21, 26, 28, 35, 37-38. *)
Definition m_fun2 {T U : Type} (M N : nat) (f : T -> U -> T) (m : list (list T))
  (other : res (list (list U))) : res (list (list T)) :=
  let! w := other in m_zip_map M N (ok2 f) m w.
(** vector/math.rs:19, 30 and matrix/math.rs:22, 33 [clamp], [mul_add]:
    [self.zip(a.broadcast().zip(b.broadcast())).map(|(s, (a, b))| ..)]. *)
Definition v_fun3 {T : Type} (N : nat) (f : T -> T -> T -> T) (v : list T) (a b : res (list T))
  : res (list T) :=
  let! a1 := a in let! b1 := b in let! ab := v_zip N a1 b1 in
  v_zip_map N (fun s '(x, y) => Ok (f s x y)) v ab.
(** matrix/math.rs:22, 33. *)
Definition m_fun3 {T : Type} (M N : nat) (f : T -> T -> T -> T) (m : list (list T))
  (a b : res (list (list T))) : res (list (list T)) :=
  let! a1 := a in let! b1 := b in let! ab := m_zip M N a1 b1 in
  m_zip_map M N (fun s '(x, y) => Ok (f s x y)) m ab.
(** [clamp]: [T::min(T::max(s, a), b)]. *)
Definition v_clamp {T : Type} (N : nat) (fmin fmax : T -> T -> T) (v : list T) (a b : res (list T))
  : res (list T) := v_fun3 N (fun s a b => fmin (fmax s a) b) v a b.
(** matrix/math.rs:22 [clamp]. *)
Definition m_clamp {T : Type} (M N : nat) (fmin fmax : T -> T -> T) (m : list (list T))
  (a b : res (list (list T))) : res (list (list T)) :=
  m_fun3 M N (fun s a b => fmin (fmax s a) b) m a b.
(** vector/math.rs:49 and matrix/math.rs:52 [sin_cos]. *)
Definition v_sin_cos {T : Type} (N : nat) (sc : T -> T * T) (v : list T) : res (list T * list T) :=
  let! l := v_map (ok1 sc) v in v_unzip N l.
(** matrix/math.rs:52 [sin_cos]. *)
Definition m_sin_cos {T : Type} (M N : nat) (sc : T -> T * T) (m : list (list T))
  : res (list (list T) * list (list T)) :=
  let! l := m_map (ok1 sc) m in m_unzip M N l.

(* ------------------------------------------------------------------------- *)
(** * Approximate comparison; [ade x y] is [abs_diff_eq!(x, y, epsilon = eps)] of the scalar.
      [default_epsilon] of every type is that of the scalar (vector/approx.rs:9-11, matrix/approx.rs:9-11,
      complex/approx.rs:9-11, 22-24, 35-37, linear.rs:120-122, shift.rs:94-96, scale.rs:90-92, rotation.rs:129-131,
      351-353, chain.rs:116-118). *)

(** vector/approx.rs:12-16. *)
Definition v_abs_diff_eq {T : Type} (N : nat) (ade : T -> T -> bool) (u v : list T) : res bool :=
  let! l := v_zip_map N (ok2 ade) u v in Ok (v_all l).
(** matrix/approx.rs:12-16. *)
Definition m_abs_diff_eq {T : Type} (M N : nat) (ade : T -> T -> bool) (a b : list (list T)) : res bool :=
  let! l := m_zip_map M N (ok2 ade) a b in m_all M N l.
(** complex/approx.rs:12-14, 25-27, 38-40. *)
Definition c_abs_diff_eq {T : Type} (ade : T -> T -> bool) (a b : complex T) : res bool :=
  v_abs_diff_eq 2 ade (c_into_vector a) (c_into_vector b).
(** complex/approx.rs:25-27. *)
Definition q_abs_diff_eq {T : Type} (ade : T -> T -> bool) (a b : quat T) : res bool :=
  v_abs_diff_eq 4 ade (q_into_vector a) (q_into_vector b).
(** complex/approx.rs:38-40. *)
Definition mo_abs_diff_eq {T : Type} (ade : T -> T -> bool) (a b : list (list T)) : res bool :=
  m_abs_diff_eq 2 2 ade a b.
(** transform/linear.rs:123-125, shift.rs:97-99, scale.rs:93-95, rotation.rs:132-135, 354-356. *)
Definition linear_abs_diff_eq {T : Type} (N : nat) (ade : T -> T -> bool) (a b : list (list T)) :=
  m_abs_diff_eq N N ade a b.
(** transform/shift.rs:97-99. *)
Definition shift_abs_diff_eq {T : Type} (N : nat) (ade : T -> T -> bool) (a b : list T) :=
  v_abs_diff_eq N ade a b.
(** transform/scale.rs:93-95. *)
Definition scale_abs_diff_eq {T : Type} (ade : T -> T -> bool) (a b : T) : res bool := Ok (ade a b).
(** transform/rotation.rs:132-135. *)
Definition rot2_abs_diff_eq {T : Type} (ade : T -> T -> bool) (a b : complex T) : res bool :=
  let! x := c_re a in let! y := c_re b in
  if ade x y then let! u := c_im a in let! v := c_im b in Ok (ade u v) else Ok false.
(** transform/rotation.rs:354-356. *)
Definition rot3_abs_diff_eq {T : Type} (ade : T -> T -> bool) (a b : quat T) : res bool :=
  q_abs_diff_eq ade a b.
(** transform/chain.rs:119-122: [outer && inner]. *)
Definition chain_abs_diff_eq {A B : Type} (ea : A -> A -> res bool) (eb : B -> B -> res bool)
  (c d : A * B) : res bool :=
  let! x := ea (fst c) (fst d) in if x then eb (snd c) (snd d) else Ok false.

(* ------------------------------------------------------------------------- *)
(** * Text output; [fmt x] is what [{}] / [{:?}] prints for an element          *)

(** [{}] of a [usize]. *)
Definition nat_str (n : nat) : string := NilZero.string_of_uint (Nat.to_uint n).

Local Open Scope string_scope.
(** vector/base/format.rs:10-12, 24-26, the loop [for i in 0..(N - 1)]. *)
Fixpoint v_fmt_loop {T : Type} (fmt : T -> string) (v : list T) (left i : nat) : res string :=
  match left with
  | O => Ok ""
  | S l =>
      let! x := v_index v i in
      let! s := v_fmt_loop fmt v l (S i) in
      Ok (fmt x ++ ", " ++ s)
  end.
(** vector/base/format.rs:8-15, 22-29; [N - 1] underflows for [N = 0] (panics with overflow checks;
    without them [0..usize::MAX] is iterated, and [self[0]] panics).  The writer does not fail. *)
Definition v_fmt {T : Type} (N : nat) (fmt : T -> string) (v : list T) : res string :=
  match N with
  | O => Panic
  | S N1 =>
      let! s := v_fmt_loop fmt v N1 0 in
      let! x := v_index v N1 in
      Ok ("Vector" ++ nat_str N ++ "(" ++ s ++ fmt x ++ ")")
  end.

(** matrix/format.rs:13-15, 32-34, the loop over columns. *)
Fixpoint m_fmt_row {T : Type} (fmt : T -> string) (m : list (list T)) (left j i : nat) : res string :=
  match left with
  | O => Ok ""
  | S l =>
      let! x := m_index m (j, i) in
      let! s := m_fmt_row fmt m l j (S i) in
      Ok (fmt x ++ ", " ++ s)
  end.
(** The character [\n] of matrix/format.rs:9-19, 28-38. *)
Definition nl : string := String (Ascii.ascii_of_nat 10) "".
(** matrix/format.rs:11-17, 30-36, the loop over rows. *)
Fixpoint m_fmt_rows {T : Type} (fmt : T -> string) (m : list (list T)) (N left j : nat) : res string :=
  match left with
  | O => Ok ""
  | S l =>
      let! r := m_fmt_row fmt m N j 0 in
      let! s := m_fmt_rows fmt m N l (S j) in
      Ok ("  " ++ r ++ nl ++ s)
  end.
(** matrix/format.rs:8-20, 27-39. *)
Definition m_fmt {T : Type} (M N : nat) (fmt : T -> string) (m : list (list T)) : res string :=
  let! s := m_fmt_rows fmt m N M 0 in
  Ok (nl ++ "Matrix" ++ nat_str M ++ "x" ++ nat_str N ++ "(" ++ nl ++ s ++ ")" ++ nl).
(** complex/format.rs:5-7, 10-12; 16-25, 28-37. *)
Definition c_fmt {T : Type} (fmt : T -> string) (z : complex T) : res string :=
  let! a := c_re z in let! b := c_im z in
  Ok ("Complex(" ++ fmt a ++ ", " ++ fmt b ++ ")").
(** complex/format.rs:16-25, 28-37. *)
Definition q_fmt {T : Type} (fmt : T -> string) (q : quat T) : res string :=
  let! a := q_w q in let! b := q_x q in let! c := q_y q in let! d := q_z q in
  Ok ("Quaternion(" ++ fmt a ++ ", " ++ fmt b ++ ", " ++ fmt c ++ ", " ++ fmt d ++ ")").

(* ------------------------------------------------------------------------- *)
(** * Random sampling; the generator state is [G], a distribution is a function [G -> res (G * A)] *)
Definition distr (G A : Type) : Type := G -> res (G * A).

(** vector/distr.rs:16-21, 27-29 [VectorDistribution]; 36-38 [Normal] for vectors; shift.rs:83-85 wraps it
    (scale.rs:79-81 wraps the scalar sample). *)
Definition v_distribution {G T : Type} (N : nat) (inner : distr G T) : distr G (list T) :=
  fun g => v_init N inner g.
(** matrix/distr.rs:17-22, 28-30 [MatrixDistribution]; 37-39 [Normal] for matrices; linear.rs:100-102 wraps it. *)
Definition m_distribution {G T : Type} (M N : nat) (inner : distr G T) : distr G (list (list T)) :=
  fun g => m_init M N inner g.

(** The rejection loop [loop { let x = draw; if accept(x) { break x; } }]. *)
Fixpoint reject_loop {G A : Type} (fuel : nat) (draw : distr G A) (accept : A -> res bool)
  : distr G A :=
  fun g =>
    match fuel with
    | O => Fuel
    | S k =>
        let! (g1, x) := draw g in
        let! b := accept x in
        if b then Ok (g1, x) else reject_loop k draw accept g1
    end.

Section Distr.
  Context {G T : Type} (o : Ops T) (F : FloatOps T) (normal : distr G T).
  (** vector/distr.rs:45-52 [NonZero]: [x.length() > T::epsilon()]. *)
  Definition nonzero_v (fuel N : nat) : distr G (list T) :=
    reject_loop fuel (v_distribution N normal)
      (fun x => let! l := v_length o (f_sqrt F) x in Ok (o_lt o (f_epsilon F) l)).
  (** vector/distr.rs:59-61 [Unit]. *)
  Definition unit_v (fuel N : nat) : distr G (list T) :=
    fun g => let! (g1, x) := nonzero_v fuel N g in
             let! u := v_normalize o (f_sqrt F) x in Ok (g1, u).
  (** traits.rs:167-169 [is_epsilon]: [self.abs() <= Self::EPSILON]. *)
  Definition is_epsilon (x : T) : bool := o_le o (f_abs F x) (f_epsilon F).
  (** matrix/distr.rs:48-55 [Invertible]: [!x.det().norm_l1().is_epsilon()], real coefficients (the norm of
      a float is its absolute value, traits.rs:142-144).  linear.rs:109-111 and complex/distr.rs:69-71 wrap the matrix. *)
  Definition invertible_m (fuel N : nat) : distr G (list (list T)) :=
    reject_loop fuel (m_distribution N N normal)
      (fun x => let! d := m_det o N x in Ok (negb (is_epsilon (f_abs F d)))).
  (** The same for complex coefficients, as [Moebius<Complex<T>>] uses it; [cnormal] samples a complex number. *)
  Definition invertible_cm (crem : complex T -> complex T -> res (complex T)) (cnormal : distr G (complex T))
    (fuel N : nat) : distr G (list (list (complex T))) :=
    reject_loop fuel (m_distribution N N cnormal)
      (fun x => let! d := m_det (c_ops o crem) N x in
                let! n := c_norm_l1 o (ok1 (f_abs F)) d in Ok (negb (is_epsilon n))).
  (** complex/distr.rs:11-36 and 38-63: [Normal], [NonZero], [Unit] for complex numbers, quaternions. *)
  Definition c_distr (d : distr G (list T)) : distr G (complex T) :=
    fun g => let! (g1, v) := d g in let! z := c_from_vector v in Ok (g1, z).
  (** complex/distr.rs:42-44, 51-53, 60-62: quaternions. *)
  Definition q_distr (d : distr G (list T)) : distr G (quat T) :=
    fun g => let! (g1, v) := d g in let! z := q_from_vector v in Ok (g1, z).
  (** transform/rotation.rs:116-121, 335-343 [Uniform]; [ranged] samples from [0, 2 pi). *)
  Definition uniform_rot2 (ranged : distr G T) : distr G (complex T) :=
    fun g => let! (g1, a) := ranged g in let! r := rot2_new F a in Ok (g1, r).
  (** transform/rotation.rs:335-343. *)
  Definition uniform_rot3 (fuel : nat) (ranged : distr G T) : distr G (quat T) :=
    fun g => let! (g1, u) := unit_v fuel 3 g in
             let! (g2, a) := ranged g1 in
             let! r := rot3_new o F u a in Ok (g2, r).
  (** transform/affine.rs:34-36, 44-46: [Affine::new(shift, linear)], drawn in this order. *)
  Definition affine_distr (N : nat) (lin : distr G (list (list T))) : distr G (list T * list (list T)) :=
    fun g => let! (g1, s) := v_distribution N normal g in
             let! (g2, m) := lin g1 in Ok (g2, chain_new s m).
  (** distr.rs:14-19 [Normal] for [f32], [f64]: [unit] samples from [0, 1), [half_turn] from [0, pi);
      [ln] is [Float::ln]. *)
  Definition normal_float (ln : T -> T) (unit half_turn : distr G T) : distr G T :=
    fun g =>
      let! (g1, u) := unit g in
      let! d := o_sub o (o_one o) u in
      let! n2 := o_neg o (f_two F) in
      let! p := o_mul o (ln d) n2 in
      let! (g2, phi) := half_turn g1 in
      let! x := o_mul o (f_sqrt F p) (f_cos F phi) in Ok (g2, x).
End Distr.
