(** Values of the complex and quaternion operations over exact rings and fields, and the ring and field
    structures they form. *)
From Coq Require Import Ring Field.
From Verif Require Export AlgFacts ComplexModel.
Set Implicit Arguments.
Local Open Scope list_scope.

Lemma cx_eta : forall T (z : complex T), z = Cx (re z) (im z).
Proof. destruct z; reflexivity. Qed.
Lemma qt_eta : forall T (q : quat T), q = Qt (qw q) (qx q) (qy q) (qz q).
Proof. destruct q; reflexivity. Qed.

Section CxRing.
  Context {T : Type} {o : Ops T} (R : Ring o).
  Local Notation "0" := (o_zero o).
  Local Notation "1" := (o_one o).
  Local Notation "x + y" := (r_add R x y).
  Local Notation "x * y" := (r_mul R x y).
  Local Notation "- x" := (r_opp R x).
  Local Notation "x - y" := (r_sub R x y).

  Ltac rok := repeat (first [rewrite (r_mul_ok R)|rewrite (r_add_ok R)|rewrite (r_sub_ok R)|rewrite (r_neg_ok R)];
    cbn [bind lift1 lift2]).
  Ltac zipok := unfold v_add, v_sub, v_mul; rewrite v_zip_map_res by reflexivity; cbn [map2_res]; rok.
  Ltac mapok := unfold v_neg, v_smul; rewrite v_map_res; cbn [map_res]; rok.
  Ltac acc := unfold c_re, c_im, q_w, q_x, q_y, q_z, v_x, v_y, v_z, v_w, v_get_unchecked, index_unchecked,
    c_into_vector, q_into_vector; cbn [nth_error lift2 bind re im qw qx qy qz].

  (** Vectors of literal length. *)
  Lemma v_add_2 : forall a b c d, v_add o 2 [a; b] [c; d] = Ok [a + c; b + d].
  Proof. intros. zipok. reflexivity. Qed.
  Lemma v_sub_2 : forall a b c d, v_sub o 2 [a; b] [c; d] = Ok [a - c; b - d].
  Proof. intros. zipok. reflexivity. Qed.
  Lemma v_neg_2 : forall a b, v_neg o [a; b] = Ok [- a; - b].
  Proof. intros. mapok. reflexivity. Qed.
  Lemma v_smul_2 : forall a b s, v_smul o [a; b] s = Ok [a * s; b * s].
  Proof. intros. mapok. reflexivity. Qed.
  Lemma v_dot_2 : forall a b c d, v_dot o 2 [a; b] [c; d] = Ok (a * c + b * d).
  Proof.
    intros. unfold v_dot. zipok. unfold v_sum. rewrite v_fold_first_cons. cbn [fold_res]. rok. reflexivity.
  Qed.
  Lemma v_square_length_2 : forall a b, v_square_length o [a; b] = Ok (a * a + b * b).
  Proof.
    intros. unfold v_square_length. rewrite v_map_res. cbn [map_res]. rok. unfold v_sum.
    rewrite v_fold_first_cons. cbn [fold_res]. rok. reflexivity.
  Qed.
  Lemma v_add_3 : forall a b c d e f, v_add o 3 [a; b; c] [d; e; f] = Ok [a + d; b + e; c + f].
  Proof. intros. zipok. reflexivity. Qed.
  Lemma v_sub_3 : forall a b c d e f, v_sub o 3 [a; b; c] [d; e; f] = Ok [a - d; b - e; c - f].
  Proof. intros. zipok. reflexivity. Qed.
  Lemma v_neg_3 : forall a b c, v_neg o [a; b; c] = Ok [- a; - b; - c].
  Proof. intros. mapok. reflexivity. Qed.
  Lemma v_smul_3 : forall a b c s, v_smul o [a; b; c] s = Ok [a * s; b * s; c * s].
  Proof. intros. mapok. reflexivity. Qed.
  Lemma v_dot_3 : forall a b c d e f, v_dot o 3 [a; b; c] [d; e; f] = Ok (a * d + b * e + c * f).
  Proof.
    intros. unfold v_dot. zipok. unfold v_sum. rewrite v_fold_first_cons. cbn [fold_res]. rok. reflexivity.
  Qed.
  Lemma v_square_length_3 : forall a b c, v_square_length o [a; b; c] = Ok (a * a + b * b + c * c).
  Proof.
    intros. unfold v_square_length. rewrite v_map_res. cbn [map_res]. rok. unfold v_sum.
    rewrite v_fold_first_cons. cbn [fold_res]. rok. reflexivity.
  Qed.
  Lemma v_cross3_v : forall a b c d e f, v_cross3 o [a; b; c] [d; e; f] =
    Ok [b * f - c * e; c * d - a * f; a * e - b * d].
  Proof. intros. unfold v_cross3. acc. rok. reflexivity. Qed.

  (** Complex numbers. *)
  Lemma c_add_v : forall a b, c_add o a b = Ok (Cx (re a + re b) (im a + im b)).
  Proof. intros. unfold c_add, c_into_vector. rewrite v_add_2. reflexivity. Qed.
  Lemma c_sub_v : forall a b, c_sub o a b = Ok (Cx (re a - re b) (im a - im b)).
  Proof. intros. unfold c_sub, c_into_vector. rewrite v_sub_2. reflexivity. Qed.
  Lemma c_neg_v : forall a, c_neg o a = Ok (Cx (- re a) (- im a)).
  Proof. intros. unfold c_neg, c_into_vector. rewrite v_neg_2. reflexivity. Qed.
  Lemma c_conj_v : forall a, c_conj o a = Ok (Cx (re a) (- im a)).
  Proof. intros. unfold c_conj, c_into_tuple. cbn -[o_neg]. rok. reflexivity. Qed.
  Lemma c_add_s_v : forall a s, c_add_s o a s = Ok (Cx (re a + s) (im a)).
  Proof. intros. unfold c_add_s, c_into_tuple. cbn -[o_add]. rok. reflexivity. Qed.
  Lemma c_sub_s_v : forall a s, c_sub_s o a s = Ok (Cx (re a - s) (im a)).
  Proof. intros. unfold c_sub_s, c_into_tuple. cbn -[o_sub]. rok. reflexivity. Qed.
  Lemma s_add_c_v : forall s a, s_add_c o s a = Ok (Cx (re a + s) (im a)).
  Proof. intros. apply c_add_s_v. Qed.
  Lemma s_sub_c_v : forall s a, s_sub_c o s a = Ok (Cx (- re a + s) (- im a)).
  Proof. intros. unfold s_sub_c. rewrite c_neg_v. cbn [bind]. apply c_add_s_v. Qed.
  Lemma c_mul_v : forall a b,
    c_mul o a b = Ok (Cx (re a * re b - im a * im b) (re a * im b + im a * re b)).
  Proof. intros. unfold c_mul. acc. rok. reflexivity. Qed.
  Lemma c_mul_s_v : forall a s, c_mul_s o a s = Ok (Cx (re a * s) (im a * s)).
  Proof. intros. unfold c_mul_s, c_into_vector. rewrite v_smul_2. reflexivity. Qed.
  Lemma s_mul_c_v : forall s a, s_mul_c o s a = Ok (Cx (re a * s) (im a * s)).
  Proof. intros. apply c_mul_s_v. Qed.
  Lemma c_norm_sqr_v : forall a, c_norm_sqr o a = Ok (re a * re a + im a * im a).
  Proof. intros. apply v_square_length_2. Qed.
  Lemma c_dot_v : forall a b, c_dot o a b = Ok (re a * re b + im a * im b).
  Proof. intros. apply v_dot_2. Qed.
  Lemma c_into_matrix_v : forall a, c_into_matrix o a = Ok [[re a; - im a]; [im a; re a]].
  Proof. intros. unfold c_into_matrix, c_into_tuple. cbn -[o_neg]. rok. reflexivity. Qed.

  (** Quaternions. *)
  Lemma v_add_4 : forall a b c d a' b' c' d', v_add o 4 [a; b; c; d] [a'; b'; c'; d'] =
    Ok [a + a'; b + b'; c + c'; d + d'].
  Proof. intros. zipok. reflexivity. Qed.
  Lemma v_sub_4 : forall a b c d a' b' c' d', v_sub o 4 [a; b; c; d] [a'; b'; c'; d'] =
    Ok [a - a'; b - b'; c - c'; d - d'].
  Proof. intros. zipok. reflexivity. Qed.
  Lemma v_dot_4 : forall a b c d a' b' c' d', v_dot o 4 [a; b; c; d] [a'; b'; c'; d'] =
    Ok (a * a' + b * b' + c * c' + d * d').
  Proof.
    intros. unfold v_dot. zipok. unfold v_sum. rewrite v_fold_first_cons. cbn [fold_res]. rok. reflexivity.
  Qed.
  Lemma v_square_length_4 : forall a b c d, v_square_length o [a; b; c; d] =
    Ok (a * a + b * b + c * c + d * d).
  Proof.
    intros. unfold v_square_length. rewrite v_map_res. cbn [map_res]. rok. unfold v_sum.
    rewrite v_fold_first_cons. cbn [fold_res]. rok. reflexivity.
  Qed.
  Lemma q_add_v : forall a b, q_add o a b = Ok (Qt (qw a + qw b) (qx a + qx b) (qy a + qy b) (qz a + qz b)).
  Proof. intros. unfold q_add, q_into_vector. rewrite v_add_4. reflexivity. Qed.
  Lemma q_sub_v : forall a b, q_sub o a b = Ok (Qt (qw a - qw b) (qx a - qx b) (qy a - qy b) (qz a - qz b)).
  Proof. intros. unfold q_sub, q_into_vector. rewrite v_sub_4. reflexivity. Qed.
  Lemma q_neg_v : forall a, q_neg o a = Ok (Qt (- qw a) (- qx a) (- qy a) (- qz a)).
  Proof. intros. unfold q_neg, q_into_vector. mapok. reflexivity. Qed.
  Lemma q_conj_v : forall a, q_conj o a = Ok (Qt (qw a) (- qx a) (- qy a) (- qz a)).
  Proof. intros. unfold q_conj, q_into_tuple. cbn -[o_neg]. rok. reflexivity. Qed.
  Lemma q_add_c_v : forall a b, q_add_c o a b = Ok (Qt (qw a + re b) (qx a + im b) (qy a) (qz a)).
  Proof. intros. unfold q_add_c, q_into_tuple, c_into_tuple. cbn -[o_add]. rok. reflexivity. Qed.
  Lemma q_sub_c_v : forall a b, q_sub_c o a b = Ok (Qt (qw a - re b) (qx a - im b) (qy a) (qz a)).
  Proof. intros. unfold q_sub_c, q_into_tuple, c_into_tuple. cbn -[o_sub]. rok. reflexivity. Qed.
  Lemma q_add_s_v : forall a s, q_add_s o a s = Ok (Qt (qw a + s) (qx a) (qy a) (qz a)).
  Proof. intros. unfold q_add_s, q_into_tuple. cbn -[o_add]. rok. reflexivity. Qed.
  Lemma q_sub_s_v : forall a s, q_sub_s o a s = Ok (Qt (qw a - s) (qx a) (qy a) (qz a)).
  Proof. intros. unfold q_sub_s, q_into_tuple. cbn -[o_sub]. rok. reflexivity. Qed.
  Lemma s_add_q_v : forall s a, s_add_q o s a = Ok (Qt (qw a + s) (qx a) (qy a) (qz a)).
  Proof. intros. apply q_add_s_v. Qed.
  Lemma c_add_q_v : forall b a, c_add_q o b a = Ok (Qt (qw a + re b) (qx a + im b) (qy a) (qz a)).
  Proof. intros. apply q_add_c_v. Qed.
  Lemma s_sub_q_v : forall s a, s_sub_q o s a = Ok (Qt (- qw a + s) (- qx a) (- qy a) (- qz a)).
  Proof. intros. unfold s_sub_q. rewrite q_neg_v. cbn [bind]. apply q_add_s_v. Qed.
  Lemma c_sub_q_v : forall b a, c_sub_q o b a = Ok (Qt (- qw a + re b) (- qx a + im b) (- qy a) (- qz a)).
  Proof. intros. unfold c_sub_q. rewrite q_neg_v. cbn [bind]. apply q_add_c_v. Qed.
  Lemma q_mul_v : forall a b, q_mul o a b = Ok
    (Qt (qw a * qw b - qx a * qx b - qy a * qy b - qz a * qz b)
        (qw a * qx b + qx a * qw b + qy a * qz b - qz a * qy b)
        (qw a * qy b - qx a * qz b + qy a * qw b + qz a * qx b)
        (qw a * qz b + qx a * qy b - qy a * qx b + qz a * qw b)).
  Proof. intros. unfold q_mul. acc. rok. reflexivity. Qed.
  Lemma q_mul_c_v : forall a b, q_mul_c o a b = Ok
    (Qt (qw a * re b - qx a * im b) (qw a * im b + qx a * re b)
        (qz a * im b + qy a * re b) (qz a * re b - qy a * im b)).
  Proof. intros. unfold q_mul_c. acc. rok. reflexivity. Qed.
  Lemma c_mul_q_v : forall a b, c_mul_q o a b = Ok
    (Qt (re a * qw b - im a * qx b) (re a * qx b + im a * qw b)
        (re a * qy b - im a * qz b) (re a * qz b + im a * qy b)).
  Proof. intros. unfold c_mul_q. acc. rok. reflexivity. Qed.
  Lemma q_mul_s_v : forall a s, q_mul_s o a s = Ok (Qt (qw a * s) (qx a * s) (qy a * s) (qz a * s)).
  Proof. intros. unfold q_mul_s, q_into_vector. mapok. reflexivity. Qed.
  Lemma s_mul_q_v : forall s a, s_mul_q o s a = Ok (Qt (qw a * s) (qx a * s) (qy a * s) (qz a * s)).
  Proof. intros. apply q_mul_s_v. Qed.
  Lemma q_norm_sqr_v : forall a, q_norm_sqr o a =
    Ok (qw a * qw a + qx a * qx a + qy a * qy a + qz a * qz a).
  Proof. intros. apply v_square_length_4. Qed.
  Lemma q_dot_v : forall a b, q_dot o a b = Ok (qw a * qw b + qx a * qx b + qy a * qy b + qz a * qz b).
  Proof. intros. apply v_dot_4. Qed.
  Lemma q_into_matrix_v : forall q, q_into_matrix o q = Ok
    [[qw q; - qx q; - qy q; - qz q]; [qx q; qw q; - qz q; qy q];
     [qy q; qz q; qw q; - qx q]; [qz q; - qy q; qx q; qw q]].
  Proof. intros. unfold q_into_matrix, q_into_tuple. cbn -[o_neg]. rok. reflexivity. Qed.

  (** Matrices of literal size. *)
  Lemma m_dot_22 : forall a b c d a' b' c' d', m_dot o 2 2 2 [[a; b]; [c; d]] [[a'; b']; [c'; d']] =
    Ok [[a * a' + b * c'; a * b' + b * d']; [c * a' + d * c'; c * b' + d * d']].
  Proof.
    intros. unfold m_dot. rewrite m_indices_mk. cbn [bind]. rewrite m_map_res.
    unfold mk, vk. cbn [seq map map_res]. unfold m_col. rewrite v_indices_seq. cbn [bind].
    rewrite !v_map_res. cbn -[o_add o_mul v_dot].
    repeat (rewrite v_dot_2; cbn -[o_add o_mul v_dot]). reflexivity.
  Qed.
  Lemma m_dot_v_22 : forall a b c d x y, m_dot_v o 2 2 [[a; b]; [c; d]] [x; y] =
    Ok [a * x + b * y; c * x + d * y].
  Proof.
    intros. unfold m_dot_v. rewrite v_indices_seq. cbn [bind]. rewrite v_map_res.
    cbn -[o_add o_mul v_dot]. repeat (rewrite v_dot_2; cbn -[o_add o_mul v_dot]). reflexivity.
  Qed.
  Lemma m_dot_v_33 : forall a b c d e f g h i x y z,
    m_dot_v o 3 3 [[a; b; c]; [d; e; f]; [g; h; i]] [x; y; z] =
    Ok [a * x + b * y + c * z; d * x + e * y + f * z; g * x + h * y + i * z].
  Proof.
    intros. unfold m_dot_v. rewrite v_indices_seq. cbn [bind]. rewrite v_map_res.
    cbn -[o_add o_mul v_dot]. repeat (rewrite v_dot_3; cbn -[o_add o_mul v_dot]). reflexivity.
  Qed.
  Lemma m_dot_33 : forall a b c d e f g h i a' b' c' d' e' f' g' h' i',
    m_dot o 3 3 3 [[a; b; c]; [d; e; f]; [g; h; i]] [[a'; b'; c']; [d'; e'; f']; [g'; h'; i']] =
    Ok [[a * a' + b * d' + c * g'; a * b' + b * e' + c * h'; a * c' + b * f' + c * i'];
        [d * a' + e * d' + f * g'; d * b' + e * e' + f * h'; d * c' + e * f' + f * i'];
        [g * a' + h * d' + i * g'; g * b' + h * e' + i * h'; g * c' + h * f' + i * i']].
  Proof.
    intros. unfold m_dot. rewrite m_indices_mk. cbn [bind]. rewrite m_map_res.
    unfold mk, vk. cbn [seq map map_res]. unfold m_col. rewrite v_indices_seq. cbn [bind].
    rewrite !v_map_res. cbn -[o_add o_mul v_dot].
    repeat (rewrite v_dot_3; cbn -[o_add o_mul v_dot]). reflexivity.
  Qed.
  Lemma m_dot_v_44 : forall a0 a1 a2 a3 b0 b1 b2 b3 c0 c1 c2 c3 d0 d1 d2 d3 x y z w,
    m_dot_v o 4 4 [[a0; a1; a2; a3]; [b0; b1; b2; b3]; [c0; c1; c2; c3]; [d0; d1; d2; d3]] [x; y; z; w] =
    Ok [a0 * x + a1 * y + a2 * z + a3 * w; b0 * x + b1 * y + b2 * z + b3 * w;
        c0 * x + c1 * y + c2 * z + c3 * w; d0 * x + d1 * y + d2 * z + d3 * w].
  Proof.
    intros. unfold m_dot_v. rewrite v_indices_seq. cbn [bind]. rewrite v_map_res.
    cbn -[o_add o_mul v_dot]. repeat (rewrite v_dot_4; cbn -[o_add o_mul v_dot]). reflexivity.
  Qed.
  (** 4x4 products, row by row through the product with a vector. *)
  Lemma m_dot_44 : forall a b, rect 4 4 a -> rect 4 4 b ->
    m_dot o 4 4 4 a b = Ok (mk 4 4 (fun i j => 
      mget o a i 0 * mget o b 0 j + mget o a i 1 * mget o b 1 j +
      mget o a i 2 * mget o b 2 j + mget o a i 3 * mget o b 3 j)).
  Proof.
    intros a b Ra Rb. rewrite (mk_of (o_zero o) Ra), (mk_of (o_zero o) Rb) at 1.
    rewrite (m_dot_mk R) by lia. f_equal. apply mk_ext. intros i j Hi Hj.
    fold (mget o a). fold (mget o b). cbn [bigsum]. rewrite (r_add_0_l R). reflexivity.
  Qed.
End CxRing.

(** Complex numbers over a commutative ring form a commutative ring, quaternions a ring. *)
Section CxInst.
  Context {T : Type} {o : Ops T} (R : CRing o).
  Add Ring Rcx : (CRing_theory R).
  Ltac ceq := intros; repeat match goal with z : complex _ |- _ => destruct z | z : quat _ |- _ => destruct z end;
    cbn; f_equal; ring.

  Definition c_ring_inst (rem : complex T -> complex T -> res (complex T)) : CRing (c_ops o rem).
  Proof.
    unshelve refine (@mkCRing _ (c_ops o rem) (@mkRing _ (c_ops o rem)
      (fun a b => Cx (r_add R (re a) (re b)) (r_add R (im a) (im b)))
      (fun a b => Cx (r_sub R (r_mul R (re a) (re b)) (r_mul R (im a) (im b)))
                     (r_add R (r_mul R (re a) (im b)) (r_mul R (im a) (re b))))
      (fun a b => Cx (r_sub R (re a) (re b)) (r_sub R (im a) (im b)))
      (fun a => Cx (r_opp R (re a)) (r_opp R (im a)))
      (c_add_v R) (c_mul_v R) (c_sub_v R) (c_neg_v R) _ _ _ _ _ _ _ _ _ _) _); ceq.
  Defined.

  Definition q_ring_inst : Ring (q_ops o).
  Proof.
    unshelve refine (@mkRing _ (q_ops o)
      (fun a b => Qt (r_add R (qw a) (qw b)) (r_add R (qx a) (qx b)) (r_add R (qy a) (qy b)) (r_add R (qz a) (qz b)))
      _
      (fun a b => Qt (r_sub R (qw a) (qw b)) (r_sub R (qx a) (qx b)) (r_sub R (qy a) (qy b)) (r_sub R (qz a) (qz b)))
      (fun a => Qt (r_opp R (qw a)) (r_opp R (qx a)) (r_opp R (qy a)) (r_opp R (qz a)))
      (q_add_v R) (q_mul_v R) (q_sub_v R) (q_neg_v R) _ _ _ _ _ _ _ _ _ _); ceq.
  Defined.
End CxInst.

(** Division over a field. *)
Section CxField.
  Context {T : Type} {o : Ops T} (F : Field o).
  Add Field Fcx : (Field_theory F).
  Local Notation "x / y" := (r_mul F x (f_inv F y)).
  Local Notation "x * y" := (r_mul F x y).
  Local Notation "x + y" := (r_add F x y).
  Local Notation "- x" := (r_opp F x).

  Definition c_nrm (a : complex T) : T := re a * re a + im a * im a.
  Definition q_nrm (a : quat T) : T := qw a * qw a + qx a * qx a + qy a * qy a + qz a * qz a.

  Lemma c_div_s_v : forall a s, s <> o_zero o -> c_div_s o a s = Ok (Cx (re a / s) (im a / s)).
  Proof.
    intros. unfold c_div_s, c_into_vector, v_sdiv. rewrite v_map_res. cbn [map_res].
    repeat (rewrite (f_div_ok F) by assumption; cbn [bind]). reflexivity.
  Qed.
  Lemma q_div_s_v : forall a s, s <> o_zero o -> q_div_s o a s = Ok (Qt (qw a / s) (qx a / s) (qy a / s) (qz a / s)).
  Proof.
    intros. unfold q_div_s, q_into_vector, v_sdiv. rewrite v_map_res. cbn [map_res].
    repeat (rewrite (f_div_ok F) by assumption; cbn [bind]). reflexivity.
  Qed.
  Lemma c_inv_v : forall a, c_nrm a <> o_zero o ->
    c_inv o a = Ok (Cx (re a / c_nrm a) ((- im a) / c_nrm a)).
  Proof.
    intros. unfold c_inv. rewrite (c_conj_v F). cbn [bind]. rewrite (c_norm_sqr_v F). cbn [bind].
    rewrite c_div_s_v by assumption. reflexivity.
  Qed.
  Lemma q_inv_v : forall a, q_nrm a <> o_zero o -> q_inv o a =
    Ok (Qt (qw a / q_nrm a) ((- qx a) / q_nrm a) ((- qy a) / q_nrm a) ((- qz a) / q_nrm a)).
  Proof.
    intros. unfold q_inv. rewrite (q_conj_v F). cbn [bind]. rewrite (q_norm_sqr_v F). cbn [bind].
    rewrite q_div_s_v by assumption. reflexivity.
  Qed.
End CxField.

(** Complex numbers over a formally real field form a field, quaternions a division ring. *)
Section CxFieldInst.
  Context {T : Type} {o : Ops T} (F : Field o).
  Add Field Fcxi : (Field_theory F).

  Lemma c_nrm_neq : real2 F -> forall z : complex T, z <> Cx (o_zero o) (o_zero o) -> c_nrm F z <> o_zero o.
  Proof.
    intros H z Hz E. apply Hz. destruct (H _ _ E) as (E1 & E2). rewrite (cx_eta z). congruence.
  Qed.
  Lemma q_nrm_neq : real4 F -> forall q : quat T,
    q <> Qt (o_zero o) (o_zero o) (o_zero o) (o_zero o) -> q_nrm F q <> o_zero o.
  Proof.
    intros H z Hz E. apply Hz. destruct (H _ _ _ _ E) as (E1 & E2 & E3 & E4). rewrite (qt_eta z). congruence.
  Qed.

  Definition c_finv (z : complex T) : complex T :=
    Cx (r_mul F (re z) (f_inv F (c_nrm F z))) (r_mul F (r_opp F (im z)) (f_inv F (c_nrm F z))).
  Definition c_field_inst (rem : complex T -> complex T -> res (complex T)) (H : real2 F) : Field (c_ops o rem).
  Proof.
    refine (@mkField _ (c_ops o rem) (c_ring_inst F rem) c_finv _ _ _).
    - intros E. apply (f_equal (fun z => re z)) in E. cbn in E. apply (f_one_neq_zero F E).
    - intros z Hz. apply (c_nrm_neq H) in Hz. cbn. unfold c_finv. cbn. unfold c_nrm in *. f_equal; field; exact Hz.
    - intros x y Hy. apply (c_nrm_neq H) in Hy. cbn [o_div c_ops]. unfold c_div. rewrite (c_inv_v F) by exact Hy.
      cbn [bind]. apply (c_mul_v F).
  Defined.

  Definition q_finv (q : quat T) : quat T :=
    Qt (r_mul F (qw q) (f_inv F (q_nrm F q))) (r_mul F (r_opp F (qx q)) (f_inv F (q_nrm F q)))
       (r_mul F (r_opp F (qy q)) (f_inv F (q_nrm F q))) (r_mul F (r_opp F (qz q)) (f_inv F (q_nrm F q))).
  Definition q_div_inst (H : real4 F) : DivRing (q_ops o).
  Proof.
    refine (@mkDivRing _ (q_ops o) (q_ring_inst F) q_finv _ _ _ _).
    - intros E. apply (f_equal (fun z => qw z)) in E. cbn in E. apply (f_one_neq_zero F E).
    - intros z Hz. apply (q_nrm_neq H) in Hz. cbn. unfold q_finv. cbn. unfold q_nrm in *. f_equal; field; exact Hz.
    - intros z Hz. apply (q_nrm_neq H) in Hz. cbn. unfold q_finv. cbn. unfold q_nrm in *. f_equal; field; exact Hz.
    - intros x y Hy. apply (q_nrm_neq H) in Hy. cbn [o_div q_ops]. unfold q_div. rewrite (q_inv_v F) by exact Hy.
      cbn [bind]. apply (q_mul_v F).
  Defined.
End CxFieldInst.
