(** Property C60: the matrix of a rotation. *)
From Coq Require Import ZArith Ring Field ZifyBool.
From Verif Require Import SpecTransform SpecFacts MFacts AlgFacts CxFacts SpecDet DetFacts SqProofs PropAlgebra PropSquare PropTransform Instances.
Set Implicit Arguments.
Local Open Scope nat_scope.
Local Open Scope list_scope.

(* ------------------------------------------------------------------------- *)
(** * C60: Rotation3::to_linear                                                *)

Section C60.
  Context {T : Type} {o : Ops T} (R : CRing o) (F : FloatOps T).
  Add Ring R60 : (CRing_theory R).
  Local Notation t := (rot3_transform o).
  Local Notation "x + y" := (r_add R x y).
  Local Notation "x * y" := (r_mul R x y).
  Local Notation "x - y" := (r_sub R x y).
  Local Notation "- x" := (r_opp R x).

  Lemma m_det_33 : forall a b c d e f g h i,
    m_det o 3 [[a; b; c]; [d; e; f]; [g; h; i]] =
    Ok (a * (e * i - f * h) - b * (d * i - f * g) + c * (d * h - e * g)).
  Proof.
    intros. rewrite (m_det_leibniz R). 2: { split; [reflexivity|repeat constructor]. } f_equal.
    set (A := mget o [[a; b; c]; [d; e; f]; [g; h; i]]). unfold leibniz.
    change (perms 3) with [[0; 1; 2]; [0; 2; 1]; [1; 0; 2]; [1; 2; 0]; [2; 0; 1]; [2; 1; 0]].
    unfold lsum, lprod, signed. cbn. unfold A, mget. cbn [nth]. ring.
  Qed.

  (** [T::from(2).unwrap()] is [1 + 1]. *)
  Context (Htwo : o_add o (o_one o) (o_one o) = Ok (f_two F)).
  Lemma two_v : f_two F = o_one o + o_one o.
  Proof. rewrite (r_add_ok R) in Htwo. apply Ok_inj in Htwo. auto. Qed.

  Lemma rot3_to_linear_v : forall w i j k, let two := o_one o + o_one o in rot3_to_linear o F (Qt w i j k) = Ok
    [ [o_one o - two * j * j - two * k * k; two * i * j - two * k * w; two * i * k + two * j * w];
      [two * i * j + two * k * w; o_one o - two * i * i - two * k * k; two * j * k - two * i * w];
      [two * i * k - two * j * w; two * j * k + two * i * w; o_one o - two * i * i - two * j * j] ].
  Proof.
    intros. unfold rot3_to_linear. rewrite two_v. fold two.
    unfold q_w, q_x, q_y, q_z, v_x, v_y, v_z, v_w, v_get_unchecked, index_unchecked, q_into_vector.
    cbn [nth_error qw qx qy qz]. unfold lift2. cbn [bind].
    repeat (first [rewrite (r_mul_ok R)|rewrite (r_add_ok R)|rewrite (r_sub_ok R)]; cbn [bind]).
    reflexivity.
  Qed.

  (** For a unit quaternion the entries are homogeneous. *)
  Lemma rot3_to_linear_unit : forall w i j k, w * w + i * i + j * j + k * k = o_one o ->
    rot3_to_linear o F (Qt w i j k) = Ok
    [ [w * w + i * i - j * j - k * k; (i * j - w * k) + (i * j - w * k); (i * k + w * j) + (i * k + w * j)];
      [(i * j + w * k) + (i * j + w * k); w * w - i * i + j * j - k * k; (j * k - w * i) + (j * k - w * i)];
      [(i * k - w * j) + (i * k - w * j); (j * k + w * i) + (j * k + w * i); w * w - i * i - j * j + k * k] ].
  Proof.
    intros w i j k H. rewrite rot3_to_linear_v. f_equal.
    assert (X : forall a b, o_one o - a - b = (w * w + i * i + j * j + k * k) - a - b) by (intros; rewrite H; auto).
    rewrite !X. listeq; ring.
  Qed.
  (** [to_linear] of a unit quaternion is the same map ... *)
  Theorem C60_same_action : forall r x, unit_q o r -> dim 3 x ->
    (let! m := rot3_to_linear o F r in t_apply (linear_transform o 3) m x) =! t_apply t r x.
  Proof.
    intros r x H Hx. rewrite (unit_q_v R) in H. comps. rewrite (rot3_apply_v R), rot3_to_linear_unit by exact H.
    cbn [bind t_apply linear_transform]. rewrite (m_dot_v_33 R). same.
  Qed.
  (** ... and maps composition to composition. *)
  Theorem C60_chain : forall r q, unit_q o r -> unit_q o q ->
    (let! rq := t_chain t r q in rot3_to_linear o F rq) =!
    (let! a := rot3_to_linear o F r in let! b := rot3_to_linear o F q in t_chain (linear_transform o 3) a b).
  Proof.
    intros r q Hr Hq.
    assert (A : forall r, exists m, rot3_to_linear o F r = Ok m /\ rect 3 3 m).
    { intros z. comps. rewrite rot3_to_linear_v. eexists. split; [reflexivity|]. split; [reflexivity|repeat constructor]. }
    destruct (act_chain (C59_action R) r q I I) as (rq & E & _ & U & D). rewrite E. cbn [bind].
    specialize (U Hr Hq).
    destruct (A r) as (mr & Er & Rr). destruct (A q) as (mq & Eq & Rq). destruct (A rq) as (m & Em & Rm).
    rewrite Er, Eq, Em. cbn [bind].
    destruct (linear_chain_ok R Rr Rq) as (c & Ec & Rc & Dc). rewrite Ec. exists m. split; auto. f_equal.
    apply (linear_faithful R Rc Rm). intros x Hx.
    destruct (Dc x Hx) as (z & Z1 & Z2). rewrite Z1, <- Z2.
    destruct (C60_same_action Hq Hx) as (y & Y1 & Y2). rewrite Eq in Y1. cbn [bind] in Y1. rewrite Y1. cbn [bind].
    destruct (act_apply (C59_action R) q x I Hx) as (y' & Ey & Py). rewrite Y2 in Ey. apply Ok_inj in Ey. subst y'.
    destruct (C60_same_action Hr Py) as (u & U1 & U2). rewrite Er in U1. cbn [bind] in U1. rewrite U1.
    destruct (C60_same_action U Hx) as (v & V1 & V2). rewrite Em in V1. cbn [bind] in V1. rewrite V1.
    destruct (D x Hx) as (s & S1 & S2). rewrite Y2 in S2. cbn [bind] in S2. congruence.
  Qed.
  (** A rotation matrix: orthogonal with determinant one. *)
  Theorem C60_rotation_matrix : forall r, unit_q o r ->
    (let! m := rot3_to_linear o F r in let! n := m_transpose 3 3 m in m_dot o 3 3 3 m n) =! m_one o 3 /\
    (let! m := rot3_to_linear o F r in let! n := m_transpose 3 3 m in m_dot o 3 3 3 n m) =! m_one o 3 /\
    (let! m := rot3_to_linear o F r in m_det o 3 m) = Ok (o_one o).
  Proof.
    intros r H. rewrite (unit_q_v R) in H. comps. rewrite rot3_to_linear_unit by exact H. cbn [bind]. rewrite m_det_33.
    match goal with |- context [m_transpose 3 3 ?m] => change (m_transpose 3 3 m) with (Ok (mk 3 3 (fun i j => mget o m j i))) end.
    cbn [bind]. unfold mk, vk. cbn [seq map mget nth]. rewrite !(m_dot_33 R). rewrite m_one_mk. unfold mk, vk. cbn [seq map Nat.eqb].
    set (n := w * w + i * i + j * j + k * k) in H.
    assert (N2 : o_one o = n * n) by (rewrite H; ring).
    split; [|split].
    - eexists; split; [reflexivity|]. f_equal. rewrite N2. unfold n. listeq; ring.
    - eexists; split; [reflexivity|]. f_equal. rewrite N2. unfold n. listeq; ring.
    - f_equal. transitivity (n * n * n); [unfold n; ring|]. rewrite H. ring.
  Qed.
End C60.

(** For other quaternions the matrix and the rotation are different maps. *)
Definition z_float : FloatOps Z :=
  {| f_sqrt := Z.sqrt; f_sin := id; f_cos := id; f_atan2 := Z.add; f_abs := Z.abs; f_pi := 3%Z;
     f_two := 2%Z; f_half := 0%Z; f_epsilon := 0%Z |}.
Theorem C60_nonunit_refuted : exists r x, dim 3 x /\ exists u v,
  (let! m := rot3_to_linear z_ops z_float r in t_apply (linear_transform z_ops 3) m x) = Ok u /\
  t_apply (rot3_transform z_ops) r x = Ok v /\ u <> v.
Proof. exists (Qt 1 1 0 0)%Z, [1; 0; 0]%Z. split; [reflexivity|]. do 2 eexists. repeat split. discriminate. Qed.
Example C60_ex : o_add z_ops (o_one z_ops) (o_one z_ops) = Ok (f_two z_float) /\ unit_q z_ops (Qt 0 0 1 0)%Z /\
  rot3_to_linear z_ops z_float (Qt 0 0 1 0)%Z = Ok [[-1; 0; 0]; [0; 1; 0]; [0; 0; -1]]%Z.
Proof. vm_compute. auto. Qed.

Print Assumptions C60_same_action.
Print Assumptions C60_chain.
Print Assumptions C60_rotation_matrix.
Print Assumptions C60_nonunit_refuted.
