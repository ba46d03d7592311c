(** Moebius transformations over division rings. *)
From Coq Require Import Ring Field.
From Verif Require Export CxFacts MoebiusModel SqProofs.
Set Implicit Arguments.
Local Open Scope list_scope.

Lemma rect22 : forall T (m : list (list T)), rect 2 2 m -> exists a b c d, m = [[a; b]; [c; d]].
Proof.
  intros T m (L & F). destruct m as [|[|a [|b [|? ?]]] [|[|c [|d [|? ?]]] [|? ?]]]; try discriminate;
    inversion F as [|? ? F1 F2]; try discriminate; inversion F2 as [|? ? F3 F4]; try discriminate. eauto 6.
Qed.

Section DR.
  Context {T : Type} {o : Ops T} (D : DivRing o).
  Local Notation "0" := (o_zero o).
  Local Notation "1" := (o_one o).
  Local Notation "x + y" := (r_add D x y).
  Local Notation "x * y" := (r_mul D x y).
  Local Notation "/ x" := (d_inv D x).

  Lemma d_mul_nz : forall x y, x <> 0 -> y <> 0 -> x * y <> 0.
  Proof.
    intros x y Hx Hy E. apply Hy. rewrite <- (r_mul_1_l D y), <- (d_inv_l D Hx), <- (r_mul_assoc D), E.
    apply (r_mul_0_r D).
  Qed.
  Lemma d_inv_nz : forall x, x <> 0 -> / x <> 0.
  Proof.
    intros x Hx E. apply (d_one_neq_zero D). rewrite <- (d_inv_l D Hx), E. apply (r_mul_0_l D).
  Qed.
  Lemma d_inv_unique : forall x y, x <> 0 -> x * y = 1 -> y = / x.
  Proof.
    intros x y Hx E. rewrite <- (r_mul_1_l D y), <- (d_inv_l D Hx), <- (r_mul_assoc D), E. apply (r_mul_1_r D).
  Qed.
  Lemma d_cancel : forall p q w, q <> 0 -> w <> 0 -> (p * w) * / (q * w) = p * / q.
  Proof.
    intros p q w Hq Hw.
    replace (/ (q * w)) with (/ w * / q).
    - rewrite (r_mul_assoc D), <- (r_mul_assoc D p), (d_inv_r D Hw), (r_mul_1_r D). auto.
    - apply d_inv_unique. { apply d_mul_nz; auto. }
      rewrite (r_mul_assoc D), <- (r_mul_assoc D q), (d_inv_r D Hw), (r_mul_1_r D). apply (d_inv_r D Hq).
  Qed.

  Lemma mo_apply_v : forall a b c d x, c * x + d <> 0 ->
    mo_apply_self o [[a; b]; [c; d]] x = Ok ((a * x + b) * / (c * x + d)).
  Proof.
    intros. unfold mo_apply_self, mo_apply. cbn -[o_mul o_add o_div].
    rewrite !(r_mul_ok D). cbn [bind]. rewrite !(r_add_ok D). cbn [bind]. apply (d_div_ok D). auto.
  Qed.

  (** Applying [a b; c d] to the quotient [u / w]. *)
  Lemma mo_quot : forall a b c d u w, w <> 0 -> c * u + d * w <> 0 ->
    c * (u * / w) + d <> 0 /\ (a * (u * / w) + b) * / (c * (u * / w) + d) = (a * u + b * w) * / (c * u + d * w).
  Proof.
    intros a b c d u w Hw Hq.
    assert (E : forall p q, p * (u * / w) + q = (p * u + q * w) * / w).
    { intros. rewrite (r_distr_l D), <- !(r_mul_assoc D), (d_inv_r D Hw), (r_mul_1_r D). auto. }
    rewrite !E. split.
    - apply d_mul_nz; auto. apply d_inv_nz. auto.
    - apply d_cancel; auto. apply d_inv_nz. auto.
  Qed.
  Lemma mo_lin : forall a b a' b' c' d' x,
    a * (a' * x + b') + b * (c' * x + d') = (a * a' + b * c') * x + (a * b' + b * d').
  Proof.
    intros. rewrite !(r_distr_l D), !(r_distr_r D), !(r_mul_assoc D). apply (r_add_swap D).
  Qed.
  Lemma mo_quot_nz : forall c d u w, w <> 0 -> c * (u * / w) + d <> 0 -> c * u + d * w <> 0.
  Proof.
    intros c d u w Hw H E. apply H.
    replace (c * (u * / w) + d) with ((c * u + d * w) * / w).
    - rewrite E. apply (r_mul_0_l D).
    - rewrite (r_distr_l D), <- !(r_mul_assoc D), (d_inv_r D Hw), (r_mul_1_r D). auto.
  Qed.

  Lemma mo_compose : forall a b c d a' b' c' d' x,
    c' * x + d' <> 0 -> c * ((a' * x + b') * / (c' * x + d')) + d <> 0 ->
    (let! m := mo_chain o [[a; b]; [c; d]] [[a'; b']; [c'; d']] in mo_apply_self o m x) =!
    (let! y := mo_apply_self o [[a'; b']; [c'; d']] x in mo_apply_self o [[a; b]; [c; d]] y).
  Proof.
    intros a b c d a' b' c' d' x Hw Hy. unfold mo_chain. rewrite (m_dot_22 D). cbn [bind].
    pose proof (mo_quot_nz _ _ _ Hw Hy) as Hq. destruct (mo_quot a b _ _ _ Hw Hq) as (_ & Q).
    rewrite (@mo_apply_v a' b' c' d' x Hw). cbn [bind]. rewrite (@mo_apply_v a b c d _ Hy). rewrite Q.
    rewrite mo_apply_v by (rewrite <- mo_lin; auto). rewrite <- !mo_lin. same.
  Qed.
  Lemma mo_identity_v : mo_identity o = Ok [[1; 0]; [0; 1]].
  Proof. unfold mo_identity. rewrite m_one_mk. reflexivity. Qed.
  Lemma mo_apply_identity : forall x, mo_apply_self o [[1; 0]; [0; 1]] x = Ok x.
  Proof.
    intros. rewrite mo_apply_v.
    - rewrite (r_mul_1_l D), (r_mul_0_l D), (r_add_0_r D), (r_add_0_l D).
      f_equal. rewrite <- (r_mul_1_r D x) at 2. f_equal. symmetry. apply d_inv_unique.
      + apply (d_one_neq_zero D). + apply (r_mul_1_l D).
    - rewrite (r_mul_0_l D), (r_add_0_l D). apply (d_one_neq_zero D).
  Qed.
  (** A left inverse of the matrix undoes the transformation. *)
  Lemma mo_left_inverse : forall m n x, rect 2 2 m -> rect 2 2 n -> m_dot o 2 2 2 n m =! m_one o 2 ->
    mget o m 1 0 * x + mget o m 1 1 <> 0 ->
    (let! y := mo_apply_self o m x in mo_apply_self o n y) = Ok x.
  Proof.
    intros m n x Rm Rn H Hw. destruct (rect22 Rm) as (a & b & c & d & ->). destruct (rect22 Rn) as (a' & b' & c' & d' & ->).
    change (c * x + d <> 0) in Hw.
    assert (E : m_dot o 2 2 2 [[a'; b']; [c'; d']] [[a; b]; [c; d]] = Ok [[1; 0]; [0; 1]]).
    { destruct H as (w & W1 & W2). rewrite W1, <- W2. apply mo_identity_v. }
    pose proof E as E'. rewrite (m_dot_22 D) in E'. injection E' as E1 E2 E3 E4.
    assert (Q : c' * (a * x + b) + d' * (c * x + d) = 1).
    { rewrite mo_lin, E3, E4, (r_mul_0_l D), (r_add_0_l D). auto. }
    assert (Hq : c' * (a * x + b) + d' * (c * x + d) <> 0).
    { rewrite Q. apply (d_one_neq_zero D). }
    destruct (mo_quot a' b' _ _ _ Hw Hq) as (Hy & _).
    destruct (mo_compose a' b' c' d' a b c d x Hw Hy) as (z & Z1 & Z2). rewrite Z2. unfold mo_chain in Z1.
    rewrite E in Z1. cbn [bind] in Z1. rewrite mo_apply_identity in Z1. symmetry. auto.
  Qed.
  Lemma mo_left_inverse_pole : forall m n x, rect 2 2 m -> rect 2 2 n -> m_dot o 2 2 2 n m =! m_one o 2 ->
    mget o m 1 0 * x + mget o m 1 1 <> 0 ->
    forall y, mo_apply_self o m x = Ok y -> mget o n 1 0 * y + mget o n 1 1 <> 0.
  Proof.
    intros m n x Rm Rn H Hw y Hy. destruct (rect22 Rm) as (a & b & c & d & ->). destruct (rect22 Rn) as (a' & b' & c' & d' & ->).
    change (c * x + d <> 0) in Hw. change (c' * y + d' <> 0).
    assert (E : m_dot o 2 2 2 [[a'; b']; [c'; d']] [[a; b]; [c; d]] = Ok [[1; 0]; [0; 1]]).
    { destruct H as (w & W1 & W2). rewrite W1, <- W2. apply mo_identity_v. }
    pose proof E as E'. rewrite (m_dot_22 D) in E'. injection E' as E1 E2 E3 E4.
    assert (Q : c' * (a * x + b) + d' * (c * x + d) = 1).
    { rewrite mo_lin, E3, E4, (r_mul_0_l D), (r_add_0_l D). auto. }
    assert (Hq : c' * (a * x + b) + d' * (c * x + d) <> 0).
    { rewrite Q. apply (d_one_neq_zero D). }
    destruct (mo_quot a' b' _ _ _ Hw Hq) as (Hz & _).
    rewrite (@mo_apply_v a b c d x Hw) in Hy. injection Hy as <-. auto.
  Qed.
End DR.

(** Complex coefficients seen as quaternions. *)
Definition cq {T : Type} (o : Ops T) (z : complex T) : quat T := Qt (re z) (im z) (o_zero o) (o_zero o).
Section CQ.
  Context {T : Type} {o : Ops T} (F : Field o).
  Context (rem : complex T -> complex T -> res (complex T)).
  Add Field FCQ : (Field_theory F).
  Local Notation C := (c_ring_inst F rem).
  Local Notation Q := (q_ring_inst F).

  Lemma cq_mul_q : forall a b, c_mul_q o a b = Ok (r_mul Q (cq o a) b).
  Proof. intros. rewrite (c_mul_q_v F). f_equal. cbn. f_equal; ring. Qed.
  Lemma cq_add_q : forall a b, q_add_c o a b = Ok (r_add Q a (cq o b)).
  Proof. intros. rewrite (q_add_c_v F). f_equal. cbn. f_equal; ring. Qed.
  Lemma cq_add : forall a b, cq o (r_add C a b) = r_add Q (cq o a) (cq o b).
  Proof. intros. unfold cq. cbn. f_equal; ring. Qed.
  Lemma cq_mul : forall a b, cq o (r_mul C a b) = r_mul Q (cq o a) (cq o b).
  Proof. intros. unfold cq. cbn. f_equal; ring. Qed.
  Lemma mo_apply_q_cq : forall a b c d x,
    mo_apply_q o [[a; b]; [c; d]] x = mo_apply_self (q_ops o) [[cq o a; cq o b]; [cq o c; cq o d]] x.
  Proof.
    intros. unfold mo_apply_q, mo_apply_self, mo_apply. cbn -[c_mul_q q_add_c q_div q_mul q_add].
    rewrite !cq_mul_q. cbn [bind]. rewrite !cq_add_q. cbn [bind].
    rewrite !(r_mul_ok Q : forall x y, q_mul o x y = _). cbn [bind].
    rewrite !(r_add_ok Q : forall x y, q_add o x y = _). reflexivity.
  Qed.
  Lemma mo_chain_cq : forall a b c d a' b' c' d' m,
    mo_chain (c_ops o rem) [[a; b]; [c; d]] [[a'; b']; [c'; d']] = Ok m ->
    mo_chain (q_ops o) [[cq o a; cq o b]; [cq o c; cq o d]] [[cq o a'; cq o b']; [cq o c'; cq o d']] =
    Ok (map (map (cq o)) m).
  Proof.
    intros until m. unfold mo_chain. rewrite (m_dot_22 C), (m_dot_22 Q). intros E. apply Ok_inj in E. subst m. f_equal.
    cbn [map]. rewrite !cq_add, !cq_mul. auto.
  Qed.
End CQ.
